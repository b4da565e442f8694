(** Rules are instantiated if and only if the product needs them, they depend on each other as their tags say, and cycles are reported. *)
From Coq Require Import List Bool Arith NArith Lia Relations.
From Verif Require Import Str RuleGraphModel.
Import ListNotations.

(** ** Specification *)

(** The tags of the outputs of a rule: those that are declared, and those that groups of the product add to them, one after the other. *)
Definition declares (r : rule) (t : N) : Prop := if r_output_tags r then exists a, In a (r_artifacts r) /\ In t a else In t (r_output_tags r).
Fixpoint tagged (groups : list (list N * list N)) (tags : N -> Prop) : N -> Prop :=
  match groups with [] => tags | (filter, extra) :: groups => tagged groups (fun t => tags t \/ In t extra /\ exists u, In u filter /\ tags u) end.
Definition makes (p : product) (r : rule) : N -> Prop := tagged (p_props p) (declares r).
Definition excludes (r : rule) (outputs : N -> Prop) : Prop := exists u, In u (r_excluded r) /\ outputs u.
Definition takes (r : rule) (t : N) : Prop := In t (r_inputs r) \/ In t (r_aux r) \/ In t (r_explicit r).
(** Rule [i] of the product has to wait for rule [j]. *)
Definition depends (p : product) (i j : nat) : Prop :=
  i < List.length (p_rules p) /\ j < List.length (p_rules p) /\ (exists t, takes (rule_at p i) t /\ makes p (rule_at p j) t) /\ ~ excludes (rule_at p i) (makes p (rule_at p j)).
(** Rules that make what the product consists of, and rules these depend on. *)
Definition top_rule (p : product) (i : nat) : Prop := i < List.length (p_rules p) /\ exists t, In t (p_tags p) /\ makes p (rule_at p i) t.
Definition reaches (p : product) : nat -> nat -> Prop := clos_refl_trans_1n _ (depends p).
Definition needed (p : product) (i : nat) : Prop := exists r, top_rule p r /\ reaches p r i.
Definition on_cycle (p : product) (i : nat) : Prop := exists j, depends p i j /\ reaches p j i.
Fixpoint chain (p : product) (i : nat) (l : list nat) : Prop := match l with [] => True | j :: l => depends p i j /\ chain p j l end.

(** ** Tags *)

Lemma intersects_spec a b : intersects a b = true <-> exists t, In t a /\ In t b.
Proof. unfold intersects. rewrite existsb_exists. split; intros (t & I & M); exists t; (split; [auto|]); now apply memN_In. Qed.
Lemma tagged_ext g : forall s s', (forall t, s t <-> s' t) -> forall t, tagged g s t <-> tagged g s' t.
Proof.
  induction g as [|[f x] g IH]; intros s s' E t; cbn; [auto|]. apply IH. intros u. rewrite E. split; (intros [H|[H (w & I & S)]]; [auto|right; split; [auto|exists w; split; [auto|now apply E]]]).
Qed.
Lemma collected_spec p r t : In t (collected p r) <-> makes p r t.
Proof.
  unfold collected, makes.
  assert (B : forall t, In t (match r_output_tags r with [] => static_tags r | _ => r_output_tags r end) <-> declares r t).
  { intros u. unfold declares, static_tags. destruct (r_output_tags r); [|reflexivity]. rewrite in_concat. split; intros (a & A & B); eauto. }
  revert B. generalize (match r_output_tags r with [] => static_tags r | _ => r_output_tags r end). generalize (declares r). intros s l. revert l s.
  induction (p_props p) as [|[f x] g IH]; intros l s B; cbn [fold_left tagged fst snd]; [apply B|]. apply IH. intros u.
  destruct (intersects f l) eqn:I.
  - apply intersects_spec in I as (w & I1 & I2). rewrite in_app_iff, B. split; [intros [H|H]; [auto|right; split; [auto|exists w; split; [auto|now apply B]]]|tauto].
  - rewrite B. split; [auto|]. intros [H|[_ (w & I1 & I2)]]; [auto|]. exfalso. assert (intersects f l = true); [|congruence]. apply intersects_spec. exists w. split; [auto|now apply B].
Qed.
Lemma children_spec p i j : i < List.length (p_rules p) -> In j (children p i) <-> depends p i j.
Proof.
  intros L. unfold children, producers. rewrite in_flat_map. split.
  - intros (t & IT & IJ). apply filter_In in IJ as [IJ NE]. apply filter_In in IJ as [IJ M]. apply in_seq in IJ. apply memN_In in M. split; [auto|]. split; [lia|]. split.
    + exists t. split; [|now apply collected_spec]. rewrite !in_app_iff in IT. unfold takes. tauto.
    + intros (u & U1 & U2). apply negb_true_iff in NE. assert (intersects (collected p (rule_at p j)) (r_excluded (rule_at p i)) = true); [|congruence].
      apply intersects_spec. exists u. split; [now apply collected_spec|auto].
  - intros (_ & LJ & (t & T & M) & NE). exists t. split; [rewrite !in_app_iff; unfold takes in T; tauto|]. apply filter_In. split.
    + apply filter_In. split; [apply in_seq; lia|]. apply memN_In. now apply collected_spec.
    + apply negb_true_iff. destruct (intersects _ _) eqn:I; [|auto]. exfalso. apply NE. apply intersects_spec in I as (u & U1 & U2). exists u. split; [auto|now apply collected_spec].
Qed.
Lemma roots_spec p i : In i (roots p) <-> top_rule p i.
Proof.
  unfold roots, top_rule. rewrite filter_In, in_seq, existsb_exists. split.
  - intros [L (t & I & M)]. split; [lia|]. exists t. split; [auto|]. apply collected_spec. now apply memN_In.
  - intros [L (t & I & M)]. split; [lia|]. exists t. split; [auto|]. apply memN_In. now apply collected_spec.
Qed.
Lemma depends_range p i j : depends p i j -> i < List.length (p_rules p) /\ j < List.length (p_rules p).
Proof. unfold depends. tauto. Qed.

(** ** Traversing *)

Lemma memb_In x l : memb x l = true <-> In x l.
Proof. unfold memb. rewrite existsb_exists. split; [intros (y & I & E); apply Nat.eqb_eq in E; now subst|intros I; exists x; split; [auto|apply Nat.eqb_refl]]. Qed.
Lemma add_new_In x y l : In y (add_new x l) <-> In y l \/ y = x.
Proof.
  unfold add_new. destruct (memb x l) eqn:M; [apply memb_In in M|rewrite in_app_iff; cbn]; split; intros H; intuition (subst; auto).
Qed.
Lemma NoDup_snoc {A} (l : list A) x : NoDup l -> ~ In x l -> NoDup (l ++ [x]).
Proof.
  induction l as [|y l IH]; intros ND NI; cbn; [constructor; [easy|constructor]|]. inversion ND; subst. constructor; [|apply IH; auto; intros H; apply NI; now right].
  intros H. apply in_app_iff in H as [H|[H|[]]]; [auto|]. apply NI. now left.
Qed.
Lemma add_new_NoDup x l : NoDup l -> NoDup (add_new x l).
Proof. intros ND. unfold add_new. destruct (memb x l) eqn:M; [auto|]. apply NoDup_snoc; [auto|]. intros I. apply memb_In in I. congruence. Qed.
Lemma edge_eqb_eq a b : edge_eqb a b = true <-> a = b.
Proof.
  destruct a as [a1 a2], b as [b1 b2]. unfold edge_eqb. cbn. rewrite andb_true_iff, !Nat.eqb_eq. split; [now intros [-> ->]|intros [= -> ->]; auto].
Qed.
Lemma add_edge_In x y l : In y (add_edge x l) <-> In y l \/ y = x.
Proof.
  unfold add_edge. destruct (existsb (edge_eqb x) l) eqn:M.
  - apply existsb_exists in M as (z & I & E). apply edge_eqb_eq in E. subst z. split; [auto|]. intros [H| ->]; auto.
  - rewrite in_app_iff. cbn. intuition.
Qed.
Lemma last_cons {A} (x d : A) l : last (x :: l) d = last l x.
Proof. revert x d. induction l as [|y l IH]; intros x d; [reflexivity|]. change (last (x :: y :: l) d) with (last (y :: l) d). now rewrite !IH. Qed.
Definition loop_of (f : nat -> build -> outcome) := fix loop (l : list nat) (b : build) : outcome :=
  match l with [] => Done b | c :: l => match f c b with Done b => loop l b | o => o end end.
Lemma traverse_S n p path parent r b :
  traverse (S n) p path parent r b = if memb r path then Cycle path else loop_of (traverse n p (path ++ [r]) (Some r)) (children p r) (create parent r b).
Proof. reflexivity. Qed.

(** What visiting [r] and all it depends on adds. *)
Definition visited (p : product) (path : list nat) (parent : option nat) (r : nat) (b b' : build) : Prop :=
  (forall x, In x (b_nodes b') <-> In x (b_nodes b) \/ reaches p r x) /\
  (forall x y, In (x, y) (b_edges b') <-> In (x, y) (b_edges b) \/ parent = Some x /\ y = r \/ reaches p r x /\ depends p x y) /\
  (forall x, In x (b_roots b') <-> In x (b_roots b) \/ parent = None /\ x = r) /\
  (NoDup (b_nodes b) -> NoDup (b_nodes b')) /\
  (forall x, reaches p r x -> ~ In x path /\ ~ on_cycle p x).
Lemma reaches_step p i j : reaches p i j <-> i = j \/ exists k, depends p i k /\ reaches p k j.
Proof.
  split; [intros H; inversion H as [|k ? D R]; subst; eauto|]. intros [->|(k & D & R)]; [constructor|econstructor; eauto].
Qed.
Lemma reaches_trans p i j k : reaches p i j -> reaches p j k -> reaches p i k.
Proof. intros H G. induction H as [|i m j D R IH]; [auto|]. econstructor; [exact D|now apply IH]. Qed.
Lemma reaches_snoc p i j k : reaches p i j -> depends p j k -> reaches p i k.
Proof. intros H D. eapply reaches_trans; [exact H|]. econstructor; [exact D|constructor]. Qed.
Lemma traverse_done n p : forall path parent r b b',
  r < List.length (p_rules p) -> traverse n p path parent r b = Done b' -> visited p path parent r b b'.
Proof.
  induction n as [|n IH]; intros path parent r b b' L; [discriminate|]. rewrite traverse_S. destruct (memb r path) eqn:MP; [discriminate|].
  assert (NP : ~ In r path) by (intros H; apply memb_In in H; congruence).
  assert (LOOP : forall l b b', (forall c, In c l -> depends p r c) -> loop_of (traverse n p (path ++ [r]) (Some r)) l b = Done b' ->
    (forall x, In x (b_nodes b') <-> In x (b_nodes b) \/ exists c, In c l /\ reaches p c x) /\
    (forall x y, In (x, y) (b_edges b') <-> In (x, y) (b_edges b) \/ x = r /\ In y l \/ (exists c, In c l /\ reaches p c x) /\ depends p x y) /\
    (forall x, In x (b_roots b') <-> In x (b_roots b)) /\
    (NoDup (b_nodes b) -> NoDup (b_nodes b')) /\
    (forall c x, In c l -> reaches p c x -> ~ In x (path ++ [r]) /\ ~ on_cycle p x)).
  { clear b b'. induction l as [|c l IHl]; intros b b' DL; cbn [loop_of].
    - intros [= <-]. split; [intros x; split; [auto|intros [H|(c & [] & _)]; auto]|]. split; [intros x y; split; [auto|intros [H|[[_ []]|[(c & [] & _) _]]]; auto]|].
      split; [reflexivity|]. split; [auto|]. intros c x [].
    - destruct (traverse n p (path ++ [r]) (Some r) c b) as [b1| |] eqn:T; try discriminate. intros LP.
      assert (DC : depends p r c) by (apply DL; now left). apply IH in T; [|now apply depends_range in DC]. destruct T as (N1 & E1 & R1 & D1 & A1).
      destruct (IHl b1 b') as (N2 & E2 & R2 & D2 & A2); [intros; apply DL; now right|exact LP|].
      split; [|split; [|split; [|split]]].
      + intros x. rewrite N2, N1. split.
        * intros [[H|H]|(k & K & H)]; [auto|right; exists c; split; [now left|auto]|right; exists k; split; [now right|auto]].
        * intros [H|(k & [<-|K] & H)]; eauto.
      + intros x y. rewrite E2, E1. split.
        * intros [[H|[[H ->]|[H1 H2]]]|[[H1 H2]|[(k & K & H1) H2]]].
          -- auto.
          -- injection H as ->. right. left. split; [auto|now left].
          -- right. right. split; [exists c; split; [now left|auto]|auto].
          -- right. left. split; [auto|now right].
          -- right. right. split; [exists k; split; [now right|auto]|auto].
        * intros [H|[[-> [<-|H]]|[(k & [<-|K] & H1) H2]]]; [auto|left; right; left; auto|right; left; auto|left; right; right; auto|right; right; split; [eauto|auto]].
      + intros x. rewrite R2, R1. split; [|auto]. intros [H|[H _]]; [auto|discriminate].
      + auto.
      + intros k x [<-|K] H; [now apply A1|eapply A2; eauto]. }
  intros LP. apply LOOP in LP; [|intros c; now apply children_spec]. destruct LP as (N1 & E1 & R1 & D1 & A1).
  assert (CH : forall c, In c (children p r) <-> depends p r c) by (intros c; now apply children_spec).
  assert (RR : forall x, reaches p r x <-> x = r \/ exists c, In c (children p r) /\ reaches p c x).
  { intros x. rewrite reaches_step. split; (intros [H|(c & C & H)]; [left; congruence|right; exists c; split; [now apply CH|auto]]). }
  assert (A2 : forall x, reaches p r x -> ~ In x path /\ ~ on_cycle p x).
  { intros x H. apply RR in H as [->|(c & C & H)].
    - split; [auto|]. intros (c & D & H). apply CH in D. destruct (A1 c r D H) as [A _]. apply A, in_app_iff. right. now left.
    - destruct (A1 c x C H) as [A B]. split; [|auto]. intros I. apply A, in_app_iff. now left. }
  assert (N2 : forall x, In x (b_nodes (create parent r b)) <-> In x (b_nodes b) \/ x = r) by (intros x; unfold create; destruct parent; apply add_new_In).
  unfold visited. split; [|split; [|split; [|split; [|exact A2]]]].
  - intros x. rewrite N1, N2, RR. tauto.
  - intros x y. rewrite E1. assert (E2 : In (x, y) (b_edges (create parent r b)) <-> In (x, y) (b_edges b) \/ parent = Some x /\ y = r).
    { unfold create. destruct parent as [q|]; cbn.
      - rewrite add_edge_In. split; (intros [H|H]; [auto|right]); [injection H as -> ->; auto|destruct H as [H ->]; injection H as ->; auto].
      - split; [auto|]. intros [H|[H _]]; [auto|discriminate]. }
    rewrite E2, RR. split.
    + intros [[H|H]|[[-> H]|[H1 H2]]]; auto; right; right; split; auto. now apply CH.
    + intros [H|[H|[[->|H1] H2]]]; auto. right. left. split; [auto|now apply CH].
  - intros x. rewrite R1. unfold create. destruct parent; cbn; [split; [auto|intros [H|[H _]]; [auto|discriminate]]|rewrite add_new_In; tauto].
  - intros ND. apply D1. unfold create. destruct parent; apply add_new_NoDup, ND.
Qed.
Lemma traverse_cycle n p : forall path parent r b q,
  r < List.length (p_rules p) -> traverse n p path parent r b = Cycle q ->
  q = path /\ In r path \/ exists l, q = path ++ r :: l /\ chain p r l /\ exists y, In y q /\ depends p (last l r) y.
Proof.
  induction n as [|n IH]; intros path parent r b q L; [discriminate|]. rewrite traverse_S. destruct (memb r path) eqn:MP; [intros [= <-]; left; split; [auto|now apply memb_In]|].
  intros H. right. assert (G : forall l b, (forall c, In c l -> depends p r c) -> loop_of (traverse n p (path ++ [r]) (Some r)) l b = Cycle q ->
    exists l, q = path ++ r :: l /\ chain p r l /\ exists y, In y q /\ depends p (last l r) y).
  { clear b H. induction l as [|c l IHl]; intros b DL; cbn [loop_of]; [discriminate|]. assert (DC : depends p r c) by (apply DL; now left).
    destruct (traverse n p (path ++ [r]) (Some r) c b) as [b1|q'|] eqn:T; [apply IHl; intros; apply DL; now right| |discriminate].
    intros [= ->]. apply IH in T; [|now apply depends_range in DC]. destruct T as [[-> I]|(l' & -> & C & y & I & D)].
    - exists []. split; [auto|]. split; [exact Logic.I|]. exists c. auto.
    - exists (c :: l'). rewrite <- app_assoc. split; [auto|]. split; [split; auto|]. exists y. rewrite <- app_assoc in I. split; [auto|].
      now rewrite last_cons. }
  eapply G; [|exact H]. intros c. now apply children_spec.
Qed.
Lemma traverse_fuel n p : forall path parent r b,
  r < List.length (p_rules p) -> NoDup path -> (forall x, In x path -> x < List.length (p_rules p)) -> List.length (p_rules p) < List.length path + n -> traverse n p path parent r b <> Out_of_fuel.
Proof.
  assert (BOUND : forall path, NoDup path -> (forall x, In x path -> x < List.length (p_rules p)) -> List.length path <= List.length (p_rules p)).
  { intros path ND R. rewrite <- (seq_length (List.length (p_rules p)) 0). apply NoDup_incl_length; [auto|]. intros x I. apply in_seq. specialize (R x I). lia. }
  induction n as [|n IH]; intros path parent r b L ND R F; [pose proof (BOUND path ND R); lia|]. rewrite traverse_S. destruct (memb r path) eqn:MP; [discriminate|].
  assert (NP : ~ In r path) by (intros H; apply memb_In in H; congruence).
  assert (G : forall l b, (forall c, In c l -> depends p r c) -> loop_of (traverse n p (path ++ [r]) (Some r)) l b <> Out_of_fuel).
  { induction l as [|c l IHl]; intros b0 DL; cbn [loop_of]; [discriminate|]. destruct (traverse n p (path ++ [r]) (Some r) c b0) as [b1| |] eqn:T; [apply IHl; intros; apply DL; now right|discriminate|].
    exfalso. revert T. apply IH.
    - specialize (DL c (or_introl eq_refl)). now apply depends_range in DL.
    - now apply NoDup_snoc.
    - intros x I. apply in_app_iff in I as [I|[<-|[]]]; auto.
    - rewrite app_length. cbn. lia. }
  apply G. intros c. now apply children_spec.
Qed.
Lemma accept_done n p : forall l b b', (forall r, In r l -> top_rule p r) -> accept n p l b = Done b' ->
  (forall x, In x (b_nodes b') <-> In x (b_nodes b) \/ exists r, In r l /\ reaches p r x) /\
  (forall x y, In (x, y) (b_edges b') <-> In (x, y) (b_edges b) \/ (exists r, In r l /\ reaches p r x) /\ depends p x y) /\
  (forall x, In x (b_roots b') <-> In x (b_roots b) \/ In x l) /\
  (NoDup (b_nodes b) -> NoDup (b_nodes b')) /\
  (forall r x, In r l -> reaches p r x -> ~ on_cycle p x).
Proof.
  induction l as [|r l IH]; intros b b' TL; cbn [accept].
  - intros [= <-]. split; [intros x; split; [auto|intros [H|(c & [] & _)]; auto]|]. split; [intros x y; split; [auto|intros [H|[(c & [] & _) _]]; auto]|].
    split; [intros x; cbn; tauto|]. split; [auto|]. intros c x [].
  - destruct (traverse n p [] None r b) as [b1| |] eqn:T; try discriminate. intros A. apply traverse_done in T; [|apply TL; now left]. destruct T as (N1 & E1 & R1 & D1 & A1).
    destruct (IH b1 b') as (N2 & E2 & R2 & D2 & A2); [intros; apply TL; now right|exact A|]. split; [|split; [|split; [|split]]].
    + intros x. rewrite N2, N1. split; [intros [[H|H]|(k & K & H)]; [auto|right; exists r; split; [now left|auto]|right; exists k; split; [now right|auto]]|intros [H|(k & [<-|K] & H)]; eauto].
    + intros x y. rewrite E2, E1. split.
      * intros [[H|[[H _]|[H1 H2]]]|[(k & K & H1) H2]]; [auto|discriminate|right; split; [exists r; split; [now left|auto]|auto]|right; split; [exists k; split; [now right|auto]|auto]].
      * intros [H|[(k & [<-|K] & H1) H2]]; [auto|auto|right; split; [eauto|auto]].
    + intros x. rewrite R2, R1. cbn. split; [intros [[H|[_ ->]]|H]; auto|intros [H|[->|H]]; auto].
    + auto.
    + intros k x [<-|K] H; [now apply (A1 x H)|eapply A2; eauto].
Qed.

(** The nodes are the rules needed for the product, the edges their dependencies, and there are no cycles. *)
Theorem rule_nodes_exact p b : rule_nodes p = Done b ->
  (forall i, In i (b_nodes b) <-> needed p i) /\ NoDup (b_nodes b) /\ (forall i j, In (i, j) (b_edges b) <-> needed p i /\ depends p i j) /\ (forall i, In i (b_roots b) <-> top_rule p i).
Proof.
  intros H. unfold rule_nodes in H. apply accept_done in H; [|intros r; apply roots_spec]. destruct H as (N1 & E1 & R1 & D1 & A1). cbn in *.
  split; [|split; [|split]].
  - intros i. rewrite N1. unfold needed. split; [intros [[]|(r & I & R)]; exists r; split; [now apply roots_spec|auto]|intros (r & T & R); right; exists r; split; [now apply roots_spec|auto]].
  - apply D1. constructor.
  - intros i j. rewrite E1. unfold needed. split.
    + intros [[]|[(r & I & R) D]]. split; [exists r; split; [now apply roots_spec|auto]|auto].
    + intros [(r & T & R) D]. right. split; [exists r; split; [now apply roots_spec|auto]|auto].
  - intros i. rewrite R1, roots_spec. tauto.
Qed.
Lemma chain_reaches p l : forall r x, chain p r l -> In x (r :: l) -> reaches p r x /\ reaches p x (last l r).
Proof.
  induction l as [|j l IH]; intros r x C I; [destruct I as [<-|[]]; split; constructor|]. destruct C as [D C]. rewrite last_cons. destruct I as [<-|I].
  - split; [constructor|]. destruct (IH j j C (or_introl eq_refl)) as [_ R]. econstructor; eauto.
  - destruct (IH j x C I) as [R1 R2]. split; [econstructor; eauto|auto].
Qed.

Lemma accept_cycle n p : forall l b q, (forall r, In r l -> top_rule p r) -> accept n p l b = Cycle q -> exists r b, In r l /\ traverse n p [] None r b = Cycle q.
Proof.
  induction l as [|r l IH]; intros b q TL; cbn [accept]; [discriminate|]. destruct (traverse n p [] None r b) as [b1| |] eqn:T; [|intros [= ->]; exists r, b; split; [now left|auto]|discriminate].
  intros A. destruct (IH b1 q) as (r' & b' & I & H); [intros; apply TL; now right|auto|]. exists r', b'. split; [now right|auto].
Qed.

(** The path that is reported starts at a rule that makes what the product consists of, follows dependencies, and its last rule depends on one of the path. *)
Theorem rule_nodes_cycle p path : rule_nodes p = Cycle path ->
  exists r l, path = r :: l /\ top_rule p r /\ chain p r l /\ exists y, In y path /\ depends p (last l r) y /\ needed p y /\ on_cycle p y.
Proof.
  intros H. unfold rule_nodes in H. apply accept_cycle in H; [|intros r; apply roots_spec]. destruct H as (r & b & I & H). apply roots_spec in I.
  apply traverse_cycle in H; [|apply I]. destruct H as [[_ []]|(l & -> & C & y & J & D)]. cbn [app] in *. exists r, l. split; [auto|]. split; [auto|]. split; [auto|].
  exists y. split; [auto|]. split; [auto|]. destruct (chain_reaches p l r y C J) as [R1 R2]. split; [exists r; auto|].
  apply reaches_step in R2 as [E|(k & K & R2)]; [exists y; split; [congruence|constructor]|]. exists k. split; [auto|]. eapply reaches_snoc; eauto.
Qed.
(** Creating the nodes always ends. *)
Theorem rule_nodes_total p : rule_nodes p <> Out_of_fuel.
Proof.
  unfold rule_nodes. assert (G : forall l b, (forall r, In r l -> top_rule p r) -> accept (S (List.length (p_rules p))) p l b <> Out_of_fuel); [|apply G; intros r; apply roots_spec].
  induction l as [|r l IH]; intros b TL; cbn [accept]; [discriminate|]. destruct (traverse _ p [] None r b) as [b1| |] eqn:T; [apply IH; intros; apply TL; now right|discriminate|].
  exfalso. revert T. apply traverse_fuel; [apply TL; now left|constructor|easy|cbn; lia].
Qed.
(** It is successful if and only if no needed rule depends, directly or not, on itself. *)
Theorem rule_nodes_ok_iff p : (exists b, rule_nodes p = Done b) <-> forall i, needed p i -> ~ on_cycle p i.
Proof.
  split.
  - intros [b H] i (r & T & R). unfold rule_nodes in H. apply accept_done in H; [|intros x; apply roots_spec]. destruct H as (_ & _ & _ & _ & A). exact (A r i (proj2 (roots_spec p r) T) R).
  - intros H. destruct (rule_nodes p) as [b|q|] eqn:E; [eauto| |destruct (rule_nodes_total p E)]. exfalso. apply rule_nodes_cycle in E as (r & l & _ & _ & _ & y & _ & _ & N & C). exact (H y N C).
Qed.

(** ** Several products *)

(** Rule [x] of product [k] has to wait for rule [y] of product [d]. *)
Definition takes_from_deps (r : rule) (t : N) : Prop := In t (r_inputs_deps r) \/ In t (r_aux_deps r) \/ In t (r_explicit_deps r).
Definition joined (ps : list product) (k x d y : nat) : Prop :=
  let p := product_at ps k in let q := product_at ps d in
  In d (p_deps p) /\ p_enabled q = true /\ needed p x /\ needed q y /\
  ((exists t, takes_from_deps (rule_at p x) t /\ makes q (rule_at q y) t) /\ ~ excludes (rule_at p x) (makes q (rule_at q y)) \/ takes_from_deps (rule_at p x) installable /\ top_rule q y).
(** Products do not depend on themselves. *)
Definition ranked (ps : list product) (rank : nat -> nat) : Prop := forall k d, In d (p_deps (product_at ps k)) -> p_enabled (product_at ps d) = true -> rank d < rank k.

Lemma build_of_set j k b i : build_of (set_build j k b) i = if Nat.eqb k i then Some b else build_of j i.
Proof. unfold build_of. cbn. now destruct (Nat.eqb k i). Qed.
Lemma compatible_spec r q y : compatible r (collected q y) = true <-> (exists t, takes_from_deps r t /\ makes q y t) /\ ~ excludes r (makes q y).
Proof.
  assert (I : forall l, intersects l (collected q y) = true <-> exists t, In t l /\ makes q y t).
  { intros l. rewrite intersects_spec. split; intros (t & T1 & T2); exists t; (split; [auto|]); now apply collected_spec. }
  unfold compatible, excludes, takes_from_deps. specialize (I (r_excluded r)) as E. destruct (intersects (r_excluded r) (collected q y)).
  - split; [discriminate|]. intros [_ H]. exfalso. apply H. now apply E.
  - assert (NE : ~ exists u, In u (r_excluded r) /\ makes q y u) by (intros H; apply E in H; discriminate).
    pose proof (I (r_inputs_deps r)) as I1. pose proof (I (r_explicit_deps r)) as I2. pose proof (I (r_aux_deps r)) as I3.
    destruct (intersects (r_inputs_deps r) _); [split; [intros _|auto]; split; [|auto]; destruct (proj1 I1 eq_refl) as (t & ? & ?); eauto|].
    destruct (intersects (r_explicit_deps r) _); [split; [intros _|auto]; split; [|auto]; destruct (proj1 I2 eq_refl) as (t & ? & ?); eauto|].
    rewrite I3. split; [intros (t & ? & ?); split; [eauto|auto]|]. intros [(t & [H|[H|H]] & M) _]; [|eauto|]; exfalso; [assert (false = true) by (apply I1; eauto)|assert (false = true) by (apply I2; eauto)]; discriminate.
Qed.
Lemma takes_installable_spec r : takes_installable r = true <-> takes_from_deps r installable.
Proof. unfold takes_installable, takes_from_deps. rewrite !orb_true_iff, !memN_In. tauto. Qed.
Lemma connections_spec ps j k b e : build_of j k = Some b -> In e (connections ps j k) <->
  exists x d y bd, e = ((k, x), (d, y)) /\ In d (p_deps (product_at ps k)) /\ build_of j d = Some bd /\ In x (b_nodes b) /\ In y (b_nodes bd) /\
    (compatible (rule_at (product_at ps k) x) (collected (product_at ps d) (rule_at (product_at ps d) y)) = true \/ takes_installable (rule_at (product_at ps k) x) = true /\ In y (b_roots bd)).
Proof.
  intros B. unfold connections. rewrite B, in_flat_map. split.
  - intros (d & D & H). destruct (build_of j d) as [bd|] eqn:BD; [|destruct H]. apply in_flat_map in H as (y & Y & H). apply in_flat_map in H as (x & X & H).
    match type of H with In _ (if ?c then _ else _) => destruct c eqn:C; [|destruct H] end. destruct H as [<-|[]]. exists x, d, y, bd.
    apply orb_true_iff in C. rewrite andb_true_iff, memb_In in C. auto 10.
  - intros (x & d & y & bd & -> & D & BD & X & Y & C). exists d. split; [auto|]. rewrite BD. apply in_flat_map. exists y. split; [auto|]. apply in_flat_map. exists x. split; [auto|].
    rewrite <- memb_In, <- andb_true_iff, <- orb_true_iff in C. rewrite C. now left.
Qed.

(** The state between two products; [P] are products whose dependencies are being resolved. *)
Record state (ps : list product) (P : list nat) (j : project) : Prop := {
  st_enabled : forall k b, build_of j k = Some b -> p_enabled (product_at ps k) = true;
  st_done : forall k b, build_of j k = Some b -> ~ In k P -> rule_nodes (product_at ps k) = Done b;
  st_deps : forall k b d, build_of j k = Some b -> ~ In k P -> In d (p_deps (product_at ps k)) -> p_enabled (product_at ps d) = true -> ~ In d P /\ build_of j d <> None;
  st_open : forall k, In k P -> build_of j k <> None;
  st_edges : forall k x d y, In ((k, x), (d, y)) (j_edges j) <-> build_of j k <> None /\ ~ In k P /\ joined ps k x d y }.
Definition grows (j j' : project) : Prop := forall k, build_of j k <> None -> build_of j' k <> None.
Definition deps_loop (f : nat -> project -> result) (ps : list product) := fix deps (l : list nat) (j : project) : result :=
  match l with [] => Ok j | d :: l => if p_enabled (product_at ps d) then match f d j with Ok j => deps l j | o => o end else deps l j end.
Lemma resolve_S n ps k j : resolve (S n) ps k j = match build_of j k with Some _ => Ok j | None =>
  match deps_loop (resolve n ps) ps (p_deps (product_at ps k)) (set_build j k (mkBuild [] [] [])) with
  | Ok j => match rule_nodes (product_at ps k) with Done b => Ok (mkProject (j_builds (set_build j k b)) (j_edges (set_build j k b) ++ connections ps (set_build j k b) k)) | Cycle path => Failed k path | Out_of_fuel => No_fuel end
  | o => o end end.
Proof. reflexivity. Qed.
Lemma state_open ps P j k : state ps P j -> p_enabled (product_at ps k) = true -> build_of j k = None -> state ps (k :: P) (set_build j k (mkBuild [] [] [])).
Proof.
  intros S E N. split.
  - intros i b. rewrite build_of_set. destruct (Nat.eqb_spec k i) as [->|]; [auto|apply (st_enabled _ _ _ S)].
  - intros i b. rewrite build_of_set. destruct (Nat.eqb_spec k i) as [->|K]; [intros _ H; exfalso; apply H; now left|]. intros B H. apply (st_done _ _ _ S i b B). intros I. apply H. now right.
  - intros i b d. rewrite build_of_set. destruct (Nat.eqb_spec k i) as [->|K]; [intros _ H; exfalso; apply H; now left|]. intros B H D ED.
    assert (NP : ~ In i P) by (intros I; apply H; now right). destruct (st_deps _ _ _ S i b d B NP D ED) as [A1 A2]. rewrite build_of_set. destruct (Nat.eqb_spec k d) as [->|KD]; [congruence|].
    split; [|auto]. intros [H1|H1]; auto.
  - intros i. rewrite build_of_set. destruct (Nat.eqb_spec k i) as [->|K]; [discriminate|]. intros [H|H]; [congruence|now apply (st_open _ _ _ S)].
  - intros i x d y. cbn [j_edges set_build]. rewrite (st_edges _ _ _ S), build_of_set. cbn [In]. destruct (Nat.eqb_spec k i) as [->|K]; [split; [intros [H _]; congruence|intros (_ & H & _); exfalso; apply H; now left]|].
    split; intros (A & B & C); repeat (split; auto). intros [H|H]; auto.
Qed.
Lemma state_close ps P j k b : state ps (k :: P) j -> ~ In k P -> rule_nodes (product_at ps k) = Done b -> p_enabled (product_at ps k) = true ->
  (forall d, In d (p_deps (product_at ps k)) -> p_enabled (product_at ps d) = true -> ~ In d (k :: P) /\ build_of j d <> None) ->
  state ps P (mkProject (j_builds (set_build j k b)) (j_edges (set_build j k b) ++ connections ps (set_build j k b) k)).
Proof.
  intros S NP RN E DD.
  assert (BO : forall i, build_of (mkProject (j_builds (set_build j k b)) (j_edges (set_build j k b) ++ connections ps (set_build j k b) k)) i = if Nat.eqb k i then Some b else build_of j i) by (intros i; apply (build_of_set j k b)).
  assert (OUT : forall i, k <> i -> ~ In i P -> ~ In i (k :: P)) by (intros i K N [H|H]; auto).
  split.
  - intros i b'. rewrite BO. destruct (Nat.eqb_spec k i) as [->|K]; [auto|apply (st_enabled _ _ _ S)].
  - intros i b'. rewrite BO. destruct (Nat.eqb_spec k i) as [->|K]; [intros [= <-]; auto|]. intros B N. apply (st_done _ _ _ S i b' B). auto.
  - intros i b' d. rewrite !BO. intros B N D ED. assert (A : ~ In d (k :: P) /\ build_of j d <> None).
    { revert B. destruct (Nat.eqb_spec k i) as [->|K]; [intros _; apply DD; auto|]. intros B. apply (st_deps _ _ _ S i b' d B); auto. }
    destruct A as [A1 A2]. split; [intros H; apply A1; now right|]. destruct (Nat.eqb k d); [discriminate|auto].
  - intros i I. rewrite BO. destruct (Nat.eqb k i); [discriminate|]. apply (st_open _ _ _ S). now right.
  - intros i x d y. cbn [j_edges set_build]. rewrite in_app_iff, (st_edges _ _ _ S), BO.
    rewrite (connections_spec ps (set_build j k b) k b) by (rewrite build_of_set; now rewrite Nat.eqb_refl).
    destruct (rule_nodes_exact _ _ RN) as (NX & _ & _ & _).
    assert (NB : forall d bd, In d (p_deps (product_at ps k)) -> build_of j d = Some bd -> p_enabled (product_at ps d) = true /\ k <> d /\ rule_nodes (product_at ps d) = Done bd).
    { intros d' bd D BD. assert (ED : p_enabled (product_at ps d') = true) by (eapply (st_enabled _ _ _ S); eauto). destruct (DD d' D ED) as [A _]. split; [auto|]. split; [intros ->; apply A; now left|]. eapply (st_done _ _ _ S); eauto. }
    destruct (Nat.eqb_spec k i) as [<-|K].
    + split.
      * intros [(_ & H & _)|(x' & d' & y' & bd & Q & D & BD & X & Y & C)]; [exfalso; apply H; now left|]. injection Q as -> -> ->. split; [discriminate|]. split; [auto|].
        rewrite build_of_set in BD. destruct (Nat.eqb_spec k d') as [<-|KD].
        { exfalso. destruct (DD k D E) as [A _]. apply A. now left. }
        destruct (NB d' bd D BD) as (ED & _ & RD). destruct (rule_nodes_exact _ _ RD) as (NY & _ & _ & RY). unfold joined. split; [auto|]. split; [auto|]. split; [now apply NX|]. split; [now apply NY|].
        rewrite compatible_spec, takes_installable_spec, RY in C. exact C.
      * intros (_ & _ & D & ED & X & Y & C). right. destruct (DD d D ED) as [A1 A2]. destruct (build_of j d) as [bd|] eqn:BD; [|congruence].
        destruct (NB d bd D BD) as (_ & KD & RD). destruct (rule_nodes_exact _ _ RD) as (NY & _ & _ & RY). exists x, d, y, bd. rewrite build_of_set. destruct (Nat.eqb_spec k d); [congruence|].
        rewrite compatible_spec, takes_installable_spec, RY. split; [auto|]. split; [auto|]. split; [auto|]. split; [now apply NX|]. split; [now apply NY|auto].
    + split.
      * intros [(H1 & H2 & H3)|(x' & d' & y' & bd & Q & _)]; [|congruence]. split; [auto|]. split; [intros H; apply H2; now right|auto].
      * intros (H1 & H2 & H3). left. auto.
Qed.
Lemma resolve_ok n ps rank : ranked ps rank -> forall k j j' P, p_enabled (product_at ps k) = true -> state ps P j -> (forall i, In i P -> rank k < rank i) -> resolve n ps k j = Ok j' ->
  state ps P j' /\ build_of j' k <> None /\ grows j j'.
Proof.
  intros RK. induction n as [|n IH]; intros k j j' P E S R; [discriminate|]. rewrite resolve_S. destruct (build_of j k) as [b0|] eqn:B.
  - intros [= <-]. split; [auto|]. split; [congruence|]. intros i; auto.
  - assert (NP : ~ In k P) by (intros I; now apply (st_open _ _ _ S) in I).
    destruct (deps_loop (resolve n ps) ps (p_deps (product_at ps k)) (set_build j k (mkBuild [] [] []))) as [j1| |] eqn:L; try discriminate.
    assert (G : forall l j0 j1, (forall d, In d l -> In d (p_deps (product_at ps k))) -> state ps (k :: P) j0 -> deps_loop (resolve n ps) ps l j0 = Ok j1 ->
      state ps (k :: P) j1 /\ grows j0 j1 /\ forall d, In d l -> p_enabled (product_at ps d) = true -> build_of j1 d <> None).
    { clear j1 L. induction l as [|d l IHl]; intros j0 j1 DL S0; cbn [deps_loop]; [intros [= <-]; split; [auto|]; split; [intros i; auto|easy]|].
      destruct (p_enabled (product_at ps d)) eqn:ED.
      - destruct (resolve n ps d j0) as [j2| |] eqn:RD; try discriminate. intros L. assert (D : In d (p_deps (product_at ps k))) by (apply DL; now left).
        assert (RL : rank d < rank k) by (now apply RK).
        apply (IH d j0 j2 (k :: P) ED S0) in RD; [|intros i [<-|I]; [auto|specialize (R i I); lia]]. destruct RD as (S2 & B2 & G2).
        destruct (IHl j2 j1) as (S1 & G1 & B1); [intros; apply DL; now right|auto|auto|]. split; [auto|]. split; [intros i I; apply G1, G2, I|]. intros i [<-|I] EI; [apply G1, B2|now apply B1].
      - intros L. destruct (IHl j0 j1) as (S1 & G1 & B1); [intros; apply DL; now right|auto|auto|]. split; [auto|]. split; [auto|]. intros i [<-|I] EI; [congruence|now apply B1]. }
    apply G in L; [|auto|now apply state_open]. destruct L as (S1 & G1 & B1). destruct (rule_nodes (product_at ps k)) as [b| |] eqn:RN; try discriminate. intros [= <-].
    split; [|split].
    + apply state_close; auto. intros d D ED. split; [|now apply B1]. specialize (RK k d D ED). intros [<-|I]; [lia|]. specialize (R d I). lia.
    + unfold build_of. cbn. now rewrite Nat.eqb_refl.
    + intros i I. unfold build_of. cbn. destruct (Nat.eqb_spec k i) as [|K]; [discriminate|]. apply G1. rewrite build_of_set. destruct (Nat.eqb k i); [discriminate|auto].
Qed.
Lemma enabled_range ps k : p_enabled (product_at ps k) = true -> k < List.length ps.
Proof. intros E. destruct (Nat.lt_ge_cases k (List.length ps)) as [|L]; [auto|]. unfold product_at in E. rewrite nth_overflow in E by auto. discriminate. Qed.
Lemma resolve_all_ok n ps rank : ranked ps rank -> forall l j j', state ps [] j -> resolve_all n ps l j = Ok j' ->
  state ps [] j' /\ grows j j' /\ forall k, In k l -> p_enabled (product_at ps k) = true -> build_of j' k <> None.
Proof.
  intros RK. induction l as [|k l IH]; intros j j' S; cbn [resolve_all]; [intros [= <-]; split; [auto|]; split; [intros i; auto|easy]|].
  destruct (p_enabled (product_at ps k)) eqn:E.
  - destruct (resolve n ps k j) as [j1| |] eqn:R; try discriminate. intros A. apply (resolve_ok n ps rank RK k j j1 []) in R; [|auto|auto|easy]. destruct R as (S1 & B1 & G1).
    destruct (IH j1 j' S1 A) as (S2 & G2 & B2). split; [auto|]. split; [intros i I; apply G2, G1, I|]. intros i [<-|I] EI; [apply G2, B1|now apply B2].
  - intros A. destruct (IH j j' S A) as (S2 & G2 & B2). split; [auto|]. split; [auto|]. intros i [<-|I] EI; [congruence|now apply B2].
Qed.
Lemma state_empty ps : state ps [] (mkProject [] []).
Proof. split; try (intros; discriminate); [intros k []|]. intros k x d y. split; [intros []|intros [H _]; now destruct H]. Qed.

(** Every enabled product, and no other one, has its rule nodes, and rules of different products are connected if and only if one takes what the other one makes. *)
Theorem project_exact ps rank j : ranked ps rank -> resolve_project ps = Ok j ->
  (forall k, k < List.length ps -> p_enabled (product_at ps k) = true -> exists b, build_of j k = Some b /\ rule_nodes (product_at ps k) = Done b) /\
  (forall k, p_enabled (product_at ps k) = false -> build_of j k = None) /\
  (forall k x d y, In ((k, x), (d, y)) (j_edges j) <-> p_enabled (product_at ps k) = true /\ joined ps k x d y).
Proof.
  intros RK H. apply (resolve_all_ok _ _ _ RK) in H; [|apply state_empty]. destruct H as (S & _ & B).
  assert (BE : forall k, p_enabled (product_at ps k) = true -> build_of j k <> None) by (intros k E; apply B; [apply in_seq; apply enabled_range in E; lia|auto]).
  split; [|split].
  - intros k _ E. specialize (BE k E). destruct (build_of j k) as [b|] eqn:BK; [|congruence]. exists b. split; [auto|]. now apply (st_done _ _ _ S).
  - intros k E. destruct (build_of j k) as [b|] eqn:BK; [|auto]. apply (st_enabled _ _ _ S) in BK. congruence.
  - intros k x d y. rewrite (st_edges _ _ _ S). split.
    + intros (N & _ & J). split; [|auto]. destruct (build_of j k) as [b|] eqn:BK; [|congruence]. now apply (st_enabled _ _ _ S) in BK.
    + intros (E & J). split; [now apply BE|]. split; [easy|auto].
Qed.

(** All rules of the project together. *)
Definition waits (ps : list product) (a b : nat * nat) : Prop :=
  p_enabled (product_at ps (fst a)) = true /\ (fst a = fst b /\ needed (product_at ps (fst a)) (snd a) /\ depends (product_at ps (fst a)) (snd a) (snd b) \/ joined ps (fst a) (snd a) (fst b) (snd b)).
(** No rule of the project waits, directly or not, for itself. *)
Theorem project_acyclic ps rank j : ranked ps rank -> resolve_project ps = Ok j -> forall a, ~ clos_trans_1n _ (waits ps) a a.
Proof.
  intros RK H. destruct (project_exact ps rank j RK H) as (B & _ & _).
  assert (G : forall a b, clos_trans_1n _ (waits ps) a b ->
    p_enabled (product_at ps (fst a)) = true /\ (fst a = fst b /\ needed (product_at ps (fst a)) (snd a) /\ (exists c, depends (product_at ps (fst a)) (snd a) c /\ reaches (product_at ps (fst a)) c (snd b)) \/ rank (fst b) < rank (fst a))).
  { intros a b C. induction C as [a b W|a c b W C IH].
    - destruct W as [E [(Q & N & D)|J]]; (split; [auto|]); [left; split; [auto|]; split; [auto|]; exists (snd b); split; [auto|constructor]|]. right. destruct J as (D & ED & _). now apply RK.
    - destruct W as [E W]. split; [auto|]. destruct IH as [EC IH]. destruct W as [(Q & N & D)|J].
      + destruct IH as [(Q2 & N2 & d & D2 & R2)|LT]; [|right; congruence]. left. split; [congruence|]. split; [auto|]. exists (snd c). split; [auto|]. rewrite Q. econstructor; eauto.
      + destruct J as (D & ED & _). specialize (RK _ _ D ED). destruct IH as [(Q2 & _)|LT]; right; [rewrite <- Q2; auto|lia]. }
  intros a C. apply G in C as [E [(_ & N & c & D & R)|LT]]; [|lia]. destruct (B (fst a)) as (b & _ & RN); [now apply enabled_range|auto|].
  assert (A : exists b, rule_nodes (product_at ps (fst a)) = Done b) by eauto. rewrite rule_nodes_ok_iff in A. apply (A (snd a) N). exists c. auto.
Qed.

Lemma resolve_failed n ps : forall k j i path, p_enabled (product_at ps k) = true -> resolve n ps k j = Failed i path -> p_enabled (product_at ps i) = true /\ rule_nodes (product_at ps i) = Cycle path.
Proof.
  induction n as [|n IH]; intros k j i path E; [discriminate|]. rewrite resolve_S. destruct (build_of j k); [discriminate|].
  assert (G : forall l j0, deps_loop (resolve n ps) ps l j0 = Failed i path -> p_enabled (product_at ps i) = true /\ rule_nodes (product_at ps i) = Cycle path).
  { induction l as [|d l IHl]; intros j0; cbn [deps_loop]; [discriminate|]. destruct (p_enabled (product_at ps d)) eqn:ED; [|apply IHl].
    destruct (resolve n ps d j0) eqn:R; [apply IHl| |discriminate]. intros [= -> ->]. now apply (IH d j0). }
  destruct (deps_loop _ _ _ _) eqn:L; [|intros [= -> ->]; now apply G in L|discriminate]. destruct (rule_nodes (product_at ps k)) eqn:RN; try discriminate. intros [= <- <-]. auto.
Qed.
(** If a cycle is reported, the product it is reported for is enabled and has this cycle. *)
Theorem project_failed ps k path : resolve_project ps = Failed k path -> p_enabled (product_at ps k) = true /\ rule_nodes (product_at ps k) = Cycle path.
Proof.
  unfold resolve_project. generalize (seq 0 (List.length ps)) (mkProject [] []). induction l as [|i l IH]; intros j; cbn [resolve_all]; [discriminate|].
  destruct (p_enabled (product_at ps i)) eqn:E; [|apply IH]. destruct (resolve _ ps i j) eqn:R; [apply IH| |discriminate]. intros [= -> ->]. now apply resolve_failed in R.
Qed.

(** Products without build data *)
Definition missing (ps : list product) (j : project) : nat := List.length (filter (fun k => match build_of j k with None => true | _ => false end) (seq 0 (List.length ps))).
Lemma filter_le {A} (f g : A -> bool) l : (forall x, f x = true -> g x = true) -> List.length (filter f l) <= List.length (filter g l).
Proof. intros H. induction l as [|x l IH]; cbn; [auto|]. specialize (H x). destruct (f x), (g x); cbn; try (specialize (H eq_refl); discriminate); lia. Qed.
Lemma filter_lt {A} (f g : A -> bool) l x : (forall x, f x = true -> g x = true) -> In x l -> f x = false -> g x = true -> List.length (filter f l) < List.length (filter g l).
Proof.
  intros H I F G. induction l as [|y l IH]; [destruct I|]. cbn. destruct I as [->|I].
  - rewrite F, G. cbn. pose proof (filter_le f g l H). lia.
  - specialize (IH I). specialize (H y). destruct (f y), (g y); cbn; try (specialize (H eq_refl); discriminate); lia.
Qed.
Lemma missing_grows ps j j' : grows j j' -> missing ps j' <= missing ps j.
Proof. intros G. apply filter_le. intros k. specialize (G k). destruct (build_of j k); [|auto]. destruct (build_of j' k); [discriminate|]. exfalso. now apply G. Qed.
Lemma missing_set ps j k b : k < List.length ps -> build_of j k = None -> missing ps (set_build j k b) < missing ps j.
Proof.
  intros L B. apply filter_lt with k; [|apply in_seq; lia|rewrite build_of_set, Nat.eqb_refl; auto|now rewrite B].
  intros i. rewrite build_of_set. destruct (Nat.eqb_spec k i); [discriminate|auto].
Qed.
Lemma resolve_grows n ps : forall k j j', resolve n ps k j = Ok j' -> grows j j'.
Proof.
  induction n as [|n IH]; intros k j j'; [discriminate|]. rewrite resolve_S. destruct (build_of j k) eqn:B; [intros [= <-] i; auto|].
  assert (G : forall l j0 j1, deps_loop (resolve n ps) ps l j0 = Ok j1 -> grows j0 j1).
  { induction l as [|d l IHl]; intros j0 j1; cbn [deps_loop]; [intros [= <-] i; auto|]. destruct (p_enabled (product_at ps d)); [|apply IHl].
    destruct (resolve n ps d j0) eqn:R; try discriminate. intros H i I. apply (IHl _ _ H). now apply (IH _ _ _ R). }
  destruct (deps_loop _ _ _ _) as [j1| |] eqn:L; try discriminate. destruct (rule_nodes _); try discriminate. intros [= <-] i I. unfold build_of. cbn. destruct (Nat.eqb_spec k i); [discriminate|].
  apply (G _ _ _ L). rewrite build_of_set. destruct (Nat.eqb k i); [discriminate|auto].
Qed.
Lemma resolve_fuel n ps : forall k j, p_enabled (product_at ps k) = true -> missing ps j < n -> resolve n ps k j <> No_fuel.
Proof.
  induction n as [|n IH]; intros k j E F; [lia|]. rewrite resolve_S. destruct (build_of j k) eqn:B; [discriminate|].
  assert (G : forall l j0, missing ps j0 < n -> deps_loop (resolve n ps) ps l j0 <> No_fuel).
  { induction l as [|d l IHl]; intros j0 F0; cbn [deps_loop]; [discriminate|]. destruct (p_enabled (product_at ps d)) eqn:ED; [|now apply IHl].
    destruct (resolve n ps d j0) eqn:R; [|discriminate|now apply IH in R]. apply IHl. apply resolve_grows in R. pose proof (missing_grows ps _ _ R). lia. }
  specialize (G (p_deps (product_at ps k)) (set_build j k (mkBuild [] [] []))). pose proof (missing_set ps j k (mkBuild [] [] []) (enabled_range ps k E) B).
  destruct (deps_loop _ _ _ _); [|discriminate|intros _; apply G; [lia|auto]]. destruct (rule_nodes (product_at ps k)) eqn:RN; try discriminate. now apply rule_nodes_total in RN.
Qed.
(** Resolving ends for all products, even for products that depend on themselves. *)
Theorem project_total ps : resolve_project ps <> No_fuel.
Proof.
  unfold resolve_project. assert (G : forall l j, missing ps j < S (List.length ps) -> resolve_all (S (List.length ps)) ps l j <> No_fuel).
  { induction l as [|k l IH]; intros j F; cbn [resolve_all]; [discriminate|]. destruct (p_enabled (product_at ps k)) eqn:E; [|now apply IH].
    destruct (resolve _ ps k j) eqn:R; [|discriminate|now apply resolve_fuel in R]. apply IH. apply resolve_grows in R. pose proof (missing_grows ps _ _ R). lia. }
  apply G. unfold missing. cbn. assert (L : forall A (f : A -> bool) l, List.length (filter f l) <= List.length l) by (intros A f l; induction l as [|x l IH]; cbn; [auto|destruct (f x); cbn; lia]).
  specialize (L nat (fun _ => true) (seq 0 (List.length ps))). rewrite seq_length in L. unfold build_of. cbn. lia.
Qed.

(** A rule that makes two artifacts: one that another rule takes, and one that this rule excludes.  The excluded one keeps the rules apart, although the other one is an input. *)
Definition has_input (r : rule) (tags : list N) : Prop := (exists t, takes r t /\ In t tags) /\ ~ exists u, In u (r_excluded r) /\ In u tags.
Theorem waits_for_inputs_refuted : exists p b i j tags,
  rule_nodes p = Done b /\ In i (b_nodes b) /\ In j (b_nodes b) /\ p_props p = [] /\ r_output_tags (rule_at p j) = [] /\ In tags (r_artifacts (rule_at p j)) /\ has_input (rule_at p i) tags /\ ~ reaches p i j.
Proof.
  exists (mkProduct [mkRule [1%N] [] [] [2%N] [] [] [] [[3%N]] []; mkRule [] [] [] [] [] [] [] [[1%N]; [2%N]] []] [2%N; 3%N] [] true []), (mkBuild [0; 1] [] [0; 1]), 0, 1, [1%N].
  split; [reflexivity|]. split; [now left|]. split; [right; now left|]. split; [auto|]. split; [auto|]. split; [now left|]. split.
  - split; [exists 1%N; split; left; auto; now left|]. intros (u & [<-|[]] & [H|[]]). discriminate.
  - intros R. apply reaches_step in R as [H|(k & D & _)]; [discriminate|]. apply children_spec in D; [|cbn; lia]. destruct D.
Qed.

(** ** Examples *)
Module Demo.
  (* tags: 1 source, 2 object, 3 application, 4 header, 5 unused, 6 final application *)
  Definition link := mkRule [2%N] [] [7%N] [] [] [8%N] [] [[3%N]] [].
  Definition compile := mkRule [1%N] [4%N] [] [] [] [] [] [] [2%N].
  Definition generate := mkRule [9%N] [] [] [] [] [] [] [[4%N]; [1%N]] [].
  Definition doc := mkRule [1%N] [] [] [] [] [] [] [[5%N]] [].
  Definition app := mkProduct [doc; link; compile; generate] [6%N] [([3%N], [6%N])] true [1; 2].
  Example nodes : rule_nodes app = Done (mkBuild [1; 2; 3] [(1, 2); (2, 3)] [1]).
  Proof. reflexivity. Qed.
  Example not_needed : ~ needed app 0.
  Proof. destruct (rule_nodes_exact _ _ nodes) as (N & _). rewrite <- N. intros [H|[H|[H|[]]]]; discriminate. Qed.
  Definition loop := mkProduct [mkRule [3%N] [] [] [] [] [] [] [[2%N]] []; mkRule [2%N] [] [] [] [] [] [] [[3%N]] []; mkRule [3%N] [] [] [] [] [] [] [[5%N]] []] [5%N] [] true [].
  Example cycle : rule_nodes loop = Cycle [2; 1; 0].
  Proof. reflexivity. Qed.
  Definition lib := mkProduct [mkRule [2%N] [] [] [] [] [] [] [[8%N]] []; compile] [8%N] [] true [].
  Definition off := mkProduct [mkRule [2%N] [] [] [] [] [] [] [[8%N]] []] [8%N] [] false [].
  Example project : exists j, resolve_project [app; lib; off] = Ok j /\ j_edges j = [((0, 1), (1, 0))] /\ build_of j 2 = None.
  Proof. eexists. split; [reflexivity|]. split; reflexivity. Qed.
  Example products_ranked : ranked [app; lib; off] (fun k => 3 - k).
  Proof. intros [|[|[|k]]] d; cbn; [intros [<-|[<-|[]]]; cbn; lia|easy|easy|]. unfold product_at. cbn. destruct k; easy. Qed.
  Example failed : resolve_project [off; app; loop] = Failed 2 [2; 1; 0].
  Proof. reflexivity. Qed.
End Demo.

Print Assumptions rule_nodes_exact.
Print Assumptions rule_nodes_cycle.
Print Assumptions rule_nodes_total.
Print Assumptions rule_nodes_ok_iff.
Print Assumptions project_exact.
Print Assumptions project_acyclic.
Print Assumptions project_failed.
Print Assumptions project_total.
Print Assumptions waits_for_inputs_refuted.
