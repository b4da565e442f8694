(** Theorems about the source files of a product. *)
From Coq Require Import List Bool Arith NArith ZArith Sorting.Permutation Lia String.
From Verif Require Import Str PathModel SourcesModel.
Import ListNotations.
Local Open Scope N_scope.
Local Open Scope list_scope.

(** ** What wildcards mean *)

Definition double_star : str := [42; 42].
Definition literal (part : str) : Prop := forall c, In c part -> c <> 42 /\ c <> 63 /\ c <> 91 /\ c <> 93.
Definition dot_name (n : str) : Prop := exists t, n = 46 :: t.
Definition inside (dir p : str) : Prop := p = dir \/ exists t, p = dir ++ slash :: t.
(** The components of a pattern, each with the number of slashes after it. *)
Fixpoint spelled (l : list (str * nat)) : str := match l with [] => [] | (c, n) :: l => c ++ repeat slash n ++ spelled l end.
Fixpoint spelled_ok (l : list (str * nat)) : Prop :=
  match l with [] => True | (c, n) :: l => c <> [] /\ ~ In slash c /\ (l <> [] -> n <> 0%nat) /\ spelled_ok l end.

Section Spec.
Context (look : str -> node) (glob : str -> str -> bool).
(** The directory [d] contains [n]. *)
Definition holds (d n : str) (k : node) : Prop := exists l, look d = NDir l /\ In (n, k) l.
Definition directory (d : str) : Prop := exists l, look d = NDir l.
(** Directories are seen in the same way from above. *)
Definition fs_ok : Prop := forall d n l, holds d n (NDir l) -> look (child d n) = NDir l.

(** With [**] before a directory that is given by its name, hidden directories are searched as well. *)
Fixpoint name_follows (parts : list str) : Prop :=
  match parts with
  | [] | [_] => False
  | p :: rest => (p = double_star /\ name_follows rest) \/ (p <> double_star /\ literal p)
  end.
(** From the directory [d], the components match [name] in the directory [parent]. *)
Inductive Match : str -> list str -> str -> str -> Prop :=
| M_file d part n k : part <> double_star -> holds d n k -> ~ dot_name n -> (forall l, k <> NDir l) -> glob part n = true -> Match d [part] d n
| M_dir d part rest n k parent name : part <> double_star -> rest <> [] -> holds d n k -> k = NLink true \/ (exists l, k = NDir l) -> glob part n = true ->
    (dot_name n -> literal part) -> Match (child d n) rest parent name -> Match d (part :: rest) parent name
| M_dots d part rest parent name : part = [46] \/ part = [46; 46] -> rest <> [] -> directory d -> Match (child d part) rest parent name -> Match d (part :: rest) parent name
| M_zero d rest parent name : rest <> [] -> Match d rest parent name -> Match d (double_star :: rest) parent name
| M_more d rest n l parent name : holds d n (NDir l) -> (dot_name n -> name_follows rest) -> Match (child d n) (double_star :: rest) parent name ->
    Match d (double_star :: rest) parent name
| M_all d parent name : Match d [double_star; [42]] parent name -> Match d [double_star] parent name.
End Spec.

(** ** Lemmas *)

Lemma hidden_iff n : hidden n = true <-> dot_name n.
Proof.
  unfold hidden, dot_name. destruct n as [|c t]; [split; [discriminate|intros [t E]; discriminate]|].
  split; [intros E; apply N.eqb_eq in E; subst; eauto|intros [u E]; injection E as -> _; reflexivity].
Qed.
Lemma is_pattern_iff p : is_pattern p = false <-> literal p.
Proof.
  unfold is_pattern, literal. split.
  - intros E c I. destruct (existsb _ p) eqn:X; [discriminate|]. assert (N : ~ exists x, In x p /\ ((x =? 42) || (x =? 63) || (x =? 93) || (x =? 91)) = true).
    { rewrite <- existsb_exists. rewrite X. discriminate. }
    repeat split; intros ->; apply N; eexists; split; eauto.
  - intros L. destruct (existsb _ p) eqn:X; auto. apply existsb_exists in X as (c & I & E). destruct (L c I) as (A & B & C & D).
    repeat rewrite orb_true_iff in E. rewrite !N.eqb_eq in E. tauto.
Qed.
Lemma is_dots_iff p : is_dots p = true <-> p = [46] \/ p = [46; 46].
Proof. unfold is_dots. rewrite orb_true_iff, !str_eqb_eq. reflexivity. Qed.
Lemma child_app d n : exists t, child d n = d ++ t.
Proof. unfold child. destruct (slash_end d); eauto. Qed.
Lemma starts_app p d t : starts_with p d = true -> starts_with p (d ++ t) = true.
Proof. rewrite !starts_with_spec. intros [u ->]. exists (u ++ t). now rewrite app_assoc. Qed.
Lemma starts_child p d n : starts_with p d = true -> starts_with p (child d n) = true.
Proof. intros H. destruct (child_app d n) as [t ->]. now apply starts_app. Qed.
Lemma all_of_some {A} (l : list (option (list A))) : (forall x, In x l -> x <> None) -> exists r, all_of l = Some r /\ forall y, In y r <-> exists z, In (Some z) l /\ In y z.
Proof.
  induction l as [|[x|] l IH]; intros H.
  - exists []. split; auto. intros y. split; [intros []|intros (z & [] & _)].
  - destruct IH as (r & E & R); [intros; apply H; now right|]. exists (x ++ r). cbn [all_of]. rewrite E. split; auto. intros y. rewrite in_app_iff, R. split.
    + intros [I|(z & I & J)]; [exists x|exists z]; cbn; auto.
    + intros (z & [I|I] & J); [left; congruence|right; eauto].
  - exfalso. apply (H None); cbn; auto.
Qed.
Lemma all_of_none {A} (l : list (option (list A))) : all_of l = None <-> In None l.
Proof.
  induction l as [|[x|] l IH]; cbn [all_of In].
  - split; [discriminate|tauto].
  - destruct (all_of l); [|tauto]. split; [discriminate|]. intros [E|E]; [discriminate|]. apply IH in E. discriminate.
  - tauto.
Qed.

Section Proofs.
Context (look : str -> node) (glob : str -> str -> bool) (build_dir : str).
Context (FS : fs_ok look).

(** Directories that the iterator reaches. *)
Inductive Reach (all : bool) : str -> str -> Prop :=
| R_here d : Reach all d d
| R_step d n l p : holds look d n (NDir l) -> all = true \/ ~ dot_name n -> Reach all (child d n) p -> Reach all d p.

Fixpoint node_ind' (P : node -> Prop) (HF : P NFile) (HL : forall b, P (NLink b)) (HD : forall l, Forall (fun e => P (snd e)) l -> P (NDir l)) (k : node) : P k :=
  match k with
  | NFile => HF
  | NLink b => HL b
  | NDir l => HD l ((fix go l : Forall (fun e => P (snd e)) l :=
                       match l with [] => Forall_nil _ | e :: l => Forall_cons e (node_ind' P HF HL HD (snd e)) (go l) end) l)
  end.

Lemma follow_iff all n : (all || negb (hidden n)) = true <-> all = true \/ ~ dot_name n.
Proof. rewrite orb_true_iff, negb_true_iff, <- hidden_iff. destruct (hidden n); intuition discriminate. Qed.
Lemma below_one all d p n k : In (p, n, k) (below false all d (look d)) <-> p = d /\ holds look d n k.
Proof.
  unfold holds. destruct (look d) as [| |l]; cbn [below].
  1,2: split; [intros []|intros (_ & l & E & _); discriminate].
  rewrite in_flat_map. split.
  - intros ((n' & k') & I & [E|[]]). injection E as <- <- <-. eauto.
  - intros (-> & l' & E & I). injection E as <-. exists (n, k). split; auto. left. reflexivity.
Qed.
Lemma below_all all k : forall d p n k', look d = k -> In (p, n, k') (below true all d k) <-> exists q, Reach all d q /\ p = q /\ holds look q n k'.
Proof.
  induction k as [|b|l IH] using node_ind'; intros d p n k' E; cbn [below].
  1,2: split; [intros []|]; intros (q & R & -> & H); exfalso; destruct R as [|d n' l' q H']; [destruct H as (l & E' & _)|destruct H' as (l & E' & _)]; congruence.
  rewrite in_flat_map. split.
  - intros ((n1 & k1) & I & [X|X]).
    + injection X as <- <- <-. exists d. split; [constructor|]. split; auto. exists l. auto.
    + cbn [andb] in X. destruct (all || negb (hidden n1)) eqn:F; [|destruct X]. apply follow_iff in F.
      rewrite Forall_forall in IH. specialize (IH (n1, k1) I). cbn [snd] in IH. destruct k1 as [| |l1]; try (cbn in X; tauto).
      assert (H1 : holds look d n1 (NDir l1)) by (exists l; auto). apply IH in X; [|now apply FS].
      destruct X as (q & R & -> & H). exists q. split; [econstructor; eauto|auto].
  - intros (q & R & -> & H). destruct R as [|d n1 l1 q H1 F R].
    + destruct H as (l' & E' & I). rewrite E in E'. injection E' as <-. exists (n, k'). split; auto. left. reflexivity.
    + destruct H1 as (l' & E' & I). assert (H1 : holds look d n1 (NDir l1)) by (exists l'; auto). rewrite E in E'. injection E' as <-. exists (n1, NDir l1). split; auto. right.
      apply follow_iff in F. rewrite F. cbn [andb]. rewrite Forall_forall in IH. specialize (IH _ I). cbn [snd] in IH. apply IH; eauto.
Qed.
Lemma dirs_one all d p : In p (dirs_below false all d (look d)) <-> p = d /\ directory look d.
Proof.
  unfold directory. destruct (look d) as [| |l]; cbn [dirs_below In].
  1,2: split; [intros []|intros (_ & l & E); discriminate].
  rewrite in_flat_map. split; [intros [<-|((? & ?) & _ & [])]; eauto|intros (-> & _); auto].
Qed.
Lemma dirs_all all k : forall d p, look d = k -> In p (dirs_below true all d k) <-> Reach all d p /\ directory look p.
Proof.
  induction k as [|b|l IH] using node_ind'; intros d p E; cbn [dirs_below].
  1,2: split; [intros []|]; intros (R & H); exfalso; destruct R as [|d n' l' q H']; [destruct H as (l & E')|destruct H' as (l & E' & _)]; congruence.
  cbn [In]. rewrite in_flat_map. split.
  - intros [<-|((n1 & k1) & I & X)]; [split; [constructor|exists l; auto]|]. cbn [andb] in X. destruct (all || negb (hidden n1)) eqn:F; [|destruct X]. apply follow_iff in F.
    rewrite Forall_forall in IH. specialize (IH (n1, k1) I). cbn [snd] in IH. destruct k1 as [| |l1]; try (cbn in X; tauto).
    assert (H1 : holds look d n1 (NDir l1)) by (exists l; auto). apply IH in X; [|now apply FS]. destruct X as [R H]. split; auto. econstructor; eauto.
  - intros (R & H). destruct R as [|d n1 l1 q H1 F R]; [auto|]. right. destruct H1 as (l' & E' & I). assert (H1 : holds look d n1 (NDir l1)) by (exists l'; auto).
    rewrite E in E'. injection E' as <-. exists (n1, NDir l1). split; auto. apply follow_iff in F. rewrite F. cbn [andb].
    rewrite Forall_forall in IH. specialize (IH _ I). cbn [snd] in IH. apply IH; auto.
Qed.
Definition reach (r all : bool) (d q : str) : Prop := if r then Reach all d q else d = q.
Lemma matching_iff r want part d p n k : In (p, n, k) (matching look glob r want part d) <->
  (is_dots part = true /\ n = part /\ k = NDir [] /\ reach r (want && negb (is_pattern part)) d p /\ directory look p)
  \/ (reach r (want && negb (is_pattern part)) d p /\ holds look p n k /\ glob part n = true /\ ((want && negb (is_pattern part)) = true \/ ~ dot_name n) /\ (want = true -> is_dir k = true)).
Proof.
  unfold matching. set (all := want && negb (is_pattern part)). rewrite in_app_iff, filter_In. rewrite !andb_true_iff, follow_iff.
  assert (B : In (p, n, k) (below r all d (look d)) <-> reach r all d p /\ holds look p n k).
  { destruct r; cbn [reach]; [rewrite (below_all all (look d)) by reflexivity|rewrite below_one].
    - split; [intros (q & R & -> & H); auto|intros [R H]; eauto].
    - split; [intros [-> H]; auto|intros [-> H]; auto]. }
  assert (D : In (p, n, k) (if is_dots part then map (fun d => (d, part, NDir [])) (dirs_below r all d (look d)) else [])
              <-> is_dots part = true /\ n = part /\ k = NDir [] /\ reach r all d p /\ directory look p).
  { destruct (is_dots part); [|split; [intros []|intros [X _]; discriminate]]. rewrite in_map_iff.
    assert (DI : In p (dirs_below r all d (look d)) <-> reach r all d p /\ directory look p).
    { destruct r; cbn [reach]; [now apply dirs_all|]. rewrite dirs_one. split; intros [-> H]; auto. }
    rewrite <- DI. split; [intros (q & E & I); injection E as <- <- <-; auto|intros (_ & -> & -> & I); eauto]. }
  rewrite B, D. assert (W : negb want || is_dir k = true <-> (want = true -> is_dir k = true)) by (destruct want; cbn; intuition congruence). rewrite W. tauto.
Qed.

Lemma match_parent d parts parent name : Match look glob d parts parent name -> exists t, parent = d ++ t.
Proof.
  induction 1; try (exists []; now rewrite app_nil_r); auto.
  all: destruct IHMatch as [t ->]; match goal with |- context [child ?d ?n] => destruct (child_app d n) as [u ->] end; exists (u ++ t); now rewrite app_assoc.
Qed.
Lemma match_nonempty d parts parent name : Match look glob d parts parent name -> parts <> [].
Proof. destruct 1; discriminate. Qed.
Definition final (parts : list str) : list str := match parts with [] => [[42]] | _ => parts end.
Definition follows (parts : list str) : bool := match parts with p :: _ :: _ => negb (str_eqb p double_star) && negb (is_pattern p) | _ => false end.
(** The double star, in front of components that do not start with another one. *)
Lemma stars_iff parts d parent name : (forall rest, parts <> double_star :: rest) ->
  Match look glob d (double_star :: parts) parent name <-> exists q, Reach (follows parts) d q /\ Match look glob q (final parts) parent name.
Proof.
  intros NS. assert (FO : name_follows parts <-> follows parts = true).
  { destruct parts as [|p [|p' rest]]; cbn; try (split; [tauto|discriminate]). rewrite andb_true_iff, !negb_true_iff, is_pattern_iff.
    destruct (str_eqb p double_star) eqn:E; [apply str_eqb_eq in E; subst; now destruct (NS (p' :: rest))|]. apply str_eqb_neq in E. intuition congruence. }
  split.
  - intros M. remember (double_star :: parts) as ps eqn:P. revert parts NS FO P. induction M as [ | | |d rest parent name NE M IH|d rest n l parent name H HI M IH|d parent name M IH]; intros parts NS FO P.
    + injection P as -> <-. congruence.
    + injection P as -> ->. congruence.
    + injection P as -> ->. destruct H; discriminate.
    + injection P as ->. exists d. split; [constructor|]. destruct parts; [congruence|exact M].
    + injection P as ->. destruct (IH parts NS FO eq_refl) as (q & R & MQ). exists q. split; auto. apply (R_step (follows parts) d n l); auto.
      destruct (hidden n) eqn:E; [left; apply FO, HI, hidden_iff, E|right; rewrite <- hidden_iff; congruence].
    + injection P as <-. destruct (IH [[42]]) as (q & R & MQ); [discriminate|cbn; split; [tauto|discriminate]|reflexivity|eauto].
  - intros (q & R & M). induction R as [d|d n l q H F R IH].
    + destruct parts as [|p rest]; [|apply M_zero; [discriminate|exact M]]. apply M_all, M_zero; [discriminate|exact M].
    + apply (M_more look glob d parts n l); auto. intros DN. apply FO. destruct F; tauto.
Qed.
Definition under (r : bool) (parts : list str) : list str := if r then double_star :: parts else parts.
Lemma real_dir_iff k : real_dir k = false <-> forall l, k <> NDir l.
Proof. destruct k as [| |l]; cbn; split; intros H; try discriminate; auto. now destruct (H l). Qed.
Lemma is_dir_iff k : is_dir k = true <-> k = NLink true \/ exists l, k = NDir l.
Proof. destruct k as [|[]|l]; cbn; split; try discriminate; eauto; intros [E|[l' E]]; try discriminate; auto. Qed.
(** The last component. *)
Lemma last_iff r part d parent name : part <> double_star ->
  (exists k, In (parent, name, k) (matching look glob r false part d) /\ real_dir k = false) <-> Match look glob d (under r [part]) parent name.
Proof.
  intros NS. assert (ONE : forall q, Match look glob q [part] parent name <-> parent = q /\ exists k, holds look q name k /\ glob part name = true /\ ~ dot_name name /\ real_dir k = false).
  { intros q. split.
    - intros M. inversion M; subst; try congruence. split; auto. exists k. rewrite real_dir_iff. auto.
    - intros (-> & k & H & G & DN & RD). rewrite real_dir_iff in RD. eapply M_file; eauto. }
  assert (X : (exists k, In (parent, name, k) (matching look glob r false part d) /\ real_dir k = false) <->
              (exists q, reach r false d q /\ Match look glob q [part] parent name)).
  { split.
    - intros (k & I & RD). apply matching_iff in I. cbn [andb] in I. destruct I as [(_ & _ & -> & _)|(R & H & G & [F|F] & _)]; [discriminate RD|discriminate|].
      exists parent. split; auto. apply ONE. split; auto. exists k. auto.
    - intros (q & R & M). apply ONE in M as (-> & k & H & G & DN & RD). exists k. split; auto. apply matching_iff. right. cbn [andb]. repeat split; auto. discriminate. }
  rewrite X. destruct r; cbn [reach under].
  - rewrite stars_iff by congruence. reflexivity.
  - split; [intros (q & -> & M); auto|eauto].
Qed.
(** Another component. *)
Lemma step_iff r part rest d parent name : part <> double_star -> rest <> [] ->
  (exists p n k, In (p, n, k) (matching look glob r true part d) /\ Match look glob (child p n) rest parent name) <-> Match look glob d (under r (part :: rest)) parent name.
Proof.
  intros NS NE. set (all := negb (is_pattern part)).
  assert (ONE : forall q, Match look glob q (part :: rest) parent name <->
    exists n, ((is_dots part = true /\ n = part /\ directory look q) \/ (exists k, holds look q n k /\ glob part n = true /\ (all = true \/ ~ dot_name n) /\ is_dir k = true)) /\ Match look glob (child q n) rest parent name).
  { intros q. split.
    - intros M. inversion M; subst; try congruence.
      + exists n. split; auto. right. exists k. rewrite is_dir_iff. repeat split; auto. destruct (hidden n) eqn:E; [left|right; rewrite <- hidden_iff; congruence].
        unfold all. apply negb_true_iff, is_pattern_iff. apply H7. now apply hidden_iff.
      + exists part. split; auto. left. rewrite is_dots_iff. auto.
    - intros (n & [(D & -> & DR)|(k & H & G & F & ID)] & M).
      + apply M_dots; auto. now apply is_dots_iff.
      + apply is_dir_iff in ID. eapply M_dir; eauto. intros DN. destruct F as [F|F]; [|tauto]. apply is_pattern_iff. apply negb_true_iff. exact F. }
  assert (X : (exists p n k, In (p, n, k) (matching look glob r true part d) /\ Match look glob (child p n) rest parent name) <->
              (exists q, reach r all d q /\ Match look glob q (part :: rest) parent name)).
  { split.
    - intros (p & n & k & I & M). apply matching_iff in I. cbn [andb] in I. fold all in I. destruct I as [(D & -> & -> & R & DR)|(R & H & G & F & W)].
      + exists p. split; auto. apply ONE. exists part. auto.
      + exists p. split; auto. apply ONE. exists n. split; auto. right. exists k. auto.
    - intros (q & R & M). apply ONE in M as (n & [(D & -> & DR)|(k & H & G & F & ID)] & M).
      + exists q, part, (NDir []). split; auto. apply matching_iff. left. cbn [andb]. auto.
      + exists q, n, k. split; auto. apply matching_iff. right. cbn [andb]. auto. }
  rewrite X. destruct r; cbn [reach under].
  - rewrite stars_iff by congruence. assert (FE : follows (part :: rest) = all).
    { destruct rest as [|p' rest]; [congruence|]. cbn [follows]. apply str_eqb_neq in NS. now rewrite NS. }
    rewrite FE. reflexivity.
  - split; [intros (q & -> & M); auto|eauto].
Qed.
Lemma stars_twice parts d parent name : Match look glob d (double_star :: double_star :: parts) parent name <-> Match look glob d (double_star :: parts) parent name.
Proof.
  split.
  - intros M. remember (double_star :: double_star :: parts) as ps eqn:P. revert P. induction M as [ | | |d rest parent name NE M IH|d rest n l parent name H HI M IH|d parent name M IH]; intros P.
    + discriminate.
    + injection P as -> ->. congruence.
    + injection P as -> ->. destruct H; discriminate.
    + injection P as ->. exact M.
    + injection P as ->. specialize (IH eq_refl). apply (M_more look glob d parts n l); auto. intros DN. specialize (HI DN).
      destruct parts as [|p parts]; [destruct HI|]. destruct HI as [[_ HI]|[X _]]; [exact HI|congruence].
    + discriminate.
  - intros M. apply M_zero; [discriminate|exact M].
Qed.
Lemma expand_iff parts : forall r d, (parts <> [] \/ r = true) -> exists l, expand look glob build_dir r parts d = Some l
  /\ forall f, In f l <-> exists parent name, Match look glob d (under r parts) parent name /\ starts_with build_dir parent = false /\ f = clean_path (child parent name).
Proof.
  assert (BD : forall d parts parent name, starts_with build_dir d = true -> Match look glob d parts parent name -> starts_with build_dir parent = false -> False).
  { intros d ps parent name S M E. destruct (match_parent _ _ _ _ M) as [t ->]. apply (starts_app _ _ t) in S. congruence. }
  assert (LA : forall r part d, part <> double_star -> starts_with build_dir d = false ->
    exists l, Some (flat_map (fun x => let '(parent, n, k) := x in if starts_with build_dir parent then [] else if real_dir k then [] else [clean_path (child parent n)]) (matching look glob r false part d)) = Some l
      /\ forall f, In f l <-> exists parent name, Match look glob d (under r [part]) parent name /\ starts_with build_dir parent = false /\ f = clean_path (child parent name)).
  { intros r part d NS SB. eexists. split; [reflexivity|]. intros f. rewrite in_flat_map. split.
    - intros (((p & n) & k) & I & X). destruct (starts_with build_dir p) eqn:S; [destruct X|]. destruct (real_dir k) eqn:RD; [destruct X|]. destruct X as [<-|[]].
      exists p, n. split; auto. apply last_iff; eauto.
    - intros (parent & name & M & S & ->). apply last_iff in M as (k & I & RD); auto. exists (parent, name, k). split; auto. rewrite S, RD. left. reflexivity. }
  induction parts as [|part rest IH]; intros r d NE.
  - destruct NE as [NE| ->]; [congruence|]. cbn [expand]. destruct (starts_with build_dir d) eqn:SB.
    + exists []. split; auto. intros f. split; [intros []|]. intros (parent & name & M & S & _). destruct (BD _ _ _ _ SB M S).
    + destruct (LA true star d) as (l & E & L); auto; [discriminate|]. exists l. split; auto. intros f. rewrite L. cbn [under].
      assert (ST : forall parent name, Match look glob d [double_star; star] parent name <-> Match look glob d [double_star] parent name).
      { intros parent name. rewrite !stars_iff by discriminate. reflexivity. }
      setoid_rewrite ST. reflexivity.
  - cbn [expand]. destruct (starts_with build_dir d) eqn:SB.
    + exists []. split; auto. intros f. split; [intros []|]. intros (parent & name & M & S & _). destruct (BD _ _ _ _ SB M S).
    + destruct (str_eqb part stars) eqn:ST.
      * apply str_eqb_eq in ST. subst part. destruct (IH true d) as (l & E & L); auto. exists l. split; auto. intros f. rewrite L. cbn [under].
        destruct r; cbn [under]; [|reflexivity]. setoid_rewrite stars_twice. reflexivity.
      * apply str_eqb_neq in ST. destruct rest as [|p' rest]; [destruct (LA r part d ST SB) as (l & E & L); exists l; auto|].
        set (rs := p' :: rest) in *. assert (NR : rs <> []) by discriminate.
        match goal with |- context [all_of ?x] => destruct (all_of_some x) as (l & E & L) end.
        { intros x I. apply in_map_iff in I as (((p & n) & k) & <- & I). destruct (starts_with build_dir p); [discriminate|].
          destruct (IH false (child p n)) as (l & E & _); auto. rewrite E. discriminate. }
        exists l. split; auto. intros f. rewrite L. split.
        -- intros (z & I & J). apply in_map_iff in I as (((p & n) & k) & EZ & I). destruct (starts_with build_dir p) eqn:S; [injection EZ as <-; destruct J|].
           destruct (IH false (child p n)) as (l' & E' & L'); auto. rewrite E' in EZ. injection EZ as <-. apply L' in J as (parent & name & M & S' & ->). exists parent, name. split; auto.
           apply step_iff; eauto.
        -- intros (parent & name & M & S & ->). apply step_iff in M as (p & n & k & I & M); auto.
           assert (SP : starts_with build_dir p = false). { destruct (starts_with build_dir p) eqn:X; auto. apply (starts_child _ _ n) in X. destruct (BD _ _ _ _ X M S). }
           destruct (IH false (child p n)) as (l' & E' & L'); auto. exists l'. split; [|apply L'; eauto]. apply in_map_iff. exists (p, n, k). split; auto. now rewrite SP.
Qed.
Lemma expand_none parts r d : expand look glob build_dir r parts d = None <-> parts = [] /\ r = false /\ starts_with build_dir d = false.
Proof.
  split.
  - intros E. destruct parts as [|p parts]; [|destruct (expand_iff (p :: parts) r d) as (l & E' & _); [left; discriminate|congruence]].
    cbn [expand] in E. destruct (starts_with build_dir d); [discriminate|]. destruct r; [discriminate|auto].
  - intros (-> & -> & S). cbn [expand]. now rewrite S.
Qed.
End Proofs.

(** ** Wildcards *)

(** A file that a pattern stands for, looked for from [start]: not in a directory whose path starts with that of the build directory. *)
Definition Selected (look : str -> node) (glob : str -> str -> bool) (build_dir start : str) (parts : list str) (f : str) : Prop :=
  exists parent name, Match look glob start parts parent name /\ ~ (exists t, parent = build_dir ++ t) /\ f = clean_path (child parent name).
(** The pattern with its prefix: backslashes are slashes, a tilde at the start is the home directory. *)
Definition Pattern (home prefix pattern : str) (full : str) : Prop :=
  exists u, ((exists t, prefix = 126 :: slash :: t /\ u = home ++ slash :: t) \/ (~ (exists t, prefix = 126 :: slash :: t) /\ u = prefix))
    /\ Forall2 (fun c c' => c' = c /\ c <> 92 \/ c' = slash /\ c = 92) (u ++ pattern) full.
(** The directory where a pattern starts, and its components. *)
Definition Starts (base full start : str) (parts : list str) : Prop :=
  exists lead l, full = repeat slash lead ++ spelled l /\ spelled_ok l /\ parts = map fst l /\ start = (match lead with O => base | _ => [slash] end).
Definition Chosen (look : str -> node) (glob : str -> str -> bool) (build_dir home base prefix pattern f : str) : Prop :=
  exists full start parts, Pattern home prefix pattern full /\ Starts base full start parts /\ Selected look glob build_dir start parts f.

Lemma sections_one c : ~ In slash c -> sections c = [c].
Proof.
  induction c as [|x c IH]; intros N; [reflexivity|]. cbn [sections]. destruct (N.eqb_spec x slash) as [->|X]; [destruct N; cbn; auto|].
  rewrite IH by (intros I; apply N; now right). reflexivity.
Qed.
Lemma sections_cut c s : ~ In slash c -> sections (c ++ slash :: s) = c :: sections s.
Proof.
  induction c as [|x c IH]; intros N; [reflexivity|]. cbn [app sections]. destruct (N.eqb_spec x slash) as [->|X]; [destruct N; cbn; auto|].
  rewrite IH by (intros I; apply N; now right). reflexivity.
Qed.
Lemma parts_slashes n s : parts_of (repeat slash n ++ s) = parts_of s.
Proof. induction n as [|n IH]; [reflexivity|]. rewrite <- IH. reflexivity. Qed.
Lemma parts_spelled l : spelled_ok l -> parts_of (spelled l) = map fst l.
Proof.
  induction l as [|(c, n) l IH]; cbn [spelled spelled_ok map fst]; [reflexivity|]. intros (NE & NS & M & OK).
  assert (C : str_eqb c [] = false) by now apply str_eqb_neq.
  destruct n as [|n].
  - destruct l as [|x l]; [|destruct M; [discriminate|reflexivity]]. cbn [repeat app spelled]. rewrite app_nil_r. unfold parts_of. rewrite sections_one by exact NS. cbn [filter]. now rewrite C.
  - cbn [repeat app]. unfold parts_of. rewrite sections_cut by exact NS. cbn [filter]. rewrite C. cbn [negb]. f_equal. rewrite <- IH by exact OK. apply (parts_slashes n).
Qed.
Lemma spell s : exists lead l, s = repeat slash lead ++ spelled l /\ spelled_ok l.
Proof.
  induction s as [|x s (lead & l & -> & OK)]; [exists 0%nat, []; cbn; auto|]. destruct (N.eqb_spec x slash) as [->|X].
  - exists (S lead), l. auto.
  - destruct lead as [|lead].
    + destruct l as [|(c, n) l].
      * exists 0%nat, [([x], 0%nat)]. cbn. repeat split; auto; [discriminate|intros [E|[]]; congruence].
      * exists 0%nat, ((x :: c, n) :: l). split; [reflexivity|]. cbn [spelled_ok] in *. destruct OK as (NE & NS & M & OK). repeat split; auto; [discriminate|]. intros [E|E]; [congruence|tauto].
    + exists 0%nat, (([x], S lead) :: l). split; [reflexivity|]. cbn [spelled_ok]. repeat split; auto; [discriminate|]. intros [E|[]]. congruence.
Qed.
Lemma spelled_head l : spelled_ok l -> begins_with_slash (spelled l) = false.
Proof.
  destruct l as [|(c, n) l]; [reflexivity|]. intros (NE & NS & _). destruct c as [|x c]; [congruence|]. cbn. apply N.eqb_neq. intros ->. apply NS. now left.
Qed.
Lemma starts_iff base full start ps : Starts base full start ps <-> start = (if begins_with_slash full then [slash] else base) /\ ps = parts_of full.
Proof.
  split.
  - intros (lead & l & -> & OK & -> & ->). rewrite parts_slashes, parts_spelled by exact OK. split; auto.
    destruct lead; [|reflexivity]. cbn [repeat app]. now rewrite spelled_head.
  - intros [-> ->]. destruct (spell full) as (lead & l & -> & OK). exists lead, l. repeat split; auto; [now rewrite parts_slashes, parts_spelled|].
    destruct lead; [|reflexivity]. cbn [repeat app]. now rewrite spelled_head.
Qed.
Lemma pattern_iff home prefix pattern full : Pattern home prefix pattern full <-> full = full_pattern home prefix pattern.
Proof.
  unfold Pattern, full_pattern.
  assert (E : forall u, ((exists t, prefix = 126 :: slash :: t /\ u = home ++ slash :: t) \/ (~ (exists t, prefix = 126 :: slash :: t) /\ u = prefix))
                        <-> u = (if starts_with [126; slash] prefix then home ++ skipn 1 prefix else prefix)).
  { intros u. destruct (starts_with [126; slash] prefix) eqn:E.
    - apply starts_with_spec in E as [t ->]. cbn [app skipn]. split; [intros [(t' & E & ->)|[N _]]; [congruence|destruct N; eauto]|intros ->; left; eauto].
    - assert (N : ~ exists t, prefix = 126 :: slash :: t). { intros [t ->]. rewrite (proj2 (starts_with_spec _ _)) in E; [discriminate|now exists t]. }
      split; [intros [(t & X & _)|[_ X]]; [destruct N; eauto|exact X]|auto]. }
  setoid_rewrite E. clear E. generalize (if starts_with [126; slash] prefix then home ++ skipn 1 prefix else prefix). intros v.
  transitivity (Forall2 (fun c c' => c' = c /\ c <> 92 \/ c' = slash /\ c = 92) (v ++ pattern) full); [split; [intros (u & -> & F); exact F|eauto]|].
  generalize (v ++ pattern). intros u.
  revert full. induction u as [|c u IH]; intros full; cbn [map].
  - split; [intros F; inversion F; reflexivity|intros ->; constructor].
  - split.
    + intros F. inversion F as [|? c' ? full' H F']; subst. f_equal; [|now apply IH]. destruct (N.eqb_spec c 92) as [->|X]; destruct H as [[-> Y]|[-> Y]]; congruence.
    + intros ->. constructor; [|now apply IH]. destruct (N.eqb_spec c 92); auto.
Qed.
Lemma selected_iff look glob build_dir start parts f :
  Selected look glob build_dir start parts f <-> exists parent name, Match look glob start parts parent name /\ starts_with build_dir parent = false /\ f = clean_path (child parent name).
Proof.
  assert (E : forall p, ~ (exists t, p = build_dir ++ t) <-> starts_with build_dir p = false).
  { intros p. rewrite <- starts_with_spec. destruct (starts_with build_dir p); intuition congruence. }
  unfold Selected. setoid_rewrite E. reflexivity.
Qed.
Lemma one_iff look glob build_dir home base prefix pattern l : fs_ok look -> expand_one look glob build_dir home base prefix pattern = Some l ->
  forall f, In f l <-> Chosen look glob build_dir home base prefix pattern f.
Proof.
  intros FS E f. unfold expand_one in E. unfold Chosen.
  set (full := full_pattern home prefix pattern) in *. set (start := if begins_with_slash full then [slash] else base) in *.
  assert (C : (exists full start parts, Pattern home prefix pattern full /\ Starts base full start parts /\ Selected look glob build_dir start parts f)
              <-> Selected look glob build_dir start (parts_of full) f).
  { split.
    - intros (fu & st & ps & P & S & X). apply pattern_iff in P as ->. apply starts_iff in S as [-> ->]. exact X.
    - intros X. exists full, start, (parts_of full). rewrite pattern_iff, starts_iff. auto. }
  rewrite C, selected_iff. destruct (parts_of full) as [|p ps] eqn:P.
  - cbn [expand] in E. match type of E with (if ?b then _ else _) = _ => destruct b end; [|discriminate]. injection E as <-. split; [intros []|].
    intros (parent & name & M & _). now destruct (match_nonempty _ _ _ _ _ _ M).
  - destruct (expand_iff look glob build_dir FS (p :: ps) false start) as (l' & E' & L); [left; discriminate|]. pose proof (eq_trans (eq_sym E) E') as Q. injection Q as <-. apply L.
Qed.
Lemma all_iff look glob build_dir home base prefix patterns l : fs_ok look -> expand_all look glob build_dir home base prefix patterns = Some l ->
  forall f, In f l <-> exists p, In p patterns /\ Chosen look glob build_dir home base prefix p f.
Proof.
  intros FS E f. unfold expand_all in E. destruct (all_of_some (map (expand_one look glob build_dir home base prefix) patterns)) as (r & E' & R).
  { intros x I ->. apply all_of_none in I. congruence. }
  rewrite E in E'. injection E' as <-. rewrite R. split.
  - intros (z & I & J). apply in_map_iff in I as (p & EP & I). exists p. split; auto. eapply one_iff; eauto.
  - intros (p & I & C). destruct (expand_one look glob build_dir home base prefix p) as [z|] eqn:EP.
    + exists z. split; [apply in_map_iff; eauto|]. eapply one_iff; eauto.
    + exfalso. assert (X : all_of (map (expand_one look glob build_dir home base prefix) patterns) = None) by (apply all_of_none, in_map_iff; eauto). congruence.
Qed.
Lemma mem_In x l : mem x l = true <-> In x l.
Proof. unfold mem. rewrite existsb_exists. setoid_rewrite str_eqb_eq. split; [intros (y & I & ->); auto|eauto]. Qed.

(** C67: the files that the patterns of a group stand for are those chosen by a pattern and by none of those to exclude; each is found once. *)
Theorem wildcards_exact look glob build_dir home base prefix patterns excludes files :
  fs_ok look -> wildcards look glob build_dir home base prefix patterns excludes = Some files ->
  NoDup files /\ forall f, In f files <->
    (exists p, In p patterns /\ Chosen look glob build_dir home base prefix p f) /\ ~ (exists e, In e excludes /\ Chosen look glob build_dir home base prefix e f).
Proof.
  intros FS E. unfold wildcards in E. destruct (expand_all look glob build_dir home base prefix patterns) as [a|] eqn:A; [|discriminate].
  destruct (expand_all look glob build_dir home base prefix excludes) as [b|] eqn:B; [|discriminate]. injection E as <-. split; [apply NoDup_nodup|].
  intros f. rewrite nodup_In, filter_In, negb_true_iff, <- (all_iff _ _ _ _ _ _ _ _ FS A), <- (all_iff _ _ _ _ _ _ _ _ FS B).
  rewrite <- (mem_In f b), not_true_iff_false. reflexivity.
Qed.
(** Expanding never fails, unless a pattern consists of slashes only and its start is not in the build directory. *)
Theorem wildcards_defined look glob build_dir home base prefix patterns excludes :
  fs_ok look -> wildcards look glob build_dir home base prefix patterns excludes = None <->
    exists p full start, In p (patterns ++ excludes) /\ Pattern home prefix p full /\ Starts base full start [] /\ ~ (exists t, start = build_dir ++ t).
Proof.
  intros FS.
  assert (O : forall p, expand_one look glob build_dir home base prefix p = None <-> exists full start, Pattern home prefix p full /\ Starts base full start [] /\ ~ (exists t, start = build_dir ++ t)).
  { intros p. unfold expand_one. rewrite (expand_none look glob build_dir FS). split.
    - intros (P & _ & S). eexists _, _. rewrite pattern_iff. split; [reflexivity|]. rewrite starts_iff. split; [split; [reflexivity|now symmetry]|]. rewrite <- starts_with_spec. congruence.
    - intros (full & start & P & S & N). apply pattern_iff in P as ->. apply starts_iff in S as [-> PE]. repeat split; auto. rewrite <- starts_with_spec in N. now apply not_true_is_false. }
  assert (L : forall ps, expand_all look glob build_dir home base prefix ps = None <-> exists p, In p ps /\ expand_one look glob build_dir home base prefix p = None).
  { intros ps. unfold expand_all. rewrite all_of_none, in_map_iff. split; intros (p & X & Y); eauto. }
  transitivity (exists p, In p (patterns ++ excludes) /\ expand_one look glob build_dir home base prefix p = None).
  - unfold wildcards. setoid_rewrite in_app_iff. destruct (expand_all look glob build_dir home base prefix patterns) as [a|] eqn:A.
    + destruct (expand_all look glob build_dir home base prefix excludes) as [b|] eqn:B.
      * split; [discriminate|]. intros (p & [I|I] & E); exfalso; [assert (X : Some a = None)|assert (X : Some b = None)]; try discriminate; [rewrite <- A|rewrite <- B]; apply L; eauto.
      * split; auto. intros _. apply L in B as (p & I & E). eauto.
    + split; auto. intros _. apply L in A as (p & I & E). eauto.
  - setoid_rewrite O. split; [intros (p & I & full & start & X); eauto|intros (p & full & start & I & X); eauto].
Qed.
(** Nothing from the build directory is chosen. *)
Theorem wildcards_outside look glob build_dir home base prefix patterns excludes files :
  fs_ok look -> wildcards look glob build_dir home base prefix patterns excludes = Some files ->
  forall f, In f files -> exists parent name, f = clean_path (child parent name) /\ ~ inside build_dir parent.
Proof.
  intros FS E f I. apply (proj2 (wildcards_exact _ _ _ _ _ _ _ _ _ FS E)) in I as [(p & _ & full & start & ps & _ & _ & parent & name & _ & N & ->) _].
  exists parent, name. split; auto. intros [->|(t & ->)]; apply N; [exists []; now rewrite app_nil_r|eauto].
Qed.
(** What is found again later is the same set of files, if no change is seen. *)
Theorem unchanged_same before now : has_changed false before now = false <-> forall f, In f before <-> In f now.
Proof.
  unfold has_changed. cbn [orb]. rewrite negb_false_iff, andb_true_iff, !forallb_forall. setoid_rewrite mem_In.
  split; [intros [A B] f; split; auto|intros H; split; intros f; apply H].
Qed.

(** ** Source files of groups *)

Definition has_wildcard (f : str) : bool := existsb (fun c => existsb (N.eqb c) [42; 63; 91; 93]) f.
Definition joined (a b : tags) : tags := a ++ filter (fun t => if in_dec str_dec t a then false else true) b.
(** What a group is like in its place: the condition holds with those around it, prefix and tags may come from there. *)
Definition placed (c : context) (g : group) : context :=
  match g with
  | Group _ _ prefix file_tags override condition _ =>
      {| c_enabled := c_enabled c && condition;
         c_prefix := match prefix with None => c_prefix c | Some p => p end;
         c_tags := match file_tags with
                   | None => c_tags c
                   | Some ts => if override then match ts with [] => [text "unknown-file-tag"] | _ => ts end else joined ts (c_tags c)
                   end |}
  end.
Fixpoint flat (c : context) (g : group) : list (context * group) :=
  (placed c g, g) :: match g with Group _ _ _ _ _ _ children => flat_map (flat (placed c g)) children end.
Definition top (enabled : bool) : context := {| c_enabled := enabled; c_prefix := []; c_tags := [] |}.
Definition flat_all (enabled : bool) (l : list group) : list (context * group) := flat_map (flat (top enabled)) l.
Lemma has_wildcard_iff f : has_wildcard f = is_pattern f.
Proof.
  induction f as [|c f IH]; [reflexivity|]. change (has_wildcard (c :: f)) with (existsb (N.eqb c) [42; 63; 91; 93] || has_wildcard f). rewrite IH.
  unfold is_pattern. cbn [existsb]. f_equal. destruct (c =? 42), (c =? 63), (c =? 91), (c =? 93); reflexivity.
Qed.
Lemma unite_joined a b : unite a b = joined a b.
Proof.
  unfold unite, joined. f_equal. induction b as [|t b IH]; [reflexivity|]. cbn [filter]. rewrite IH. destruct (in_dec str_dec t a) as [I|I].
  - apply mem_In in I. now rewrite I.
  - destruct (mem t a) eqn:M; [apply mem_In in M; tauto|reflexivity].
Qed.
Lemma filter_ext_rev {A} (f g : A -> bool) l : (forall x, f x = g x) -> filter f l = filter g l.
Proof. intros H. induction l as [|x l IH]; [reflexivity|]. cbn [filter]. now rewrite H, IH. Qed.
Lemma all_of_app {A} (a b : list (option (list A))) : all_of (a ++ b) = match all_of a with None => None | Some x => match all_of b with None => None | Some y => Some (x ++ y) end end.
Proof.
  induction a as [|[x|] a IH]; cbn [app all_of]; [now destruct (all_of b)| |reflexivity]. rewrite IH. destruct (all_of a); [|reflexivity]. destruct (all_of b); [now rewrite app_assoc|reflexivity].
Qed.
Section GroupSpec.
Context (look : str -> node) (glob : str -> str -> bool) (exists_file : str -> bool) (build_dir home base : str).
Definition place (f : str) : str := clean_path (resolve_path Unix home base f).
(** The files of one group: what its patterns stand for and what it names. *)
Definition found (x : context * group) : option (list str) :=
  let (c, g) := x in match g with Group files excludes _ _ _ _ _ =>
    if existsb has_wildcard files then wildcards look glob build_dir home base (c_prefix c) (rev (filter has_wildcard files)) excludes else Some [] end.
Definition named (x : context * group) : list str :=
  let (c, g) := x in match g with Group files _ _ _ _ _ _ => map (app (c_prefix c)) (filter (fun f => negb (has_wildcard f)) files) end.
Definition entry (x : context * group) (wildcard : bool) (f : str) : source :=
  let (c, g) := x in match g with Group _ _ _ _ override _ _ =>
    {| s_path := place f; s_tags := c_tags c; s_override := override; s_enabled := c_enabled c; s_wildcard := wildcard |} end.
Definition own (x : context * group) : option (list source) :=
  match found x with None => None | Some fs => Some (map (entry x true) fs ++ map (entry x false) (named x)) end.
Definition offered (l : list (context * group)) : option (list source) := all_of (map own l).

Definition add (s : source) (out : list source) : option (list source) :=
  if negb (s_wildcard s) && negb (exists_file (s_path s)) then if s_enabled s then None else Some out
  else if s_enabled s && existsb (fun s' => s_enabled s' && str_eqb (s_path s') (s_path s)) out then None else Some (out ++ [s]).
Fixpoint add_all (l : list source) (out : list source) : option (list source) :=
  match l with [] => Some out | s :: l => match add s out with None => None | Some out => add_all l out end end.
Lemma add_app a b out : add_all (a ++ b) out = match add_all a out with None => None | Some out => add_all b out end.
Proof. revert out. induction a as [|x a IH]; intros out; cbn [app add_all]; [reflexivity|]. destruct (add x out); auto. Qed.
Lemma create_add x wildcard fs out : create_all exists_file home base (c_enabled (fst x)) (match snd x with Group _ _ _ _ o _ _ => o end) wildcard (c_tags (fst x)) fs out
  = add_all (map (entry x wildcard) fs) out.
Proof.
  revert out. destruct x as [c [files ex pre ft o cond ch]]. cbn [fst snd]. induction fs as [|f fs IH]; intros out; [reflexivity|]. cbn [create_all map add_all].
  unfold create at 1, add at 1, entry at 1 2 3 4 5 6. cbn [s_wildcard s_path s_enabled]. unfold place.
  destruct (negb wildcard && negb _); [destruct (c_enabled c); auto|]. destruct (c_enabled c && _); auto.
Qed.
Fixpoint group_ind' (P : group -> Prop) (H : forall f e p t o c ch, Forall P ch -> P (Group f e p t o c ch)) (g : group) : P g :=
  match g with
  | Group f e p t o c ch => H f e p t o c ch ((fix go l : Forall P l := match l with [] => Forall_nil _ | g :: l => Forall_cons g (group_ind' P H g) (go l) end) ch)
  end.
Definition done (l : list (context * group)) (out : list source) : option (list source) := match offered l with None => None | Some os => add_all os out end.
Lemma done_app a b out : done (a ++ b) out = match done a out with None => None | Some out => done b out end.
Proof.
  unfold done, offered. rewrite map_app, all_of_app. destruct (all_of (map own a)) as [x|]; [|reflexivity]. destruct (all_of (map own b)) as [y|].
  - apply add_app.
  - now destruct (add_all x out).
Qed.
Lemma placed_eq c f e p t o cond ch : placed c (Group f e p t o cond ch) = {| c_enabled := c_enabled c && cond; c_prefix := group_prefix c p; c_tags := group_tags c t o |}.
Proof.
  unfold placed, group_prefix, group_tags. f_equal. destruct t as [ts|]; destruct o; rewrite ?unite_joined; try reflexivity.
  all: assert (J : forall l, l = joined [] l) by (induction l as [|x l IH]; [reflexivity|]; exact (f_equal (cons x) IH)).
  all: apply J.
Qed.
Lemma resolve_done g : forall c out, resolve look glob exists_file build_dir home base c g out = done (flat c g) out.
Proof.
  induction g as [f e p t o cond ch IH] using group_ind'; intros c out. cbn [flat]. rewrite placed_eq.
  set (c' := {| c_enabled := c_enabled c && cond; c_prefix := group_prefix c p; c_tags := group_tags c t o |}). cbn [resolve]. fold c'.
  set (x := (c', Group f e p t o cond ch)).
  change (x :: flat_map (flat c') ch) with ([x] ++ flat_map (flat c') ch). rewrite done_app.
  assert (F : (match rev (filter is_pattern f) with [] => Some [] | _ => wildcards look glob build_dir home base (group_prefix c p) (rev (filter is_pattern f)) e end) = found x).
  { cbn [found x]. rewrite (filter_ext_rev has_wildcard is_pattern) by apply has_wildcard_iff.
    destruct (existsb has_wildcard f) eqn:X.
    - apply existsb_exists in X as (y & I & X). rewrite has_wildcard_iff in X. assert (J : In y (rev (filter is_pattern f))) by (rewrite <- in_rev, filter_In; auto).
      destruct (rev (filter is_pattern f)); [destruct J|reflexivity].
    - assert (N : filter is_pattern f = []); [|now rewrite N]. clear -X. induction f as [|y f IH]; [reflexivity|]. cbn [existsb] in X. apply orb_false_iff in X as [X1 X2].
      cbn [filter]. rewrite <- has_wildcard_iff, X1. auto. }
  rewrite F. assert (D : done [x] out = match found x with None => None | Some fs => add_all (map (entry x true) fs ++ map (entry x false) (named x)) out end).
  { unfold done, offered. cbn [map all_of]. unfold own. destruct (found x); [|reflexivity]. cbn [app]. now rewrite app_nil_r. }
  rewrite D. destruct (found x) as [fs|]; [|reflexivity].
  pose proof (create_add x true fs out) as CA. cbn [fst snd x c' c_enabled c_tags] in CA. rewrite CA, add_app.
  match goal with |- context [add_all ?a out] => destruct (add_all a out) as [out1|]; [|reflexivity] end.
  assert (NM : map (fun f => group_prefix c p ++ f) (filter (fun f => negb (is_pattern f)) f) = named x).
  { cbn [named x c' c_prefix]. f_equal. apply filter_ext_rev. intros y. now rewrite has_wildcard_iff. }
  rewrite NM. pose proof (create_add x false (named x) out1) as CB. cbn [fst snd x c' c_enabled c_tags] in CB. rewrite CB.
  match goal with |- context [add_all ?a out1] => destruct (add_all a out1) as [out2|]; [|reflexivity] end.
  clear - IH. revert out2. induction IH as [|g l H _ IHl]; intros out2; [reflexivity|]. cbn [flat_map]. rewrite done_app, H.
  destruct (done (flat c' g) out2); [apply IHl|reflexivity].
Qed.
Lemma sources_done b l : sources look glob exists_file build_dir home base b l = done (flat_all b l) [].
Proof.
  unfold sources, flat_all. fold (top b). generalize (@nil source). induction l as [|g l IH]; intros out; [reflexivity|]. cbn [resolve_all flat_map]. rewrite done_app, resolve_done.
  destruct (done (flat (top b) g) out); auto.
Qed.
Definition kept (s : source) : bool := s_wildcard s || exists_file (s_path s).
Definition paths (l : list source) : list str := map s_path (filter s_enabled l).
Lemma add_all_iff os : forall out r, NoDup (paths out) -> add_all os out = Some r <->
  (forall s, In s os -> s_enabled s = true -> s_wildcard s = false -> exists_file (s_path s) = true) /\ NoDup (paths (out ++ os)) /\ r = out ++ filter kept os.
Proof.
  induction os as [|s os IH]; intros out r ND.
  - cbn [add_all filter]. rewrite app_nil_r. split; [intros E; injection E as <-; repeat split; auto; intros s []|intros (_ & _ & ->); reflexivity].
  - cbn [add_all]. unfold add.
    assert (PA : forall a b, paths (a ++ b) = paths a ++ paths b) by (intros; unfold paths; now rewrite filter_app, map_app).
    assert (P1 : paths (s :: os) = (if s_enabled s then [s_path s] else []) ++ paths os) by (unfold paths; cbn [filter]; destruct (s_enabled s); reflexivity).
    assert (K : negb (s_wildcard s) && negb (exists_file (s_path s)) = negb (kept s)) by (unfold kept; now rewrite negb_orb). rewrite K.
    cbn [filter]. destruct (kept s) eqn:KS; cbn [negb].
    + assert (EX : existsb (fun s' => s_enabled s' && str_eqb (s_path s') (s_path s)) out = true <-> In (s_path s) (paths out)).
      { rewrite existsb_exists. unfold paths. rewrite in_map_iff. setoid_rewrite filter_In. setoid_rewrite andb_true_iff. setoid_rewrite str_eqb_eq. firstorder. }
      destruct (s_enabled s && existsb (fun s' => s_enabled s' && str_eqb (s_path s') (s_path s)) out) eqn:D.
      * split; [discriminate|]. intros (_ & N & _). exfalso. apply andb_true_iff in D as [SE D]. apply EX in D. rewrite PA, P1, SE in N. cbn [app] in N.
        apply NoDup_remove_2 in N. apply N. apply in_or_app. auto.
      * rewrite IH.
        -- rewrite <- app_assoc. cbn [app]. rewrite <- app_assoc. cbn [app]. split; intros (A & B & C); repeat split; auto.
           ++ intros s' [<-|I]; auto. intros SE W. unfold kept in KS. rewrite W in KS. exact KS.
           ++ intros s' I. apply A. now right.
        -- rewrite PA. unfold paths at 2. cbn [filter]. destruct (s_enabled s) eqn:SE; cbn [map]; [|now rewrite app_nil_r]. cbn [andb] in D.
           assert (NI : ~ In (s_path s) (paths out)) by (rewrite <- EX; congruence).
           apply (NoDup_Add (a := s_path s) (l := paths out)); [|auto]. pose proof (Add_app (s_path s) (paths out) []) as AD. rewrite app_nil_r in AD. exact AD.
    + assert (W : s_wildcard s = false /\ exists_file (s_path s) = false) by (unfold kept in KS; apply orb_false_iff in KS; auto). destruct W as [W X].
      destruct (s_enabled s) eqn:SE.
      * split; [discriminate|]. intros (A & _). specialize (A s (or_introl eq_refl) SE W). congruence.
      * rewrite IH by exact ND. rewrite !PA, P1. cbn [app]. split; intros (A & B & C); repeat split; auto.
        -- intros s' [<-|I]; [congruence|auto].
        -- intros s' I. apply A. now right.
Qed.
(** C68: resolving succeeds if and only if the files of enabled groups exist and none is there twice; then it yields exactly the files
    of the groups, in their order, without those of disabled groups that do not exist. *)
Theorem sources_exact enabled l out : sources look glob exists_file build_dir home base enabled l = Some out <->
  exists os, offered (flat_all enabled l) = Some os
    /\ (forall s, In s os -> s_enabled s = true -> s_wildcard s = false -> exists_file (s_path s) = true)
    /\ NoDup (paths os) /\ out = filter kept os.
Proof.
  rewrite sources_done. unfold done. destruct (offered (flat_all enabled l)) as [os|].
  - rewrite (add_all_iff os [] out (NoDup_nil _)). cbn [app]. split; [intros H; exists os; auto|intros (os' & E & H); injection E as <-; exact H].
  - split; [discriminate|intros (os & E & _); discriminate].
Qed.
(** The files of an enabled source: each belongs to an enabled group that names it or has a pattern for it. *)
Theorem source_origin enabled l out : sources look glob exists_file build_dir home base enabled l = Some out ->
  NoDup (map s_path (filter s_enabled out)) /\
  forall p, In p (map s_path (filter s_enabled out)) <->
    exists x, In x (flat_all enabled l) /\ c_enabled (fst x) = true /\ exists f, p = place f /\ (In f (named x) \/ exists fs, found x = Some fs /\ In f fs).
Proof.
  intros E. apply sources_exact in E as (os & O & EX & ND & ->).
  assert (P : filter s_enabled (filter kept os) = filter s_enabled os).
  { clear ND O. induction os as [|s os IH]; [reflexivity|]. cbn [filter]. unfold kept at 1. destruct (s_wildcard s) eqn:W; cbn [orb filter].
    - rewrite IH by (intros s' I; apply EX; now right). reflexivity.
    - destruct (s_enabled s) eqn:SE.
      + rewrite (EX s (or_introl eq_refl) SE W). cbn [filter]. rewrite SE, IH by (intros s' I; apply EX; now right). reflexivity.
      + destruct (exists_file (s_path s)); cbn [filter]; rewrite ?SE; apply IH; intros s' I; apply EX; now right. }
  rewrite P. split; [exact ND|]. intros p. rewrite in_map_iff. setoid_rewrite filter_In.
  assert (IO : forall s, In s os <-> exists x ss, In x (flat_all enabled l) /\ own x = Some ss /\ In s ss).
  { intros s. destruct (all_of_some (map own (flat_all enabled l))) as (r & R & RI).
    { intros y I ->. apply all_of_none in I. unfold offered in O. congruence. }
    unfold offered in O. rewrite O in R. injection R as <-. rewrite RI. split.
    - intros (z & I & J). apply in_map_iff in I as (x & X & I). eauto.
    - intros (x & ss & I & X & J). exists ss. split; auto. apply in_map_iff. eauto. }
  assert (EN : forall x w f, s_path (entry x w f) = place f /\ s_enabled (entry x w f) = c_enabled (fst x)) by (intros [c [? ? ? ? ? ? ?]] w f; split; reflexivity).
  split.
  - intros (s & <- & I & SE). apply IO in I as (x & ss & I & O' & J). exists x. unfold own in O'. destruct (found x) as [fs|] eqn:F; [|discriminate]. injection O' as <-.
    apply in_app_iff in J as [J|J]; apply in_map_iff in J as (f & <- & J); destruct (EN x true f) as [A B], (EN x false f) as [A' B'].
    + rewrite B in SE. split; auto. split; auto. exists f. split; auto. right. eauto.
    + rewrite B' in SE. split; auto. split; auto. exists f. split; auto.
  - intros (x & I & SE & f & -> & J).
    assert (OW : exists fs, found x = Some fs).
    { destruct (found x) eqn:F; eauto. exfalso. assert (X : all_of (map own (flat_all enabled l)) = None); [|unfold offered in O; congruence].
      apply all_of_none, in_map_iff. exists x. split; auto. unfold own. now rewrite F. }
    destruct OW as [fs F]. assert (OW : own x = Some (map (entry x true) fs ++ map (entry x false) (named x))) by (unfold own; now rewrite F).
    destruct J as [J|(fs' & F' & J)].
    + exists (entry x false f). destruct (EN x false f) as [A B]. split; auto. split; [|congruence]. apply IO. exists x. eexists. split; [exact I|]. split; [exact OW|]. apply in_app_iff. right. now apply in_map.
    + rewrite F in F'. injection F' as <-. exists (entry x true f). destruct (EN x true f) as [A B]. split; auto. split; [|congruence]. apply IO. exists x. eexists. split; [exact I|]. split; [exact OW|]. apply in_app_iff. left. now apply in_map.
Qed.
End GroupSpec.

(** ** File tags *)

Section TagSpec.
Context (rx : str -> str -> bool).
Definition matches (name : str) (t : tagger) : Prop := exists p, In p (f_patterns t) /\ rx p name = true.
(** A tag from a tagger that matches, with none of higher priority that does. *)
Definition from_tagger (name : str) (l : list tagger) (x : str) : Prop :=
  exists t, In t l /\ matches name t /\ In x (f_tags t) /\ forall u, In u l -> matches name u -> (f_priority u <= f_priority t)%Z.

Lemma unite_In a b x : In x (unite a b) <-> In x a \/ In x b.
Proof.
  rewrite unite_joined. unfold joined. rewrite in_app_iff, filter_In. destruct (in_dec str_dec x a); intuition discriminate.
Qed.
Lemma tags_match_iff name t : tags_match rx name t = true <-> matches name t.
Proof. unfold tags_match, matches. now rewrite existsb_exists. Qed.
Fixpoint falling (l : list tagger) : Prop := match l with [] => True | t :: l => (forall u, In u l -> (f_priority u <= f_priority t)%Z) /\ falling l end.
Lemma insert_In t l x : In x (insert t l) <-> x = t \/ In x l.
Proof.
  induction l as [|u l IH]; cbn [insert]; [cbn; intuition|]. destruct (f_priority u <? f_priority t)%Z; cbn [In]; [intuition|]. rewrite IH. intuition.
Qed.
Lemma insert_falling t l : falling l -> falling (insert t l).
Proof.
  induction l as [|u l IH]; cbn [insert falling]; [intros _; split; auto; intros u []|]. intros [H F]. destruct (Z.ltb_spec (f_priority u) (f_priority t)) as [L|L]; cbn [falling].
  - split; [|auto]. intros v [<-|I]; [lia|]. specialize (H v I). lia.
  - split; [|auto]. intros v I. apply insert_In in I as [->|I]; [lia|auto].
Qed.
Lemma sort_In l x : In x (sort_taggers l) <-> In x l.
Proof. unfold sort_taggers. induction l as [|t l IH]; [tauto|]. cbn [fold_right In]. rewrite insert_In, IH. intuition. Qed.
Lemma sort_falling l : falling (sort_taggers l).
Proof. unfold sort_taggers. induction l as [|t l IH]; [exact Logic.I|]. cbn [fold_right]. now apply insert_falling. Qed.
Lemma loop_some name p l : forall out x, falling l -> (forall u, In u l -> (f_priority u <= p)%Z) ->
  In x (tags_loop rx name (Some p) out l) <-> In x out \/ exists t, In t l /\ matches name t /\ f_priority t = p /\ In x (f_tags t).
Proof.
  induction l as [|t l IH]; intros out x F B; cbn [tags_loop].
  - split; auto. intros [H|(t & [] & _)]. exact H.
  - destruct F as [F1 F2]. assert (B' : forall u, In u l -> (f_priority u <= p)%Z) by (intros; apply B; now right).
    destruct (tags_match rx name t) eqn:M.
    + apply tags_match_iff in M. destruct (Z.eqb_spec p (f_priority t)) as [->|NE].
      * rewrite IH by auto. rewrite unite_In. split.
        -- intros [[H|H]|(u & I & H)]; [auto|right; exists t; cbn; auto|right; exists u; cbn; auto].
        -- intros [H|(u & [<-|I] & MM & PP & H)]; [auto|auto|right; exists u; auto].
      * split; auto. intros [H|(u & [<-|I] & MM & PP & H)]; [auto|congruence|]. pose proof (B t (or_introl eq_refl)). specialize (F1 u I). lia.
    + rewrite IH by auto. assert (NM : ~ matches name t) by (rewrite <- tags_match_iff; congruence). split.
      * intros [H|(u & I & H)]; [auto|right; exists u; cbn; auto].
      * intros [H|(u & [<-|I] & MM & H)]; [auto|tauto|right; exists u; auto].
Qed.
Lemma loop_none name l x : falling l -> In x (tags_loop rx name None [] l) <-> from_tagger name l x.
Proof.
  induction l as [|t l IH]; intros F; cbn [tags_loop].
  - split; [intros []|intros (t & [] & _)].
  - destruct F as [F1 F2]. destruct (tags_match rx name t) eqn:M.
    + apply tags_match_iff in M. rewrite loop_some by auto. rewrite unite_In. split.
      * intros [[[]|H]|(u & I & MM & PP & H)].
        -- exists t. repeat split; cbn; auto. intros u [<-|I] _; [lia|auto].
        -- exists u. repeat split; cbn; auto. intros v [<-|I'] _; [lia|]. rewrite PP. auto.
      * intros (u & [<-|I] & MM & H & B); [auto|]. right. exists u. repeat split; auto. pose proof (B t (or_introl eq_refl) M). specialize (F1 u I). lia.
    + assert (NM : ~ matches name t) by (rewrite <- tags_match_iff; congruence). rewrite IH by auto. split.
      * intros (u & I & MM & H & B). exists u. repeat split; cbn; auto. intros v [<-|I'] MV; [tauto|auto].
      * intros (u & [<-|I] & MM & H & B); [tauto|]. exists u. repeat split; auto. intros v I' MV. apply B; cbn; auto.
Qed.

(** C69: the taggers add the tags of those that match and have the highest priority, in whatever order they are declared. *)
Theorem taggers_exact name l x : In x (tags_for rx name (sort_taggers l)) <-> from_tagger name l x.
Proof.
  unfold tags_for. rewrite loop_none by apply sort_falling. unfold from_tagger. setoid_rewrite sort_In. reflexivity.
Qed.
(** The tags of a source file: those of its group, and those of taggers unless the group has tags and overrides; a file has a tag in
    any case. *)
Theorem tagged_exact product_taggers project_taggers s x :
  let extra x := (s_override s = false \/ s_tags s = []) /\ from_tagger (file_name (s_path s)) (product_taggers ++ project_taggers) x in
  In x (tagged rx (sort_taggers (product_taggers ++ project_taggers)) s) <->
    In x (s_tags s) \/ extra x \/ (x = text "unknown-file-tag" /\ s_tags s = [] /\ forall y, ~ extra y).
Proof.
  intros extra. unfold tagged. set (l := product_taggers ++ project_taggers) in *.
  assert (C : negb (s_override s) || (match s_tags s with [] => true | _ => false end) = true <-> (s_override s = false \/ s_tags s = [])).
  { rewrite orb_true_iff, negb_true_iff. destruct (s_tags s); intuition discriminate. }
  destruct (negb (s_override s) || (match s_tags s with [] => true | _ => false end)) eqn:E.
  - assert (C' : s_override s = false \/ s_tags s = []) by now apply C.
    assert (U : forall y, In y (unite (s_tags s) (tags_for rx (file_name (s_path s)) (sort_taggers l))) <-> In y (s_tags s) \/ extra y).
    { intros y. rewrite unite_In, taggers_exact. unfold extra. tauto. }
    destruct (unite (s_tags s) (tags_for rx (file_name (s_path s)) (sort_taggers l))) as [|a r] eqn:UE.
    + assert (ST : s_tags s = []). { destruct (s_tags s) as [|y ys]; auto. destruct (proj2 (U y)). left. now left. }
      assert (NE : forall y, ~ extra y). { intros y X. destruct (proj2 (U y) (or_intror X)). }
      cbn [In]. rewrite ST. cbn [In]. split; [intros [<-|[]]; right; right; repeat split; auto|intros [[]|[X|(-> & _)]]; [now destruct (NE x)|now left]].
    + rewrite U. split; [tauto|]. intros [H|[H|(-> & ST & NE)]]; auto. exfalso. destruct (proj1 (U a) (or_introl eq_refl)) as [H|H]; [rewrite ST in H; destruct H|now apply (NE a)].
  - assert (C' : ~ (s_override s = false \/ s_tags s = [])) by (rewrite <- C; congruence). unfold extra. split; [auto|]. intros [H|[[H _]|(_ & ST & _)]]; auto; exfalso; tauto.
Qed.
Theorem tagged_nonempty taggers s : tagged rx taggers s <> [].
Proof.
  unfold tagged. destruct (s_tags s) as [|t ts] eqn:E; destruct (s_override s); cbn [negb orb]; try discriminate.
  all: match goal with |- context [match ?u with [] => [unknown_tag] | _ => _ end] => destruct u eqn:U end; discriminate.
Qed.
(** The groups with a filter: each adds its tags to the files that have one of its tags by then. *)
Definition meets (f : tags) (ts : str -> Prop) : Prop := exists x, In x f /\ ts x.
Fixpoint after (filters : list (tags * tags)) (ts : str -> Prop) : str -> Prop :=
  match filters with
  | [] => ts
  | (f, extra) :: l => after l (fun x => ts x \/ (meets f ts /\ In x extra))
  end.
Lemma after_ext filters : forall P Q, (forall x, P x <-> Q x) -> forall x, after filters P x <-> after filters Q x.
Proof.
  induction filters as [|(f, e) l IH]; intros P Q H x; cbn [after]; [apply H|]. apply IH. intros y. unfold meets. setoid_rewrite H. reflexivity.
Qed.
Theorem filtered_exact filters : forall ts x, In x (filtered filters ts) <-> after filters (fun y => In y ts) x.
Proof.
  induction filters as [|(f, e) l IH]; intros ts x; cbn [filtered after]; [reflexivity|]. rewrite IH. apply after_ext. intros y.
  assert (M : existsb (fun t => mem t f) ts = true <-> meets f (fun y => In y ts)).
  { unfold meets. rewrite existsb_exists. setoid_rewrite mem_In. split; intros (z & A & B); eauto. }
  destruct (existsb (fun t => mem t f) ts) eqn:E; [rewrite unite_In; tauto|]. assert (~ meets f (fun y => In y ts)) by (rewrite <- M; congruence). tauto.
Qed.
(** If no group adds a tag that is in the filter of one, the order of the groups does not matter. *)
Theorem filtered_unordered filters ts x : (forall f e f' e', In (f, e) filters -> In (f', e') filters -> forall y, In y e -> ~ In y f') ->
  In x (filtered filters ts) <-> In x ts \/ exists f e, In (f, e) filters /\ (exists y, In y f /\ In y ts) /\ In x e.
Proof.
  rewrite filtered_exact. intros H.
  assert (G : forall filters (T : str -> Prop), (forall f e, In (f, e) filters -> forall y, In y f -> T y -> In y ts) -> (forall y, In y ts -> T y) ->
    (forall f e f' e', In (f, e) filters -> In (f', e') filters -> forall y, In y e -> ~ In y f') ->
    forall x, after filters T x <-> T x \/ exists f e, In (f, e) filters /\ (exists y, In y f /\ In y ts) /\ In x e).
  { clear. induction filters as [|(f, e) l IH]; intros T A B H x; cbn [after].
    - split; auto. intros [X|(f & e & [] & _)]. exact X.
    - assert (M : meets f T <-> exists y, In y f /\ In y ts).
      { unfold meets. split; intros (y & I & J); exists y; split; auto. apply (A f e); cbn; auto. }
      rewrite IH.
      + rewrite M. split.
        * intros [[X|[X Y]]|(f' & e' & I & X)]; [auto|right; exists f, e; cbn; auto|right; exists f', e'; cbn; auto].
        * intros [X|(f' & e' & [E|I] & X & Y)]; [auto|injection E as <- <-; auto|right; exists f', e'; auto].
      + intros f' e' I y J [X|[_ X]]; [apply (A f' e'); cbn; auto|]. exfalso. apply (H f e f' e' (or_introl eq_refl) (or_intror I) y X J).
      + auto.
      + intros f1 e1 f2 e2 I1 I2. apply (H f1 e1 f2 e2); now right. }
  apply G; auto.
Qed.
Theorem final_tags_exact product_taggers project_taggers filters install s x :
  In x (final_tags rx product_taggers project_taggers filters install s) <->
    (install = true /\ x = text "installable") \/ after filters (fun y => In y (tagged rx (sort_taggers (product_taggers ++ project_taggers)) s)) x.
Proof.
  unfold final_tags. rewrite <- filtered_exact. destruct install; [rewrite unite_In; cbn [In]|]; intuition congruence.
Qed.
End TagSpec.

(** ** Refutations *)

Module SourcesDemo.
  Definition t := text.
  (** Matches itself, or all with this suffix after a star. *)
  Definition glob (p n : str) : bool := match p with c :: r => if c =? 42 then str_eqb r (skipn (List.length n - List.length r) n) else str_eqb p n | [] => false end.
  Definition tree (l : list (str * list (str * node))) (d : str) : node :=
    match find (fun e => str_eqb (fst e) d) l with Some e => NDir (snd e) | None => NFile end.
  Definition node_eqb : node -> node -> bool :=
    fix go a b := match a, b with
      | NFile, NFile => true
      | NLink x, NLink y => Bool.eqb x y
      | NDir l, NDir m => (fix gl l m := match l, m with [] , [] => true | (n, a) :: l, (n', b) :: m => str_eqb n n' && go a b && gl l m | _, _ => false end) l m
      | _, _ => false
      end.
  Lemma node_eqb_eq a : forall b, node_eqb a b = true -> a = b.
  Proof.
    induction a as [|x|l IH] using node_ind'; intros [|y|m]; cbn; try discriminate; auto.
    - intros E. apply Bool.eqb_prop in E. congruence.
    - intros E. f_equal. revert m E. induction IH as [|[n a] l H _ IHl]; intros [|[n' b] m]; try discriminate; auto. intros E.
      apply andb_true_iff in E as [E E3]. apply andb_true_iff in E as [E1 E2]. apply str_eqb_eq in E1. cbn [snd] in H. apply H in E2. apply IHl in E3. congruence.
  Qed.
  Definition tree_ok (l : list (str * list (str * node))) : bool :=
    forallb (fun e => forallb (fun f => match snd f with NDir _ => node_eqb (tree l (child (fst e) (fst f))) (snd f) | _ => true end) (snd e)) l.
  Lemma tree_fs_ok l : tree_ok l = true -> fs_ok (tree l).
  Proof.
    intros H d n m (k & E & I). unfold tree in E. destruct (find (fun e => str_eqb (fst e) d) l) as [[d' es]|] eqn:F; [|discriminate]. injection E as ->.
    apply find_some in F as [J D]. cbn [fst] in D. apply str_eqb_eq in D. subst d'. unfold tree_ok in H. rewrite forallb_forall in H. specialize (H _ J). cbn [snd fst] in H.
    rewrite forallb_forall in H. specialize (H _ I). cbn [snd fst] in H. now apply node_eqb_eq.
  Qed.
  Definition a_c : str * node := (t "a.c", NFile).
  Definition disk := [(t "/p", [a_c; (t "sub", NDir [a_c; (t "b.c", NFile)]); (t "build", NDir [a_c]); (t "build-tools", NDir [a_c]); (t ".git", NDir [(t "hooks", NDir [a_c])])]);
    (t "/p/sub", [a_c; (t "b.c", NFile)]); (t "/p/build", [a_c]); (t "/p/build-tools", [a_c]); (t "/p/.git", [(t "hooks", NDir [a_c])]); (t "/p/.git/hooks", [a_c])].
  Example disk_ok : fs_ok (tree disk). Proof. apply tree_fs_ok. vm_compute. reflexivity. Qed.
  Definition wild := wildcards (tree disk) glob (t "/p/build") (t "/home/me") (t "/p").
  (** Files in the whole tree but not in the build directory; one is excluded. *)
  Example wild_1 : wild [] [t "**/*.c"] [t "sub/b.c"] = Some [t "/p/a.c"; t "/p/sub/a.c"]. Proof. vm_compute. reflexivity. Qed.
  Example wild_2 : wild (t "sub/") [t "?.h"; t "*.c"; t "b*"] [] = Some [t "/p/sub/a.c"; t "/p/sub/b.c"]. Proof. vm_compute. reflexivity. Qed.
  Example wild_3 : wild [] [t "**"] [] = Some [t "/p/a.c"; t "/p/sub/a.c"; t "/p/sub/b.c"]. Proof. vm_compute. reflexivity. Qed.
  Example changed_1 : has_changed false [t "a"; t "b"] [t "b"; t "a"] = false /\ has_changed false [t "a"] [t "b"; t "a"] = true. Proof. vm_compute. auto. Qed.
  Example outside_1 : exists f, In f [t "/p/sub/a.c"] /\ wild (t "sub/") [t "a*"; t "*a.c"] [] = Some [f]. Proof. exists (t "/p/sub/a.c"). vm_compute. auto. Qed.
  Definition exists_file (f : str) : bool := existsb (str_eqb f) [t "/p/a.c"; t "/p/sub/b.c"; t "/p/main.c"].
  Definition g (files : list str) (excludes : list str) (prefix : option str) (ts : option tags) (override condition : bool) ch := Group files excludes prefix ts override condition ch.
  Definition groups := [g [t "a.c"] [] None None true true []; g [t "*.c"] [t "a.c"] (Some (t "sub/")) (Some [t "c"]) true true [g [t "none.c"] [] None (Some [t "x"]) false false []]].
  Definition srcs := sources (tree disk) glob exists_file (t "/p/build") (t "/home/me") (t "/p") true.
  Example sources_1 : option_map (map (fun s => (s_path s, s_tags s))) (srcs groups) = Some [(t "/p/a.c", []); (t "/p/sub/b.c", [t "c"])]. Proof. vm_compute. reflexivity. Qed.
  Example sources_twice : srcs [g [t "a.c"] [] None None true true []; g [t "./a.c"] [] None None true true []] = None. Proof. vm_compute. reflexivity. Qed.
  Example sources_twice_disabled : srcs [g [t "a.c"] [] None None true true []; g [t "./a.c"; t "no.c"] [] None None true false []] <> None. Proof. vm_compute. discriminate. Qed.
  Definition c_tagger := {| f_patterns := [t "*.c"]; f_tags := [t "c"]; f_priority := 0 |}.
  Definition main_tagger := {| f_patterns := [t "*main.c"; t "x"]; f_tags := [t "main"; t "m"]; f_priority := 1 |}.
  Example taggers_1 : tags_for glob (t "main.c") (sort_taggers [c_tagger; main_tagger; c_tagger]) = [t "main"; t "m"]. Proof. vm_compute. reflexivity. Qed.
  Definition src (ts : tags) (override : bool) := {| s_path := t "/p/a.c"; s_tags := ts; s_override := override; s_enabled := true; s_wildcard := false |}.
  Example tagged_1 : tagged glob [c_tagger] (src [t "hpp"] true) = [t "hpp"] /\ tagged glob [c_tagger] (src [] true) = [t "c"] /\ tagged glob [] (src [] true) = [unknown_tag]. Proof. vm_compute. auto. Qed.
  Example filtered_1 : filtered [([t "c"; t "d"], [t "e"]); ([t "x"], [t "y"])] [t "b"; t "c"] = [t "b"; t "c"; t "e"]. Proof. vm_compute. reflexivity. Qed.
  Example final_1 : final_tags glob [c_tagger] [] [([t "c"], [t "e"])] true (src [] true) = [t "c"; t "e"; t "installable"]. Proof. vm_compute. reflexivity. Qed.
End SourcesDemo.
Import SourcesDemo.

(** C67: a file is left out only because the name of its directory starts like that of the build directory. *)
Theorem wildcards_sibling_refuted : exists look glob build_dir home base pattern parent name,
  fs_ok look /\ Match look glob base pattern parent name /\ ~ inside build_dir parent /\
  wildcards look glob build_dir home base [] [join_slash pattern] [] = Some [].
Proof.
  exists (tree disk), glob, (t "/p/build"), [], (t "/p"), [t "build-tools"; t "*.c"], (t "/p/build-tools"), (t "a.c").
  split; [exact disk_ok|]. split; [|split].
  - apply (M_dir _ _ (t "/p") (t "build-tools") [t "*.c"] (t "build-tools") (NDir [a_c])); try discriminate.
    + eexists. split; [vm_compute; reflexivity|]. vm_compute. tauto.
    + right. eauto.
    + vm_compute. reflexivity.
    + intros [u E]. discriminate.
    + apply (M_file _ _ (t "/p/build-tools") (t "*.c") (t "a.c") NFile); try discriminate.
      * eexists. split; [vm_compute; reflexivity|]. vm_compute. tauto.
      * intros [u E]. discriminate.
      * vm_compute. reflexivity.
  - intros [E|(u & E)]; discriminate.
  - vm_compute. reflexivity.
Qed.
(** With the double star, hidden directories are left out, but not if the next component is the name of a directory. *)
Theorem wildcards_hidden_refuted : exists look glob build_dir home base f,
  fs_ok look /\ wildcards look glob build_dir home base [] [t "**/hooks/*.c"] [] = Some [f] /\
  exists fs, wildcards look glob build_dir home base [] [t "**/*.c"] [] = Some fs /\ ~ In f fs.
Proof.
  exists (tree disk), glob, (t "/p/build"), [], (t "/p"), (t "/p/.git/hooks/a.c"). split; [exact disk_ok|]. split; [vm_compute; reflexivity|].
  eexists. split; [vm_compute; reflexivity|]. rewrite <- mem_In. vm_compute. discriminate.
Qed.
(** An empty pattern to exclude lets the first element of an empty list be taken. *)
Theorem wildcards_defined_refuted : exists look glob build_dir home base, fs_ok look /\ wildcards look glob build_dir home base [] [t "*.c"] [[]] = None.
Proof. exists (tree disk), glob, (t "/p/build"), [], (t "/p"). split; [exact disk_ok|]. vm_compute. reflexivity. Qed.
(** C68: what is to be excluded stays, if it is not there because of a pattern. *)
Theorem excluded_stays_refuted : exists look glob exists_file build_dir home base f s,
  fs_ok look /\ sources look glob exists_file build_dir home base true [Group [f] [f] None None true true []] = Some [s] /\ s_path s = clean_path (base ++ slash :: f).
Proof.
  exists (tree disk), glob, exists_file, (t "/p/build"), [], (t "/p"), (t "a.c"). eexists. split; [exact disk_ok|]. split; vm_compute; reflexivity.
Qed.
(** C69: taggers apply to files with tags set, if these do not override. *)
Theorem taggers_never_with_tags_refuted : exists rx taggers s x, s_tags s <> [] /\ In x (tagged rx (sort_taggers taggers) s) /\ ~ In x (s_tags s).
Proof.
  exists glob, [c_tagger], (src [t "hpp"] false), (t "c"). split; [discriminate|]. rewrite <- !mem_In. vm_compute. split; [reflexivity|discriminate].
Qed.
(** The order of groups with filters matters. *)
Theorem filters_unordered_refuted : exists a b ts x, In x (filtered [a; b] ts) /\ ~ In x (filtered [b; a] ts).
Proof.
  exists ([t "a"], [t "b"]), ([t "b"], [t "c"]), [t "a"], (t "c"). rewrite <- !mem_In. vm_compute. split; [reflexivity|discriminate].
Qed.

Print Assumptions wildcards_exact.
Print Assumptions wildcards_defined.
Print Assumptions wildcards_outside.
Print Assumptions unchanged_same.
Print Assumptions sources_exact.
Print Assumptions source_origin.
Print Assumptions taggers_exact.
Print Assumptions tagged_exact.
Print Assumptions tagged_nonempty.
Print Assumptions filtered_exact.
Print Assumptions filtered_unordered.
Print Assumptions final_tags_exact.
