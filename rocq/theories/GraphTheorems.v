(** C14, C15: the edges of the build graph and the search for cycles. *)
From Coq Require Import List Bool Arith Lia.
From Verif Require Import GraphModel.
Import ListNotations.

(** * Specification *)

(** Directed graphs, stated independently of how the code stores or searches them. *)
Inductive reach (E : nat -> nat -> Prop) : nat -> nat -> Prop :=
| r_here x : reach E x x
| r_step x y z : E x y -> reach E y z -> reach E x z.
Definition on_cycle (E : nat -> nat -> Prop) (x : nat) : Prop := exists y, E x y /\ reach E y x.
Definition acyclic (E : nat -> nat -> Prop) : Prop := forall x, ~ on_cycle E x.

(** A list of nodes that is a path. *)
Fixpoint is_path (E : nat -> nat -> Prop) (l : list nat) : Prop :=
  match l with
  | x :: ((y :: _) as l') => E x y /\ is_path E l'
  | _ => True
  end.

Definition depends (g : graph) (x y : nat) : Prop := In y (kids g x).

(** What the rest of qbs relies on in a build graph. *)
Definition mirrored (g : graph) : Prop := forall x y, In y (kids g x) <-> In x (pars g y).
Definition scanned_are_children (g : graph) : Prop := forall x y, In y (scan g x) -> In y (kids g x).
(** Two artifacts with the same path below one node are both source files, of different products. *)
Definition no_path_conflict (info : nat -> ninfo) (g : graph) : Prop :=
  forall p a b, In a (kids g p) -> In b (kids g p) -> a <> b -> n_artifact (info a) = true -> n_artifact (info b) = true
    -> n_path (info a) = n_path (info b)
    -> n_type (info a) = SourceFile /\ n_type (info b) = SourceFile /\ n_product (info a) <> n_product (info b).

(** Operations that take artifacts are only called with artifacts. *)
Definition typed_op (info : nat -> ninfo) (o : op) : Prop :=
  match o with
  | OSafe u v | OScanned u v => n_artifact (info u) = true /\ n_artifact (info v) = true
  | OForget x | ODetach x => n_artifact (info x) = true
  | _ => True
  end.
(** Plain connects are only used where the new child cannot already reach the new parent. *)
Fixpoint careful (info : nat -> ninfo) (n : nat) (g : graph) (os : list op) : Prop :=
  match os with
  | [] => True
  | o :: os => (match o with OConnect p c => ~ reach (depends g) c p | _ => True end)
               /\ match run_op info n g o with Some g' => careful info n g' os | None => True end
  end.

(** * Basics *)

Lemma mem_in x l : mem x l = true <-> In x l.
Proof.
  unfold mem. rewrite existsb_exists. split.
  - intros (y & Hy & E). apply Nat.eqb_eq in E. now subst.
  - intros H. exists x. split; [exact H|apply Nat.eqb_refl].
Qed.
Lemma mem_not_in x l : mem x l = false <-> ~ In x l.
Proof. rewrite <- mem_in. destruct (mem x l); split; intros; congruence. Qed.
Lemma in_add x y l : In y (add x l) <-> y = x \/ In y l.
Proof.
  induction l as [|z l IH]; cbn [add].
  - cbn; intuition.
  - destruct (x <? z); [cbn; intuition|]. destruct (Nat.eqb_spec x z) as [->|]; [cbn; intuition|]. cbn. rewrite IH. intuition.
Qed.
Lemma in_del x y l : In y (del x l) <-> In y l /\ y <> x.
Proof. unfold del. rewrite filter_In, negb_true_iff, Nat.eqb_neq. intuition. Qed.
Lemma upd_same {A} (f : nat -> A) x a : upd f x a x = a.
Proof. unfold upd. now rewrite Nat.eqb_refl. Qed.
Lemma upd_other {A} (f : nat -> A) x y a : y <> x -> upd f x a y = f y.
Proof. unfold upd. intros H. apply Nat.eqb_neq in H. now rewrite H. Qed.

Lemma reach_trans E x y z : reach E x y -> reach E y z -> reach E x z.
Proof. induction 1; auto. intros. eapply r_step; eauto. Qed.
Lemma reach_edge (E : nat -> nat -> Prop) x y : E x y -> reach E x y.
Proof. intros. eapply r_step; [eassumption|apply r_here]. Qed.
Lemma reach_mono (E E' : nat -> nat -> Prop) x y : (forall a b, E a b -> E' a b) -> reach E x y -> reach E' x y.
Proof. intros H. induction 1; [apply r_here|eapply r_step; eauto]. Qed.
Lemma acyclic_mono (E E' : nat -> nat -> Prop) : (forall a b, E a b -> E' a b) -> acyclic E' -> acyclic E.
Proof. intros H A x (y & Hy & R). apply (A x). exists y. split; [auto|]. eapply reach_mono; eauto. Qed.

Lemma last_any (d : nat) q a b : last (d :: q) a = last (d :: q) b.
Proof. revert d. induction q as [|e q IH]; intros d; [reflexivity|]. exact (IH e). Qed.

(** * Searching for a path *)

Section Search.
  Variable kids : nat -> list nat.
  Let E (x y : nat) : Prop := In y (kids x).

  Lemma find_path_unfold n u v : find_path kids (S n) u v =
    if u =? v then Some (Some [v])
    else (fix loop (l : list nat) : option (option (list nat)) :=
             match l with
             | [] => Some None
             | c :: l =>
                 match find_path kids n c v with
                 | None => None
                 | Some (Some p) => Some (Some (u :: p))
                 | Some None => loop l
                 end
             end) (kids u).
  Proof. reflexivity. Qed.

  (** What findPath returns is a path. *)
  Theorem find_path_sound n : forall u v p, find_path kids n u v = Some (Some p) ->
    is_path E p /\ hd_error p = Some u /\ last p u = v.
  Proof.
    induction n as [|n IH]; [discriminate|]. intros u v p H. rewrite find_path_unfold in H.
    destruct (Nat.eqb_spec u v) as [->|Hn].
    - injection H as <-. cbn. auto.
    - assert (G : incl (kids u) (kids u)) by apply incl_refl. revert G H. generalize (kids u) at 1 3 as l.
      induction l as [|c l IHl]; [discriminate|]. intros G H.
      destruct (find_path kids n c v) as [[q|]|] eqn:F; [|apply IHl; [eapply incl_cons_inv; exact G|exact H]|discriminate].
      injection H as <-. destruct (IH _ _ _ F) as (P1 & P2 & P3). destruct q as [|c' q]; [discriminate|].
      injection P2 as ->. split; [|split; [reflexivity|]].
      + cbn. split; [apply G; now left|exact P1].
      + cbn. destruct q as [|d q]; [exact P3|]. rewrite <- P3. exact (last_any d q u c).
  Qed.

  Lemma is_path_reach p : forall u, is_path E (u :: p) -> reach E u (last p u).
  Proof.
    induction p as [|c p IH]; intros u H; [apply r_here|]. destruct H as [H1 H2].
    eapply r_step; [exact H1|]. specialize (IH _ H2). clear -IH. destruct p as [|d p]; [exact IH|].
    replace (last (c :: d :: p) u) with (last (d :: p) c); [exact IH|]. exact (last_any d p c u).
  Qed.

  Lemma find_path_reach n u v p : find_path kids n u v = Some (Some p) -> reach E u v.
  Proof.
    intros H. destruct (find_path_sound _ _ _ _ H) as (P1 & P2 & P3). destruct p as [|x p]; [discriminate|]. injection P2 as ->.
    pose proof (is_path_reach p u P1) as R. destruct p; [exact (eq_ind _ (fun v => reach E u v) R _ P3)|].
    cbn [last] in P3, R. rewrite <- P3. exact R.
  Qed.

  Lemma exists_path_unfold n u v seen : exists_path kids (S n) u v seen =
    if u =? v then Some (true, seen)
    else if mem u seen then Some (false, seen)
    else (fix any (l : list nat) (seen : list nat) : option (bool * list nat) :=
             match l with
             | [] => Some (false, seen)
             | c :: l =>
                 match exists_path kids n c v seen with
                 | Some (false, seen) => any l seen
                 | r => r
                 end
             end) (kids u) (u :: seen).
  Proof. reflexivity. Qed.

  Lemma exists_path_sound n : forall u v seen s', exists_path kids n u v seen = Some (true, s') -> reach E u v.
  Proof.
    induction n as [|n IH]; [discriminate|]. intros u v seen s' H. rewrite exists_path_unfold in H.
    destruct (Nat.eqb_spec u v) as [->|Hn]; [apply r_here|]. destruct (mem u seen); [discriminate|].
    assert (G : incl (kids u) (kids u)) by apply incl_refl. revert G H. generalize (u :: seen) as s. generalize (kids u) at 1 3 as l.
    induction l as [|c l IHl]; [discriminate|]. intros s G H.
    destruct (exists_path kids n c v s) as [[[|] s1]|] eqn:F; [|eapply IHl; [eapply incl_cons_inv; exact G|exact H]|discriminate].
    eapply r_step; [apply G; now left|]. eapply IH; exact F.
  Qed.

  (** After a negative answer everything seen is closed under taking children and does not contain the target. *)
  Lemma exists_path_closed n : forall u v seen s', exists_path kids n u v seen = Some (false, s') ->
    incl seen s' /\ In u s' /\ forall x, In x s' -> ~ In x seen -> x <> v /\ incl (kids x) s'.
  Proof.
    induction n as [|n IH]; [discriminate|]. intros u v seen s' H. rewrite exists_path_unfold in H.
    destruct (Nat.eqb_spec u v) as [->|Hn]; [discriminate|]. destruct (mem u seen) eqn:M.
    - injection H as <-. apply mem_in in M. split; [apply incl_refl|split; [exact M|]]. intros x H1 H2. contradiction.
    - assert (G : forall l s s', (fix any (l : list nat) (seen : list nat) : option (bool * list nat) :=
             match l with
             | [] => Some (false, seen)
             | c :: l =>
                 match exists_path kids n c v seen with
                 | Some (false, seen) => any l seen
                 | r => r
                 end
             end) l s = Some (false, s') ->
             incl s s' /\ incl l s' /\ forall x, In x s' -> ~ In x s -> x <> v /\ incl (kids x) s').
      { clear - IH. induction l as [|c l IHl]; intros s s' H.
        - injection H as <-. split; [apply incl_refl|split; [intros x []|]]. intros x H1 H2. contradiction.
        - destruct (exists_path kids n c v s) as [[[|] s1]|] eqn:F; try discriminate.
          destruct (IH _ _ _ _ F) as (A1 & A2 & A3). destruct (IHl _ _ H) as (B1 & B2 & B3).
          split; [eapply incl_tran; eauto|]. split.
          + intros x [<-|Hx]; [apply B1, A2|apply B2, Hx].
          + intros x Hx Hs. destruct (in_dec Nat.eq_dec x s1) as [I1|I1]; [|now apply B3].
            destruct (A3 x I1 Hs) as [C1 C2]. split; [exact C1|]. eapply incl_tran; [exact C2|exact B1]. }
      destruct (G _ _ _ H) as (A1 & A2 & A3). split; [|split].
      + intros x Hx. apply A1. now right.
      + apply A1. now left.
      + intros x Hx Hs. destruct (Nat.eq_dec x u) as [->|Hxu]; [split; assumption|].
        apply A3; [exact Hx|]. intros [->|Hx']; congruence.
  Qed.

  Lemma exists_path_complete n u v s' : exists_path kids n u v [] = Some (false, s') -> ~ reach E u v.
  Proof.
    intros H R. destruct (exists_path_closed _ _ _ _ _ H) as (_ & A2 & A3).
    assert (G : forall x, reach E u x -> In x s').
    { clear - A2 A3. intros x R. revert A2. induction R as [x|x y z Hxy R IH]; intros Hx; [exact Hx|].
      apply IH. destruct (A3 x Hx (fun f => f)) as [_ C]. apply C, Hxy. }
    destruct (A3 v (G v R) (fun f => f)) as [C _]. now apply C.
  Qed.

  (** Enough fuel for graphs with finitely many nodes. *)
  Lemma exists_path_fuel nodes : (forall x, In x nodes -> incl (kids x) nodes) ->
    forall n u v seen, NoDup seen -> incl seen nodes -> In u nodes -> length nodes < n + length seen ->
    exists b s', exists_path kids n u v seen = Some (b, s') /\ NoDup s' /\ incl s' nodes /\ length seen <= length s'.
  Proof.
    intros C. induction n as [|n IH]; intros u v seen Hd Hi Hu Hn.
    - exfalso. pose proof (NoDup_incl_length Hd Hi). lia.
    - rewrite exists_path_unfold. destruct (Nat.eqb_spec u v); [exists true, seen; auto|]. destruct (mem u seen) eqn:M; [exists false, seen; auto|].
      apply mem_not_in in M.
      assert (G : forall l s, incl l nodes -> NoDup s -> incl s nodes -> length nodes < n + length s ->
        exists b s', (fix any (l : list nat) (seen : list nat) : option (bool * list nat) :=
             match l with
             | [] => Some (false, seen)
             | c :: l =>
                 match exists_path kids n c v seen with
                 | Some (false, seen) => any l seen
                 | r => r
                 end
             end) l s = Some (b, s') /\ NoDup s' /\ incl s' nodes /\ length s <= length s').
      { clear - IH. induction l as [|c l IHl]; intros s Hl Hd Hi Hn; [exists false, s; auto|].
        destruct (IH c v s Hd Hi (Hl c (or_introl eq_refl)) Hn) as ([|] & s1 & F & D1 & I1 & L1); rewrite F; [exists true, s1; auto|].
        destruct (IHl s1) as (b & s2 & F2 & D2 & I2 & L2); [eapply incl_cons_inv; exact Hl|assumption|assumption|lia|].
        exists b, s2. rewrite F2. split; [reflexivity|]. split; [exact D2|]. split; [exact I2|lia]. }
      destruct (G (kids u) (u :: seen)) as (b & s' & F & D & I1 & L); [now apply C|now constructor|intros x [<-|Hx]; auto|cbn; lia|].
      exists b, s'. rewrite F. cbn in L. split; [reflexivity|]. split; [exact D|]. split; [exact I1|lia].
  Qed.

  (** ** The cycle detector *)

  (** The finished nodes, latest first: children are finished before their parents. *)
  Inductive ordered : list nat -> Prop :=
  | o_nil : ordered []
  | o_cons x F : ordered F -> incl (kids x) F -> ~ In x F -> ordered (x :: F).

  Lemma ordered_closed F : ordered F -> forall x, In x F -> incl (kids x) F.
  Proof.
    induction 1 as [|x F O IH I1 Hx]; intros y Hy; [destruct Hy|]. destruct Hy as [<-|Hy].
    - intros z Hz. right. now apply I1.
    - intros z Hz. right. exact (IH y Hy z Hz).
  Qed.
  Lemma ordered_reach F : ordered F -> forall x y, In x F -> reach E x y -> In y F.
  Proof.
    intros O x y Hx R. revert Hx. induction R as [x|x y z Hxy R IH]; intros Hx; [exact Hx|].
    apply IH. exact (ordered_closed F O x Hx y Hxy).
  Qed.
  Lemma ordered_acyclic F : ordered F -> forall x, In x F -> ~ on_cycle E x.
  Proof.
    induction 1 as [|x F O IH I1 Hx]; intros y Hy; [destruct Hy|]. destruct Hy as [<-|Hy]; [|now apply IH].
    intros (z & Hz & R). apply Hx. eapply ordered_reach; [exact O|apply I1; exact Hz|exact R].
  Qed.

  Lemma find_path_ordered F : ordered F -> forall n x v, In x F -> length F <= n ->
    exists r, find_path kids n x v = Some r /\ (r = None -> ~ reach E x v).
  Proof.
    induction 1 as [|y F O IH I1 Hy]; intros n x v Hx Hn; [destruct Hx|]. cbn in Hn.
    destruct Hx as [<-|Hx]; [|apply IH; [exact Hx|lia]].
    destruct n as [|n]; [lia|]. rewrite find_path_unfold. destruct (Nat.eqb_spec y v) as [->|Hv].
    - eexists; split; [reflexivity|discriminate].
    - assert (G : forall l, incl l F -> exists r, (fix loop (l : list nat) : option (option (list nat)) :=
             match l with
             | [] => Some None
             | c :: l =>
                 match find_path kids n c v with
                 | None => None
                 | Some (Some p) => Some (Some (y :: p))
                 | Some None => loop l
                 end
             end) l = Some r /\ (r = None -> forall c, In c l -> ~ reach E c v)).
      { clear I1. induction l as [|c l IHl]; intros Hl; [eexists; split; [reflexivity|intros _ c []]|].
        destruct (IH n c v (Hl c (or_introl eq_refl)) ltac:(lia)) as ([p|] & Fp & R); rewrite Fp.
        - eexists; split; [reflexivity|discriminate].
        - destruct (IHl (proj2 (incl_cons_inv Hl))) as (r & Fr & Rr). exists r. split; [exact Fr|].
          intros Er d [<-|Hd]; [now apply R|now apply Rr]. }
      destruct (G _ I1) as (r & Fr & Rr). exists r. split; [exact Fr|]. intros Er R.
      inversion R as [|a b c Hab Rb]; subst; [congruence|]. exact (Rr eq_refl _ Hab Rb).
  Qed.

  (** The current path, its top first: everything below a node before the way that was taken is finished. *)
  Fixpoint stack_ok (P F : list nat) : Prop :=
    match P with
    | x :: ((y :: _) as P') => (exists pre post, kids y = pre ++ x :: post /\ incl pre F) /\ stack_ok P' F
    | _ => True
    end.
  Lemma stack_ok_mono P F F' : incl F F' -> stack_ok P F -> stack_ok P F'.
  Proof.
    intros I1. induction P as [|x P IH]; [auto|]. destruct P as [|y P]; [auto|]. intros [(pre & post & K & I2) S1].
    split; [|exact (IH S1)]. exists pre, post. split; [exact K|]. eapply incl_tran; eauto.
  Qed.

  Lemma find_path_step F n u v pre c post : ordered F -> incl pre F -> kids u = pre ++ c :: post -> length F <= n ->
    (exists p, find_path kids n c v = Some (Some p)) ->
    exists p, find_path kids (S n) u v = Some (Some p).
  Proof.
    intros O I1 K Hn (p & Fp). rewrite find_path_unfold. destruct (u =? v); [eexists; reflexivity|]. rewrite K. clear K.
    induction pre as [|d pre IH]; cbn [app].
    - rewrite Fp. eexists; reflexivity.
    - destruct (find_path_ordered F O n d v (I1 d (or_introl eq_refl)) Hn) as ([q|] & Fq & _); rewrite Fq; [eexists; reflexivity|].
      apply IH. exact (proj2 (incl_cons_inv I1)).
  Qed.

  (** findPath from a node of the current path to the node entered last. *)
  Lemma find_path_stack F m : ordered F -> forall P1 node P2 n,
    stack_ok (P1 ++ node :: P2) F ->
    (match P1 ++ node :: P2 with
     | top :: _ => m = top \/ exists pre c post, kids top = pre ++ post /\ incl pre F /\ In c pre /\ reach E c m
     | [] => True end) ->
    length F + length P1 < n ->
    exists p, find_path kids n node m = Some (Some p).
  Proof.
    intros O. induction P1 as [|top P1 IH] using rev_ind.
    - intros node P2 n _ Hm Hn. cbn [app] in Hm. destruct n as [|n]; [lia|]. cbn in Hn.
      destruct Hm as [->|(pre & c & post & K & I1 & Hc & R)].
      + rewrite find_path_unfold, Nat.eqb_refl. eexists; reflexivity.
      + apply in_split in Hc as (a & b & ->). rewrite <- app_assoc in K. cbn [app] in K.
        eapply (find_path_step F n node m a c (b ++ post) O); [intros x Hx; apply I1, in_or_app; now left|exact K|lia|].
        destruct (find_path_ordered F O n c m) as ([p|] & Fp & Hp); [apply I1, in_or_app; right; now left|lia| |].
        * eexists; exact Fp.
        * exfalso. now apply Hp.
    - intros node P2 n S1 Hm Hn. rewrite <- app_assoc in S1, Hm. cbn [app] in S1, Hm. rewrite app_length in Hn. cbn in Hn.
      destruct n as [|n]; [lia|].
      assert (H : exists pre post, kids node = pre ++ top :: post /\ incl pre F).
      { clear - S1. induction P1 as [|x P1 IH]; [exact (proj1 S1)|]. apply IH. cbn [app] in S1.
        destruct (P1 ++ top :: node :: P2); [exact I|]. exact (proj2 S1). }
      destruct H as (pre & post & K & I1). eapply (find_path_step F n node m pre top post O I1 K); [lia|].
      eapply IH; [exact S1|exact Hm|lia].
  Qed.

  Lemma visit_unfold f n st node : visit kids f (S n) st node =
        if mem node (c_path st) then
          match cycle_nodes kids f node (c_parent st) with Some l => Cycle l | None => Endless end
        else if mem node (c_all st) then Fine st
        else
          let r :=
            (fix loop (st : cstate) (l : list nat) : cresult :=
               match l with
               | [] => Fine st
               | c :: l => match visit kids f n st c with Fine st => loop st l | r => r end
               end) (mkC (node :: c_path st) (c_all st) (Some node)) (kids node) in
          match r with
          | Fine st => Fine (mkC (del node (c_path st)) (node :: c_all st) (c_parent st))
          | r => r
          end.
  Proof. reflexivity. Qed.

  (** What an error must say: the nodes are those of a path, and the first of them, which is repeated at the end, is on a cycle. *)
  Definition good_report (from : nat) (l : list nat) : Prop :=
    exists x p, l = x :: p ++ [x] /\ is_path E (x :: p) /\ on_cycle E x /\ reach E from x.

  Lemma stack_reach F : forall P1 node P2, stack_ok (P1 ++ node :: P2) F ->
    match P1 ++ node :: P2 with top :: _ => reach E node top | [] => True end.
  Proof.
    induction P1 as [|x P1 IH]; intros node P2 S1; [apply r_here|]. cbn [app] in *.
    destruct (P1 ++ node :: P2) as [|y Q] eqn:EQ; [destruct P1; discriminate|]. destruct S1 as [(pre & post & K & _) S1].
    specialize (IH node P2). rewrite EQ in IH. specialize (IH S1). eapply reach_trans; [exact IH|]. apply reach_edge.
    unfold E. rewrite K. apply in_or_app. right. now left.
  Qed.

  Section Visit.
    Variable nodes : list nat.
    Hypothesis closed : forall x, In x nodes -> incl (kids x) nodes.
    Variable f : nat.
    Hypothesis enough : length nodes < f.

    (** The state in which a node is visited as a child of the top of the current path. *)
    Definition visit_pre (st : cstate) (node : nat) : Prop :=
      ordered (c_all st) /\ incl (c_all st) nodes /\ NoDup (c_path st) /\ incl (c_path st) nodes
      /\ (forall x, In x (c_path st) -> ~ In x (c_all st)) /\ stack_ok (c_path st) (c_all st)
      /\ match c_path st with
         | [] => True
         | top :: _ => exists pre post, kids top = pre ++ node :: post /\ incl pre (c_all st)
             /\ exists m, c_parent st = Some m /\ (m = top \/ exists c, In c pre /\ reach E c m)
         end.

    Definition visit_post (st : cstate) (node : nat) (r : cresult) : Prop :=
      match r with
      | Fine st' => ordered (c_all st') /\ incl (c_all st') nodes /\ c_path st' = c_path st /\ incl (c_all st) (c_all st')
          /\ In node (c_all st') /\ (forall x, In x (c_path st) -> ~ In x (c_all st'))
          /\ (c_parent st' = c_parent st \/ exists m, c_parent st' = Some m /\ reach E node m)
      | Cycle l => good_report node l
      | Endless => False
      end.

    Lemma visit_spec n : forall st node, visit_pre st node -> In node nodes -> length nodes < n + length (c_path st) ->
      visit_post st node (visit kids f n st node).
    Proof.
      induction n as [|n IH]; intros st node Hpre Hnode Hn.
      - exfalso. destruct Hpre as (_ & _ & D & I1 & _). pose proof (NoDup_incl_length D I1). lia.
      - rewrite visit_unfold. destruct st as [P F m0]. unfold visit_pre in Hpre. cbn [c_path c_all c_parent] in *.
        destruct Hpre as (O & IF & D & IP & Dis & S1 & Top).
        destruct (mem node P) eqn:MP.
        + (* a cycle *)
          apply mem_in in MP. apply in_split in MP as (P1 & P2 & EP).
          assert (Htop : exists top Q, P = top :: Q).
          { rewrite EP. destruct P1; cbn; eauto. }
          destruct Htop as (top & Q & ET). rewrite ET in Top. destruct Top as (pre & post & K & Ipre & m & Em & Hm).
          assert (Rtop : reach E node top).
          { pose proof (stack_reach F P1 node P2) as R. rewrite <- EP, ET in R. apply R. rewrite <- ET. exact S1. }
          assert (Fp : exists p, find_path kids f node m = Some (Some p)).
          { apply (find_path_stack F m O P1 node P2 f).
            - rewrite <- EP. exact S1.
            - rewrite <- EP, ET. destruct Hm as [->|(c & Hc & R)]; [now left|]. right. exists pre, c, (node :: post). auto.
            - assert (L : length (F ++ P) <= length nodes).
              { apply NoDup_incl_length.
                - clear - O D Dis. assert (DF : NoDup F) by (clear D Dis; induction O; constructor; auto).
                  clear O. revert D Dis. induction DF as [|x F Hx DF IHF]; intros D Dis; [exact D|]. cbn [app]. apply NoDup_cons.
                  + rewrite in_app_iff. intros [H|H]; [contradiction|]. apply (Dis x H). now left.
                  + apply IHF; [exact D|]. intros y Hy Hf. apply (Dis y Hy). now right.
                - intros x Hx. apply in_app_iff in Hx as [Hx|Hx]; auto. }
              rewrite app_length, EP, app_length in L. cbn in L. lia. }
          destruct Fp as (p & Fp). unfold cycle_nodes. rewrite Em, Fp. cbn.
          destruct (find_path_sound _ _ _ _ Fp) as (Q1 & Q2 & _). destruct p as [|x p]; [discriminate|]. injection Q2 as ->.
          exists node, p. split; [reflexivity|]. split; [exact Q1|]. split; [|apply r_here].
          assert (Etop : E top node) by (unfold E; rewrite K; apply in_or_app; right; now left).
          inversion Rtop as [z|z y w Hzy Rzy]; subst.
          * exists top. split; [exact Etop|apply r_here].
          * exists y. split; [exact Hzy|]. eapply reach_trans; [exact Rzy|]. now apply reach_edge.
        + apply mem_not_in in MP. destruct (mem node F) eqn:MF.
          * apply mem_in in MF. unfold visit_post. cbn. split; [exact O|]. split; [exact IF|]. split; [reflexivity|].
            split; [apply incl_refl|]. split; [exact MF|]. split; [exact Dis|]. now left.
          * apply mem_not_in in MF.
            assert (G : forall l pre F1 m1, kids node = pre ++ l -> ordered F1 -> incl F1 nodes -> incl F F1 -> incl pre F1 ->
              (forall x, In x (node :: P) -> ~ In x F1) ->
              (exists m, m1 = Some m /\ (m = node \/ exists c, In c pre /\ reach E c m)) ->
              match (fix loop (st : cstate) (l : list nat) : cresult :=
                 match l with
                 | [] => Fine st
                 | c :: l => match visit kids f n st c with Fine st => loop st l | r => r end
                 end) (mkC (node :: P) F1 m1) l with
              | Fine st' => ordered (c_all st') /\ incl (c_all st') nodes /\ c_path st' = node :: P /\ incl F1 (c_all st')
                  /\ incl (kids node) (c_all st') /\ (forall x, In x (node :: P) -> ~ In x (c_all st'))
                  /\ exists m, c_parent st' = Some m /\ reach E node m
              | Cycle l => good_report node l
              | Endless => False
              end).
            { induction l as [|c l IHl]; intros pre F1 m1 K O1 IF1 IFF Ipre Dis1 Hm.
              - cbn. rewrite app_nil_r in K. split; [exact O1|]. split; [exact IF1|]. split; [reflexivity|]. split; [apply incl_refl|].
                split; [rewrite K; exact Ipre|]. split; [exact Dis1|]. destruct Hm as (m & -> & Hm). exists m. split; [reflexivity|].
                destruct Hm as [->|(c & Hc & R)]; [apply r_here|]. eapply r_step; [|exact R]. unfold E. rewrite K. exact Hc.
              - assert (Hc : In c nodes) by (apply (closed node Hnode); rewrite K; apply in_or_app; right; now left).
                assert (Enc : E node c) by (unfold E; rewrite K; apply in_or_app; right; now left).
                pose proof (IH (mkC (node :: P) F1 m1) c) as IHc. cbv beta in IHc.
                assert (Pc : visit_pre (mkC (node :: P) F1 m1) c).
                { unfold visit_pre. cbn [c_path c_all c_parent]. split; [exact O1|]. split; [exact IF1|].
                  split; [now constructor|]. split; [intros x [<-|Hx]; auto|]. split; [exact Dis1|]. split.
                  - assert (S2 : stack_ok P F1) by exact (stack_ok_mono P F F1 IFF S1). destruct P as [|top P']; [exact I|].
                    split; [|exact S2]. destruct Top as (pre0 & post0 & K0 & I0 & _). exists pre0, post0. split; [exact K0|].
                    exact (incl_tran I0 IFF).
                  - exists pre, l. split; [exact K|]. split; [exact Ipre|]. destruct Hm as (m & -> & Hm). exists m. split; [reflexivity|exact Hm]. }
                specialize (IHc Pc Hc). cbn [c_path length] in IHc. specialize (IHc ltac:(lia)).
                destruct (visit kids f n (mkC (node :: P) F1 m1) c) as [st'|rep|]; cbn [visit_post] in IHc.
                + destruct IHc as (A1 & A2 & A3 & A4 & A5 & A6 & A7). destruct st' as [P' F' m']. cbn [c_path c_all c_parent] in *. subst P'.
                  assert (Pre2 : incl (pre ++ [c]) F').
                  { intros x Hx. apply in_app_iff in Hx as [Hx|[<-|[]]]; [apply A4, Ipre, Hx|exact A5]. }
                  specialize (IHl (pre ++ [c]) F' m'). rewrite <- app_assoc in IHl. specialize (IHl K A1 A2 (incl_tran IFF A4) Pre2 A6).
                  match type of IHl with ?H -> _ => assert (Hm' : H) end.
                  { destruct A7 as [->|(m & -> & R)].
                    - destruct Hm as (m & -> & Hm). exists m. split; [reflexivity|]. destruct Hm as [->|(d & Hd & R)]; [now left|].
                      right. exists d. split; [apply in_or_app; now left|exact R].
                    - exists m. split; [reflexivity|]. right. exists c. split; [apply in_or_app; right; now left|exact R]. }
                  specialize (IHl Hm'). revert IHl.
                  match goal with |- match ?X with _ => _ end -> _ => destruct X as [st2| |] end; auto.
                  intros (B1 & B2 & B3 & B4 & B5). split; [exact B1|]. split; [exact B2|]. split; [exact B3|].
                  split; [eapply incl_tran; eauto|exact B5].
                + destruct IHc as (x & p & L1 & L2 & L3 & L4). exists x, p. split; [exact L1|]. split; [exact L2|]. split; [exact L3|].
                  eapply r_step; eauto.
                + exact IHc. }
            specialize (G (kids node) [] F (Some node) eq_refl O IF (incl_refl _)).
            specialize (G ltac:(intros x [])). specialize (G ltac:(intros x [<-|Hx]; auto)).
            specialize (G ltac:(exists node; auto)). cbn zeta.
            match type of G with match ?X with _ => _ end => destruct X as [st'|rep|] end; cbn [visit_post c_all c_path c_parent].
            -- destruct G as (A1 & A2 & A3 & A4 & A5 & A6 & m & A7 & A8). rewrite A3.
               split; [constructor; [exact A1|exact A5|apply A6; now left]|].
               split; [intros x [<-|Hx]; auto|]. split.
               { unfold del. cbn [filter]. rewrite Nat.eqb_refl. cbn [negb]. clear - MP.
                 induction P as [|y P IHP]; [reflexivity|]. cbn. destruct (Nat.eqb_spec node y) as [->|Hy]; [exfalso; apply MP; now left|].
                 cbn. f_equal. apply IHP. intros H. apply MP. now right. }
               split; [intros x Hx; right; now apply A4|]. split; [now left|]. split.
               { intros x Hx [<-|Hx']; [contradiction|]. apply (A6 x); [now right|exact Hx']. }
               right. exists m. auto.
            -- exact G.
            -- exact G.
    Qed.

    Lemma visit_roots_spec n : length nodes < n -> forall roots F m, incl roots nodes -> ordered F -> incl F nodes ->
      match visit_roots kids f n (mkC [] F m) roots with
      | Fine st => forall r, In r roots -> forall x, reach E r x -> ~ on_cycle E x
      | Cycle l => exists r, In r roots /\ good_report r l
      | Endless => False
      end.
    Proof.
      intros Hn. induction roots as [|r roots IH]; intros F m Hr O IF; cbn [visit_roots].
      - intros r [].
      - pose proof (visit_spec n (mkC [] F m) r) as V.
        match type of V with ?H -> _ => assert (Hpre : H) end.
        { unfold visit_pre. cbn. repeat split; auto; try constructor; intros x []. }
        specialize (V Hpre (Hr r (or_introl eq_refl))). cbn [c_path length] in V. specialize (V ltac:(lia)).
        destruct (visit kids f n (mkC [] F m) r) as [[P' F' m']|rep|]; cbn [visit_post c_path c_all c_parent] in V.
        + destruct V as (A1 & A2 & A3 & A4 & A5 & _ & _). subst P'.
          specialize (IH F' m' (proj2 (incl_cons_inv Hr)) A1 A2).
          destruct (visit_roots kids f n (mkC [] F' m') roots) as [st| |].
          * intros x [<-|Hx] y R; [|eapply IH; eauto]. eapply ordered_acyclic; [exact A1|]. eapply ordered_reach; eauto.
          * destruct IH as (x & Hx & Hg). exists x. split; [now right|exact Hg].
          * exact IH.
        + exists r. split; [now left|exact V].
        + exact V.
    Qed.
  End Visit.
End Search.

(** * Theorems: cycle detection (C15) *)

Theorem detect_exact kids nodes roots f n :
  (forall x, In x nodes -> incl (kids x) nodes) -> incl roots nodes -> length nodes < f -> length nodes < n ->
  let E x y := In y (kids x) in
  (exists l, detect kids f n roots = Cycle l) <-> (exists r x, In r roots /\ reach E r x /\ on_cycle E x).
Proof.
  intros C Hr Hf Hn. cbv zeta.
  pose proof (visit_roots_spec kids nodes C f Hf n Hn roots [] None Hr (o_nil _)) as V.
  specialize (V ltac:(intros x [])). unfold detect. destruct (visit_roots kids f n (mkC [] [] None) roots) as [st|l|].
  - split; [intros (l & H); discriminate|]. intros (r & x & H1 & H2 & H3). exfalso. exact (V r H1 x H2 H3).
  - split; [|intros _; eexists; reflexivity]. intros _. destruct V as (r & H1 & x & p & _ & _ & H2 & H3). exists r, x. auto.
  - destruct V.
Qed.

(** The search always comes to an end, also the one for the nodes to print. *)
Theorem detect_terminates kids nodes roots f n :
  (forall x, In x nodes -> incl (kids x) nodes) -> incl roots nodes -> length nodes < f -> length nodes < n ->
  detect kids f n roots <> Endless.
Proof.
  intros C Hr Hf Hn H.
  pose proof (visit_roots_spec kids nodes C f Hf n Hn roots [] None Hr (o_nil _)) as V.
  specialize (V ltac:(intros x [])). unfold detect in H. rewrite H in V. exact V.
Qed.

(** The message: it starts and ends with one node, which really is on a cycle reachable from a root, and all nodes but the
    repetition at the end form a path.  Missing for the full statement: that the last step is an edge as well. *)
Theorem cycle_report_partial kids nodes roots f n l :
  (forall x, In x nodes -> incl (kids x) nodes) -> incl roots nodes -> length nodes < f -> length nodes < n ->
  detect kids f n roots = Cycle l ->
  let E x y := In y (kids x) in
  exists r x p, In r roots /\ l = x :: p ++ [x] /\ is_path E (x :: p) /\ on_cycle E x /\ reach E r x.
Proof.
  intros C Hr Hf Hn H. cbv zeta.
  pose proof (visit_roots_spec kids nodes C f Hf n Hn roots [] None Hr (o_nil _)) as V.
  specialize (V ltac:(intros x [])). unfold detect in H. rewrite H in V.
  destruct V as (r & H1 & x & p & H2 & H3 & H4 & H5). exists r, x, p. auto.
Qed.

(** It need not be: the parent that the detector remembers is the node it entered last, which may be a finished sibling. *)
Theorem cycle_report_refuted :
  exists kids nodes roots l, (forall x, In x nodes -> incl (kids x) nodes) /\ incl roots nodes /\
    detect kids (S (length nodes)) (S (length nodes)) roots = Cycle l /\ ~ is_path (fun x y => In y (kids x)) l.
Proof.
  (* 1 -> 2, 2 -> 3, 2 -> 1 where the artifact 3 is stored before 1 *)
  exists (fun x => if x =? 1 then [2] else if x =? 2 then [3; 1] else []), [1; 2; 3], [1], [1; 2; 3; 1].
  split; [|split; [intros x [<-|[]]; now left|split; [reflexivity|]]].
  - intros x [<-|[<-|[<-|[]]]] y; cbn; intuition.
  - cbn. intuition.
Qed.

(** * Theorems: edges (C14) *)

Lemma in_del_from x : forall l f z y, In y (del_from f x l z) <-> In y (f z) /\ (y = x -> ~ In z l).
Proof.
  induction l as [|w l IH]; intros f z y; cbn; [intuition|]. unfold del_from in IH. rewrite IH. unfold upd.
  destruct (Nat.eqb_spec z w) as [->|Hz]; [rewrite in_del|]; intuition; subst; intuition.
Qed.

Lemma in_add_edge g p c x y : In y (kids (add_edge g p c) x) <-> In y (kids g x) \/ (x = p /\ y = c).
Proof.
  unfold add_edge, upd; cbn. destruct (Nat.eqb_spec x p) as [->|]; [rewrite in_add|]; intuition.
Qed.
Lemma in_add_edge_pars g p c x y : In x (pars (add_edge g p c) y) <-> In x (pars g y) \/ (x = p /\ y = c).
Proof.
  unfold add_edge, upd; cbn. destruct (Nat.eqb_spec y c) as [->|]; [rewrite in_add|]; intuition.
Qed.

Section Edges.
  Variable info : nat -> ninfo.

  (** Connecting adds this edge and no other, or does nothing. *)
  Definition connected (g : graph) (p c : nat) (g' : graph) : Prop :=
    (forall x y, In y (kids g' x) <-> In y (kids g x) \/ (x = p /\ y = c))
    /\ (forall x y, In x (pars g' y) <-> In x (pars g y) \/ (x = p /\ y = c))
    /\ (forall x, scan g' x = scan g x).

  Lemma connect_cases g p c : mirrored g ->
    match connect info g p c with
    | Next g' => p <> c /\ connected g p c g'
        /\ (n_artifact (info c) = true -> In c (kids g p) \/ forall a, In a (kids g p) -> n_artifact (info a) = true ->
              n_path (info a) = n_path (info c) -> n_type (info a) = SourceFile /\ n_type (info c) = SourceFile
                /\ n_product (info a) <> n_product (info c))
    | Assertion => p = c
    | Threw => p <> c /\ exists a, In a (kids g p) /\ a <> c /\ n_artifact (info a) = true /\ n_path (info a) = n_path (info c)
        /\ ~ (n_type (info a) = SourceFile /\ n_type (info c) = SourceFile /\ n_product (info a) <> n_product (info c))
    end.
  Proof.
    intros M. unfold connect. destruct (Nat.eqb_spec p c) as [->|Hpc]; [reflexivity|].
    assert (A : connected g p c (add_edge g p c)).
    { split; [apply in_add_edge|split; [apply in_add_edge_pars|reflexivity]]. }
    destruct (n_artifact (info c)) eqn:Ac; [|split; [exact Hpc|split; [exact A|discriminate]]].
    assert (G : forall l pre, kids g p = pre ++ l ->
      (forall a, In a pre -> n_artifact (info a) = true -> n_path (info a) = n_path (info c) ->
         n_type (info a) = SourceFile /\ n_type (info c) = SourceFile /\ n_product (info a) <> n_product (info c)) ->
      match (fix loop (l : list nat) : outcome :=
         match l with
         | [] => Next (add_edge g p c)
         | child :: l =>
             if n_artifact (info child) then
               if child =? c then Next g
               else
                 let must_differ := atype_eqb (n_type (info child)) Generated
                   || (n_product (info child) =? n_product (info c)) || negb (atype_eqb (n_type (info child)) (n_type (info c))) in
                 if must_differ && (n_path (info child) =? n_path (info c)) then Threw else loop l
             else loop l
         end) l with
      | Next g' => p <> c /\ connected g p c g'
        /\ (true = true -> In c (kids g p) \/ forall a, In a (kids g p) -> n_artifact (info a) = true ->
              n_path (info a) = n_path (info c) -> n_type (info a) = SourceFile /\ n_type (info c) = SourceFile
                /\ n_product (info a) <> n_product (info c))
      | Assertion => p = c
      | Threw => p <> c /\ exists a, In a (kids g p) /\ a <> c /\ n_artifact (info a) = true /\ n_path (info a) = n_path (info c)
        /\ ~ (n_type (info a) = SourceFile /\ n_type (info c) = SourceFile /\ n_product (info a) <> n_product (info c))
      end).
    { induction l as [|a l IH]; intros pre K Hpre.
      - rewrite app_nil_r in K. split; [exact Hpc|]. split; [exact A|]. intros _. right. rewrite K. exact Hpre.
      - assert (Ha : In a (kids g p)) by (rewrite K; apply in_or_app; right; now left).
        assert (K' : kids g p = (pre ++ [a]) ++ l) by (rewrite <- app_assoc; exact K).
        destruct (n_artifact (info a)) eqn:Aa.
        + destruct (Nat.eqb_spec a c) as [->|Hac].
          * split; [exact Hpc|]. split; [|intros _; now left]. split; [|split; [|reflexivity]].
            -- intros x y. split; [now left|]. intros [H|[-> ->]]; assumption.
            -- intros x y. split; [now left|]. intros [H|[-> ->]]; [assumption|now apply M].
          * cbv zeta. match goal with |- context [if ?b && _ then _ else _] => set (md := b) end.
            destruct (Nat.eqb_spec (n_path (info a)) (n_path (info c))) as [Ep|Ep].
            -- destruct md eqn:Emd; cbn [andb].
               ++ split; [exact Hpc|]. exists a. split; [exact Ha|]. split; [exact Hac|]. split; [exact Aa|]. split; [exact Ep|].
                  intros (T1 & T2 & T3). unfold md in Emd. rewrite T1, T2 in Emd. apply Nat.eqb_neq in T3. rewrite T3 in Emd. discriminate.
               ++ apply IH with (pre := pre ++ [a]); [exact K'|]. intros b Hb Ab Pb. apply in_app_iff in Hb as [Hb|[<-|[]]]; [now apply Hpre|].
                  unfold md in Emd. apply orb_false_iff in Emd as [Emd E3]. apply orb_false_iff in Emd as [E1 E2].
                  apply Nat.eqb_neq in E2. destruct (n_type (info a)), (n_type (info c)); try discriminate. auto.
            -- rewrite andb_false_r. apply IH with (pre := pre ++ [a]); [exact K'|]. intros b Hb Ab Pb. apply in_app_iff in Hb as [Hb|[<-|[]]]; [now apply Hpre|].
               contradiction.
        + apply IH with (pre := pre ++ [a]); [exact K'|]. intros b Hb Ab Pb. apply in_app_iff in Hb as [Hb|[<-|[]]]; [now apply Hpre|].
          congruence. }
    exact (G (kids g p) [] eq_refl (fun a H => match H with end)).
  Qed.

  Definition good (g : graph) : Prop := mirrored g /\ scanned_are_children g /\ no_path_conflict info g.

  Lemma connected_good g p c g' : good g -> connected g p c g' ->
    (n_artifact (info c) = true -> In c (kids g p) \/ forall a, In a (kids g p) -> n_artifact (info a) = true ->
              n_path (info a) = n_path (info c) -> n_type (info a) = SourceFile /\ n_type (info c) = SourceFile
                /\ n_product (info a) <> n_product (info c)) -> good g'.
  Proof.
    intros (M & Sc & N1) (C1 & C2 & C3) Hc. split; [|split].
    - intros x y. rewrite C1, C2. now rewrite (M x y).
    - intros x y. rewrite C3, C1. left. now apply Sc.
    - intros q a b Ha Hb Hab Aa Ab Pab. apply C1 in Ha. apply C1 in Hb.
      destruct Ha as [Ha|[-> ->]], Hb as [Hb|[E1 E2]]; subst; try contradiction.
      + now apply (N1 q).
      + destruct (Hc Ab) as [Hin|Hall]; [now apply (N1 p)|]. now apply Hall.
      + destruct (Hc Aa) as [Hin|Hall]; [now apply (N1 p)|]. symmetry in Pab. destruct (Hall b Hb Ab Pab) as (H1 & H2 & H3).
        split; [exact H2|]. split; [exact H1|]. congruence.
  Qed.

  (** Taking away edges. *)
  Lemma fewer_good g g' : good g -> (forall x y, In y (kids g' x) <-> In x (pars g' y)) ->
    (forall x y, In y (kids g' x) -> In y (kids g x)) -> scanned_are_children g' -> good g'.
  Proof.
    intros (M & Sc & N1) M' H S'. split; [exact M'|]. split; [exact S'|]. intros p a b Ha Hb. apply (N1 p); now apply H.
  Qed.

  Lemma in_disconnect g u v x y : In y (kids (disconnect info g u v) x) <-> In y (kids g x) /\ ~ (x = u /\ y = v).
  Proof. unfold disconnect, upd; cbn. destruct (Nat.eqb_spec x u) as [->|]; [rewrite in_del|]; intuition. Qed.
  Lemma in_disconnect_pars g u v x y : In x (pars (disconnect info g u v) y) <-> In x (pars g y) /\ ~ (x = u /\ y = v).
  Proof. unfold disconnect, upd; cbn. destruct (Nat.eqb_spec y v) as [->|]; [rewrite in_del|]; intuition. Qed.

  (** Scanned children are artifacts below artifacts. *)
  Definition scans_typed (g : graph) : Prop := forall x y, In y (scan g x) -> n_artifact (info x) = true /\ n_artifact (info y) = true.

  Lemma in_disconnect_scan g u v x y : scans_typed g ->
    In y (scan (disconnect info g u v) x) <-> In y (scan g x) /\ ~ (x = u /\ y = v).
  Proof.
    intros T. unfold disconnect; cbn. destruct (n_artifact (info u) && n_artifact (info v)) eqn:B.
    - unfold upd. destruct (Nat.eqb_spec x u) as [->|]; [rewrite in_del|]; intuition.
    - split; [|intuition]. intros H. split; [exact H|]. intros [-> ->]. apply T in H as [H1 H2]. rewrite H1, H2 in B. discriminate.
  Qed.

  Lemma disconnect_good g u v : scans_typed g -> good g -> good (disconnect info g u v) /\ scans_typed (disconnect info g u v).
  Proof.
    intros T (M & Sc & N1). split.
    - apply (fewer_good g); [split; auto| | |].
      + intros x y. rewrite in_disconnect, in_disconnect_pars. now rewrite (M x y).
      + intros x y H. now apply in_disconnect in H.
      + intros x y H. apply in_disconnect_scan in H; [|exact T]. apply in_disconnect. intuition.
    - intros x y H. apply in_disconnect_scan in H; [|exact T]. now apply T.
  Qed.

  Lemma forget_edges g x : scans_typed g -> forall a b,
    (In b (kids (forget_scanned info g x) a) <-> In b (kids g a) /\ ~ (a = x /\ In b (scan g x)))
    /\ (In a (pars (forget_scanned info g x) b) <-> In a (pars g b) /\ ~ (a = x /\ In b (scan g x)))
    /\ (In b (scan (forget_scanned info g x) a) <-> In b (scan g a) /\ a <> x).
  Proof.
    intros T a b. unfold forget_scanned.
    assert (G : forall l h, scans_typed h ->
      (In b (kids (fold_left (fun g d => disconnect info g x d) l h) a) <-> In b (kids h a) /\ ~ (a = x /\ In b l))
      /\ (In a (pars (fold_left (fun g d => disconnect info g x d) l h) b) <-> In a (pars h b) /\ ~ (a = x /\ In b l))
      /\ (In b (scan (fold_left (fun g d => disconnect info g x d) l h) a) <-> In b (scan h a) /\ ~ (a = x /\ In b l))).
    { induction l as [|d l IH]; intros h Th; cbn [fold_left In]; [intuition|].
      assert (Td : scans_typed (disconnect info h x d)).
      { intros p q H. apply in_disconnect_scan in H; [|exact Th]. now apply Th. }
      destruct (IH _ Td) as (A & B & C). rewrite A, B, C, in_disconnect, in_disconnect_pars, in_disconnect_scan by exact Th.
      intuition. }
    assert (Th : scans_typed (mkG (kids g) (pars g) (upd (scan g) x []))).
    { intros p q. cbn. unfold upd. destruct (p =? x); [intros []|apply T]. }
    destruct (G (scan g x) _ Th) as (A & B & C). split; [exact A|]. split; [exact B|]. rewrite C. cbn. unfold upd.
    destruct (Nat.eqb_spec a x) as [->|]; cbn; intuition.
  Qed.

  Lemma destroy_edges g x : mirrored g -> forall a b,
    (In b (kids (destroy info g x) a) <-> In b (kids g a) /\ a <> x /\ b <> x)
    /\ (In a (pars (destroy info g x) b) <-> In a (pars g b) /\ a <> x /\ b <> x)
    /\ (In b (scan (destroy info g x) a) -> In b (scan g a) /\ a <> x).
  Proof.
    intros M a b. unfold destroy. cbn [kids pars scan]. split; [|split].
    - unfold upd. destruct (Nat.eqb_spec a x) as [->|Ha]; [cbn; intuition|]. rewrite in_del_from. split.
      + intros [H1 H2]. split; [exact H1|]. split; [exact Ha|]. intros ->. apply (H2 eq_refl), M, H1.
      + intros (H1 & _ & H2). split; [exact H1|]. intros ->. now elim H2.
    - unfold upd at 1. destruct (Nat.eqb_spec b x) as [->|Hb]; [cbn; intuition|]. rewrite in_del_from. split.
      + intros [H1 H2]. split; [exact H1|]. split; [|exact Hb]. intros ->. apply (H2 eq_refl).
        apply in_del_from. split; [apply M, H1|]. intros ->. now elim Hb.
      + intros (H1 & H2 & _). split; [exact H1|]. intros ->. now elim H2.
    - unfold upd at 1. destruct (Nat.eqb_spec a x) as [->|Ha]; [intros []|]. intros H. split; [|exact Ha].
      destruct (n_artifact (info x)); [|exact H]. apply in_del_from in H. tauto.
  Qed.

  Lemma destroy_scan g x a : mirrored g -> scanned_are_children g -> scans_typed g -> a <> x -> ~ In x (scan (destroy info g x) a).
  Proof.
    intros M Sc T Ha H. unfold destroy in H. cbn [scan] in H. rewrite upd_other in H by exact Ha.
    assert (Hx : In x (scan g a)).
    { destruct (n_artifact (info x)); [apply in_del_from in H; tauto|exact H]. }
    destruct (T _ _ Hx) as [T1 T2]. rewrite T2 in H. apply in_del_from in H as [_ H]. apply (H eq_refl).
    apply filter_In. split; [|exact T1]. apply M, Sc, Hx.
  Qed.

  Lemma destroy_good g x : scans_typed g -> good g -> good (destroy info g x) /\ scans_typed (destroy info g x).
  Proof.
    intros T (M & Sc & N1). split.
    - apply (fewer_good g); [split; auto| | |].
      + intros a b. destruct (destroy_edges g x M a b) as (A & B & _). rewrite A, B. now rewrite (M a b).
      + intros a b H. apply (destroy_edges g x M a b) in H. tauto.
      + intros a b H. pose proof (proj2 (proj2 (destroy_edges g x M a b)) H) as [H1 H2]. apply (destroy_edges g x M a b).
        split; [apply Sc, H1|]. split; [exact H2|]. intros ->. exact (destroy_scan g x a M Sc T H2 H).
    - intros a b H. apply (proj2 (proj2 (destroy_edges g x M a b))) in H as [H _]. now apply T.
  Qed.

  Lemma detach_edges g x : mirrored g -> ~ In x (kids g x) -> forall a b,
    (In b (kids (disconnect_artifact info g x) a) <-> In b (kids g a) /\ a <> x /\ b <> x)
    /\ (In a (pars (disconnect_artifact info g x) b) <-> In a (pars g b) /\ a <> x /\ b <> x).
  Proof.
    intros M Hself a b. unfold disconnect_artifact, disconnect_parents, disconnect_children. cbn [kids pars scan].
    assert (Hp : ~ In x (pars g x)) by (rewrite <- (M x x); exact Hself).
    split.
    - rewrite in_del_from. unfold upd. destruct (Nat.eqb_spec a x) as [->|Ha]; [cbn; intuition|]. split.
      + intros [H1 H2]. split; [exact H1|]. split; [exact Ha|]. intros ->. apply (H2 eq_refl).
        apply in_del_from. split; [apply M, H1|]. intros _ H. contradiction.
      + intros (H1 & _ & H2). split; [exact H1|]. intros ->. now elim H2.
    - unfold upd. destruct (Nat.eqb_spec b x) as [->|Hb]; [cbn; intuition|]. rewrite in_del_from. split.
      + intros [H1 H2]. split; [exact H1|]. split; [|exact Hb]. intros ->. apply (H2 eq_refl), M, H1.
      + intros (H1 & H2 & _). split; [exact H1|]. intros ->. now elim H2.
  Qed.

  Lemma detach_scan g x a b : mirrored g -> scanned_are_children g -> scans_typed g -> ~ In x (kids g x) ->
    In b (scan (disconnect_artifact info g x) a) -> In b (scan g a) /\ a <> x /\ b <> x.
  Proof.
    intros M Sc T Hself H. unfold disconnect_artifact, disconnect_parents, disconnect_children in H. cbn [kids pars scan] in H.
    apply in_del_from in H as [H1 H2]. unfold upd in H1. destruct (Nat.eqb_spec a x) as [->|Ha]; [destruct H1|].
    split; [exact H1|]. split; [exact Ha|]. intros ->. apply (H2 eq_refl). apply filter_In. split; [|now apply (T a x)].
    apply in_del_from. split; [now apply M, Sc|]. intros -> _. contradiction.
  Qed.

  Lemma detach_good g x : scans_typed g -> ~ In x (kids g x) -> good g ->
    good (disconnect_artifact info g x) /\ scans_typed (disconnect_artifact info g x).
  Proof.
    intros T Hself (M & Sc & N1). split.
    - apply (fewer_good g); [split; auto| | |].
      + intros a b. destruct (detach_edges g x M Hself a b) as (A & B). rewrite A, B. now rewrite (M a b).
      + intros a b H. apply (detach_edges g x M Hself a b) in H. tauto.
      + intros a b H. apply detach_scan in H; auto. apply (detach_edges g x M Hself a b). intuition.
    - intros a b H. apply detach_scan in H; auto. now apply (T a b).
  Qed.

  (** No node is ever its own child. *)
  Definition irreflexive (g : graph) : Prop := forall x, ~ In x (kids g x).
  Definition inv (g : graph) : Prop := good g /\ scans_typed g /\ irreflexive g.

  Lemma connect_inv g p c g' : inv g -> connect info g p c = Next g' -> inv g'.
  Proof.
    intros (G & T & Ir) H. pose proof (connect_cases g p c (proj1 G)) as C. rewrite H in C. destruct C as (C1 & C2 & C3).
    split; [eapply connected_good; eauto|]. destruct C2 as (K1 & K2 & K3). split.
    - intros x y. rewrite K3. apply T.
    - intros x Hx. apply K1 in Hx as [Hx|[-> ->]]; [exact (Ir x Hx)|now apply C1].
  Qed.

  Lemma safe_connect_cases n g u v r b : mirrored g -> safe_connect info n g u v = Some (r, b) ->
    (u = v /\ r = Assertion /\ b = false)
    \/ (u <> v /\ reach (depends g) v u /\ r = Next g /\ b = false)
    \/ (u <> v /\ ~ reach (depends g) v u /\ r = connect info g u v /\ b = true).
  Proof.
    intros M H. unfold safe_connect in H. destruct (Nat.eqb_spec u v) as [->|Hn].
    - injection H as <- <-. now left.
    - destruct (exists_path (kids g) n v u []) as [[[|] s]|] eqn:X; [| |discriminate].
      + destruct (find_path (kids g) n v u); [|discriminate]. injection H as <- <-. right; left.
        split; [exact Hn|]. split; [|auto]. exact (exists_path_sound _ _ _ _ _ _ X).
      + injection H as <- <-. right; right. split; [exact Hn|]. split; [|auto]. exact (exists_path_complete _ _ _ _ _ X).
  Qed.

  Lemma run_op_inv n g o g' : inv g -> typed_op info o -> run_op info n g o = Some g' -> inv g'.
  Proof.
    intros V Ty H. pose proof V as (G & T & Ir). destruct o as [p c|u v|u v|u v|x|x|x]; cbn [run_op] in H.
    - injection H as <-. destruct (connect info g p c) eqn:C; auto. eapply connect_inv; eauto.
    - destruct (safe_connect info n g u v) as [[r b]|] eqn:Sf; [|discriminate]. cbn in H. injection H as <-.
      destruct (safe_connect_cases _ _ _ _ _ _ (proj1 G) Sf) as [(-> & -> & _)|[(_ & _ & -> & _)|(_ & _ & -> & _)]]; auto.
      destruct (connect info g u v) eqn:C; auto. eapply connect_inv; eauto.
    - unfold scanner_connect in H. destruct ((u =? v) || mem v (kids g u)); [injection H as <-; exact V|].
      destruct (safe_connect info n g u v) as [[r b]|] eqn:Sf; [|discriminate].
      destruct (safe_connect_cases _ _ _ _ _ _ (proj1 G) Sf) as [(-> & -> & ->)|[(_ & _ & -> & ->)|(Huv & _ & Er & ->)]].
      + injection H as <-; exact V.
      + injection H as <-; exact V.
      + destruct r as [g1| |]; [|injection H as <-; exact V|injection H as <-; exact V]. cbn in H. injection H as <-.
        symmetry in Er. pose proof (connect_inv _ _ _ _ V Er) as (G1 & T1 & Ir1).
        pose proof (connect_cases g u v (proj1 G)) as C. rewrite Er in C. destruct C as (_ & (K1 & _) & _).
        destruct G1 as (M1 & Sc1 & N1). split; [|split].
        * split; [exact M1|]. split; [|exact N1]. intros x y. cbn. unfold upd. destruct (Nat.eqb_spec x u) as [->|]; [|apply Sc1].
          rewrite in_add. intros [->|Hy]; [|now apply Sc1]. apply K1. now right.
        * intros x y. cbn. unfold upd. destruct (Nat.eqb_spec x u) as [->|]; [|apply T1]. rewrite in_add. intros [->|Hy]; [exact Ty|now apply T1].
        * exact Ir1.
    - injection H as <-. destruct (disconnect_good g u v T G) as [G' T']. split; [exact G'|]. split; [exact T'|].
      intros x Hx. apply in_disconnect in Hx as [Hx _]. exact (Ir x Hx).
    - injection H as <-. pose proof (forget_edges g x T) as F. destruct G as (M & Sc & N1). split; [|split].
      + apply (fewer_good g); [split; auto| | |].
        * intros a b. destruct (F a b) as (A & B & _). rewrite A, B. now rewrite (M a b).
        * intros a b Hab. apply (F a b) in Hab. tauto.
        * intros a b Hab. apply (F a b) in Hab as [H1 H2]. apply (F a b). split; [now apply Sc|]. intuition.
      + intros a b Hab. apply (F a b) in Hab as [H1 _]. now apply T.
      + intros a Ha. apply (F a a) in Ha as [Ha _]. exact (Ir a Ha).
    - injection H as <-. destruct (destroy_good g x T G) as [G' T']. split; [exact G'|]. split; [exact T'|].
      intros a Ha. apply (destroy_edges g x (proj1 G) a a) in Ha as [Ha _]. exact (Ir a Ha).
    - injection H as <-. destruct (detach_good g x T (Ir x) G) as [G' T']. split; [exact G'|]. split; [exact T'|].
      intros a Ha. apply (detach_edges g x (proj1 G) (Ir x) a a) in Ha as [Ha _]. exact (Ir a Ha).
  Qed.

  (** After any sequence of operations: every edge is known at both ends; dependencies found by scanners are children; no node is
      its own child; and no node has two children for the same file unless these are source files of different products. *)
  Theorem edges_mirrored n os g : Forall (typed_op info) os -> run_ops info n no_edges os = Some g ->
    mirrored g /\ scanned_are_children g /\ irreflexive g /\ no_path_conflict info g.
  Proof.
    assert (G : forall os g0, inv g0 -> Forall (typed_op info) os -> run_ops info n g0 os = Some g -> inv g).
    { clear os. induction os as [|o os IH]; intros g0 V Ty H; cbn in H; [injection H as <-; exact V|].
      destruct (run_op info n g0 o) as [g1|] eqn:R; [|discriminate]. inversion Ty; subst. eapply IH; [eapply run_op_inv; eauto|assumption|exact H]. }
    intros Ty H. destruct (G os no_edges) as ((M & Sc & N1) & _ & Ir); auto.
    split; [split; [|split]|split].
    - intros x y; cbn; tauto.
    - intros x y [].
    - intros p a b [].
    - intros x y [].
    - intros x [].
  Qed.

  Lemma add_edge_acyclic (E E' : nat -> nat -> Prop) u v : acyclic E -> ~ reach E v u -> u <> v ->
    (forall x y, E' x y <-> E x y \/ (x = u /\ y = v)) -> acyclic E'.
  Proof.
    intros A N1 Huv HE.
    (* a path of E' is one of E, or goes through the new edge *)
    assert (G : forall x y, reach E' x y -> reach E x y \/ (reach E x u /\ reach E v y)).
    { induction 1 as [x|x y z Hxy R IH]; [left; apply r_here|]. apply HE in Hxy as [Hxy|[-> ->]].
      - destruct IH as [IH|[IH1 IH2]]; [left|right; split; [|exact IH2]]; eapply r_step; eauto.
      - right. split; [apply r_here|]. destruct IH as [IH|[_ IH]]; exact IH. }
    intros x (y & Hxy & R). apply HE in Hxy as [Hxy|[-> ->]].
    - destruct (G _ _ R) as [R1|[R1 R2]]; [apply (A x); exists y; auto|]. apply N1. eapply reach_trans; [exact R2|]. eapply r_step; eauto.
    - destruct (G _ _ R) as [R1|[_ R2]]; [now apply N1|]. contradiction.
  Qed.

  Lemma run_op_acyclic n g o g' : inv g -> typed_op info o -> acyclic (depends g) ->
    (match o with OConnect p c => ~ reach (depends g) c p | _ => True end) ->
    run_op info n g o = Some g' -> acyclic (depends g').
  Proof.
    intros (G & T & Ir) Ty A Hc H.
    assert (Cn : forall p c h, ~ reach (depends g) c p -> connect info g p c = Next h -> acyclic (depends h)).
    { intros p c h N1 C. pose proof (connect_cases g p c (proj1 G)) as X. rewrite C in X. destruct X as (Hpc & (K1 & _) & _).
      eapply add_edge_acyclic; [exact A|exact N1|exact Hpc|exact K1]. }
    assert (Less : (forall x y, In y (kids g' x) -> In y (kids g x)) -> acyclic (depends g')).
    { intros L. eapply acyclic_mono; [|exact A]. exact L. }
    destruct o as [p c|u v|u v|u v|x|x|x]; cbn [run_op] in H.
    - injection H as <-. destruct (connect info g p c) eqn:C; auto. eapply Cn; eauto.
    - destruct (safe_connect info n g u v) as [[r b]|] eqn:Sf; [|discriminate]. cbn in H. injection H as <-.
      destruct (safe_connect_cases _ _ _ _ _ _ (proj1 G) Sf) as [(-> & -> & _)|[(_ & _ & -> & _)|(_ & N1 & -> & _)]]; auto.
      destruct (connect info g u v) eqn:C; auto. eapply Cn; eauto.
    - unfold scanner_connect in H. destruct ((u =? v) || mem v (kids g u)); [injection H as <-; exact A|].
      destruct (safe_connect info n g u v) as [[r b]|] eqn:Sf; [|discriminate].
      destruct (safe_connect_cases _ _ _ _ _ _ (proj1 G) Sf) as [(-> & -> & ->)|[(_ & _ & -> & ->)|(Huv & N1 & Er & ->)]].
      + injection H as <-; exact A.
      + injection H as <-; exact A.
      + destruct r as [g1| |]; [|injection H as <-; exact A|injection H as <-; exact A]. cbn in H. injection H as <-.
        symmetry in Er. exact (Cn _ _ _ N1 Er).
    - injection H as <-. apply Less. intros a b Hab. apply in_disconnect in Hab. tauto.
    - injection H as <-. apply Less. intros a b Hab. apply (forget_edges g x T a b) in Hab. tauto.
    - injection H as <-. apply Less. intros a b Hab. apply (destroy_edges g x (proj1 G) a b) in Hab. tauto.
    - injection H as <-. apply Less. intros a b Hab. apply (detach_edges g x (proj1 G) (Ir x) a b) in Hab. tauto.
  Qed.

  (** No sequence of operations makes a cycle, as long as plain connects are only used where none can arise; safe connects,
      from the dependency scanners for instance, can be used anywhere. *)
  Theorem safe_histories_acyclic n os g : Forall (typed_op info) os -> careful info n no_edges os ->
    run_ops info n no_edges os = Some g -> acyclic (depends g).
  Proof.
    assert (G : forall os g0, inv g0 -> acyclic (depends g0) -> careful info n g0 os -> Forall (typed_op info) os ->
      run_ops info n g0 os = Some g -> acyclic (depends g)).
    { clear os. induction os as [|o os IH]; intros g0 V A C Ty H; cbn in H; [injection H as <-; exact A|].
      destruct C as [C1 C2]. destruct (run_op info n g0 o) as [g1|] eqn:R; [|discriminate]. inversion Ty; subst.
      apply (IH g1); [eapply run_op_inv; eauto|eapply run_op_acyclic; eauto|exact C2|assumption|exact H]. }
    intros Ty C H. apply (G os no_edges); auto.
    - split; [split; [|split]|split].
      + intros x y; cbn; tauto.
      + intros x y [].
      + intros p a b [].
      + intros x y [].
      + intros x [].
    - intros x (y & [] & _).
  Qed.

  (** Exactly when a safe connect is refused, and what it does otherwise.  Nothing else changes. *)
  Theorem safe_connect_exact n g u v r b : mirrored g -> u <> v -> safe_connect info n g u v = Some (r, b) ->
    (b = false <-> reach (depends g) v u)
    /\ (b = false -> r = Next g)
    /\ (forall g', b = true -> r = Next g' -> connected g u v g').
  Proof.
    intros M Huv H. destruct (safe_connect_cases _ _ _ _ _ _ M H) as [(-> & _)|[(_ & R & -> & ->)|(_ & R & -> & ->)]]; [contradiction| |].
    - split; [tauto|]. split; [auto|discriminate].
    - split; [split; [discriminate|contradiction]|]. split; [discriminate|]. intros g' _ C.
      pose proof (connect_cases g u v M) as X. rewrite C in X. tauto.
  Qed.

  (** A plain connect makes a cycle if the child can already reach the parent. *)
  Theorem connect_cycle g p c g' : mirrored g -> connect info g p c = Next g' -> reach (depends g) c p ->
    on_cycle (depends g') p.
  Proof.
    intros M C R. pose proof (connect_cases g p c M) as X. rewrite C in X. destruct X as (_ & (K & _) & _).
    exists c. split; [apply K; now right|]. eapply reach_mono; [|exact R]. intros a b H. apply K. now left.
  Qed.

  (** Connecting is refused exactly for a conflicting child. *)
  Theorem connect_refused g p c : mirrored g -> connect info g p c = Threw ->
    exists a, In a (kids g p) /\ a <> c /\ n_artifact (info a) = true /\ n_path (info a) = n_path (info c)
      /\ ~ (n_type (info a) = SourceFile /\ n_type (info c) = SourceFile /\ n_product (info a) <> n_product (info c)).
  Proof. intros M C. pose proof (connect_cases g p c M) as X. rewrite C in X. tauto. Qed.

  (** In an acyclic graph with finitely many nodes the searches of a safe connect come to an end. *)
  Theorem safe_connect_terminates nodes g u v n : acyclic (depends g) -> (forall x, In x nodes -> incl (kids g x) nodes) ->
    In u nodes -> In v nodes -> length nodes < n -> safe_connect info n g u v <> None.
  Proof.
    intros A C Hu Hv Hn. unfold safe_connect. destruct (u =? v); [discriminate|].
    destruct (exists_path_fuel (kids g) nodes C n v u [] (NoDup_nil _) ltac:(intros x []) Hv) as (b & s & -> & _); [cbn; lia|].
    destruct b; [|discriminate].
    assert (F : forall n path x, NoDup path -> incl path nodes -> In x nodes -> (forall y, In y path -> y <> x /\ reach (depends g) y x) ->
      length nodes < n + length path -> find_path (kids g) n x u <> None).
    { clear n Hn. induction n as [|n IH]; intros path x D Ip Hx Hp Hn.
      - pose proof (NoDup_incl_length D Ip). lia.
      - rewrite find_path_unfold. destruct (x =? u); [discriminate|].
        assert (K : incl (kids g x) (kids g x)) by apply incl_refl. revert K. generalize (kids g x) at 1 3 as l.
        induction l as [|c l IHl]; intros K; [discriminate|].
        destruct (find_path (kids g) n c u) as [[p|]|] eqn:Fc; [discriminate| |].
        + apply IHl. exact (proj2 (incl_cons_inv K)).
        + exfalso. assert (Hc : In c (kids g x)) by (apply K; now left). revert Fc. apply (IH (x :: path)).
          * constructor; [|exact D]. intros H. now apply (Hp x H).
          * intros y [<-|Hy]; auto.
          * exact (C x Hx c Hc).
          * intros y Hy. assert (R : reach (depends g) y x) by (destruct Hy as [<-|Hy]; [apply r_here|now apply Hp]).
            split; [|eapply reach_trans; [exact R|now apply reach_edge]].
            intros ->. apply (A x). exists c. auto.
          * cbn. lia. }
    destruct (find_path (kids g) n v u) eqn:Fv; [discriminate|]. exfalso. revert Fv.
    apply (F n []); [constructor|intros x []|exact Hv|intros y []|cbn; lia].
  Qed.

  (** Destroying or detaching a node removes its edges, at both ends, and no others. *)
  Theorem destroyed_edges g x : mirrored g ->
    forall a b, (In b (kids (destroy info g x) a) <-> In b (kids g a) /\ a <> x /\ b <> x)
      /\ (In a (pars (destroy info g x) b) <-> In a (pars g b) /\ a <> x /\ b <> x).
  Proof. intros M a b. destruct (destroy_edges g x M a b) as (A & B & _). auto. Qed.
End Edges.

(** * Examples *)
Module Demo.
  (* artifacts 1 (main.o), 2 (main.cpp), 3 (a.h), 4 (b.h); rule node 9 *)
  Definition info (x : nat) : ninfo :=
    {| n_artifact := negb (x =? 9); n_type := if x =? 1 then Generated else SourceFile; n_product := 0; n_path := x |}.
  Definition history := [OConnect 1 2; OConnect 1 9; OScanned 1 3; OScanned 3 4; OSafe 4 1; OScanned 1 4; ODisconnect 1 9; OForget 1; ODestroy 3].

  Example typed : Forall (typed_op info) history.
  Proof. repeat constructor. Qed.
  Example is_careful : careful info 10 no_edges history.
  Proof.
    cbn. split; [|split; [|tauto]].
    - intros R. inversion R as [|a b c H _]; subst. destruct H.
    - intros R. inversion R as [|a b c H _]; subst. destruct H.
  Qed.
  Example result : option_map (fun g => (kids g 1, pars g 2, pars g 4, scan g 1)) (run_ops info 10 no_edges history) = Some ([2], [1], [], []).
  Proof. reflexivity. Qed.
  Example before : option_map (fun g => (kids g 1, kids g 3, kids g 4, pars g 4, scan g 1)) (run_ops info 10 no_edges (firstn 6 history))
    = Some ([2; 3; 4; 9], [4], [], [1; 3], [3; 4]).
  Proof. reflexivity. Qed.
  (* the refused edge would have closed a circle *)
  Example refused : option_map (fun g => option_map snd (safe_connect info 10 g 4 1)) (run_ops info 10 no_edges (firstn 4 history)) = Some (Some false).
  Proof. reflexivity. Qed.

  (* two generated files with the same name below one node *)
  Definition clash (x : nat) : ninfo := {| n_artifact := true; n_type := Generated; n_product := x; n_path := 7 |}.
  Example clash_thrown : (match connect clash (add_edge no_edges 1 2) 1 3 with Threw => true | _ => false end) = true.
  Proof. reflexivity. Qed.

  Definition kids1 (x : nat) : list nat := if x =? 1 then [2; 4] else if x =? 2 then [3] else if x =? 3 then [4; 2] else [].
  Example closed1 : forall x, In x [1; 2; 3; 4] -> incl (kids1 x) [1; 2; 3; 4].
  Proof. intros x [<-|[<-|[<-|[<-|[]]]]] y; cbn; intuition. Qed.
  Example found : detect kids1 5 5 [1] = Cycle [2; 3; 4; 2].
  Proof. reflexivity. Qed.
  Example none : detect (fun x => if x =? 1 then [2; 3] else if x =? 2 then [3] else []) 5 5 [1; 2] = Fine (mkC [] [1; 2; 3] (Some 3)).
  Proof. reflexivity. Qed.
End Demo.

Print Assumptions detect_exact.
Print Assumptions detect_terminates.
Print Assumptions cycle_report_partial.
Print Assumptions cycle_report_refuted.
Print Assumptions edges_mirrored.
Print Assumptions safe_histories_acyclic.
Print Assumptions safe_connect_exact.
Print Assumptions connect_cycle.
Print Assumptions connect_refused.
Print Assumptions safe_connect_terminates.
Print Assumptions destroyed_edges.
