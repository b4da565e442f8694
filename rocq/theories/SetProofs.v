(** Lemmas about the [Set<T>] model. *)
From Coq Require Import List Bool Arith Lia Sorted Permutation.
From Verif Require Import SetModel.
Import ListNotations.

Record strict_total {T} (ltb : T -> T -> bool) : Prop := {
  st_irrefl : forall x, ltb x x = false;
  st_trans : forall x y z, ltb x y = true -> ltb y z = true -> ltb x z = true;
  st_total : forall x y, ltb x y = false -> ltb y x = false -> x = y
}.

Section Proofs.
  Context {T : Type}.
  Variable ltb : T -> T -> bool.
  Hypothesis Hst : strict_total ltb.
  Let lt x y := ltb x y = true.

  Notation ssorted := (StronglySorted lt).
  Notation wsorted := (StronglySorted (fun x y => ltb y x = false)).

  Lemma lt_asym x y : ltb x y = true -> ltb y x = false.
  Proof.
    intros H. destruct (ltb y x) eqn:E; auto.
    pose proof (st_irrefl _ Hst x).
    pose proof (st_trans _ Hst _ _ _ H E). congruence.
  Qed.

  Lemma ge_trans x y z : ltb y x = false -> ltb z y = false -> ltb z x = false.
  Proof.
    intros H1 H2. destruct (ltb z x) eqn:E; auto.
    destruct (ltb x y) eqn:Exy.
    - rewrite (st_trans _ Hst _ _ _ E Exy) in H2. discriminate.
    - pose proof (st_total _ Hst _ _ H1 Exy). subst. congruence.
  Qed.

  Lemma lt_ge_trans x y z : ltb x y = true -> ltb z y = false -> ltb x z = true.
  Proof.
    intros H1 H2. destruct (ltb y z) eqn:E.
    - exact (st_trans _ Hst _ _ _ H1 E).
    - pose proof (st_total _ Hst _ _ E H2). congruence.
  Qed.

  Lemma eqv_eq x y : eqv ltb x y = true <-> x = y.
  Proof.
    unfold eqv. split; intros H.
    - apply andb_true_iff in H as [H1 H2]. apply negb_true_iff in H1, H2.
      exact (st_total _ Hst _ _ H1 H2).
    - subst. rewrite (st_irrefl _ Hst). reflexivity.
  Qed.

  Lemma not_lt_ge x y : negb (ltb x y) = true -> ltb x y = false.
  Proof. apply negb_true_iff. Qed.

  (** *** split_lb *)
  Lemma split_lb_app v l a b : split_lb ltb v l = (a, b) -> l = a ++ b.
  Proof.
    revert a b; induction l as [|x l IH]; simpl; intros a b H.
    - inversion H; reflexivity.
    - destruct (ltb x v).
      + destruct (split_lb ltb v l) as [a' b'] eqn:E. inversion H; subst.
        simpl. f_equal. auto.
      + inversion H; reflexivity.
  Qed.

  Lemma split_lb_lt v l a b : split_lb ltb v l = (a, b) -> Forall (fun x => ltb x v = true) a.
  Proof.
    revert a b; induction l as [|x l IH]; simpl; intros a b H.
    - inversion H; constructor.
    - destruct (ltb x v) eqn:Ex.
      + destruct (split_lb ltb v l) as [a' b'] eqn:E. inversion H; subst.
        constructor; auto. eapply IH; eauto.
      + inversion H; constructor.
  Qed.

  Lemma split_lb_hd v l a b : split_lb ltb v l = (a, b) ->
    match b with [] => True | y :: _ => ltb y v = false end.
  Proof.
    revert a b; induction l as [|x l IH]; simpl; intros a b H.
    - inversion H; auto.
    - destruct (ltb x v) eqn:Ex.
      + destruct (split_lb ltb v l) as [a' b'] eqn:E. inversion H; subst.
        eapply IH; eauto.
      + inversion H; subst; auto.
  Qed.

  Lemma ssorted_app l1 l2 : ssorted (l1 ++ l2) <->
    ssorted l1 /\ ssorted l2 /\ (forall x y, In x l1 -> In y l2 -> lt x y).
  Proof.
    induction l1 as [|a l1 IH]; simpl.
    - split; intros H; [split; [constructor|split; [auto|intros x y []]]| tauto].
    - split.
      + intros H. apply StronglySorted_inv in H as [H1 H2]. apply IH in H1 as (A & B & C).
        rewrite Forall_forall in H2. split; [|split]; auto.
        * constructor; auto. apply Forall_forall. intros x Hx. apply H2. apply in_or_app; auto.
        * intros x y [->|Hx] Hy; auto. apply H2. apply in_or_app; auto.
      + intros (A & B & C). apply StronglySorted_inv in A as [A1 A2].
        constructor.
        * apply IH. split; [|split]; auto.
        * rewrite Forall_forall in *. intros x Hx. apply in_app_or in Hx as [Hx|Hx]; auto.
  Qed.

  Lemma ssorted_hd_min x l : ssorted (x :: l) -> forall y, In y l -> lt x y.
  Proof.
    intros H y Hy. apply StronglySorted_inv in H as [_ H]. rewrite Forall_forall in H; auto.
  Qed.

  Lemma ssorted_tl x l : ssorted (x :: l) -> ssorted l.
  Proof. intros H. apply StronglySorted_inv in H; tauto. Qed.

  Lemma ssorted_NoDup l : ssorted l -> NoDup l.
  Proof.
    induction l as [|x l IH]; intros H; constructor.
    - intros Hin. pose proof (ssorted_hd_min _ _ H _ Hin) as Hx. unfold lt in Hx.
      rewrite (st_irrefl _ Hst) in Hx. discriminate.
    - apply IH. eapply ssorted_tl; eauto.
  Qed.

  (** Two strictly sorted lists with the same elements are equal. *)
  Lemma ssorted_ext l1 : forall l2, ssorted l1 -> ssorted l2 ->
    (forall x, In x l1 <-> In x l2) -> l1 = l2.
  Proof.
    induction l1 as [|x l1 IH]; intros [|y l2] S1 S2 H; auto.
    - exfalso. apply (proj2 (H y)). left; auto.
    - exfalso. apply (proj1 (H x)). left; auto.
    - assert (x = y).
      { destruct (proj1 (H x) (or_introl eq_refl)) as [E|E]; auto.
        destruct (proj2 (H y) (or_introl eq_refl)) as [E'|E']; auto.
        pose proof (ssorted_hd_min _ _ S1 _ E') as L1.
        pose proof (ssorted_hd_min _ _ S2 _ E) as L2.
        unfold lt in *. rewrite (lt_asym _ _ L1) in L2. discriminate. }
      subst y. f_equal. apply IH.
      + eapply ssorted_tl; eauto.
      + eapply ssorted_tl; eauto.
      + intros z. split; intros Hz.
        * destruct (proj1 (H z) (or_intror Hz)) as [E|E]; auto. subst.
          pose proof (ssorted_hd_min _ _ S1 _ Hz) as L. unfold lt in L.
          rewrite (st_irrefl _ Hst) in L; discriminate.
        * destruct (proj2 (H z) (or_intror Hz)) as [E|E]; auto. subst.
          pose proof (ssorted_hd_min _ _ S2 _ Hz) as L. unfold lt in L.
          rewrite (st_irrefl _ Hst) in L; discriminate.
  Qed.

  (** *** sort and unique *)
  Lemma insert_sorted_perm v l : Permutation (insert_sorted ltb v l) (v :: l).
  Proof.
    induction l as [|x l IH]; simpl; auto.
    destruct (ltb x v); auto.
    rewrite IH. apply perm_swap.
  Qed.

  Lemma sort_perm l : Permutation (sort ltb l) l.
  Proof.
    induction l as [|x l IH]; simpl; auto.
    rewrite insert_sorted_perm. auto.
  Qed.

  Lemma insert_sorted_wsorted v l : wsorted l -> wsorted (insert_sorted ltb v l).
  Proof.
    induction l as [|x l IH]; simpl; intros H.
    - repeat constructor.
    - apply StronglySorted_inv in H as [H1 H2]. rewrite Forall_forall in H2.
      destruct (ltb x v) eqn:E.
      + constructor; auto. apply Forall_forall. intros y Hy.
        apply (Permutation_in _ (insert_sorted_perm v l)) in Hy as [->|Hy]; auto.
        apply lt_asym; auto.
      + constructor.
        * constructor; auto. apply Forall_forall; auto.
        * apply Forall_forall. intros y [->|Hy]; auto.
          eapply ge_trans; eauto.
  Qed.

  Lemma sort_wsorted l : wsorted (sort ltb l).
  Proof.
    induction l; simpl; [constructor|]. apply insert_sorted_wsorted; auto.
  Qed.

  Lemma unique_cons x l : unique ltb (x :: l) =
    match l with
    | [] => [x]
    | y :: _ => if eqv ltb x y then unique ltb l else x :: unique ltb l
    end.
  Proof. reflexivity. Qed.

  Lemma unique_In l x : In x (unique ltb l) <-> In x l.
  Proof.
    induction l as [|a l IH].
    - simpl; tauto.
    - rewrite unique_cons. destruct l as [|b l].
      + simpl. tauto.
      + destruct (eqv ltb a b) eqn:E.
        * apply eqv_eq in E. subst. rewrite IH. simpl. tauto.
        * simpl. rewrite IH. simpl. tauto.
  Qed.

  Lemma unique_ssorted l : wsorted l -> ssorted (unique ltb l).
  Proof.
    induction l as [|a l IH]; intros H.
    - constructor.
    - apply StronglySorted_inv in H as [H1 H2]. specialize (IH H1).
      rewrite unique_cons. destruct l as [|b l].
      + repeat constructor.
      + destruct (eqv ltb a b) eqn:E; auto.
        constructor; auto. apply Forall_forall. intros y Hy.
        apply (proj1 (unique_In _ _)) in Hy. rewrite Forall_forall in H2.
        assert (Hab : ltb a b = true).
        { destruct (ltb a b) eqn:E2; auto.
          pose proof (H2 b (or_introl eq_refl)) as E3. cbv beta in E3.
          rewrite (st_total _ Hst _ _ E2 E3) in E.
          unfold eqv in E. rewrite (st_irrefl _ Hst) in E. discriminate. }
        apply StronglySorted_inv in H1 as [_ H1]. rewrite Forall_forall in H1.
        destruct Hy as [->|Hy]; [exact Hab|].
        specialize (H1 _ Hy). cbv beta in H1. unfold lt.
        eapply lt_ge_trans; eauto.
  Qed.

  Lemma of_init_list_sorted l : ssorted (of_init_list ltb l).
  Proof. apply unique_ssorted, sort_wsorted. Qed.

  Lemma of_init_list_In l x : In x (of_init_list ltb l) <-> In x l.
  Proof.
    unfold of_init_list. rewrite unique_In. split; apply Permutation_in.
    - apply sort_perm.
    - apply Permutation_sym, sort_perm.
  Qed.

  Lemma wsorted_NoDup_ssorted l : wsorted l -> NoDup l -> ssorted l.
  Proof.
    induction l as [|a l IH]; intros H ND; constructor.
    - apply StronglySorted_inv in H as [H1 H2]. inversion ND; auto.
    - apply StronglySorted_inv in H as [H1 H2]. rewrite Forall_forall in *.
      intros y Hy. specialize (H2 _ Hy). cbv beta in H2. unfold lt.
      destruct (ltb a y) eqn:E; auto.
      pose proof (st_total _ Hst _ _ E H2). subst. inversion ND; tauto.
  Qed.

  Lemma of_range_sorted l : NoDup l -> ssorted (of_range ltb l).
  Proof.
    intros H. apply wsorted_NoDup_ssorted; [apply sort_wsorted|].
    eapply Permutation_NoDup; [apply Permutation_sym, sort_perm|auto].
  Qed.

  Lemma of_range_In l x : In x (of_range ltb l) <-> In x l.
  Proof.
    split; apply Permutation_in; [|apply Permutation_sym]; apply sort_perm.
  Qed.

  (** *** insert, remove, contains, find *)
  Lemma split_facts v s a b : ssorted s -> split_lb ltb v s = (a, b) ->
    s = a ++ b /\ ssorted a /\ ssorted b /\
    (forall x, In x a -> ltb x v = true) /\
    (forall x, In x b -> ltb x v = false) /\
    (forall x y, In x a -> In y b -> lt x y).
  Proof.
    intros S E. pose proof (split_lb_app _ _ _ _ E) as A.
    pose proof (split_lb_lt _ _ _ _ E) as L. pose proof (split_lb_hd _ _ _ _ E) as Hd.
    subst s. apply ssorted_app in S as (S1 & S2 & S3).
    rewrite Forall_forall in L.
    repeat split; auto.
    intros x Hx. destruct b as [|y b]; [destruct Hx|].
    destruct Hx as [->|Hx]; auto.
    pose proof (ssorted_hd_min _ _ S2 _ Hx) as Lx. unfold lt in Lx.
    apply (ge_trans v y x); auto. apply lt_asym; auto.
  Qed.

  Lemma in_split_iff v s a b : ssorted s -> split_lb ltb v s = (a, b) ->
    (In v s <-> match b with [] => False | y :: _ => y = v end).
  Proof.
    intros S E. destruct (split_facts _ _ _ _ S E) as (A & SA & SB & LA & LB & C).
    subst s. rewrite in_app_iff. split.
    - intros [H|H].
      + specialize (LA _ H). rewrite (st_irrefl _ Hst) in LA. discriminate.
      + destruct b as [|y b]; auto. destruct H as [H|H]; auto.
        pose proof (ssorted_hd_min _ _ SB _ H) as L.
        specialize (LB y (or_introl eq_refl)). unfold lt in L. congruence.
    - destruct b as [|y b]; [tauto|]. intros ->. right; left; auto.
  Qed.

  Lemma contains_spec s v : ssorted s -> (contains ltb s v = true <-> In v s).
  Proof.
    intros S. unfold contains. destruct (split_lb ltb v s) as [a b] eqn:E. simpl.
    rewrite (in_split_iff _ _ _ _ S E).
    destruct b as [|y b]; [split; [discriminate|tauto]|].
    pose proof (split_lb_hd _ _ _ _ E) as Hd. simpl in Hd.
    rewrite negb_true_iff. split.
    - intros H. apply (st_total _ Hst); auto.
    - intros ->. apply (st_irrefl _ Hst).
  Qed.

  Lemma find_spec s v : ssorted s ->
    match find ltb s v with
    | Some i => nth_error s i = Some v
    | None => ~ In v s
    end.
  Proof.
    intros S. unfold find. destruct (split_lb ltb v s) as [a b] eqn:E.
    pose proof (in_split_iff _ _ _ _ S E) as I.
    pose proof (split_lb_app _ _ _ _ E) as A.
    pose proof (split_lb_hd _ _ _ _ E) as Hd.
    destruct b as [|y b]; [tauto|].
    destruct (ltb v y) eqn:L.
    - rewrite I. intros ->. rewrite (st_irrefl _ Hst) in L. discriminate.
    - rewrite (st_total _ Hst _ _ Hd L) in A. rewrite A.
      rewrite nth_error_app2 by lia. rewrite Nat.sub_diag. reflexivity.
  Qed.

  Lemma insert_spec s v : ssorted s ->
    ssorted (fst (insert ltb s v)) /\
    (forall x, In x (fst (insert ltb s v)) <-> x = v \/ In x s) /\
    (snd (insert ltb s v) = true <-> ~ In v s).
  Proof.
    intros S. unfold insert. destruct (split_lb ltb v s) as [a b] eqn:E.
    pose proof (in_split_iff _ _ _ _ S E) as I.
    destruct (split_facts _ _ _ _ S E) as (A & SA & SB & LA & LB & C).
    assert (G : (match b with [] => True | y :: _ => ltb v y = true end) ->
      ssorted (a ++ v :: b) /\ (forall x, In x (a ++ v :: b) <-> x = v \/ In x s)).
    { intros Hv. split.
      - apply ssorted_app. split; [|split]; auto.
        + constructor; auto. apply Forall_forall. intros y Hy.
          destruct b as [|z b]; [destruct Hy|]. destruct Hy as [->|Hy]; auto.
          pose proof (ssorted_hd_min _ _ SB _ Hy) as L. unfold lt in *.
          eapply (st_trans _ Hst); eauto.
        + intros x y Hx [<-|Hy]; auto. apply LA; auto.
      - intros x. subst s. rewrite !in_app_iff. simpl. intuition congruence. }
    destruct b as [|y b].
    - destruct (G Logic.I) as [G1 G2]. simpl. split; [auto|split;[auto|]]. tauto.
    - destruct (ltb v y) eqn:L.
      + destruct (G eq_refl) as [G1 G2]. simpl. split; [auto|split;[auto|]].
        rewrite I. split; auto. intros _ ->. rewrite (st_irrefl _ Hst) in L. discriminate.
      + simpl. assert (y = v) by (apply (st_total _ Hst); auto; apply LB; left; auto).
        split; [auto|split].
        * intros x. split; auto. intros [->|]; auto. apply I; auto.
        * split; [discriminate|]. tauto.
  Qed.

  Lemma remove_spec s v : ssorted s ->
    ssorted (fst (remove ltb s v)) /\
    (forall x, In x (fst (remove ltb s v)) <-> x <> v /\ In x s) /\
    (snd (remove ltb s v) = true <-> In v s).
  Proof.
    intros S. unfold remove. destruct (split_lb ltb v s) as [a b] eqn:E.
    pose proof (in_split_iff _ _ _ _ S E) as I.
    destruct (split_facts _ _ _ _ S E) as (A & SA & SB & LA & LB & C).
    destruct b as [|y b].
    - simpl. split; [auto|split].
      + intros x. split; [|tauto]. intros Hx. split; auto. intros ->. tauto.
      + split; [discriminate|tauto].
    - destruct (ltb v y) eqn:L; simpl.
      + split; [auto|split].
        * intros x. split; [|tauto]. intros Hx. split; auto. intros ->.
          apply I in Hx. subst. rewrite (st_irrefl _ Hst) in L. discriminate.
        * split; [discriminate|]. intros Hx. apply I in Hx. subst.
          rewrite (st_irrefl _ Hst) in L. discriminate.
      + assert (y = v) by (apply (st_total _ Hst); auto; apply LB; left; auto). subst y.
        split; [|split].
        * apply ssorted_app. split; [|split]; auto.
          -- eapply ssorted_tl; eauto.
          -- intros x z Hx Hz. apply C; auto. right; auto.
        * intros x. subst s. rewrite !in_app_iff. simpl. split.
          -- intros [Hx|Hx].
             ++ split; auto. intros ->. specialize (LA _ Hx).
                rewrite (st_irrefl _ Hst) in LA. discriminate.
             ++ split; auto. intros ->. pose proof (ssorted_hd_min _ _ SB _ Hx) as L'.
                unfold lt in L'. congruence.
          -- intros [Hn [Hx|[Hx|Hx]]]; auto. congruence.
        * split; auto. intros _. apply I; auto.
  Qed.

  (** *** contains_set, intersects *)
  Lemma not_in_lt_all x l : ssorted l -> (forall y, In y l -> lt x y) -> ~ In x l.
  Proof.
    intros S H Hx. specialize (H _ Hx). unfold lt in H.
    rewrite (st_irrefl _ Hst) in H. discriminate.
  Qed.

  Lemma lt_hd_not_in x y l : ssorted (y :: l) -> lt x y -> ~ In x (y :: l).
  Proof.
    intros S L. apply not_in_lt_all; auto.
    intros z [<-|Hz]; auto. pose proof (ssorted_hd_min _ _ S _ Hz).
    unfold lt in *. eapply (st_trans _ Hst); eauto.
  Qed.

  Lemma contains_set_spec s : forall other, ssorted s -> ssorted other ->
    (contains_set ltb s other = true <-> (forall x, In x other -> In x s)).
  Proof.
    induction s as [|x s IH]; intros other S O.
    - destruct other as [|y o]; simpl.
      + split; auto.
      + split; [discriminate|]. intros H. destruct (H y); left; auto.
    - destruct other as [|y o]; [simpl; split; auto; intros _ z []|].
      simpl. destruct (ltb y x) eqn:E1; [|destruct (ltb x y) eqn:E2]; simpl.
      + split; [discriminate|]. intros H.
        exfalso. apply (lt_hd_not_in y x s S E1). apply H. left; auto.
      + rewrite IH; [|eapply ssorted_tl; eauto|auto]. split.
        * intros H z Hz. right. apply H; auto.
        * intros H z Hz. destruct (H z Hz) as [->|]; auto.
          exfalso. apply (lt_hd_not_in z y o O E2). auto.
      + pose proof (st_total _ Hst _ _ E1 E2). subst y.
        rewrite IH; [|eapply ssorted_tl; eauto|eapply ssorted_tl; eauto]. split.
        * intros H z [->|Hz]; [left; auto|right; auto].
        * intros H z Hz. destruct (H z (or_intror Hz)) as [->|]; auto.
          exfalso. pose proof (ssorted_hd_min _ _ O _ Hz) as L. unfold lt in L. congruence.
  Qed.

  Lemma intersects_spec s : forall other, ssorted s -> ssorted other ->
    (intersects ltb s other = true <-> exists x, In x s /\ In x other).
  Proof.
    induction s as [|x s IHs]; intros other S O.
    - destruct other; simpl; split; try discriminate; intros (z & [] & _).
    - induction other as [|y o IHo].
      + simpl. split; [discriminate|]. intros (z & _ & []).
      + change (intersects ltb (x :: s) (y :: o)) with
          (if ltb x y then intersects ltb s (y :: o)
           else if ltb y x then intersects ltb (x :: s) o else true).
        destruct (ltb x y) eqn:E1; [|destruct (ltb y x) eqn:E2].
        * rewrite IHs; auto; [|eapply ssorted_tl; eauto]. split.
          -- intros (z & H1 & H2). exists z. split; auto. right; auto.
          -- intros (z & [->|H1] & H2).
             ++ exfalso. apply (lt_hd_not_in z y o O E1); auto.
             ++ exists z; auto.
        * rewrite IHo; [|eapply ssorted_tl; eauto]. split.
          -- intros (z & H1 & H2). exists z. split; auto. right; auto.
          -- intros (z & H1 & [->|H2]).
             ++ exfalso. apply (lt_hd_not_in z x s S E2); auto.
             ++ exists z; auto.
        * split; auto. intros _. exists x. split; [left; auto|].
          left. apply (st_total _ Hst); auto.
  Qed.

  (** *** intersect, inter, minus *)
  Lemma inter_unfold x s y o : inter ltb (x :: s) (y :: o) =
    if ltb x y then inter ltb s (y :: o)
    else if ltb y x then inter ltb (x :: s) o
    else x :: inter ltb s o.
  Proof. reflexivity. Qed.

  Lemma intersect_unfold x s y o : intersect ltb (x :: s) (y :: o) =
    if ltb x y then intersect ltb s (y :: o)
    else if negb (ltb y x) then x :: intersect ltb s o
    else intersect ltb (x :: s) o.
  Proof. reflexivity. Qed.

  Lemma intersect_inter s : forall o, intersect ltb s o = inter ltb s o.
  Proof.
    induction s as [|x s IHs]; intros o.
    - destruct o; reflexivity.
    - induction o as [|y o IHo]; [reflexivity|].
      rewrite intersect_unfold, inter_unfold.
      destruct (ltb x y); auto. destruct (ltb y x); simpl; auto.
      f_equal; auto.
  Qed.

  Lemma inter_spec s : forall o, ssorted s -> ssorted o ->
    ssorted (inter ltb s o) /\ (forall x, In x (inter ltb s o) <-> In x s /\ In x o).
  Proof.
    induction s as [|x s IHs]; intros o S O.
    - destruct o; simpl; (split; [constructor|tauto]).
    - induction o as [|y o IHo].
      + simpl. split; [constructor|tauto].
      + rewrite inter_unfold.
        pose proof (ssorted_tl _ _ S) as S'. pose proof (ssorted_tl _ _ O) as O'.
        destruct (ltb x y) eqn:E1; [|destruct (ltb y x) eqn:E2].
        * destruct (IHs (y :: o) S' O) as [A B]. split; auto.
          intros z. rewrite B. split; [intros [H1 H2]; split; auto; right; auto|].
          intros [[->|H1] H2]; auto. exfalso. apply (lt_hd_not_in z y o O E1); auto.
        * destruct (IHo O') as [A B]. split; auto.
          intros z. rewrite B. split; [intros [H1 H2]; split; auto; right; auto|].
          intros [H1 [->|H2]]; auto. exfalso. apply (lt_hd_not_in z x s S E2); auto.
        * pose proof (st_total _ Hst _ _ E1 E2). subst y.
          destruct (IHs o S' O') as [A B]. split.
          -- constructor; auto. apply Forall_forall. intros z Hz. apply B in Hz as [Hz _].
             apply (ssorted_hd_min _ _ S); auto.
          -- intros z. simpl. rewrite B. split.
             ++ intros [->|[H1 H2]]; auto.
             ++ intros [[->|H1] [H2|H2]]; auto.
  Qed.

  Lemma minus_unfold x s y o : minus_loop ltb (x :: s) (y :: o) =
    if ltb x y then x :: minus_loop ltb s (y :: o)
    else if ltb y x then minus_loop ltb (x :: s) o
    else minus_loop ltb s o.
  Proof. reflexivity. Qed.

  Lemma minus_loop_spec s : forall o, ssorted s -> ssorted o ->
    ssorted (minus_loop ltb s o) /\ (forall x, In x (minus_loop ltb s o) <-> In x s /\ ~ In x o).
  Proof.
    induction s as [|x s IHs]; intros o S O.
    - destruct o; simpl; (split; [constructor|tauto]).
    - induction o as [|y o IHo].
      + simpl. split; [auto|tauto].
      + rewrite minus_unfold.
        pose proof (ssorted_tl _ _ S) as S'. pose proof (ssorted_tl _ _ O) as O'.
        destruct (ltb x y) eqn:E1; [|destruct (ltb y x) eqn:E2].
        * destruct (IHs (y :: o) S' O) as [A B]. split.
          -- constructor; auto. apply Forall_forall. intros z Hz. apply B in Hz as [Hz _].
             apply (ssorted_hd_min _ _ S); auto.
          -- intros z. split.
             ++ intros [->|H]. { split; [left; auto|]. apply lt_hd_not_in; auto. }
                apply B in H as [H1 H2]. split; auto. right; auto.
             ++ intros [[->|H1] H2]; [left; auto|right; apply B; auto].
        * destruct (IHo O') as [A B]. split; auto.
          intros z. rewrite B. split.
          -- intros [H1 H2]. split; auto. intros [->|H3]; auto.
             apply (lt_hd_not_in z x s S E2); auto.
          -- intros [H1 H2]. split; auto. intros H3. apply H2. right; auto.
        * pose proof (st_total _ Hst _ _ E1 E2). subst y.
          destruct (IHs o S' O') as [A B]. split; auto.
          intros z. rewrite B. split.
          -- intros [H1 H2]. split; [right; auto|]. intros [->|H3]; auto.
             pose proof (ssorted_hd_min _ _ S _ H1) as L. unfold lt in L. congruence.
          -- intros [[->|H1] H2]; [exfalso; apply H2; left; auto|].
             split; auto. intros H3. apply H2; right; auto.
  Qed.

  Lemma minus_spec s o : ssorted s -> ssorted o ->
    ssorted (minus ltb s o) /\ (forall x, In x (minus ltb s o) <-> In x s /\ ~ In x o).
  Proof.
    intros S O. unfold minus. destruct s as [|x s].
    - split; auto. simpl; tauto.
    - destruct o as [|y o]; [split; auto; simpl; tauto|].
      apply minus_loop_spec; auto.
  Qed.

  (** *** unite *)
  Lemma unite_loop_spec o : forall rest, ssorted rest -> ssorted o ->
    ssorted (unite_loop ltb rest o) /\
    (forall x, In x (unite_loop ltb rest o) <-> In x rest \/ In x o).
  Proof.
    induction o as [|y o IH]; intros rest S O.
    - simpl. split; auto. tauto.
    - simpl. destruct (split_lb ltb y rest) as [a b] eqn:E.
      destruct (split_facts _ _ _ _ S E) as (A & SA & SB & LA & LB & C).
      pose proof (ssorted_tl _ _ O) as O'.
      assert (LAo : forall x z, In x a -> In z (y :: o) -> lt x z).
      { intros x z Hx [<-|Hz]; [apply LA; auto|].
        pose proof (ssorted_hd_min _ _ O _ Hz) as L. specialize (LA _ Hx).
        unfold lt in *. eapply (st_trans _ Hst); eauto. }
      destruct b as [|z b].
      + split.
        * apply ssorted_app. split; [|split]; auto.
        * intros x. subst rest. rewrite !in_app_iff. simpl. tauto.
      + destruct (ltb y z) eqn:L.
        * assert (S' : ssorted (y :: z :: b)).
          { constructor; auto. apply Forall_forall. intros w [<-|Hw]; auto.
            pose proof (ssorted_hd_min _ _ SB _ Hw) as L'. unfold lt in *.
            eapply (st_trans _ Hst); eauto. }
          destruct (IH (y :: z :: b) S' O') as [IH1 IH2]. split.
          -- apply ssorted_app. split; [|split]; auto.
             intros x w Hx Hw. apply IH2 in Hw as [Hw|Hw]; [|apply LAo; auto; right; auto].
             destruct Hw as [<-|Hw]; [apply LA; auto|apply C; auto].
          -- intros x. subst rest. rewrite !in_app_iff, IH2. simpl. tauto.
        * assert (z = y) by (apply (st_total _ Hst); auto; apply LB; left; auto). subst z.
          destruct (IH (y :: b) SB O') as [IH1 IH2]. split.
          -- apply ssorted_app. split; [|split]; auto.
             intros x w Hx Hw. apply IH2 in Hw as [Hw|Hw]; auto. apply LAo; auto. right; auto.
          -- intros x. subst rest. rewrite !in_app_iff, IH2. simpl. tauto.
  Qed.

  Lemma unite_spec s o : ssorted s -> ssorted o ->
    ssorted (unite ltb s o) /\ (forall x, In x (unite ltb s o) <-> In x s \/ In x o).
  Proof.
    intros S O. unfold unite. destruct o as [|y o].
    - split; auto. simpl; tauto.
    - destruct s as [|x s]; [split; auto; simpl; tauto|].
      apply unite_loop_spec; auto.
  Qed.

  (** *** subtract *)
  Lemma subtract_loop_spec o : forall rest, ssorted rest -> ssorted o ->
    ssorted (subtract_loop ltb rest o) /\
    (forall x, In x (subtract_loop ltb rest o) <-> In x rest /\ ~ In x o).
  Proof.
    induction o as [|y o IH]; intros rest S O.
    - simpl. split; auto. tauto.
    - simpl. destruct (split_lb ltb y rest) as [a b] eqn:E.
      destruct (split_facts _ _ _ _ S E) as (A & SA & SB & LA & LB & C).
      pose proof (ssorted_tl _ _ O) as O'.
      assert (Na : forall x, In x a -> ~ (y = x \/ In x o)).
      { intros x Hx. change (~ In x (y :: o)). apply lt_hd_not_in; auto. apply LA; auto. }
      destruct b as [|z b].
      + split; auto. intros x. subst rest. rewrite app_nil_r. split; [|tauto].
        intros H; split; auto.
      + destruct (ltb y z) eqn:L; simpl.
        * destruct (IH (z :: b) SB O') as [IH1 IH2]. split.
          -- apply ssorted_app. split; [|split]; auto.
             intros x w Hx Hw. apply IH2 in Hw as [Hw _]. apply C; auto.
          -- intros x. subst rest. rewrite !in_app_iff, IH2. split.
             ++ intros [H|[H1 H2]]; [split; auto|].
                split; auto. intros [->|H3]; auto.
                apply (lt_hd_not_in x z b SB L); auto.
             ++ intros [[H1|H1] H2]; [auto|]. right. split; auto.
        * assert (z = y) by (apply (st_total _ Hst); auto; apply LB; left; auto). subst z.
          destruct (IH b (ssorted_tl _ _ SB) O') as [IH1 IH2]. split.
          -- apply ssorted_app. split; [|split]; auto.
             intros x w Hx Hw. apply IH2 in Hw as [Hw _]. apply C; auto. right; auto.
          -- intros x. subst rest. rewrite !in_app_iff, IH2. simpl. split.
             ++ intros [H|[H1 H2]]; [split; auto|].
                split; auto. intros [->|H3]; auto.
                pose proof (ssorted_hd_min _ _ SB _ H1) as L'. unfold lt in L'. congruence.
             ++ intros [[H1|[H1|H1]] H2]; [auto|tauto|].
                right. split; auto.
  Qed.

  Lemma subtract_spec s o : ssorted s -> ssorted o ->
    ssorted (subtract ltb s o) /\ (forall x, In x (subtract ltb s o) <-> In x s /\ ~ In x o).
  Proof.
    intros S O. unfold subtract. destruct s as [|x s].
    - split; auto. simpl; tauto.
    - destruct o as [|y o]; [split; auto; simpl; tauto|].
      apply subtract_loop_spec; auto.
  Qed.

  (** *** equality, load/store, filtered *)
  Lemma equal_eq s : forall o, equal ltb s o = true <-> s = o.
  Proof.
    induction s as [|x s IH]; intros [|y o]; simpl; split; try discriminate; auto.
    - intros H. apply andb_true_iff in H as [H1 H2]. apply eqv_eq in H1.
      apply IH in H2. congruence.
    - intros H. inversion H; subst. apply andb_true_iff. split; [apply eqv_eq|apply IH]; auto.
  Qed.

  Lemma equal_spec s o : ssorted s -> ssorted o ->
    (equal ltb s o = true <-> (forall x, In x s <-> In x o)).
  Proof.
    intros S O. rewrite equal_eq. split.
    - intros ->. tauto.
    - apply ssorted_ext; auto.
  Qed.

  Lemma load_store_value s : load ltb false (fun x => x) (store s) = s.
  Proof. unfold load, store; simpl. rewrite firstn_all. apply map_id. Qed.

  Lemma load_store_relocated f s : ssorted s -> (forall x y, In x s -> In y s -> f x = f y -> x = y) ->
    ssorted (load ltb true f (store s)) /\
    (forall y, In y (load ltb true f (store s)) <-> exists x, In x s /\ f x = y).
  Proof.
    intros S Inj. unfold load, store; simpl. rewrite firstn_all. split.
    - change (sort ltb (map f s)) with (of_range ltb (map f s)). apply of_range_sorted.
      apply ssorted_NoDup in S. revert Inj; induction S as [|x l Hx Hl IH]; intros Inj; simpl; constructor.
      + intros H. apply in_map_iff in H as (y & Hy1 & Hy2).
        assert (y = x) by (apply Inj; simpl; auto). subst; auto.
      + apply IH. intros a b Ha Hb. apply Inj; simpl; auto.
    - intros y. change (sort ltb (map f s)) with (of_range ltb (map f s)).
      rewrite of_range_In, in_map_iff. split; intros (x & H1 & H2); exists x; auto.
  Qed.

  Lemma filtered_spec p s : ssorted s ->
    ssorted (filtered p s) /\ (forall x, In x (filtered p s) <-> In x s /\ p x = true).
  Proof.
    intros S. split.
    - unfold filtered. induction s as [|x s IH]; simpl; [constructor|].
      apply StronglySorted_inv in S as [S1 S2]. destruct (p x); auto.
      constructor; auto. rewrite Forall_forall in *. intros y Hy.
      apply filter_In in Hy as [Hy _]. auto.
    - intros x. apply filter_In.
  Qed.
End Proofs.
