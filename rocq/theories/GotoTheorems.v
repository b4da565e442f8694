(** What users can rely on about going to the definition of a product, module or item. *)
From Coq Require Import List NArith Bool Lia Permutation.
From Verif Require Import GotoModel.
Import ListNotations.
Local Open Scope N_scope.

(** * Specification *)

(** Reading order. *)
Definition earlier (a b : position) : Prop :=
  fst a < fst b \/ (fst a = fst b /\ snd a < snd b).

Definition inside (r : range) (p : position) : Prop := ~ earlier p (fst r) /\ earlier p (snd r).

(** A link: in this file, this range leads to that location. *)
Definition link : Type := (N * range * location)%type.

(** The table after some links have been found, one after the other. *)
Definition table (ls : list link) : links :=
  fold_left (fun l e => add_link (fst (fst e)) (snd (fst e)) (snd e) l) ls [].

(** No two ranges in the file have the position in common. *)
Definition one_range (ls : list link) (f : N) (p : position) : Prop :=
  forall r1 t1 r2 t2, In (f, r1, t1) ls -> In (f, r2, t2) ls -> inside r1 p -> inside r2 p -> r1 = r2.

(** * Lemmas *)

Lemma pos_lt_true : forall a b, pos_lt a b = true <-> earlier a b.
Proof.
  intros [a1 a2] [b1 b2]. unfold pos_lt, earlier. cbn [fst snd].
  destruct (N.ltb_spec a1 b1) as [H|H]; [split; [left; exact H|reflexivity]|].
  destruct (N.ltb_spec b1 a1) as [G|G]; [split; [discriminate|lia]|].
  rewrite N.ltb_lt. split; [intros Q; right; split; [lia|exact Q]|lia].
Qed.

Lemma contains_true : forall r p, contains r p = true <-> inside r p.
Proof.
  intros r p. unfold contains, inside, pos_le, pos_gt. rewrite andb_true_iff, negb_true_iff.
  rewrite pos_lt_true, <- (pos_lt_true p (fst r)). destruct (pos_lt p (fst r)); intuition discriminate.
Qed.

Lemma pos_eqb_eq : forall a b, pos_eqb a b = true <-> a = b.
Proof.
  intros [a1 a2] [b1 b2]. unfold pos_eqb. cbn. rewrite andb_true_iff, !N.eqb_eq.
  split; [intros [-> ->]; reflexivity|intros H; injection H as -> ->; split; reflexivity].
Qed.

Lemma range_eqb_eq : forall a b, range_eqb a b = true <-> a = b.
Proof.
  intros [a1 a2] [b1 b2]. unfold range_eqb. cbn. rewrite andb_true_iff, !pos_eqb_eq.
  split; [intros [-> ->]; reflexivity|intros H; injection H as -> ->; split; reflexivity].
Qed.

Lemma loc_eqb_eq : forall a b, loc_eqb a b = true <-> a = b.
Proof.
  intros [a1 a2] [b1 b2]. unfold loc_eqb. cbn. rewrite andb_true_iff, N.eqb_eq, pos_eqb_eq.
  split; [intros [-> ->]; reflexivity|intros H; injection H as -> ->; split; reflexivity].
Qed.

Fixpoint rget (r : range) (l : file_links) : option (list location) :=
  match l with
  | [] => None
  | (r', ts) :: rest => if range_eqb r r' then Some ts else rget r rest
  end.

Definition of_option {A : Type} (o : option (list A)) : list A :=
  match o with Some l => l | None => [] end.

Lemma rget_add : forall r t r' l, rget r' (add_range r t l) =
  if range_eqb r' r then Some (add_target t (of_option (rget r l))) else rget r' l.
Proof.
  intros r t r'. induction l as [|[k ts] rest IH]; cbn [add_range rget of_option].
  - destruct (range_eqb r' r); reflexivity.
  - destruct (range_eqb r k) eqn:E.
    + apply range_eqb_eq in E. subst k. cbn [rget]. destruct (range_eqb r' r); reflexivity.
    + cbn [rget]. rewrite IH. destruct (range_eqb r' k) eqn:F; [|reflexivity].
      apply range_eqb_eq in F. subst k. destruct (range_eqb r' r) eqn:G; [|reflexivity].
      apply range_eqb_eq in G. subst r'. rewrite (proj2 (range_eqb_eq r r) eq_refl) in E. discriminate.
Qed.

Lemma keys_add : forall r t l, incl (map fst (add_range r t l)) (r :: map fst l).
Proof.
  intros r t. induction l as [|[k ts] rest IH]; cbn [add_range map fst]; [apply incl_refl|].
  destruct (range_eqb r k); cbn [map fst]; [apply incl_tl, incl_refl|].
  intros x [Q|Q]; [right; left; exact Q|]. destruct (IH x Q) as [H|H]; [left; exact H|right; right; exact H].
Qed.

Lemma nodup_add : forall r t l, NoDup (map fst l) -> NoDup (map fst (add_range r t l)).
Proof.
  intros r t. induction l as [|[k ts] rest IH]; intros Nd; cbn [add_range map fst].
  - constructor; [intros []|constructor].
  - cbn [map fst] in Nd. apply NoDup_cons_iff in Nd. destruct Nd as [N1 N2].
    destruct (range_eqb r k) eqn:E; cbn [map fst]; constructor; try assumption; [|apply IH; exact N2].
    intros Q. apply keys_add in Q. destruct Q as [Q|Q]; [|exact (N1 Q)].
    subst k. rewrite (proj2 (range_eqb_eq r r) eq_refl) in E. discriminate.
Qed.

Lemma rget_in : forall r ts l, NoDup (map fst l) -> (In (r, ts) l <-> rget r l = Some ts).
Proof.
  intros r ts. induction l as [|[k us] rest IH]; intros Nd; [split; [intros []|discriminate]|].
  cbn [map fst] in Nd. apply NoDup_cons_iff in Nd. destruct Nd as [N1 N2]. cbn [rget In].
  destruct (range_eqb r k) eqn:E.
  - apply range_eqb_eq in E. subst k. split.
    + intros [H|H]; [injection H as ->; reflexivity|]. exfalso. apply N1.
      apply in_map_iff. exists (r, ts). split; [reflexivity|exact H].
    + intros H. injection H as ->. left. reflexivity.
  - rewrite <- (IH N2). split; [|intros H; right; exact H].
    intros [H|H]; [|exact H]. injection H as -> ->.
    rewrite (proj2 (range_eqb_eq r r) eq_refl) in E. discriminate.
Qed.

Lemma file_add : forall f r t g l, file_entry g (add_link f r t l) =
  if g =? f then Some (add_range r t (of_option (file_entry f l))) else file_entry g l.
Proof.
  intros f r t g. unfold file_entry.
  induction l as [|[k fl] rest IH]; cbn [add_link find fst].
  - rewrite (N.eqb_sym f g). destruct (g =? f); reflexivity.
  - destruct (N.eqb_spec f k) as [E|E].
    + subst k. cbn [find fst]. rewrite N.eqb_refl. cbn [option_map snd of_option].
      rewrite (N.eqb_sym f g). destruct (g =? f); reflexivity.
    + cbn [find fst].
      replace (k =? f) with false by (symmetry; apply N.eqb_neq; intros Q; apply E; symmetry; exact Q).
      destruct (N.eqb_spec k g) as [F|F].
      * subst k. replace (g =? f) with false
          by (symmetry; apply N.eqb_neq; intros Q; apply E; symmetry; exact Q). reflexivity.
      * apply IH.
Qed.

Lemma add_target_in : forall t x l, In x (add_target t l) <-> x = t \/ In x l.
Proof.
  intros t x l. unfold add_target. destruct (existsb (loc_eqb t) l) eqn:E.
  - apply existsb_exists in E. destruct E as [y [H E]]. apply loc_eqb_eq in E. subst y.
    split; [intros Q; right; exact Q|intros [->|Q]; assumption].
  - rewrite in_app_iff. cbn. split; [intros [Q|[Q|[]]]; [right; exact Q|left; symmetry; exact Q]|].
    intros [Q|Q]; [right; left; symmetry; exact Q|left; exact Q].
Qed.

Lemma add_target_nodup : forall t l, NoDup l -> NoDup (add_target t l).
Proof.
  intros t l Nd. unfold add_target. destruct (existsb (loc_eqb t) l) eqn:E; [exact Nd|].
  apply (Permutation_NoDup (l := t :: l)); [apply Permutation_cons_append|].
  constructor; [|exact Nd]. intros Q.
  assert (existsb (loc_eqb t) l = true); [|congruence].
  apply existsb_exists. exists t. split; [exact Q|apply loc_eqb_eq; reflexivity].
Qed.

Record right_table (ls : list link) (f : N) (fl : file_links) : Prop := {
  t_keys : NoDup (map fst fl);
  t_targets : forall r, NoDup (of_option (rget r fl)) /\
    (forall t, In t (of_option (rget r fl)) <-> In (f, r, t) ls);
  t_some : forall r ts, rget r fl = Some ts -> exists t, In t ts }.

Lemma table_right : forall ls f, right_table ls f (of_option (file_entry f (table ls))).
Proof.
  induction ls as [|e ls IH] using rev_ind; intros f.
  - constructor; cbn.
    + constructor.
    + intros r. split; [constructor|intros t; split; intros []].
    + discriminate.
  - destruct e as [[g r] t]. unfold table. rewrite fold_left_app. cbn [fold_left fst snd].
    fold (table ls). rewrite file_add. specialize (IH f). destruct (N.eqb_spec f g) as [E|E].
    + subst g. destruct IH as [K T So]. cbn [of_option]. constructor.
      * apply nodup_add. exact K.
      * intros r'. rewrite rget_add. destruct (range_eqb r' r) eqn:F.
        -- apply range_eqb_eq in F. subst r'. cbn [of_option]. destruct (T r) as [T1 T2].
           split; [apply add_target_nodup; exact T1|]. intros x.
           rewrite add_target_in, T2, in_app_iff. cbn. split.
           ++ intros [->|Q]; [right; left; reflexivity|left; exact Q].
           ++ intros [Q|[Q|[]]]; [right; exact Q|left; injection Q as <-; reflexivity].
        -- destruct (T r') as [T1 T2]. split; [exact T1|]. intros x. rewrite T2, in_app_iff. cbn.
           split; [intros Q; left; exact Q|]. intros [Q|[Q|[]]]; [exact Q|].
           injection Q as <- _. rewrite (proj2 (range_eqb_eq r r) eq_refl) in F. discriminate.
      * intros r' ts. rewrite rget_add. destruct (range_eqb r' r); [|apply So].
        intros Q. injection Q as <-. exists t. apply add_target_in. left. reflexivity.
    + destruct IH as [K T So]. constructor; [exact K| |exact So].
      intros r'. destruct (T r') as [T1 T2]. split; [exact T1|]. intros x.
      rewrite T2, in_app_iff. cbn. split; [intros Q; left; exact Q|].
      intros [Q|[Q|[]]]; [exact Q|]. injection Q as Q _ _. exfalso. apply E. symmetry. exact Q.
Qed.

Lemma search_spec : forall current f p l,
  match search current f p l with
  | Some ts => exists r us, In (r, us) l /\ inside r p /\ current f (snd r) = true /\
                 ts = filter (fun t => current (fst t) (snd t)) us
  | None => (forall r us, In (r, us) l -> ~ inside r p) \/
            exists r us, In (r, us) l /\ inside r p /\ current f (snd r) = false
  end.
Proof.
  intros current f p. induction l as [|[r us] rest IH]; cbn [search].
  - left. intros r us [].
  - destruct (contains r p) eqn:C.
    + apply contains_true in C. destruct (current f (snd r)) eqn:Q.
      * exists r, us. split; [left; reflexivity|]. split; [exact C|]. split; [exact Q|reflexivity].
      * right. exists r, us. split; [left; reflexivity|]. split; assumption.
    + assert (Nc : ~ inside r p) by (intros H; apply contains_true in H; congruence).
      destruct (search current f p rest) as [ts|].
      * destruct IH as [r' [us' [H1 H2]]]. exists r', us'. split; [right; exact H1|exact H2].
      * destruct IH as [H|[r' [us' [H1 H2]]]].
        -- left. intros r' us' [E|E]; [injection E as <- _; exact Nc|exact (H r' us' E)].
        -- right. exists r', us'. split; [right; exact H1|exact H2].
Qed.

(** * Theorems *)

(** C140. The order of positions is reading order, and a range has its start but not its end. *)
Theorem positions_in_reading_order : forall a b r p,
  (pos_lt a b = true <-> earlier a b) /\ (pos_le a b = true <-> a = b \/ earlier a b) /\
  (contains r p = true <-> inside r p).
Proof.
  intros a b r p. split; [apply pos_lt_true|]. split; [|apply contains_true].
  unfold pos_le, pos_gt. rewrite negb_true_iff. rewrite <- not_true_iff_false, pos_lt_true.
  destruct a as [a1 a2], b as [b1 b2]. unfold earlier. cbn [fst snd]. split.
  - intros H. destruct (N.eq_dec a1 b1) as [->|E]; [|right; lia].
    destruct (N.eq_dec a2 b2) as [->|F]; [left; reflexivity|right; lia].
  - intros [H|H]; [injection H as -> ->|]; lia.
Qed.

(** C140. Whatever the order in which a hash table is gone through: if ranges do not overlap, the
    answer has exactly the targets found for the range at the cursor that are where they were,
    each once; there is no answer only if there is no such range or the text has changed. *)
Theorem goto_finds : forall current order ls f p,
  (forall fl, Permutation (order fl) fl) -> one_range ls f p ->
  match goto_definition current order (table ls) f p with
  | Some ts => current f p = true /\ NoDup ts /\
      exists r, (exists t, In (f, r, t) ls) /\ inside r p /\ current f (snd r) = true /\
        forall t, In t ts <-> In (f, r, t) ls /\ current (fst t) (snd t) = true
  | None => current f p = false \/
      forall r t, In (f, r, t) ls -> inside r p -> current f (snd r) = false
  end.
Proof.
  intros current order ls f p Pe One. unfold goto_definition.
  destruct (current f p) eqn:Cp; cbn [negb]; [|left; reflexivity].
  pose proof (table_right ls f) as T. destruct (file_entry f (table ls)) as [fl|]; cbn [of_option] in T.
  - destruct T as [K T So]. pose proof (search_spec current f p (order fl)) as S.
    destruct (search current f p (order fl)) as [ts|].
    + destruct S as [r [us [H [I [C E]]]]]. split; [reflexivity|].
      apply (Permutation_in _ (Pe fl)) in H. apply (rget_in r us fl K) in H.
      destruct (T r) as [T1 T2]. rewrite H in T1, T2. cbn [of_option] in T1, T2.
      split; [subst ts; apply NoDup_filter; exact T1|]. exists r.
      split; [destruct (So r us H) as [t Ht]; exists t; apply T2; exact Ht|].
      split; [exact I|]. split; [exact C|]. intros t. subst ts. rewrite filter_In, T2. reflexivity.
    + right. intros r t Hl I.
      assert (He : exists us, In (r, us) fl).
      { destruct (T r) as [_ T2]. apply T2 in Hl. destruct (rget r fl) as [us|] eqn:G; [|destruct Hl].
        exists us. apply rget_in; assumption. }
      destruct He as [us He]. apply (Permutation_in _ (Permutation_sym (Pe fl))) in He.
      destruct S as [S|[r' [us' [H' [I' C']]]]]; [exfalso; exact (S r us He I)|].
      apply (Permutation_in _ (Pe fl)) in H'. apply (rget_in r' us' fl K) in H'.
      destruct (So r' us' H') as [t' Ht']. destruct (T r') as [_ T2]. rewrite H' in T2.
      apply T2 in Ht'. rewrite (One r t r' t' Hl Ht' I I'). exact C'.
  - right. intros r t Hl _. exfalso. destruct T as [_ T _]. destruct (T r) as [_ T2].
    apply T2 in Hl. destruct Hl.
Qed.

(** C140. The order of the hash table has no influence on whether there is an answer and which
    locations it has. *)
Theorem goto_independent_of_order : forall current o1 o2 ls f p,
  (forall fl, Permutation (o1 fl) fl) -> (forall fl, Permutation (o2 fl) fl) -> one_range ls f p ->
  match goto_definition current o1 (table ls) f p, goto_definition current o2 (table ls) f p with
  | Some a, Some b => Permutation a b
  | None, None => True
  | _, _ => False
  end.
Proof.
  intros current o1 o2 ls f p P1 P2 One.
  pose proof (goto_finds current o1 ls f p P1 One) as A.
  pose proof (goto_finds current o2 ls f p P2 One) as B.
  destruct (goto_definition current o1 (table ls) f p) as [a|];
    destruct (goto_definition current o2 (table ls) f p) as [b|].
  - destruct A as [_ [Na [r [[t Ht] [Ir [_ Ta]]]]]]. destruct B as [_ [Nb [r' [[t' Ht'] [Ir' [_ Tb]]]]]].
    assert (r' = r) as -> by (eapply One; eassumption).
    apply NoDup_Permutation; [exact Na|exact Nb|]. intros x. rewrite Ta, Tb. reflexivity.
  - destruct A as [Cp [_ [r [[t Ht] [Ir [C _]]]]]]. destruct B as [B|B]; [congruence|].
    specialize (B r t Ht Ir). congruence.
  - destruct B as [Cp [_ [r [[t Ht] [Ir [C _]]]]]]. destruct A as [A|A]; [congruence|].
    specialize (A r t Ht Ir). congruence.
  - exact Logic.I.
Qed.

(** C140. If the type of a Depends item is from a file, the range of the type is within that of
    the item, and then it depends on the order of the hash table where one gets. *)
Theorem goto_order_matters_refuted : exists current o1 o2 ls f p a b,
  (forall fl, Permutation (o1 fl) fl) /\ (forall fl, Permutation (o2 fl) fl) /\
  goto_definition current o1 (table ls) f p = Some a /\
  goto_definition current o2 (table ls) f p = Some b /\ ~ Permutation a b.
Proof.
  exists (fun _ _ => true), (fun l => l), (@rev (range * list location)),
    [(1, ((3, 5), (3, 14)), (2, (1, 1))); (1, ((3, 5), (3, 30)), (4, (7, 1)))], 1, (3, 6),
    [(2, (1, 1))], [(4, (7, 1))].
  split; [intros fl; apply Permutation_refl|].
  split; [intros fl; apply Permutation_sym, Permutation_rev|].
  split; [reflexivity|]. split; [reflexivity|]. intros H.
  apply Permutation_length_1 in H. discriminate.
Qed.

Module Demo.
  (** Two products depend on module cpp at the same place with two backends; a further range. *)
  Definition ls : list link :=
    [(1, ((3, 5), (3, 30)), (2, (1, 1))); (1, ((9, 5), (12, 2)), (5, (1, 1)));
     (1, ((3, 5), (3, 30)), (4, (7, 1))); (1, ((3, 5), (3, 30)), (2, (1, 1)))].

  (** File 4 has been changed. *)
  Definition current (f : N) (p : position) : bool := negb (f =? 4).

  Example at_start : goto_definition (fun _ _ => true) (@rev _) (table ls) 1 (3, 5) =
    Some [(2, (1, 1)); (4, (7, 1))].
  Proof. reflexivity. Qed.

  Example changed : goto_definition current (fun l => l) (table ls) 1 (3, 29) = Some [(2, (1, 1))].
  Proof. reflexivity. Qed.

  Example at_end : goto_definition current (fun l => l) (table ls) 1 (3, 30) = None.
  Proof. reflexivity. Qed.

  Lemma one : one_range ls 1 (3, 29).
  Proof.
    intros r1 t1 r2 t2 H1 H2 I1 I2. apply contains_true in I1. apply contains_true in I2.
    cbn in H1, H2.
    repeat (destruct H1 as [H1|H1]; [injection H1 as <- <-; try discriminate I1|]); try destruct H1;
    repeat (destruct H2 as [H2|H2]; [injection H2 as <- <-; try discriminate I2; try reflexivity|]);
    destruct H2.
  Qed.

  Example finds_use : exists r, inside r (3, 29) /\
    forall t, In t [(2, (1, 1))] <-> In (1, r, t) ls /\ current (fst t) (snd t) = true.
  Proof.
    pose proof (goto_finds current (fun l => l) ls 1 (3, 29)
      (fun fl => Permutation_refl fl) one) as T.
    change (goto_definition _ _ _ _ _) with (Some [(2, (1, 1))] : option (list location)) in T. destruct T as [_ [_ [r [_ [I [_ T]]]]]]. exists r. split; assumption.
  Qed.
End Demo.

Print Assumptions positions_in_reading_order.
Print Assumptions goto_finds.
Print Assumptions goto_independent_of_order.
Print Assumptions goto_order_matters_refuted.
