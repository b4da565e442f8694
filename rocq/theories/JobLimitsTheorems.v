(** Precedence of job limits (C13). *)
From Coq Require Import List Bool NArith ZArith Lia.
From Verif Require Import Str JobLimitsModel.
Import ListNotations.
Local Open Scope Z_scope.

(** *** Specification *)

(** A sequence of calls setJobLimit(pool, limit), first call first. *)
Definition calls := list (str * Z).
Definition made (cs : calls) : limits := fold_left (fun ls c => set_limit ls (job_limit (fst c) (snd c))) cs [].

(** What the user asked for: the last call for the pool counts.  Zero means as many as an [int] can
    hold, negative means not set. *)
Inductive asked : calls -> str -> option Z -> Prop :=
| asked_never cs p : (forall l, ~ In (p, l) cs) -> asked cs p None
| asked_unset cs p l cs2 : (forall l', ~ In (p, l') cs2) -> l < 0 -> asked (cs ++ (p, l) :: cs2) p None
| asked_unlimited cs p cs2 : (forall l', ~ In (p, l') cs2) -> asked (cs ++ (p, 0) :: cs2) p (Some 2147483647)
| asked_limit cs p l cs2 : (forall l', ~ In (p, l') cs2) -> 0 < l -> asked (cs ++ (p, l) :: cs2) p (Some l).

Definition or_else (a b : option Z) : option Z := match a with Some _ => a | None => b end.

(** *** Proofs *)
Lemma get_set_same ls p l : get_limit (set_limit ls (p, l)) p = l.
Proof.
  induction ls as [|[q m] ls IH]; simpl; [now rewrite str_eqb_refl|].
  destruct (str_eqb q p) eqn:E; simpl.
  - destruct (Z.eqb_spec m l); simpl; [rewrite E; auto|now rewrite str_eqb_refl].
  - now rewrite E.
Qed.
Lemma get_set_other ls p q l : p <> q -> get_limit (set_limit ls (p, l)) q = get_limit ls q.
Proof.
  intros N. induction ls as [|[r m] ls IH]; simpl.
  - apply str_eqb_neq in N. now rewrite N.
  - destruct (str_eqb r p) eqn:E; simpl.
    + apply str_eqb_eq in E. subst r. apply str_eqb_neq in N. destruct (m =? l); simpl; now rewrite N.
    + destruct (str_eqb r q); auto.
Qed.
Lemma set_pools ls p l : forall q, In q (map fst (set_limit ls (p, l))) <-> In q (map fst ls) \/ q = p.
Proof.
  intros q. induction ls as [|[r m] ls IH]; simpl; [intuition|].
  destruct (str_eqb r p) eqn:E; simpl.
  - apply str_eqb_eq in E. subst. destruct (m =? l); simpl; intuition.
  - rewrite IH. intuition.
Qed.
Lemma set_nodup ls p l : NoDup (map fst ls) -> NoDup (map fst (set_limit ls (p, l))).
Proof.
  induction ls as [|[r m] ls IH]; simpl; intros N; [repeat constructor; auto|].
  inversion N; subst. destruct (str_eqb r p) eqn:E; simpl.
  - apply str_eqb_eq in E. subst. destruct (m =? l); simpl; constructor; auto.
  - constructor; auto. rewrite set_pools. intros [X|X]; [auto|]. apply str_eqb_neq in E. congruence.
Qed.

Lemma made_app cs c : made (cs ++ [c]) = set_limit (made cs) (job_limit (fst c) (snd c)).
Proof. unfold made. now rewrite fold_left_app. Qed.
Lemma made_nodup cs : NoDup (map fst (made cs)).
Proof.
  induction cs as [|[p l] cs IH] using rev_ind; [constructor|]. rewrite made_app. now apply set_nodup.
Qed.

Definition limit_of (o : option Z) : Z := match o with Some l => l | None => -1 end.

Lemma get_made cs p : forall o, asked cs p o -> get_limit (made cs) p = limit_of o.
Proof.
  induction cs as [|[q l] cs IH] using rev_ind; intros o H.
  - inversion H; subst; try (match goal with E : _ ++ _ :: _ = [] |- _ => destruct cs; discriminate end). reflexivity.
  - rewrite made_app. unfold job_limit; simpl.
    destruct (str_dec q p) as [->|N].
    + rewrite get_set_same. unfold transform_limit.
      assert (K : forall cs' x cs2, (forall l', ~ In (p, l') cs2) -> cs' ++ (p, x) :: cs2 = cs ++ [(p, l)] -> x = l).
      { intros cs' x cs2 Hn E. destruct cs2 as [|c cs2] using rev_ind.
        - apply app_inj_tail in E. destruct E as [_ E]. congruence.
        - change ((p, x) :: cs2 ++ [c]) with (((p, x) :: cs2) ++ [c]) in E. rewrite app_assoc in E.
          apply app_inj_tail in E. destruct E as [_ ->]. exfalso. apply (Hn l), in_or_app. right. now left. }
      inversion H as [cs' p' Hn|cs' p' x cs2 Hn Hx E|cs' p' cs2 Hn E|cs' p' x cs2 Hn Hx E]; subst.
      * exfalso. apply (Hn l), in_or_app. right. now left.
      * apply K in E; auto. subst x. simpl. destruct (Z.eqb_spec l 0); [lia|]. destruct (Z.ltb_spec l (-1)); lia.
      * apply K in E; auto. subst l. reflexivity.
      * apply K in E; auto. subst x. simpl. destruct (Z.eqb_spec l 0); [lia|]. destruct (Z.ltb_spec l (-1)); lia.
    + rewrite get_set_other; auto. apply IH.
      assert (K : forall cs' x cs2, (forall l', ~ In (p, l') cs2) -> cs' ++ (p, x) :: cs2 = cs ++ [(q, l)] ->
        exists cs3, cs = cs' ++ (p, x) :: cs3 /\ forall l', ~ In (p, l') cs3).
      { intros cs' x cs2 Hn E. destruct cs2 as [|c cs2] using rev_ind.
        - apply app_inj_tail in E. destruct E as [_ [= E _]]. congruence.
        - change ((p, x) :: cs2 ++ [c]) with (((p, x) :: cs2) ++ [c]) in E. rewrite app_assoc in E.
          apply app_inj_tail in E. destruct E as [<- _]. exists cs2. split; auto. intros l' X. apply (Hn l'), in_or_app. auto. }
      inversion H as [cs' p' Hn|cs' p' x cs2 Hn Hx E|cs' p' cs2 Hn E|cs' p' x cs2 Hn Hx E]; subst.
      * constructor. intros l' X. apply (Hn l'), in_or_app. auto.
      * apply K in E; auto. destruct E as (cs3 & -> & Y). now constructor.
      * apply K in E; auto. destruct E as (cs3 & -> & Y). now constructor.
      * apply K in E; auto. destruct E as (cs3 & -> & Y). now constructor.
Qed.

Lemma get_notin ls p : ~ In p (map fst ls) -> get_limit ls p = -1.
Proof.
  induction ls as [|[q l] ls IH]; simpl; auto. intros H. destruct (str_eqb q p) eqn:E; [|apply IH; tauto].
  apply str_eqb_eq in E. tauto.
Qed.

Lemma get_update ls other p : NoDup (map fst other) ->
  get_limit (update ls other) p = if get_limit other p =? -1 then get_limit ls p else get_limit other p.
Proof.
  intros N. destruct ls as [|c ls].
  - simpl. destruct (Z.eqb_spec (get_limit other p) (-1)) as [->|]; auto.
  - unfold update. generalize (c :: ls) as acc. clear c ls.
    induction other as [|[q l] other IH]; intros acc; simpl; auto.
    inversion N; subst. rewrite IH; auto. destruct (str_eqb q p) eqn:E.
    + apply str_eqb_eq in E. subst q. rewrite get_notin; auto. simpl.
      destruct (Z.eqb_spec l (-1)); auto. apply get_set_same.
    + destruct (Z.eqb_spec l (-1)); auto. apply str_eqb_neq in E. now rewrite get_set_other.
Qed.

Lemma update_nodup ls other : NoDup (map fst ls) -> NoDup (map fst other) -> NoDup (map fst (update ls other)).
Proof.
  intros A B. destruct ls as [|c ls]; auto. unfold update. clear B. revert A. generalize (c :: ls) as acc.
  induction other as [|[q l] other IH]; intros acc A; simpl; auto. apply IH. destruct (l =? -1); auto. now apply set_nodup.
Qed.

Lemma asked_not_minus cs p o : asked cs p o -> match o with Some l => l <> -1 | None => True end.
Proof. intros H. destruct H; auto; lia. Qed.

Lemma limit_or a b : match a with Some l => l <> -1 | None => True end ->
  (if limit_of a =? -1 then limit_of b else limit_of a) = limit_of (or_else a b).
Proof. destruct a as [l|]; simpl; auto. intros H. destruct (Z.eqb_spec l (-1)); [contradiction|auto]. Qed.

(** *** Theorem (C13) *)
Theorem job_limit_precedence cs_settings cs_options cs_product pool s o p :
  asked cs_settings pool s -> asked cs_options pool o -> asked cs_product pool p ->
  get_limit (effective false (made cs_settings) (made cs_options) (made cs_product)) pool
    = match or_else o (or_else s p) with Some l => l | None => -1 end
  /\ get_limit (effective true (made cs_settings) (made cs_options) (made cs_product)) pool
    = match or_else p (or_else o s) with Some l => l | None => -1 end.
Proof.
  intros S O P. unfold effective.
  assert (N : forall cs, NoDup (map fst (made cs))) by apply made_nodup.
  change (update [] (made cs_settings)) with (made cs_settings). change (update [] (made cs_product)) with (made cs_product).
  rewrite !get_update by auto. rewrite (get_made _ _ _ S), (get_made _ _ _ O), (get_made _ _ _ P).
  pose proof (asked_not_minus _ _ _ S). pose proof (asked_not_minus _ _ _ O). pose proof (asked_not_minus _ _ _ P).
  rewrite !(limit_or s p), !(limit_or o s), !(limit_or o), !(limit_or p) by auto. auto.
Qed.
(** For every sequence of calls and every pool there is an answer to what was asked for, so the
    theorem covers all cases. *)
Theorem asked_total cs p : exists o, asked cs p o.
Proof.
  induction cs as [|[q l] cs IH] using rev_ind; [exists None; constructor; auto|].
  destruct (str_dec q p) as [->|N].
  - destruct (Z.lt_trichotomy l 0) as [H|[->|H]].
    + exists None. now apply asked_unset.
    + eexists. now apply asked_unlimited.
    + eexists. apply asked_limit; auto.
  - assert (K : forall cs2, (forall l', ~ In (p, l') cs2) -> forall l', ~ In (p, l') (cs2 ++ [(q, l)])).
    { intros cs2 H l' X. apply in_app_or in X. destruct X as [X|[X|[]]]; [now apply H in X|congruence]. }
    destruct IH as [o IH]. exists o. destruct IH as [cs p H|cs p x cs2 H Hx|cs p cs2 H|cs p x cs2 H Hx].
    + constructor. now apply K.
    + rewrite <- app_assoc. simpl. apply asked_unset; auto.
    + rewrite <- app_assoc. simpl. apply asked_unlimited; auto.
    + rewrite <- app_assoc. simpl. apply asked_limit; auto.
Qed.

Example job_limit_case :   (* pool "c": settings 4, options unset, product 0 (unlimited) *)
  let pool := [99%N] in
  asked [(pool, 4)] pool (Some 4) /\ asked [(pool, -1)] pool None /\ asked [(pool, 2); (pool, 0)] pool (Some 2147483647)
  /\ get_limit (effective false (made [(pool, 4)]) (made [(pool, -1)]) (made [(pool, 2); (pool, 0)])) pool = 4
  /\ get_limit (effective true (made [(pool, 4)]) (made [(pool, -1)]) (made [(pool, 2); (pool, 0)])) pool = 2147483647.
Proof.
  simpl. split; [apply (asked_limit [] _ 4 []); auto; lia|].
  split; [apply (asked_unset [] _ (-1) []); auto; lia|].
  split; [apply (asked_unlimited [([99%N], 2)] _ []); auto|]. split; reflexivity.
Qed.

Print Assumptions job_limit_precedence.
Print Assumptions asked_total.
