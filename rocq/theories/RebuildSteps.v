(** Every step keeps the invariant. *)
From Coq Require Import List Bool Arith ZArith Lia.
From Verif Require Import RebuildModel RebuildSpec RebuildDecide RebuildInv.
Import ListNotations.

Lemma needs_ext c s s' x : outs s' x = outs s x -> (marked s x = true -> marked s' x = true) ->
  (track s x = true -> changed s x = true -> track s' x = true /\ changed s' x = true) ->
  (forall o, In o (outs s x) -> kids s' o = kids s o /\ fdeps s' o = fdeps s o /\ ts s' o = ts s o) ->
  (forall o k, In o (outs s x) -> In k (kids s o) -> file_time c s' k = file_time c s k) ->
  (forall o d, In o (outs s x) -> In d (fdeps s o) -> mtime s' d = mtime s d) -> needs c s x -> needs c s' x.
Proof.
  intros A B C D E G. assert (St : forall o, In o (outs s x) -> stale c s o -> stale c s' o).
  { intros o Ho H. destruct (D o Ho) as (K1 & K2 & K3). destruct H as [X|[(k & Hk & X)|(d & Hd & X)]].
    + left. congruence.
    + right; left. exists k. rewrite K1, K3, (E o k); auto.
    + right; right. exists d. rewrite K2, K3, (G o d); auto. }
  intros [H|[H|[[H1 H2]|[H|(o & Ho & Ha & H)]]]].
  - now left.
  - right; left; auto.
  - right; right; left; auto.
  - right; right; right; left. intros o Ho. rewrite A in Ho. auto.
  - right; right; right; right. exists o. rewrite A. auto.
Qed.
Lemma correct_ext c s s' x : deterministic c -> outs s' x = outs s x -> conf s' x = conf s x ->
  (forall o, In o (outs s x) -> kids s' o = kids s o /\ fdeps s' o = fdeps s o) ->
  (forall n, concerns s x n -> content s' n = content s n) -> correct c s x -> correct c s' x.
Proof.
  intros Dt A B C D H o Ho. rewrite A in Ho. rewrite D, (H o Ho), B; [|now left]. apply Dt. intros k. unfold env.
  destruct (C o Ho) as [-> ->]. destruct (mem k (kids s o)) eqn:E1; simpl.
  - apply mem_In in E1. rewrite D; auto. right; eauto.
  - destruct (mem k (fdeps s o)) eqn:E2; auto. apply mem_In in E2. rewrite D; auto. right; eauto.
Qed.

(** *** Consider *)
Lemma uptodate_state c s o : force (bopts s) = false -> snd (is_up_to_date c s o) = s.
Proof. intros H. unfold is_up_to_date. rewrite H. reflexivity. Qed.
Lemma loop_state c s l : force (bopts s) = false -> forall a n, snd (outputs_loop c s l a n) = s.
Proof.
  intros H. induction l as [|o l IH]; intros a n; cbn [outputs_loop]; auto.
  assert (U := uptodate_state c s o H). destruct (is_up_to_date c s o) as [r s2]. simpl in U. subst s2.
  destruct r as [[|]|]; auto; destruct (au c o); simpl; auto. rewrite H. auto.
Qed.
Lemma must_state c s t b s2 : force (bopts s) = false -> must_execute c s t = (Some b, s2) ->
  s2 = s \/ s2 = set_track (upd (track s) t false) s.
Proof.
  intros H E. unfold must_execute in E. destruct (always c t); [injection E as _ <-; auto|].
  destruct (marked s t); [injection E as _ <-; auto|].
  assert (L := loop_state c s (outs s t) H false false). destruct (outputs_loop c s (outs s t) false false) as [r s3].
  simpl in L. subst s3. destruct r as [[[a n]|]|]; [| |discriminate].
  - unfold commands_need_rerun in E. destruct (track s t); [|injection E as _ <-; auto].
    destruct (changed s t); injection E as _ <-; auto.
  - injection E as _ <-. auto.
Qed.
Lemma track_after s s2 t : s2 = s \/ s2 = set_track (upd (track s) t false) s -> after_decision s s2 t.
Proof.
  intros [->| ->]; constructor; auto. intros n Hn. simpl. now rewrite upd_other.
Qed.

Lemma idle_spec s t : idle s t = true <-> ~ In t (done s) /\ ~ In t (started s).
Proof. unfold idle. rewrite andb_true_iff, !negb_true_iff, !mem_notIn. reflexivity. Qed.

Lemma consider_same s s2 t x : s2 = s \/ s2 = set_track (upd (track s) t false) s -> x <> t ->
  same x s (finish t s2) /\ same x s (run t s2).
Proof.
  intros [->| ->] Hx; split; constructor; simpl; auto; now rewrite ?upd_other.
Qed.

Lemma inv_skip c s s2 t : deterministic c -> Inv c s -> active s = true -> idle s t = true ->
  forallb (fun o => forallb (built c s) (kids s o)) (outs s t) = true ->
  outs s t <> [] ->
  s2 = s \/ s2 = set_track (upd (track s) t false) s ->
  (full s /\ ~ must_run c s t /\ track s2 t = false) \/ (~ full s /\ (needs c s t -> needs c (finish t s2) t)) ->
  Inv c (finish t s2) /\ (forall x, dirty c s x -> dirty c (finish t s2) x).
Proof.
  intros Dt I A Id B Ne Hs2 Hc. assert (Ad := track_after s s2 t Hs2). apply idle_spec in Id as [Id1 Id2].
  assert (Sm := fun x Hx => proj1 (consider_same s s2 t x Hs2 Hx)).
  assert (Idb : idle s t = true) by (apply idle_spec; auto).
  set (s' := finish t s2) in *.
  assert (ND : full s -> ~ dirty c s t).
  { intros Fu D. destruct Hc as [(_ & Hm & _)|[Hf _]]; [|contradiction]. apply Hm. now apply dirty_must. }
  assert (Nd : needs c s t -> needs c s' t).
  { intros N. destruct Hc as [(Fu & _ & _)|[_ Hn]]; auto. exfalso. apply (ND Fu). now apply dirty_needs. }
  assert (E : outs s' = outs s /\ kids s' = kids s /\ fdeps s' = fdeps s /\ conf s' = conf s /\ content s' = content s
     /\ mtime s' = mtime s /\ ts s' = ts s /\ now s' = now s /\ bopts s' = bopts s /\ active s' = active s
     /\ began s' = began s /\ running s' = running s /\ started s' = started s /\ succeeded s' = succeeded s /\ done s' = t :: done s
     /\ changed s' = changed s).
  { unfold s'. destruct Hs2 as [->| ->]; simpl; intuition. }
  destruct E as (Eo & Ek & Ef & Ec & Ect & Em & Et & En & Eb & Ea & Ebe & Er & Est & Esu & Ed & Ech).
  assert (Mono : forall x, dirty c s x -> dirty c s' x).
  { intros x D. induction D as [x R|x N|x o k t' Ho Hk Ha Hkd D IH].
    - apply dirty_running. now rewrite Er.
    - apply dirty_needs. destruct (Nat.eq_dec x t) as [->|Hx]; auto. apply (same_needs c x s); auto.
    - apply (dirty_kid c s' x o k t'); auto; [now rewrite Eo|now rewrite Ek]. }
  assert (Co : correct c s t -> correct c s' t).
  { intros C. apply (correct_ext c s); auto; try (intros; rewrite ?Eo, ?Ec, ?Ek, ?Ef, ?Ect; auto). }
  split; [|exact Mono].
  constructor; rewrite ?Eo, ?Ek, ?Ef, ?Em, ?Et, ?En, ?Eb, ?Ea, ?Ebe, ?Er, ?Est, ?Esu, ?Ed.
  - apply (wf_same c s); auto. apply (iv_wf _ _ I).
  - apply (iv_now _ _ I).
  - apply (iv_mtime _ _ I).
  - apply (iv_ts _ _ I).
  - intros _. destruct (iv_began _ _ I A) as (X & Y & Z). split; auto. split; auto. intros x o Ho Hx. apply (Z x o Ho). simpl in Hx. tauto.
  - apply (iv_src _ _ I).
  - apply (iv_srcvalid _ _ I).
  - apply (iv_force _ _ I).
  - intros x Hx. destruct (iv_run _ _ I x Hx) as (X & Y & Z). split; auto. split; auto. intros [<-|W]; auto.
  - rewrite Ech. apply (iv_runchanged _ _ I).
  - intros x Hx. destruct (iv_succ _ _ I x Hx). simpl; auto.
  - intros x [<-|Hx] Hy; [contradiction|]. now apply (iv_ds _ _ I).
  - intros _ x Hx o k t' Ho Hk Hkd. destruct (Nat.eq_dec x t) as [->|Hn].
    + right. rewrite forallb_forall in B. specialize (B o Ho). rewrite forallb_forall in B. specialize (B k Hk).
      unfold built in B. rewrite Hkd in B. now apply mem_In.
    + right. apply (iv_order _ _ I A x) with o k; auto. simpl in Hx. destruct Hx as [[Hx|Hx]|Hx]; auto. congruence.
  - intros x. destruct (iv_fresh _ _ I x) as [C|D]; [|right; auto]. left. destruct (Nat.eq_dec x t) as [->|Hx]; auto.
    apply (same_correct c x s); auto.
  - intros x o Ho Ha. destruct (iv_nonau _ _ I x o Ho Ha); auto.
  - intros _ t' x k o Ht' Hk Ha Ho Hk'. destruct (iv_link _ _ I A t' x k o Ht' Hk Ha Ho Hk') as [L1 L2].
    assert (Fs : full s' -> full s) by (unfold full; now rewrite Eb). split.
    + intros Nd' Ns. simpl in Nd'. destruct L1 as [L|L]; auto. left. rewrite (sm_marked _ _ _ (Sm x ltac:(intuition congruence))). auto.
    + intros Fu [<-|Hd]; [|apply L2; auto]. exfalso. destruct Hc as [(_ & Hm & _)|[Hf _]]; [|apply Hf, Fs, Fu].
      apply Hm. destruct (L1 Id1 Id2) as [L|L]; [right; now left|]. right; right; right; right. intros o' Ho'. left.
      rewrite (known_noforce s t o' (iv_force _ _ I A)). auto.
  - intros _ Fu x Hx. assert (Fs : full s) by (revert Fu; unfold full; now rewrite Eb). destruct (Nat.eq_dec x t) as [->|Hn].
    + assert (D := ND Fs). destruct Hc as [(_ & Hm & Htr)|[Hf _]]; [|contradiction]. constructor.
      * right. intros X. apply D. apply dirty_needs.
        assert (St : forall o, stale c s' o -> stale c s o) by (intros o; unfold stale, file_time; now rewrite Et, Ek, Ef, Em).
        destruct X as [X|[X|[[X Y]|[X|(o & Ho & Ha & X)]]]]; [now left| | | |].
        -- unfold s' in X. simpl in X. rewrite upd_same in X. discriminate.
        -- unfold s' in X. simpl in X. congruence.
        -- right; right; right; left. intros o Ho. rewrite Eo in X. auto.
        -- right; right; right; right. exists o. rewrite Eo in Ho. auto.
      * apply Co. destruct (iv_fresh _ _ I t); [auto|contradiction].
      * rewrite Eo, Et, Em. intros o Ho Ha. destruct (iv_nonau _ _ I t o Ho Ha); [auto|contradiction].
      * rewrite Eo, Et, Ek, Ef. intros o Ho Ha.
        assert (No : ~ outdated s t o) by (intros X; apply Hm; right; right; left; exists o; auto).
        unfold outdated in No. rewrite (known_noforce s t o (iv_force _ _ I A)) in No. split; [tauto|]. split.
        -- intros k Hk X. apply No. right; left. exists k. split; auto. now rewrite (known_noforce s t k (iv_force _ _ I A)).
        -- intros d Hd X. apply No. right; right. exists d. auto.
      * unfold s'. simpl. apply upd_same.
      * left. unfold s'. simpl. exact Htr.
    + destruct Hx as [Hx|Hx]; [congruence|]. apply (same_settled c x s); auto; [rewrite Esu; apply incl_refl|].
      apply (iv_done _ _ I A Fs x Hx).
Qed.

Lemma inv_run c s s2 t : deterministic c -> Inv c s -> active s = true -> idle s t = true ->
  forallb (fun o => forallb (built c s) (kids s o)) (outs s t) = true ->
  s2 = s \/ s2 = set_track (upd (track s) t false) s ->
  Inv c (run t s2) /\ (forall x, dirty c s x -> dirty c (run t s2) x).
Proof.
  intros Dt I A Id B Hs2. assert (Ad := track_after s s2 t Hs2). apply idle_spec in Id as [Id1 Id2].
  assert (Sm := fun x Hx => proj2 (consider_same s s2 t x Hs2 Hx)).
  set (s' := run t s2) in *.
  assert (E : outs s' = outs s /\ kids s' = kids s /\ fdeps s' = fdeps s /\ conf s' = conf s /\ content s' = content s
     /\ mtime s' = mtime s /\ ts s' = ts s /\ now s' = now s /\ bopts s' = bopts s /\ active s' = active s
     /\ began s' = began s /\ running s' = t :: running s /\ started s' = t :: started s /\ succeeded s' = succeeded s /\ done s' = done s
     /\ changed s' = upd (changed s) t false /\ marked s' = marked s).
  { unfold s'. destruct Hs2 as [->| ->]; simpl; intuition. }
  destruct E as (Eo & Ek & Ef & Ec & Ect & Em & Et & En & Eb & Ea & Ebe & Er & Est & Esu & Ed & Ech & Ema).
  assert (Mono : forall x, dirty c s x -> dirty c s' x).
  { intros x D. induction D as [x R|x N|x o k t' Ho Hk Ha Hkd D IH].
    - apply dirty_running. rewrite Er. now right.
    - destruct (Nat.eq_dec x t) as [->|Hx]; [apply dirty_running; rewrite Er; now left|].
      apply dirty_needs. apply (same_needs c x s); auto.
    - apply (dirty_kid c s' x o k t'); auto; [now rewrite Eo|now rewrite Ek]. }
  split; [|exact Mono].
  constructor; rewrite ?Eo, ?Ek, ?Ef, ?Em, ?Et, ?En, ?Eb, ?Ea, ?Ebe, ?Er, ?Est, ?Esu, ?Ed.
  - apply (wf_same c s); auto. apply (iv_wf _ _ I).
  - apply (iv_now _ _ I).
  - apply (iv_mtime _ _ I).
  - apply (iv_ts _ _ I).
  - apply (iv_began _ _ I).
  - apply (iv_src _ _ I).
  - apply (iv_srcvalid _ _ I).
  - apply (iv_force _ _ I).
  - intros x [<-|Hx]; [simpl; auto|]. destruct (iv_run _ _ I x Hx) as (X & Y & Z). simpl; auto.
  - rewrite Ech. intros x Hx. destruct (Nat.eq_dec x t) as [->|Hn]; [now rewrite upd_same|]. rewrite upd_other; auto.
    apply (iv_runchanged _ _ I). destruct Hx; [congruence|auto].
  - intros x Hx. destruct (iv_succ _ _ I x Hx). simpl; auto.
  - intros x Hx [<-|Hy]; [contradiction|]. now apply (iv_ds _ _ I).
  - intros _ x Hx o k t' Ho Hk Hkd. destruct (Nat.eq_dec x t) as [->|Hn].
    + rewrite forallb_forall in B. specialize (B o Ho). rewrite forallb_forall in B. specialize (B k Hk).
      unfold built in B. rewrite Hkd in B. now apply mem_In.
    + apply (iv_order _ _ I A x) with o k; auto. simpl in Hx. destruct Hx as [Hx|[Hx|Hx]]; auto. congruence.
  - intros x. destruct (Nat.eq_dec x t) as [->|Hx]; [right; apply dirty_running; rewrite Er; now left|].
    destruct (iv_fresh _ _ I x) as [C|D]; [|right; auto]. left. apply (same_correct c x s); auto.
  - intros x o Ho Ha. destruct (iv_nonau _ _ I x o Ho Ha); auto.
  - intros _ t' x k o Ht' Hk Ha Ho Hk'. destruct (iv_link _ _ I A t' x k o Ht' Hk Ha Ho Hk') as [L1 L2]. split.
    + intros Nd' Ns. simpl in Ns. rewrite Ema. apply L1; auto.
    + intros Fu. apply L2. revert Fu. unfold full. now rewrite Eb.
  - intros _ Fu x Hx. assert (Fs : full s) by (revert Fu; unfold full; now rewrite Eb).
    apply (same_settled c x s); auto; [apply Sm; congruence|rewrite Esu; apply incl_refl|]. apply (iv_done _ _ I A Fs x Hx).
Qed.

Lemma inv_consider c s t s' : deterministic c -> Inv c s -> fair c s (Consider t) -> step c s (Consider t) = Next s' ->
  Inv c s' /\ (forall x, dirty c s x -> dirty c s' x).
Proof.
  intros Dt I Fa St. assert (St' := St). cbn [step] in St.
  destruct (active s && idle s t && negb (match outs s t with [] => true | _ :: _ => false end)
            && forallb (fun o => forallb (built c s) (kids s o)) (outs s t)) eqn:E; [|discriminate].
  apply andb_prop in E as [E B]. apply andb_prop in E as [E Ne]. apply andb_prop in E as [A Id].
  assert (Ne' : outs s t <> []) by (destruct (outs s t); [discriminate|congruence]).
  assert (Fd : full s \/ ~ full s).
  { unfold full. destruct (active_tags (bopts s)), (files (bopts s)), (rules_only (bopts s)); intuition congruence. }
  assert (Ef := iv_force _ _ I A).
  unfold fair in Fa. specialize (Fa s' St').
  unfold consider in St. destruct (matching_tags c s t) eqn:M1; simpl in St.
  2:{ assert (Nf : ~ full s) by (intros Fu; destruct (full_selected c s t Fu); congruence).
      injection St as <-. apply (inv_skip c s s t); auto. }
  destruct (matching_files c s t) eqn:M2; simpl in St.
  2:{ assert (Nf : ~ full s) by (intros Fu; destruct (full_selected c s t Fu); congruence).
      injection St as <-. apply (inv_skip c s s t); auto. }
  destruct (must_execute c s t) as [r s2] eqn:Em. destruct r as [b|]; [|discriminate].
  assert (Hs2 := must_state c s t b s2 Ef Em).
  assert (Eb : bopts s2 = bopts s) by (destruct Hs2 as [->| ->]; reflexivity). rewrite Eb in St.
  destruct b.
  - destruct (rules_only (bopts s)) eqn:Ro; injection St as <-; [|apply (inv_run c s); auto].
    apply (inv_skip c s); auto. right. assert (Nf : ~ full s) by (intros (_ & _ & X); congruence). auto.
  - injection St as <-. apply (inv_skip c s); auto. destruct Fd as [Fu|Nf]; [|auto]. left. split; auto.
    assert (Ch := kids_checked c s t I A Fu B).
    destruct (must_execute_spec c s t (wf_apart c s t (iv_wf _ _ I)) Ch) as (b & s3 & E3 & Hb & _ & Htr & _).
    rewrite Em in E3. injection E3 as <- <-. split; auto. intros X. apply Hb in X. discriminate.
Qed.
