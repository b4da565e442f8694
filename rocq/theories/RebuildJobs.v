(** The end of a job keeps the invariant. *)
From Coq Require Import List Bool Arith ZArith Lia.
From Verif Require Import RebuildModel RebuildSpec RebuildDecide RebuildInv RebuildSteps.
Import ListNotations.

(** [x] has an output of [t] among its dependencies. *)
Lemma kid_of c s x o k t : wf c s -> In o (outs s x) -> In k (kids s o) -> kd c k = Generated t -> In k (outs s t).
Proof. intros W Ho Hk Hkd. destruct (wf_kids _ _ W _ _ _ Ho Hk) as [[X _]|(t2 & X & Y)]; congruence. Qed.

(** A dependency of [x] that [p] holds for. *)
Definition some_kid (s : state) (x : nat) (p : nat -> bool) : bool := existsb (fun o => existsb p (kids s o)) (outs s x).
Lemma some_kid_spec s x p : some_kid s x p = true <-> exists o k, In o (outs s x) /\ In k (kids s o) /\ p k = true.
Proof.
  unfold some_kid. rewrite existsb_exists. split.
  - intros (o & Ho & X). apply existsb_exists in X. destruct X as (k & Hk & X). eauto.
  - intros (o & k & Ho & Hk & X). exists o. split; auto. apply existsb_exists. eauto.
Qed.
Lemma some_kid_false s x p : some_kid s x p = false <-> forall o k, In o (outs s x) -> In k (kids s o) -> p k = false.
Proof.
  split.
  - intros H o k Ho Hk. destruct (p k) eqn:E; auto. rewrite <- H. symmetry. apply some_kid_spec. eauto.
  - intros H. apply not_true_is_false. intros X. apply some_kid_spec in X. destruct X as (o & k & Ho & Hk & X).
    rewrite (H o k Ho Hk) in X. discriminate.
Qed.

(** Something a transformer depends on has changed after all of its outputs. *)
Lemma kid_newer c s x o k : wf c s -> In o (outs s x) -> In k (kids s o) ->
  (forall o, In o (outs s x) -> before (ts s o) (file_time c s k)) -> needs c s x.
Proof.
  intros W Ho Hk H. right; right; right; left. intros o' Ho'. right; left. exists k. split; auto.
  apply (wf_agree_kids _ _ W x o o'); auto.
Qed.

Section Succeed.
Context (c : cfg) (s : state) (t1 : nat) (touch : nat -> option ftime) (time : ftime).
Context (Dt : deterministic c) (I : Inv c s) (A : active s = true) (R : In t1 (running s)).
Context (Fa : fair c s (Succeed t1 touch time)).
Let s' := job_succeeded c t1 touch time s.
Let W := iv_wf _ _ I.

Lemma su_not_done : ~ In t1 (done s).
Proof. apply (iv_run _ _ I t1 R). Qed.
Lemma su_parent_idle x o k : In o (outs s x) -> In k (kids s o) -> kd c k = Generated t1 -> ~ In x (done s) /\ ~ In x (started s).
Proof.
  intros Ho Hk Hkd. split; intros H; apply su_not_done; apply (iv_order _ _ I A x) with o k; auto.
Qed.
Lemma su_outs_other x o : x <> t1 -> In o (outs s x) -> mem o (outs s t1) = false.
Proof. intros H Ho. apply mem_notIn. intros X. apply H. eapply wf_producer; eauto. Qed.

Lemma su_ts_other n : ~ In n (outs s t1) -> ts s' n = ts s n.
Proof. intros H. unfold s', job_succeeded. simpl. now rewrite (mem_false _ _ H). Qed.
Lemma su_mtime_other n : ~ In n (outs s t1) -> mtime s' n = mtime s n.
Proof. intros H. unfold s', job_succeeded. simpl. now rewrite (mem_false _ _ H). Qed.
Lemma su_content_other n : ~ In n (outs s t1) -> content s' n = content s n.
Proof. intros H. unfold s', job_succeeded. simpl. now rewrite (mem_false _ _ H). Qed.
Lemma su_marked x : x <> t1 -> marked s x = true -> marked s' x = true.
Proof. intros H M. unfold s', job_succeeded. simpl. rewrite upd_other; auto. now rewrite M. Qed.
Lemma su_marked_kid x o k : x <> t1 -> In o (outs s x) -> In k (kids s o) -> au c k = true -> In k (outs s t1) -> marked s' x = true.
Proof.
  intros H Ho Hk Ha Hkt. unfold s', job_succeeded. simpl. rewrite upd_other; auto. apply orb_true_intro. right.
  apply existsb_exists. exists o. split; auto. apply existsb_exists. exists k. split; auto. rewrite Ha. simpl. now apply mem_In.
Qed.
Lemma su_file_dep n x o : In o (outs s x) -> In n (fdeps s o) -> ~ In n (outs s t1).
Proof. intros Ho Hn X. assert (Y := wf_outs _ _ W _ _ X). rewrite (wf_fdeps _ _ W _ _ _ Ho Hn) in Y. discriminate. Qed.
Lemma su_x_not_self x o k : In o (outs s x) -> In k (kids s o) -> In k (outs s t1) -> x <> t1.
Proof. intros Ho Hk Hk' ->. apply (wf_apart c s t1 W o k Ho); auto. Qed.

Lemma su_cases x : x <> t1 -> needs c s' x \/
  ((needs c s x -> needs c s' x) /\ (correct c s x -> correct c s' x)
   /\ (forall o k, In o (outs s x) -> In k (kids s o) -> au c k = true -> kd c k <> Generated t1)).
Proof.
  intros Hx. destruct Fa as [Ft Fo].
  destruct (some_kid s x (fun k => mem k (outs s t1) && au c k)) eqn:E1.
  { apply some_kid_spec in E1. destruct E1 as (o & k & Ho & Hk & X). apply andb_prop in X as [X Y]. apply mem_In in X.
    left. right; left. apply (su_marked_kid x o k); auto. }
  destruct (some_kid s x (fun k => mem k (outs s t1) && match touch k with Some _ => true | None => false end)) eqn:E2.
  { apply some_kid_spec in E2. destruct E2 as (o & k & Ho & Hk & X). apply andb_prop in X as [X Y]. apply mem_In in X.
    destruct (touch k) as [m|] eqn:Em; [|discriminate]. left.
    assert (Hau : au c k = false).
    { assert (Z := proj1 (some_kid_false _ _ _) E1 o k Ho Hk). simpl in Z. rewrite (mem_true _ _ X) in Z. exact Z. }
    assert (Hkd := wf_outs _ _ W _ _ X).
    assert (Hm := Fo k X). rewrite Em in Hm. destruct Hm as [Hm _].
    destruct (su_parent_idle x o k Ho Hk Hkd) as [Nd _]. destruct (iv_began _ _ I A) as (_ & _ & Hb).
    apply (kid_newer c s' x o k); auto.
    - apply (wf_same c s); auto.
    - intros o' Ho'. assert (Ho2 : In o' (outs s x)) by exact Ho'. assert (T := Hb x o' Ho2 Nd).
      rewrite su_ts_other; [|apply mem_notIn, (su_outs_other x); auto].
      unfold file_time. rewrite Hkd, Hau. unfold s', job_succeeded. simpl. rewrite (mem_true _ _ X), Em. ord. }
  right. assert (N1 := proj1 (some_kid_false _ _ _) E1). assert (N2 := proj1 (some_kid_false _ _ _) E2). simpl in N1, N2.
  assert (K : forall o k, In o (outs s x) -> In k (kids s o) -> In k (outs s t1) -> au c k = false /\ touch k = None).
  { intros o k Ho Hk Hkt. specialize (N1 o k Ho Hk). specialize (N2 o k Ho Hk). rewrite (mem_true _ _ Hkt) in N1, N2. simpl in *.
    split; auto. destruct (touch k); [discriminate|auto]. }
  split; [|split].
  - apply needs_ext; auto.
    + now apply su_marked.
    + intros o Ho. split; auto. split; auto. apply su_ts_other. apply mem_notIn, (su_outs_other x); auto.
    + intros o k Ho Hk. unfold file_time. destruct (mem k (outs s t1)) eqn:Ek.
      * apply mem_In in Ek. destruct (K o k Ho Hk Ek) as [K1 K2]. rewrite (wf_outs _ _ W _ _ Ek), K1.
        unfold s', job_succeeded. simpl. now rewrite (mem_true _ _ Ek), K2.
      * apply mem_notIn in Ek. rewrite su_ts_other, su_mtime_other; auto.
    + intros o d Ho Hd. apply su_mtime_other. now apply (su_file_dep d x o).
  - apply correct_ext; auto. intros n Hn. destruct (mem n (outs s t1)) eqn:En.
    + apply mem_In in En. destruct Hn as [Hn|(o & Ho & [Hn|Hn])].
      * destruct Hx. eapply wf_producer; eauto.
      * destruct (K o n Ho Hn En) as [_ K2]. assert (Q := Fo n En). rewrite K2 in Q. rewrite Q at 1.
        unfold s', job_succeeded. simpl. now rewrite (mem_true _ _ En).
      * destruct (su_file_dep n x o Ho Hn En).
    + apply su_content_other. now apply mem_notIn.
  - intros o k Ho Hk Ha Hkd. assert (X := kid_of c s x o k t1 W Ho Hk Hkd). destruct (K o k Ho Hk X). congruence.
Qed.

Lemma su_dirty x : dirty c s x -> x <> t1 -> dirty c s' x.
Proof.
  intros D. induction D as [x Hr|x N|x o k t' Ho Hk Ha Hkd D IH]; intros Hx.
  - apply dirty_running. unfold s', job_succeeded. simpl. now apply in_in_remove.
  - apply dirty_needs. destruct (su_cases x Hx) as [X|(X & _)]; auto.
  - destruct (Nat.eq_dec t' t1) as [->|Hn].
    + apply dirty_needs. right; left. apply (su_marked_kid x o k); auto. now apply (kid_of c s x o).
    + apply (dirty_kid c s' x o k t'); auto.
Qed.

Lemma su_same x : x <> t1 -> (forall o k, In o (outs s x) -> In k (kids s o) -> kd c k <> Generated t1) -> same x s s'.
Proof.
  intros Hx H. constructor; auto.
  - unfold s', job_succeeded. simpl. rewrite upd_other; auto.
    assert (E : existsb (fun p => existsb (fun o => au c o && mem o (kids s p)) (outs s t1)) (outs s x) = false).
    { apply not_true_is_false. intros X. apply existsb_exists in X. destruct X as (p & Hp & X). apply existsb_exists in X.
      destruct X as (k & Hk & X). apply andb_prop in X as [_ X]. apply mem_In in X. apply (H p k Hp X). now apply (wf_outs _ _ W). }
    now rewrite E, orb_false_r.
  - intros n Hn. assert (X := concerns_other c s x t1 n W H Hx Hn). rewrite su_ts_other, su_mtime_other, su_content_other; auto.
Qed.

Lemma su_correct : correct c s' t1.
Proof.
  intros o Ho. unfold s', job_succeeded. simpl. assert (Ho' : In o (outs s t1)) by exact Ho. rewrite (mem_true _ _ Ho').
  apply Dt. intros k. unfold env. simpl.
  destruct (mem k (kids s o)) eqn:E1; simpl.
  - apply mem_In in E1. rewrite (mem_false k (outs s t1)); auto. apply (wf_apart c s t1 W o); auto.
  - destruct (mem k (fdeps s o)) eqn:E2; auto. apply mem_In in E2. rewrite (mem_false k (outs s t1)); auto.
    apply (wf_apart c s t1 W o); auto.
Qed.

Lemma inv_succeed : Inv c s'.
Proof.
  destruct Fa as [Ft Fo]. assert (Hnow := iv_now _ _ I). assert (Hb := iv_began _ _ I A). destruct Hb as (Hb1 & Hb2 & Hb3).
  assert (Nd := su_not_done).
  constructor.
  - apply (wf_same c s); auto.
  - unfold s'. simpl. ord.
  - intros n. assert (M := iv_mtime _ _ I n). unfold s', job_succeeded. simpl. destruct (mem n (outs s t1)) eqn:E; [|split; ord].
    apply mem_In in E. specialize (Fo n E). destruct (touch n) as [m|]; split; ord.
  - intros n. assert (M := iv_mtime _ _ I n). assert (T := iv_ts _ _ I n). unfold s', job_succeeded. simpl.
    destruct (mem n (outs s t1)) eqn:E; [|split; ord].
    apply mem_In in E. specialize (Fo n E). destruct (au c n); [split; ord|]. destruct (touch n) as [m|]; split; ord.
  - intros _. split; [unfold s'; simpl; ord|]. split; [exact Hb2|]. intros x o Ho Hx. assert (Ho' : In o (outs s x)) by exact Ho.
    assert (Hx' : ~ In x (t1 :: done s)) by exact Hx. simpl in Hx'.
    rewrite su_ts_other; [apply (Hb3 x); auto|apply mem_notIn, (su_outs_other x); auto].
  - intros _ n. assert (S := iv_src _ _ I A n). assert (X : kd c n = Source \/ kd c n = FileDep -> ~ In n (outs s t1)).
    { intros X Y. apply (wf_outs _ _ W) in Y. destruct X; congruence. }
    split; intros Y; rewrite su_ts_other, su_mtime_other; auto; now apply S.
  - intros _ n Hn Hk. rewrite su_ts_other; [apply (iv_srcvalid _ _ I A); auto|]. intros Y. apply (wf_outs _ _ W) in Y. congruence.
  - apply (iv_force _ _ I).
  - intros x Hx. apply in_remove in Hx. destruct Hx as [Hx Hn]. destruct (iv_run _ _ I x Hx) as (X & Y & Z). split; [exact A|].
    split; [exact Y|]. intros [V|V]; [congruence|auto].
  - intros x Hx. apply in_remove in Hx. destruct Hx as [Hx _]. apply (iv_runchanged _ _ I x Hx).
  - intros x [<-|Hx]; [split; [now left|]; apply (iv_run _ _ I t1 R)|]. destruct (iv_succ _ _ I x Hx). split; [now right|auto].
  - intros x [<-|Hx] Hy; [now left|]. right. apply (iv_ds _ _ I); auto.
  - intros _ x Hx o k t' Ho Hk Hkd. right. apply (iv_order _ _ I A x) with o k; auto.
    destruct Hx as [[Hx|Hx]|Hx]; auto. subst x. right. apply (iv_run _ _ I t1 R).
  - intros x. destruct (Nat.eq_dec x t1) as [->|Hx]; [left; apply su_correct|].
    destruct (iv_fresh _ _ I x) as [C|D]; [|right; now apply su_dirty].
    destruct (su_cases x Hx) as [X|(_ & X & _)]; [right; now apply dirty_needs|left; auto].
  - intros x o Ho Ha. destruct (Nat.eq_dec x t1) as [->|Hx].
    + left. unfold s', job_succeeded. simpl. assert (Ho' : In o (outs s t1)) by exact Ho. now rewrite (mem_true _ _ Ho'), Ha.
    + assert (Ho' : In o (outs s x)) by exact Ho. assert (N : ~ In o (outs s t1)) by (apply mem_notIn, (su_outs_other x); auto).
      rewrite su_ts_other, su_mtime_other; auto.
      destruct (iv_nonau _ _ I x o Ho' Ha); [left; auto|right; now apply su_dirty].
  - intros _ t' x k o Ht' Hk Ha Ho Hk'. assert (Hx1 : In o (outs s x)) by exact Ho. assert (Hx2 : In k (kids s o)) by exact Hk'.
    assert (Hx3 : In k (outs s t')) by exact Hk. split.
    + intros Hd Hs. assert (Hx : x <> t1) by (intros ->; apply Hs; apply (iv_run _ _ I t1 R)).
      assert (Hd' : ~ In x (done s)) by (intros Z; apply Hd; now right).
      destruct Ht' as [<-|Ht'].
      * left. apply (su_marked_kid x o k); auto.
      * destruct (iv_link _ _ I A t' x k o Ht' Hx3 Ha Hx1 Hx2) as [L _].
        destruct (L Hd' Hs) as [L1|L1]; [left; now apply su_marked|right].
        intros o' Ho'. rewrite su_ts_other; [now apply L1|apply mem_notIn, (su_outs_other x); auto].
    + intros Fu [<-|Hd]; [now left|]. destruct Ht' as [<-|Ht'].
      * destruct (su_parent_idle x o k Hx1 Hx2) as [Z _]; [now apply (wf_outs _ _ W)|contradiction].
      * right. destruct (iv_link _ _ I A t' x k o Ht' Hx3 Ha Hx1 Hx2) as [_ L]. apply L; auto.
  - intros _ Fu x [<-|Hd].
    + constructor.
      * left. now left.
      * apply su_correct.
      * intros o Ho Ha. assert (Ho' : In o (outs s t1)) by exact Ho. unfold s', job_succeeded. simpl. now rewrite (mem_true _ _ Ho'), Ha.
      * intros o Ho Ha. assert (Ho' : In o (outs s t1)) by exact Ho.
        assert (E : ts s' o = time) by (unfold s', job_succeeded; simpl; now rewrite (mem_true _ _ Ho'), Ha).
        rewrite E. split; [intros ->; ord|]. split.
        -- intros k Hk. rewrite su_ts_other; [|apply (wf_apart c s t1 W o); auto]. destruct (iv_ts _ _ I k). ord.
        -- intros k Hk. rewrite su_ts_other; [|apply (wf_apart c s t1 W o); auto]. destruct (iv_ts _ _ I k). ord.
      * unfold s', job_succeeded. simpl. apply upd_same.
      * right. apply (iv_runchanged _ _ I t1 R).
    + assert (Hd' : In x (done s)) by exact Hd. apply (same_settled c x s); auto.
      * apply su_same; [congruence|]. intros o k Ho Hk Hkd. destruct (su_parent_idle x o k Ho Hk Hkd). contradiction.
      * intros z Hz. now right.
      * apply (iv_done _ _ I A Fu x Hd').
Qed.
End Succeed.

Section Fail.
Context (c : cfg) (s : state) (t1 : nat) (touch : nat -> option (ftime * nat)) (time : ftime).
Context (Dt : deterministic c) (I : Inv c s) (A : active s = true) (R : In t1 (running s)).
Context (Fa : fair c s (Fail t1 touch time)).
Let s' := job_failed t1 touch time s.
Let W := iv_wf _ _ I.

Lemma fa_not_done : ~ In t1 (done s).
Proof. apply (iv_run _ _ I t1 R). Qed.
Lemma fa_parent_idle x o k : In o (outs s x) -> In k (kids s o) -> kd c k = Generated t1 -> ~ In x (done s) /\ ~ In x (started s).
Proof.
  intros Ho Hk Hkd. split; intros H; apply fa_not_done; apply (iv_order _ _ I A x) with o k; auto.
Qed.
Lemma fa_mtime_other n : ~ In n (outs s t1) -> mtime s' n = mtime s n.
Proof. intros H. unfold s', job_failed. simpl. now rewrite (mem_false _ _ H). Qed.
Lemma fa_content_other n : ~ In n (outs s t1) -> content s' n = content s n.
Proof. intros H. unfold s', job_failed. simpl. now rewrite (mem_false _ _ H). Qed.
Lemma fa_file_dep n x o : In o (outs s x) -> In n (fdeps s o) -> ~ In n (outs s t1).
Proof. intros Ho Hn X. assert (Y := wf_outs _ _ W _ _ X). rewrite (wf_fdeps _ _ W _ _ _ Ho Hn) in Y. discriminate. Qed.

Lemma fa_self : needs c s' t1.
Proof.
  destruct Fa as (_ & N & _). revert N. apply needs_ext; auto.
  - intros o k Ho Hk. assert (X : ~ In k (outs s t1)) by (apply (wf_apart c s t1 W o); auto).
    unfold file_time. rewrite fa_mtime_other; auto.
  - intros o d Ho Hd. apply fa_mtime_other. now apply (fa_file_dep d t1 o).
Qed.

Lemma fa_cases x : x <> t1 -> needs c s' x \/
  ((needs c s x -> needs c s' x) /\ (correct c s x -> correct c s' x \/ dirty c s' x)).
Proof.
  intros Hx. destruct Fa as (Ft & Fn & Fo).
  destruct (some_kid s x (fun k => mem k (outs s t1) && negb (au c k) && match touch k with Some _ => true | None => false end)) eqn:E2.
  { apply some_kid_spec in E2. destruct E2 as (o & k & Ho & Hk & X). apply andb_prop in X as [X Y]. apply andb_prop in X as [X Z].
    apply mem_In in X. destruct (touch k) as [[m v]|] eqn:Em; [|discriminate]. left.
    apply negb_true_iff in Z. assert (Hkd := wf_outs _ _ W _ _ X).
    destruct (Fo k m v X Em) as [Hm _].
    destruct (fa_parent_idle x o k Ho Hk Hkd) as [Nd _]. destruct (iv_began _ _ I A) as (_ & _ & Hb).
    apply (kid_newer c s' x o k); auto.
    - apply (wf_same c s); auto.
    - intros o' Ho'. assert (T := Hb x o' Ho' Nd).
      unfold file_time. rewrite Hkd, Z. unfold s', job_failed. simpl. rewrite (mem_true _ _ X), Em. ord. }
  right. assert (N2 := proj1 (some_kid_false _ _ _) E2). simpl in N2. split.
  - apply needs_ext; auto.
    + intros o k Ho Hk. unfold file_time. destruct (kd c k) eqn:Ekd; try (apply fa_mtime_other; intros X; apply (wf_outs _ _ W) in X; congruence).
      destruct (au c k) eqn:Ea; auto. destruct (mem k (outs s t1)) eqn:Ek; [|apply fa_mtime_other; now apply mem_notIn].
      specialize (N2 o k Ho Hk). rewrite Ek, Ea in N2. simpl in N2. unfold s', job_failed. simpl. rewrite Ek.
      destruct (touch k); [discriminate|auto].
    + intros o d Ho Hd. apply fa_mtime_other. now apply (fa_file_dep d x o).
  - intros C. destruct (some_kid s x (fun k => mem k (outs s t1) && au c k)) eqn:E1.
    + right. apply some_kid_spec in E1. destruct E1 as (o & k & Ho & Hk & X). apply andb_prop in X as [X Y]. apply mem_In in X.
      apply (dirty_kid c s' x o k t1); auto; [now apply (wf_outs _ _ W)|]. apply dirty_needs, fa_self.
    + assert (N1 := proj1 (some_kid_false _ _ _) E1). simpl in N1. left. revert C. apply correct_ext; auto.
      intros n Hn. destruct (mem n (outs s t1)) eqn:En; [|apply fa_content_other; now apply mem_notIn].
      destruct Hn as [Hn|(o & Ho & [Hn|Hn])].
      * destruct Hx. apply (wf_producer c s x t1 n W Hn). now apply mem_In.
      * specialize (N1 o n Ho Hn). specialize (N2 o n Ho Hn). rewrite En in N1, N2. simpl in N1. rewrite N1 in N2. simpl in N2.
        unfold s', job_failed. simpl. rewrite En. destruct (touch n); [discriminate|auto].
      * apply mem_In in En. destruct (fa_file_dep n x o Ho Hn En).
Qed.
Lemma fa_dirty x : dirty c s x -> dirty c s' x.
Proof.
  intros D. induction D as [x Hr|x N|x o k t' Ho Hk Ha Hkd D IH].
  - destruct (Nat.eq_dec x t1) as [->|Hx]; [apply dirty_needs, fa_self|].
    apply dirty_running. unfold s', job_failed. simpl. now apply in_in_remove.
  - apply dirty_needs. destruct (Nat.eq_dec x t1) as [->|Hx]; [apply fa_self|]. destruct (fa_cases x Hx) as [X|(X & _)]; auto.
  - apply (dirty_kid c s' x o k t'); auto.
Qed.

Lemma inv_fail : Inv c s'.
Proof.
  destruct Fa as (Ft & Fn & Fo). assert (Hnow := iv_now _ _ I). destruct (iv_began _ _ I A) as (Hb1 & Hb2 & Hb3).
  constructor.
  - apply (wf_same c s); auto.
  - unfold s'. simpl. ord.
  - intros n. assert (M := iv_mtime _ _ I n). unfold s', job_failed. simpl. destruct (mem n (outs s t1)) eqn:E; [|split; ord].
    apply mem_In in E. destruct (touch n) as [[m v]|] eqn:Em; [|split; ord]. destruct (Fo n m v E Em). split; ord.
  - intros n. assert (T := iv_ts _ _ I n). unfold s', job_failed. simpl. split; ord.
  - intros _. split; [unfold s'; simpl; ord|]. split; [exact Hb2|]. exact Hb3.
  - intros _ n. assert (S := iv_src _ _ I A n). assert (X : kd c n = Source \/ kd c n = FileDep -> ~ In n (outs s t1)).
    { intros X Y. apply (wf_outs _ _ W) in Y. destruct X; congruence. }
    split; intros Y; rewrite fa_mtime_other; auto; now apply S.
  - apply (iv_srcvalid _ _ I).
  - apply (iv_force _ _ I).
  - intros x Hx. apply in_remove in Hx. destruct Hx as [Hx Hn]. apply (iv_run _ _ I x Hx).
  - intros x Hx. apply in_remove in Hx. destruct Hx as [Hx _]. apply (iv_runchanged _ _ I x Hx).
  - apply (iv_succ _ _ I).
  - apply (iv_ds _ _ I).
  - apply (iv_order _ _ I).
  - intros x. destruct (Nat.eq_dec x t1) as [->|Hx]; [right; apply dirty_needs, fa_self|].
    destruct (iv_fresh _ _ I x) as [C|D]; [|right; now apply fa_dirty].
    destruct (fa_cases x Hx) as [X|(_ & X)]; [right; now apply dirty_needs|auto].
  - intros x o Ho Ha. destruct (Nat.eq_dec x t1) as [->|Hx]; [right; apply dirty_needs, fa_self|].
    assert (Ho' : In o (outs s x)) by exact Ho. rewrite fa_mtime_other; [|intros Z; apply Hx; eapply wf_producer; eauto].
    destruct (iv_nonau _ _ I x o Ho' Ha); [left; auto|right; now apply fa_dirty].
  - apply (iv_link _ _ I).
  - intros _ Fu x Hd. assert (Hd' : In x (done s)) by exact Hd. apply (same_settled c x s); auto; [|apply incl_refl|apply (iv_done _ _ I A Fu x Hd')].
    assert (Hx : x <> t1) by (intros ->; now apply fa_not_done).
    constructor; auto. intros n Hn. assert (X : ~ In n (outs s t1)).
    { apply (concerns_other c s x t1 n W); auto. intros o k Ho Hk Hkd. destruct (fa_parent_idle x o k Ho Hk Hkd). contradiction. }
    rewrite fa_mtime_other, fa_content_other; auto.
Qed.
End Fail.
