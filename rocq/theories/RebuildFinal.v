(** Consequences of the invariant for whole builds. *)
From Coq Require Import List Bool Arith ZArith Lia.
From Verif Require Import RebuildModel RebuildSpec RebuildDecide RebuildInv RebuildSteps RebuildJobs RebuildReach.
Import ListNotations.

(** *** Content *)
Lemma clean_unique c s n : deterministic c -> wf c s -> forall v, clean_content c s n v -> forall w, clean_content c s n w -> v = w.
Proof.
  intros Dt W v H. induction H as [n Hn|t o v Ho Hk IH]; intros w H2.
  - inversion H2 as [|t' o' v' Ho' Hk']; subst; auto. apply (wf_outs _ _ W) in Ho'. destruct (Hn _ Ho').
  - inversion H2 as [n' Hn|t' o' v' Ho' Hk']; subst.
    + apply (wf_outs _ _ W) in Ho. destruct (Hn _ Ho).
    + assert (t' = t) as -> by (eapply wf_producer; eauto). apply Dt. intros k.
      destruct (mem k (kids s o)) eqn:E1; simpl.
      * apply mem_In in E1. f_equal. apply IH; auto.
      * destruct (mem k (fdeps s o)) eqn:E2; auto. apply mem_In in E2. f_equal. apply IH; auto.
Qed.

Lemma settled_clean c s : deterministic c -> Inv c s -> active s = true -> full s ->
  forall r, forall rank : nat -> nat, (forall t o k t', In o (outs s t) -> In k (kids s o) -> kd c k = Generated t' -> rank t' < rank t) ->
  forall t, rank t <= r -> In t (done s) -> forall o, In o (outs s t) -> clean_content c s o (content s o).
Proof.
  intros Dt I A Fu r rank Hr. induction r as [|r IH]; intros t Ht Hd o Ho.
  all: rewrite (se_correct _ _ _ (iv_done _ _ I A Fu t Hd) o Ho); unfold env;
    apply (clean_output c s t o (content s)); auto; intros k [Hk|Hk].
  2,4: apply clean_file; rewrite (wf_fdeps _ _ (iv_wf _ _ I) _ _ _ Ho Hk); congruence.
  all: destruct (wf_kids _ _ (iv_wf _ _ I) _ _ _ Ho Hk) as [[X _]|(t' & X & Y)]; [apply clean_file; rewrite X; congruence|].
  - specialize (Hr t o k t' Ho Hk X). lia.
  - apply (IH t'); auto; [specialize (Hr t o k t' Ho Hk X); lia|]. apply (iv_order _ _ I A t (or_introl Hd) o k t'); auto.
Qed.

(** *** Affected transformers *)
Lemma affected_dirty c s n v m t : Inv c s -> active s = false -> (forall t, kd c n <> Generated t) -> before (now s) m ->
  affected c (edit n v m s) n t -> dirty c (edit n v m s) t.
Proof.
  intros I A K Hm H. assert (W := iv_wf _ _ I). induction H as [t o Ho Hn|t o k t' Ho Hk Ha Hkd H IH].
  - apply dirty_needs. right; right; right; left. intros o' Ho'. assert (T := iv_ts _ _ I o').
    destruct Hn as [Hn|Hn].
    + right; left. exists n. split; [apply (wf_agree_kids _ _ W t o o'); auto|].
      assert (Ft : file_time c (edit n v m s) n = m).
      { unfold file_time. destruct (kd c n) eqn:E; simpl; rewrite ?upd_same; auto. destruct (K t0); auto. }
      rewrite Ft. simpl. ord.
    + right; right. exists n. split; [apply (wf_agree_fdeps _ _ W t o o'); auto|]. right. simpl. rewrite upd_same. ord.
  - now apply (dirty_kid c _ t o k t').
Qed.
Lemma outside_dirty c es : forall s s', deterministic c -> Inv c s -> fair_history c s es -> Forall outside es -> exec c s es = Next s' ->
  forall x, dirty c s x -> dirty c s' x.
Proof.
  induction es as [|e es IH]; intros s s' Dt I H O E x D; cbn [exec fair_history] in *; [injection E as <-; auto|].
  destruct H as [Fa H]. destruct (step c s e) as [s2| |] eqn:St; try discriminate. inversion O as [|? ? O1 O2]; subst.
  destruct (inv_step c s e s2 Dt I Fa St) as [I2 _]. apply (IH s2); auto. revert x D. clear IH I2 E H O O2.
  destruct e as [| | | |t os is ks fs| |n v m|t v|t]; try contradiction; cbn [step] in St.
  - destruct (active s && negb (idle s t)) eqn:Ei; [discriminate|]. injection St as <-. apply inv_rewire; auto.
    intros A. rewrite A in Ei. simpl in Ei. now apply negb_false_iff.
  - destruct (active s) eqn:A; [discriminate|]. destruct (kd c n) eqn:K; try discriminate; injection St as <-; apply inv_edit; auto; congruence.
  - destruct (active s) eqn:A; [discriminate|]. injection St as <-. now apply inv_reconfigure.
  - destruct (active s && negb (idle s t)) eqn:Ei; [discriminate|]. injection St as <-. apply inv_mark; auto.
    intros A. rewrite A in Ei. simpl in Ei. now apply negb_false_iff.
Qed.
Lemma succeeded_mono c e s s' : not_begin e -> step c s e = Next s' -> incl (succeeded s) (succeeded s').
Proof.
  intros N St. destruct e; try contradiction; cbn [step] in St.
  - destruct (_ && _ && _ && _); [|discriminate]. unfold consider in St.
    assert (G : forall b s2, must_execute c s t = (Some b, s2) -> succeeded s2 = succeeded s).
    { intros b s2 E. unfold must_execute in E. destruct (always c t); [injection E as _ <-; auto|].
      destruct (marked s t); [injection E as _ <-; auto|].
      assert (L : forall l s a n, succeeded (snd (outputs_loop c s l a n)) = succeeded s).
      { clear. induction l as [|o l IH]; intros s a n; cbn [outputs_loop]; auto.
        assert (U : succeeded (snd (is_up_to_date c s o)) = succeeded s) by (unfold is_up_to_date; destruct (force (bopts s)); reflexivity).
        destruct (is_up_to_date c s o) as [r s2]. simpl in U. rewrite <- U.
        destruct r as [[|]|]; auto; [destruct (au c o); apply IH|]. destruct (au c o || force (bopts s2)); auto. }
      specialize (L (outs s t) s false false). destruct (outputs_loop c s (outs s t) false false) as [r s3]. simpl in L. rewrite <- L.
      destruct r as [[[a n]|]|]; [| |discriminate].
      - unfold commands_need_rerun in E. destruct (track s3 t); [|injection E as _ <-; auto]. destruct (changed s3 t); injection E as _ <-; auto.
      - injection E as _ <-. auto. }
    destruct (matching_tags c s t); simpl in St; [|injection St as <-; apply incl_refl].
    destruct (matching_files c s t); simpl in St; [|injection St as <-; apply incl_refl].
    destruct (must_execute c s t) as [[[|]|] s2]; [| |discriminate].
    + specialize (G true s2 eq_refl). destruct (rules_only (bopts s2)); injection St as <-; simpl; rewrite G; apply incl_refl.
    + specialize (G false s2 eq_refl). injection St as <-. simpl. rewrite G. apply incl_refl.
  - destruct (_ && _); [|discriminate]. injection St as <-. intros x Hx. now right.
  - destruct (_ && _); [|discriminate]. injection St as <-. apply incl_refl.
  - destruct (_ && _); [discriminate|]. injection St as <-. apply incl_refl.
  - destruct (running s); [|discriminate]. injection St as <-. apply incl_refl.
  - destruct (active s); [discriminate|]. destruct (kd c n); try discriminate; injection St as <-; apply incl_refl.
  - destruct (active s); [discriminate|]. injection St as <-. apply incl_refl.
  - destruct (_ && _); [discriminate|]. injection St as <-. apply incl_refl.
Qed.
Lemma during_dirty c es : forall s s', deterministic c -> Inv c s -> fair_history c s es -> Forall not_begin es -> exec c s es = Next s' ->
  forall x, dirty c s x \/ In x (succeeded s) -> dirty c s' x \/ In x (succeeded s').
Proof.
  induction es as [|e es IH]; intros s s' Dt I H O E x D; cbn [exec fair_history] in *; [injection E as <-; auto|].
  destruct H as [Fa H]. destruct (step c s e) as [s2| |] eqn:St; try discriminate. inversion O as [|? ? O1 O2]; subst.
  destruct (inv_step c s e s2 Dt I Fa St) as [I2 D2]. apply (IH s2); auto. destruct D as [D|D]; auto.
  right. now apply (succeeded_mono c e s s2 O1 St).
Qed.
Lemma exec_app c es1 : forall es2 s s', exec c s (es1 ++ es2) = Next s' -> exists s1, exec c s es1 = Next s1 /\ exec c s1 es2 = Next s'.
Proof.
  induction es1 as [|e es1 IH]; intros es2 s s' E; simpl in *; [eauto|]. destruct (step c s e) as [s2| |]; try discriminate. auto.
Qed.
Lemma fair_app c es1 : forall es2 s s1, fair_history c s (es1 ++ es2) -> exec c s es1 = Next s1 ->
  fair_history c s es1 /\ fair_history c s1 es2.
Proof.
  induction es1 as [|e es1 IH]; intros es2 s s1 H E; simpl in *; [injection E as <-; auto|].
  destruct H as [Fa H]. destruct (step c s e) as [s2| |] eqn:St; try discriminate.
  destruct (IH es2 s2 s1 H E). auto.
Qed.

(** *** Nothing changed *)
Record quiet (c : cfg) (s : state) (t : nat) : Prop := {
  qu_marked : marked s t = false;
  qu_track : track s t = false \/ changed s t = false;
  qu_au : exists o, In o (outs s t) /\ au c o = true;
  qu_out : forall o, In o (outs s t) -> au c o = true -> ts s o <> no_time
     /\ (forall k, In k (kids s o) -> ~ before (ts s o) (ts s k))
     /\ (forall d, In d (fdeps s o) -> ts s d <> no_time /\ ~ before (ts s o) (ts s d));
  qu_kids : forall o k, In o (outs s t) -> In k (kids s o) -> au c k = true -> ts s k <> no_time
}.
Lemma quiet_must c s t : quiet c s t -> always c t = false -> force (bopts s) = false -> ~ must_run c s t.
Proof.
  intros Q A Ef M. assert (No : forall o, In o (outs s t) -> au c o = true -> ~ outdated s t o).
  { intros o Ho Ha X. destruct (qu_out _ _ _ Q o Ho Ha) as (Q1 & Q2 & Q3). unfold outdated in X. rewrite (known_noforce s t o Ef) in X.
    destruct X as [X|[(k & Hk & X)|(d & Hd & X)]]; auto.
    - rewrite (known_noforce s t k Ef) in X. apply (Q2 k Hk X).
    - destruct (Q3 d Hd). destruct X; auto. }
  destruct M as [M|[M|[(o & Ho & M & X)|[[M1 M2]|M]]]].
  - congruence.
  - rewrite (qu_marked _ _ _ Q) in M. discriminate.
  - destruct M as [M|M]; [|congruence]. now apply (No o).
  - destruct (qu_track _ _ _ Q); congruence.
  - destruct (qu_au _ _ _ Q) as (o & Ho & Ha). apply (No o); auto.
Qed.
Lemma quiet_same c t s s' : same t s s' -> quiet c s t -> quiet c s' t.
Proof.
  intros S [A B C D E]. constructor.
  - now rewrite (sm_marked _ _ _ S).
  - now rewrite (sm_track _ _ _ S), (sm_changed _ _ _ S).
  - destruct C as (o & Ho & Ha). exists o. rewrite (sm_outs _ _ _ S). auto.
  - intros o Ho Ha. rewrite (sm_outs _ _ _ S) in Ho. destruct (sm_nodes _ _ _ S o (or_introl Ho)) as (-> & _).
    destruct (D o Ho Ha) as (D1 & D2 & D3). destruct (sm_edges _ _ _ S o Ho) as [-> ->]. split; auto. split.
    + intros k Hk. destruct (sm_nodes _ _ _ S k) as (-> & _); [right; eauto|auto].
    + intros k Hk. destruct (sm_nodes _ _ _ S k) as (-> & _); [right; eauto|auto].
  - intros o k Ho Hk Ha. rewrite (sm_outs _ _ _ S) in Ho. destruct (sm_edges _ _ _ S o Ho) as [Ek _]. rewrite Ek in Hk.
    destruct (sm_nodes _ _ _ S k) as (-> & _); [right; eauto|]. apply (E o); auto.
Qed.

Lemma list_dec {A} (P : A -> Prop) (l : list A) : (forall x, In x l -> P x \/ ~ P x) ->
  (exists x, In x l /\ P x) \/ forall x, In x l -> ~ P x.
Proof.
  induction l as [|a l IH]; intros H; [right; intros ? []|].
  destruct (H a (or_introl eq_refl)) as [X|X]; [left; exists a; simpl; auto|].
  destruct IH as [(x & Hx & Y)|N]; [intros x Hx; apply H; now right|left; exists x; simpl; auto|].
  right. intros x [<-|Hx]; auto.
Qed.
Lemma tainted_dec c s t : wf c s -> tainted c s t \/ ~ tainted c s t.
Proof.
  intros W. destruct (wf_acyclic _ _ W) as [rank Hr].
  assert (Dec : forall r t, rank t < r -> tainted c s t \/ ~ tainted c s t).
  { induction r as [|r IH]; intros x Hx; [lia|].
    destruct (always c x) eqn:E; [left; now apply tainted_self|].
    destruct (list_dec (fun o => exists k t', In k (kids s o) /\ kd c k = Generated t' /\ tainted c s t') (outs s x)) as [(o & Ho & k & t' & H1 & H2 & H3)|N].
    - intros o Ho. destruct (list_dec (fun k => exists t', kd c k = Generated t' /\ tainted c s t') (kids s o)) as [(k & Hk & t' & H1 & H2)|N].
      + intros k Hk. destruct (kd c k) as [| |t'] eqn:Ek; try (right; intros (t2 & X & _); congruence).
        destruct (IH t') as [T|T]; [specialize (Hr x o k t' Ho Hk Ek); lia|left; eauto|right; intros (t2 & X & Y); congruence].
      + left. eauto.
      + right. intros (k & t' & H1 & H2 & H3). apply (N k H1). eauto.
    - left. now apply (tainted_kid c s x o k t').
    - right. intros X. inversion X as [|? o k t' Ho Hk Hkd T]; subst; [congruence|]. apply (N o Ho). eauto. }
  apply (Dec (S (rank t)) t). lia.
Qed.

(** What holds throughout the second build. *)
Record Null (c : cfg) (l : list nat) (s1 s : state) : Prop := {
  nu_active : active s = true;
  nu_graph : outs s = outs s1 /\ kids s = kids s1 /\ fdeps s = fdeps s1;
  nu_force : force (bopts s) = false;
  nu_started : forall t, In t (started s) -> tainted c s1 t;
  nu_running : forall t, In t (running s) -> In t (started s);
  nu_quiet : forall t, In t l -> ~ tainted c s1 t -> quiet c s t
}.
Lemma null_step c l s1 s e s' : wf c s1 -> Null c l s1 s -> build_only l e -> step c s e = Next s' -> Null c l s1 s'.
Proof.
  intros W [A (Go & Gk & Gf) Ef Ns Nr Nq] B St. assert (W' : wf c s) by (apply (wf_same c s1); auto).
  destruct e as [|t|t touch time|t touch time| | | | |]; try contradiction; cbn [build_only] in B; cbn [step] in St.
  - rewrite A in St. cbn [andb] in St.
    destruct (idle s t && negb (match outs s t with [] => true | _ :: _ => false end)
              && forallb (fun o => forallb (built c s) (kids s o)) (outs s t)); [|discriminate].
    assert (Fin : forall s2, s2 = s \/ s2 = set_track (upd (track s) t false) s -> Null c l s1 (finish t s2)).
    { intros s2 Hs2. constructor; try (destruct Hs2 as [->| ->]; now auto). intros x Hx Nt.
      destruct (Nat.eq_dec x t) as [->|Hn].
      - destruct (Nq t Hx Nt) as [Q1 Q2 Q3 Q4 Q5]. constructor; try (destruct Hs2 as [->| ->]; simpl; rewrite ?upd_same; now auto).
      - apply (quiet_same c x s); auto. now apply consider_same. }
    unfold consider in St. destruct (matching_tags c s t); simpl in St; [|injection St as <-; auto].
    destruct (matching_files c s t); simpl in St; [|injection St as <-; auto].
    destruct (must_execute c s t) as [[b|] s2] eqn:Em; [|discriminate].
    assert (Hs2 := must_state c s t b s2 Ef Em). destruct b; [|injection St as <-; auto].
    destruct (rules_only (bopts s2)); injection St as <-; auto.
    assert (Tt : ~ ~ tainted c s1 t).
    { intros Nt. assert (Q := Nq t B Nt). assert (Al : always c t = false).
      { destruct (always c t) eqn:E; auto. destruct Nt. now apply tainted_self. }
      destruct (must_execute_spec c s t (wf_apart c s t W') (qu_kids _ _ _ Q)) as (b & s3 & E3 & Hb & _).
      rewrite Em in E3. injection E3 as <- <-. apply (quiet_must c s t Q Al Ef). now apply Hb. }
    assert (Tt' : tainted c s1 t).
    { destruct (tainted_dec c s1 t W); [auto|contradiction]. }
    constructor; try (destruct Hs2 as [->| ->]; now auto).
    + intros x Hx. assert (Hx' : In x (t :: started s)) by (destruct Hs2 as [->| ->]; exact Hx). destruct Hx' as [<-|Hx']; auto.
    + intros x Hx. assert (Hx' : In x (t :: running s)) by (destruct Hs2 as [->| ->]; exact Hx).
      assert (Gl : In x (t :: started s)) by (destruct Hx'; [now left|right; auto]). destruct Hs2 as [->| ->]; exact Gl.
    + intros x Hx Nt. apply (quiet_same c x s); auto. apply consider_same; auto. congruence.
  - rewrite A in St. destruct (mem t (running s)) eqn:R; [|discriminate]. apply mem_In in R. injection St as <-.
    assert (Tt := Ns t (Nr t R)). constructor; auto.
    + intros x Hx. apply in_remove in Hx. destruct Hx as [Hx _]. apply Nr. exact Hx.
    + intros x Hx Nt. apply (quiet_same c x s); auto.
      assert (Hn : x <> t) by (intros ->; auto).
      assert (K : forall o k, In o (outs s x) -> In k (kids s o) -> kd c k <> Generated t).
      { intros o k Ho Hk Hkd. apply Nt. rewrite Go in Ho. rewrite Gk in Hk. now apply (tainted_kid c s1 x o k t). }
      constructor; simpl; auto.
      * rewrite upd_other; auto.
        assert (E : existsb (fun p => existsb (fun o => au c o && mem o (kids s p)) (outs s t)) (outs s x) = false).
        { apply not_true_is_false. intros X. apply existsb_exists in X. destruct X as (p & Hp & X). apply existsb_exists in X.
          destruct X as (k & Hk & X). apply andb_prop in X as [_ X]. apply mem_In in X. apply (K p k Hp X). now apply (wf_outs _ _ W'). }
        now rewrite E, orb_false_r.
      * intros n Hc. assert (X := concerns_other c s x t n W' K Hn Hc). now rewrite (mem_false _ _ X).
  - rewrite A in St. destruct (mem t (running s)) eqn:R; [|discriminate]. apply mem_In in R. injection St as <-.
    assert (Tt := Ns t (Nr t R)). constructor; auto.
    + intros x Hx. apply in_remove in Hx. destruct Hx as [Hx _]. apply Nr. exact Hx.
    + intros x Hx Nt. apply (quiet_same c x s); auto.
      assert (Hn : x <> t) by (intros ->; auto).
      assert (K : forall o k, In o (outs s x) -> In k (kids s o) -> kd c k <> Generated t).
      { intros o k Ho Hk Hkd. apply Nt. rewrite Go in Ho. rewrite Gk in Hk. now apply (tainted_kid c s1 x o k t). }
      constructor; simpl; auto.
      intros n Hc. assert (X := concerns_other c s x t n W' K Hn Hc). now rewrite (mem_false _ _ X).
Qed.
Lemma null_exec c l s1 es : forall s s', wf c s1 -> Null c l s1 s -> Forall (build_only l) es -> exec c s es = Next s' -> Null c l s1 s'.
Proof.
  induction es as [|e es IH]; intros s s' W N B E; cbn [exec] in E; [injection E as <-; auto|].
  destruct (step c s e) as [s2| |] eqn:St; try discriminate. inversion B; subst. apply (IH s2); auto. now apply (null_step c l s1 s e).
Qed.
Lemma null_begin c s1 o time s2 : Inv c s1 -> active s1 = true -> full s1 -> force o = false ->
  (forall t, In t (done s1) -> exists p, In p (outs s1 t) /\ au c p = true) ->
  (forall t p d, In t (done s1) -> In p (outs s1 t) -> In d (fdeps s1 p) -> mtime s1 d <> no_time) ->
  begin c o [] time (set_active false s1) = Some s2 -> Null c (done s1) s1 s2.
Proof.
  intros I A Fu Fo Au Ex E. assert (W := iv_wf _ _ I). unfold begin in E. simpl in E.
  match type of E with (if forallb ?g _ then _ else _) = _ => destruct (forallb g (srcs c)) eqn:Ev end; [|discriminate].
  injection E as <-. rewrite forallb_forall in Ev. constructor; simpl; auto; try (now intros ? []).
  intros t Ht Nt. assert (S := iv_done _ _ I A Fu t Ht). constructor; simpl.
  - apply (se_marked _ _ _ S).
  - apply (se_track _ _ _ S).
  - auto.
  - intros p Hp Ha. rewrite (wf_outs _ _ W _ _ Hp). destruct (se_au _ _ _ S p Hp Ha) as (S1 & S2 & S3). split; auto. split.
    + intros k Hk. specialize (S2 k Hk). destruct (wf_kids _ _ W _ _ _ Hp Hk) as [[X _]|(t' & X & Y)]; rewrite X; auto.
      assert (Y := proj1 (iv_src _ _ I A k) X). ord.
    + intros d Hd. specialize (S3 d Hd). assert (X := wf_fdeps _ _ W _ _ _ Hp Hd). rewrite X.
      rewrite (proj2 (iv_src _ _ I A d) X) in S3. split; auto. apply (Ex t p d); auto.
  - intros p k Hp Hk Ha. destruct (wf_kids _ _ W _ _ _ Hp Hk) as [[X Y]|(t' & X & Y)]; rewrite X.
    + specialize (Ev k Y). rewrite X in Ev. now apply valid_spec.
    + assert (Hd := iv_order _ _ I A t (or_introl Ht) p k t' Hp Hk X).
      apply (se_au _ _ _ (iv_done _ _ I A Fu t' Hd) k Y Ha).
Qed.

(** *** Time stamps of directories *)
Lemma entry_induction (P : entry -> Prop) : P Missing -> (forall m c, P (File m c)) ->
  (forall m c es, (forall e, In e es -> P e) -> P (Dir m c es)) -> forall e, P e.
Proof.
  intros H1 H2 H3. fix IH 1. intros [|m c|m c es]; [exact H1|exact (H2 m c)|]. apply H3.
  induction es as [|e es IHes]; intros x Hx; [destruct Hx|]. destruct Hx as [Hx|Hx]; [rewrite <- Hx; apply IH|exact (IHes x Hx)].
Qed.
Lemma newest_fold (f : entry -> ftime) es : forall a,
  let r := fold_left (fun newest e => let ft := f e in if ft_lt newest ft then ft else newest) es a in
  upto a r /\ (forall e, In e es -> upto (f e) r) /\ (r = a \/ exists e, In e es /\ r = f e).
Proof.
  induction es as [|e es IH]; intros a; cbn [fold_left].
  - split; [ord|]. split; [intros ? []|]. now left.
  - cbv zeta in *. destruct (ft_lt a (f e)) eqn:E.
    + apply ft_lt_before in E. destruct (IH (f e)) as (A & B & C). split; [ord|]. split.
      * intros x [<-|Hx]; auto.
      * destruct C as [C|(x & Hx & C)]; right; [exists e|exists x]; simpl; auto.
    + apply ft_lt_false in E. destruct (IH a) as (A & B & C). split; [auto|]. split.
      * intros x [<-|Hx]; auto. ord.
      * destruct C as [C|(x & Hx & C)]; [now left|right; exists x; simpl; auto].
Qed.
