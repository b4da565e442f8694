(** Histories without changed commands and restricted builds are fair. *)
From Coq Require Import List Bool Arith ZArith Lia.
From Verif Require Import RebuildModel RebuildSpec RebuildDecide RebuildInv RebuildSteps RebuildJobs RebuildReach RebuildFinal.
Import ListNotations.

Record Plain (c : cfg) (s : state) : Prop := {
  pl_inv : Inv c s;
  pl_full : active s = true -> full s;
  pl_src : active s = true -> forall n, kd c n = Source -> ts s n = mtime s n;
  pl_needs : forall t, In t (running s) -> needs c s t
}.

Lemma outdated_stale c s t o : Plain c s -> active s = true -> In o (outs s t) ->
  forallb (built c s) (kids s o) = true -> outdated s t o -> stale c s o.
Proof.
  intros [I Fu Sr _] A Ho B H. assert (Ef := iv_force _ _ I A). unfold outdated in H. rewrite (known_noforce s t o Ef) in H.
  destruct H as [H|[(k & Hk & H)|(d & Hd & H)]].
  - now left.
  - right; left. exists k. split; auto. rewrite known_noforce in H; auto. rewrite forallb_forall in B. specialize (B k Hk).
    unfold file_time, built in *. destruct (wf_kids _ _ (iv_wf _ _ I) _ _ _ Ho Hk) as [[X _]|(t' & X & Y)]; rewrite X in *.
    + rewrite (Sr A k X) in H. exact H.
    + destruct (au c k) eqn:Ea; auto. apply mem_In in B. rewrite (se_nonau _ _ _ (iv_done _ _ I A (Fu A) t' B) k Y Ea) in H. exact H.
  - right; right. exists d. split; auto. rewrite (proj2 (iv_src _ _ I A d)) in H; auto. apply (wf_fdeps _ _ (iv_wf _ _ I) t o); auto.
Qed.
Lemma must_needs c s t : Plain c s -> active s = true -> forallb (fun o => forallb (built c s) (kids s o)) (outs s t) = true ->
  must_run c s t -> needs c s t \/ (track s t = true /\ changed s t = true).
Proof.
  intros P A B H. rewrite forallb_forall in B. destruct H as [H|[H|[(o & Ho & H & X)|[H|H]]]].
  - left. now left.
  - left. right; now left.
  - left. right; right; right; right. exists o. split; auto. split; [|apply (outdated_stale c s t); auto].
    destruct H as [H|H]; auto. rewrite (iv_force _ _ (pl_inv _ _ P) A) in H. discriminate.
  - now right.
  - left. right; right; right; left. intros o Ho. apply (outdated_stale c s t); auto.
Qed.

Lemma plain_fair c s e : Plain c s -> plain c s e -> step c s e <> Refused -> fair c s e.
Proof.
  intros P [H _] St. destruct e; try exact H.
  - intros s' E N. destruct N. cbn [step] in E. destruct (active s) eqn:A; [|discriminate]. now apply (pl_full _ _ P).
  - destruct H as [H1 H2]. split; auto. split; auto. apply (pl_needs _ _ P). cbn [step] in St.
    destruct (active s); [|now destruct St]. destruct (mem t (running s)) eqn:R; [now apply mem_In|now destruct St].
Qed.

Lemma ts_source c s t s' : deterministic c -> Inv c s -> step c s (Consider t) = Next s' -> fair c s (Consider t) ->
  ts s' = ts s /\ mtime s' = mtime s /\ bopts s' = bopts s /\ active s' = active s.
Proof.
  intros Dt I E _. cbn [step] in E. destruct (active s) eqn:A; [|discriminate]. cbn [andb] in E.
  destruct (_ && _ && _); [|discriminate]. unfold consider in E.
  destruct (matching_tags c s t); simpl in E; [|injection E as <-; auto].
  destruct (matching_files c s t); simpl in E; [|injection E as <-; auto].
  destruct (must_execute c s t) as [[b|] s2] eqn:Em; [|discriminate].
  assert (Hs2 := must_state c s t b s2 (iv_force _ _ I A) Em).
  destruct b; [destruct (rules_only (bopts s2))|]; injection E as <-; destruct Hs2 as [->| ->]; auto.
Qed.

Lemma plain_step c s e s' : deterministic c -> (forall t, track s t = true -> changed s t = true -> False) ->
  Plain c s -> plain c s e -> step c s e = Next s' ->
  Plain c s' /\ (forall t, track s' t = true -> changed s' t = true -> False).
Proof.
  intros Dt Ntc P Hp St.
  assert (Fa : fair c s e) by (apply plain_fair; auto; congruence).
  assert (I := pl_inv _ _ P). destruct (inv_step c s e s' Dt I Fa St) as [I' _].
  assert (W := iv_wf _ _ I).
  assert (Gr : forall x t os, In t (outs s x) -> kd c t = Source -> In t os -> False).
  { intros x t os X Y _. apply (wf_outs _ _ W) in X. congruence. }
  destruct e as [o cf time|t|t touch time|t touch time|t os is ks fs| |n v m|t v|t].
  - cbn [step] in St. destruct (active s) eqn:A; [discriminate|]. destruct Hp as [_ (-> & F1 & F2 & F3)].
    unfold begin in St. match type of St with match (if ?b then _ else _) with _ => _ end = _ => destruct b; [|discriminate] end.
    injection St as <-. split; [|exact Ntc]. constructor; auto.
    + intros _. repeat split; auto.
    + intros _ n Hn. simpl. rewrite Hn. reflexivity.
    + intros x [].
  - destruct (ts_source c s t s' Dt I St Fa) as (E1 & E2 & E3 & E4).
    assert (Fu : active s' = true -> full s') by (rewrite E4; unfold full; rewrite E3; apply (pl_full _ _ P)).
    assert (Src : active s' = true -> forall n, kd c n = Source -> ts s' n = mtime s' n) by (rewrite E1, E2, E4; apply (pl_src _ _ P)).
    cbn [step] in St.
    destruct (active s && idle s t && negb (match outs s t with [] => true | _ :: _ => false end)
            && forallb (fun o => forallb (built c s) (kids s o)) (outs s t)) eqn:E; [|discriminate].
    apply andb_prop in E as [E B]. apply andb_prop in E as [E _]. apply andb_prop in E as [A Id]. apply idle_spec in Id as [Id1 Id2].
    assert (Fs := pl_full _ _ P A).
    assert (Nrun : forall x, In x (running s) -> x <> t) by (intros x Hx ->; apply Id2; apply (iv_run _ _ I t Hx)).
    assert (Fin : forall s2, s2 = s \/ s2 = set_track (upd (track s) t false) s -> s' = finish t s2 ->
      Plain c s' /\ forall t, track s' t = true -> changed s' t = true -> False).
    { intros s2 Hs2 ->. split.
      - constructor; auto. intros x Hx. assert (Hx' : In x (running s)) by (destruct Hs2 as [->| ->]; exact Hx).
        apply (same_needs c x s); [|now apply (pl_needs _ _ P)]. apply consider_same; auto.
      - intros x. destruct Hs2 as [->| ->]; simpl; [apply Ntc|]. unfold upd. destruct (x =? t); [discriminate|apply Ntc]. }
    unfold consider in St. destruct (full_selected c s t Fs) as [M1 M2]. rewrite M1, M2 in St. simpl in St.
    destruct (must_execute_spec c s t (wf_apart c s t W) (kids_checked c s t I A Fs B)) as (b & s2 & Em & Hb & _).
    rewrite Em in St. assert (Hs2 := must_state c s t b s2 (iv_force _ _ I A) Em).
    destruct b; [|injection St as <-; now apply (Fin s2)].
    destruct (rules_only (bopts s2)); injection St as <-; [now apply (Fin s2)|].
    split.
    + constructor; auto. intros x Hx. assert (Hx' : In x (t :: running s)) by (destruct Hs2 as [->| ->]; exact Hx).
      destruct (Nat.eq_dec x t) as [->|Hn].
      * destruct (must_needs c s t P A B (proj1 Hb eq_refl)) as [N|[N1 N2]]; [|destruct (Ntc t N1 N2)].
        assert (G : outs (run t s2) = outs s /\ marked (run t s2) = marked s /\ kids (run t s2) = kids s /\ fdeps (run t s2) = fdeps s)
          by (destruct Hs2 as [->| ->]; auto). destruct G as (G1 & G2 & G3 & G4).
        revert N. apply needs_ext.
        -- now rewrite G1.
        -- now rewrite G2.
        -- intros X Y. destruct (Ntc t X Y).
        -- intros o Ho. rewrite G3, G4, E1. auto.
        -- intros o k Ho Hk. unfold file_time. now rewrite E1, E2.
        -- intros o d Ho Hd. now rewrite E2.
      * apply (same_needs c x s); [now apply consider_same|]. apply (pl_needs _ _ P). destruct Hx'; [congruence|auto].
    + intros x. assert (G : changed (run t s2) = upd (changed s) t false) by (destruct Hs2 as [->| ->]; auto). rewrite G. unfold upd at 1.
      destruct (Nat.eqb_spec x t) as [->|Hn]; [discriminate|]. intros X Y. apply (Ntc x); auto.
      destruct Hs2 as [->| ->]; simpl in X; auto. now rewrite upd_other in X.
  - cbn [step] in St. destruct (active s) eqn:A; [|discriminate]. destruct (mem t (running s)) eqn:R; [|discriminate]. apply mem_In in R.
    injection St as <-. split; [|exact Ntc]. constructor; auto.
    + intros _. apply (pl_full _ _ P A).
    + intros _ n Hn. rewrite su_ts_other, su_mtime_other; [now apply (pl_src _ _ P)| |]; intros X; apply (wf_outs _ _ W) in X; congruence.
    + intros x Hx. apply in_remove in Hx. destruct Hx as [Hx Hn].
      destruct (su_cases c s t touch time Dt I A R Fa x Hn) as [X|(X & _)]; auto. apply X. now apply (pl_needs _ _ P).
  - cbn [step] in St. destruct (active s) eqn:A; [|discriminate]. destruct (mem t (running s)) eqn:R; [|discriminate]. apply mem_In in R.
    injection St as <-. split; [|exact Ntc]. constructor; auto.
    + intros _. apply (pl_full _ _ P A).
    + intros _ n Hn. rewrite fa_mtime_other; [now apply (pl_src _ _ P)|]. intros X; apply (wf_outs _ _ W) in X; congruence.
    + intros x Hx. apply in_remove in Hx. destruct Hx as [Hx Hn].
      destruct (fa_cases c s t touch time Dt I A R Fa x Hn) as [X|(X & _)]; auto. apply X. now apply (pl_needs _ _ P).
  - cbn [step] in St. destruct (active s && negb (idle s t)) eqn:E; [discriminate|]. injection St as <-. split; [|exact Ntc].
    assert (W' := iv_wf _ _ I').
    assert (Kd : forall o, In o os -> kd c o = Generated t).
    { intros o Ho. apply (wf_outs _ _ W'). simpl. now rewrite upd_same. }
    assert (Ts : forall n, ~ In n os -> ts (rewire t os is ks fs s) n = ts s n) by (intros n Hn; simpl; now rewrite (mem_false _ _ Hn)).
    constructor; auto.
    + intros A. apply (pl_full _ _ P A).
    + intros A n Hn. rewrite Ts; [now apply (pl_src _ _ P)|]. intros X. apply Kd in X. congruence.
    + intros x Hx. assert (Hx' : In x (running s)) by exact Hx. destruct (iv_run _ _ I x Hx') as (A & Hst & Hnd).
      rewrite A in E. simpl in E. apply negb_false_iff, idle_spec in E. destruct E as [E1 E2].
      assert (Hn : x <> t) by (intros ->; contradiction).
      apply (same_needs c x s); [|now apply (pl_needs _ _ P)].
      assert (No : forall o, In o (outs s x) -> ~ In o os).
      { intros o Ho X. apply Hn. apply Kd in X. apply (wf_outs _ _ W) in Ho. congruence. }
      constructor; simpl; auto.
      * now rewrite upd_other.
      * intros o Ho. now rewrite (mem_false _ _ (No o Ho)).
      * intros n Hc. split; auto. change (ts (rewire t os is ks fs s) n = ts s n). apply Ts. intros X. destruct Hc as [Hc|(o & Ho & [Hc|Hc])].
        -- now apply (No n Hc).
        -- apply E1. apply (iv_order _ _ I A x (or_intror Hst) o n t Ho Hc). auto.
        -- assert (Y := wf_fdeps _ _ W _ _ _ Ho Hc). rewrite (Kd n X) in Y. discriminate.
  - cbn [step] in St. destruct (running s) eqn:R; [|discriminate]. injection St as <-. split; [|exact Ntc].
    constructor; auto; simpl; try discriminate. rewrite R. intros x [].
  - cbn [step] in St. destruct (active s) eqn:A; [discriminate|]. assert (R := inactive_running c s I A).
    destruct (kd c n); try discriminate; injection St as <-; (split; [|exact Ntc]); constructor; auto; simpl; rewrite ?A, ?R; try discriminate; intros x [].
  - destruct Hp as [_ []].
  - cbn [step] in St. destruct (active s && negb (idle s t)) eqn:E; [discriminate|]. injection St as <-. split; [|exact Ntc].
    constructor; auto.
    + intros A. apply (pl_full _ _ P A).
    + intros A. apply (pl_src _ _ P A).
    + intros x Hx. apply (needs_ext c s); auto; [|now apply (pl_needs _ _ P)].
      simpl. unfold upd. destruct (x =? t); auto.
Qed.

Lemma plain_fair_history c es : forall s, deterministic c -> (forall t, track s t = true -> changed s t = true -> False) -> Plain c s ->
  plain_history c s es -> (exists s', exec c s es = Next s') -> fair_history c s es.
Proof.
  induction es as [|e es IH]; intros s Dt Ntc P H (s' & E); cbn [fair_history plain_history exec] in *; auto. destruct H as [H1 H2].
  destruct (step c s e) as [s1| |] eqn:St; try discriminate.
  split; [apply plain_fair; auto; congruence|]. destruct (plain_step c s e s1 Dt Ntc P H1 St). apply IH; eauto.
Qed.
Lemma fresh_plain c s : fresh c s -> Plain c s.
Proof.
  intros Fr. assert (I := fresh_inv c s Fr). destruct (fr_idle _ _ Fr) as (A & _ & R & _). constructor; auto; rewrite ?A, ?R; try discriminate. intros x [].
Qed.
