(** The other steps, and the invariant for every reachable state. *)
From Coq Require Import List Bool Arith ZArith Lia.
From Verif Require Import RebuildModel RebuildSpec RebuildDecide RebuildInv RebuildSteps RebuildJobs.
Import ListNotations.

Lemma inactive_running c s : Inv c s -> active s = false -> running s = [].
Proof.
  intros I A. destruct (running s) as [|x l] eqn:E; auto. destruct (iv_run _ _ I x) as (X & _); [rewrite E; now left|congruence].
Qed.

(** *** New dependencies *)
Lemma inv_rewire c s t1 os is ks fs : deterministic c -> Inv c s -> wf c (rewire t1 os is ks fs s) ->
  (active s = true -> idle s t1 = true) ->
  Inv c (rewire t1 os is ks fs s) /\ (forall x, dirty c s x -> dirty c (rewire t1 os is ks fs s) x).
Proof.
  intros Dt I W' Id. assert (W := iv_wf _ _ I). set (s' := rewire t1 os is ks fs s) in *.
  assert (Eo1 : outs s' t1 = os) by (unfold s'; simpl; apply upd_same).
  assert (Eo : forall x, x <> t1 -> outs s' x = outs s x) by (intros; unfold s'; simpl; now apply upd_other).
  assert (No : forall x o, x <> t1 -> In o (outs s x) -> ~ In o os).
  { intros x o Hx Ho X. apply Hx. apply (wf_producer c s' x t1 o W'); [rewrite Eo; auto|rewrite Eo1; auto]. }
  assert (Ed : forall x o, x <> t1 -> In o (outs s x) -> kids s' o = kids s o /\ fdeps s' o = fdeps s o /\ ts s' o = ts s o).
  { intros x o Hx Ho. unfold s'. simpl. rewrite (mem_false _ _ (No x o Hx Ho)). auto. }
  assert (Os : forall o, In o os -> ts s' o = no_time) by (intros o Ho; unfold s'; simpl; now rewrite (mem_true _ _ Ho)).
  assert (Ts : forall n, ~ In n os -> ts s' n = ts s n) by (intros n Hn; unfold s'; simpl; now rewrite (mem_false _ _ Hn)).
  assert (N1 : needs c s' t1) by (right; right; right; left; intros o Ho; rewrite Eo1 in Ho; left; auto).
  assert (Kd : forall o, In o os -> kd c o = Generated t1) by (intros o Ho; apply (wf_outs _ _ W'); rewrite Eo1; auto).
  assert (Nd : forall x, x <> t1 -> needs c s x -> dirty c s' x).
  { intros x Hx N. destruct (some_kid s x (fun k => mem k os && au c k)) eqn:E.
    - apply some_kid_spec in E. destruct E as (o & k & Ho & Hk & E). apply andb_prop in E as [E Ha]. apply mem_In in E.
      apply (dirty_kid c s' x o k t1); auto; [rewrite Eo; auto| |now apply dirty_needs]. destruct (Ed x o Hx Ho) as (-> & _). auto.
    - assert (K := proj1 (some_kid_false _ _ _) E). simpl in K. apply dirty_needs. revert N. apply needs_ext; auto.
      + intros o Ho. apply (Ed x); auto.
      + intros o k Ho Hk. unfold file_time. destruct (kd c k); auto. destruct (au c k) eqn:Ea; auto.
        apply Ts, mem_notIn. specialize (K o k Ho Hk). rewrite Ea, andb_true_r in K. auto. }
  assert (Mono : forall x, dirty c s x -> dirty c s' x).
  { intros x D. induction D as [x Hr|x N|x o k t' Ho Hk Ha Hkd D IH].
    - now apply dirty_running.
    - destruct (Nat.eq_dec x t1) as [->|Hx]; [now apply dirty_needs|auto].
    - destruct (Nat.eq_dec x t1) as [->|Hx]; [now apply dirty_needs|].
      apply (dirty_kid c s' x o k t'); auto; [rewrite Eo; auto|]. destruct (Ed x o Hx Ho) as (-> & _). auto. }
  assert (Hnow := iv_now _ _ I).
  split; [|exact Mono].
  constructor.
  - exact W'.
  - exact Hnow.
  - apply (iv_mtime _ _ I).
  - intros n. assert (T := iv_ts _ _ I n). unfold s'. simpl. destruct (mem n os); split; ord.
  - intros A. assert (A' : active s = true) by exact A. destruct (iv_began _ _ I A') as (B1 & B2 & B3). split; auto. split; auto.
    intros x o Ho Hx. destruct (Nat.eq_dec x t1) as [->|Hn].
    + rewrite Eo1 in Ho. rewrite (Os o Ho). unfold s'. simpl. ord.
    + rewrite Eo in Ho; auto. destruct (Ed x o Hn Ho) as (_ & _ & ->). apply (B3 x); auto.
  - intros A n. assert (X : kd c n = Source \/ kd c n = FileDep -> ~ In n os).
    { intros X Y. apply Kd in Y. destruct X; congruence. }
    assert (S := iv_src _ _ I A n). split; intros Y; rewrite Ts; auto; now apply S.
  - intros A n Hn Hk. rewrite Ts; [now apply (iv_srcvalid _ _ I A)|]. intros Y. apply Kd in Y. congruence.
  - apply (iv_force _ _ I).
  - apply (iv_run _ _ I).
  - apply (iv_runchanged _ _ I).
  - apply (iv_succ _ _ I).
  - apply (iv_ds _ _ I).
  - intros A x Hx o k t' Ho Hk Hkd. assert (Hn : x <> t1).
    { intros ->. specialize (Id A). apply idle_spec in Id. unfold s' in Hx. simpl in Hx. tauto. }
    rewrite Eo in Ho; auto. destruct (Ed x o Hn Ho) as (Ek & _). rewrite Ek in Hk. apply (iv_order _ _ I A x Hx o k); auto.
  - intros x. destruct (Nat.eq_dec x t1) as [->|Hx]; [right; now apply dirty_needs|].
    destruct (iv_fresh _ _ I x) as [C|D]; [|right; auto]. left. revert C. apply correct_ext; auto.
    intros o Ho. destruct (Ed x o Hx Ho) as (? & ? & ?). auto.
  - intros x o Ho Ha. destruct (Nat.eq_dec x t1) as [->|Hx]; [right; now apply dirty_needs|]. rewrite Eo in Ho; auto.
    destruct (Ed x o Hx Ho) as (_ & _ & ->). destruct (iv_nonau _ _ I x o Ho Ha); auto.
  - intros A t' x k o Ht' Hk Ha Ho Hk'. specialize (Id A). apply idle_spec in Id as [Id1 Id2].
    assert (Ht : t' <> t1) by (intros ->; apply Id2; apply (iv_succ _ _ I); auto). rewrite Eo in Hk; auto.
    destruct (Nat.eq_dec x t1) as [->|Hx].
    + split; [|intros _ X; contradiction]. intros _ _. right. rewrite Eo1. auto.
    + rewrite Eo in Ho; auto. destruct (Ed x o Hx Ho) as (Ek & _). rewrite Ek in Hk'.
      destruct (iv_link _ _ I A t' x k o Ht' Hk Ha Ho Hk') as [L1 L2]. split; [|auto].
      intros X Y. destruct (L1 X Y) as [L|L]; [auto|right]. rewrite Eo; auto. intros o' Ho'.
      destruct (Ed x o' Hx Ho') as (_ & _ & ->). auto.
  - intros A Fu x Hx. specialize (Id A). apply idle_spec in Id as [Id1 Id2].
    assert (Hn : x <> t1) by (intros ->; auto). apply (same_settled c x s); auto; [|apply incl_refl|apply (iv_done _ _ I A Fu x Hx)].
    constructor; auto.
    + intros o Ho. destruct (Ed x o Hn Ho) as (? & ? & ?). auto.
    + intros n Hc. split; auto. apply Ts. intros Y. destruct Hc as [Hc|(o & Ho & [Hc|Hc])].
      * apply (No x n Hn Hc Y).
      * apply Id1. apply (iv_order _ _ I A x (or_introl Hx) o n t1 Ho Hc). auto.
      * assert (Z := wf_fdeps _ _ W _ _ _ Ho Hc). rewrite (Kd n Y) in Z. discriminate.
Qed.

(** *** Between builds *)
Section Between.
Context (c : cfg) (s s' : state) (Dt : deterministic c) (I : Inv c s) (A : active s' = false) (A0 : active s = false).
Context (Eg : outs s' = outs s /\ kids s' = kids s /\ fdeps s' = fdeps s).
Context (En : before no_time (now s')).
Context (Em : forall n, upto (mtime s' n) (now s') /\ upto no_time (mtime s' n)).
Context (Et : forall n, upto (ts s' n) (now s') /\ upto no_time (ts s' n)).
Context (Er : running s' = running s /\ started s' = started s /\ done s' = done s /\ succeeded s' = succeeded s).
Context (Hx : forall x, needs c s' x \/ same x s s').

Lemma between_dirty x : dirty c s x -> dirty c s' x.
Proof.
  destruct Eg as (Eo & Ek & Ef). destruct Er as (Er1 & _).
  intros D. induction D as [x Hr|x N|x o k t' Ho Hk Ha Hkd D IH].
  - apply dirty_running. now rewrite Er1.
  - apply dirty_needs. destruct (Hx x) as [X|X]; auto. now apply (same_needs c x s).
  - apply (dirty_kid c s' x o k t'); auto; [now rewrite Eo|now rewrite Ek].
Qed.
Lemma inv_between : Inv c s' /\ (forall x, dirty c s x -> dirty c s' x).
Proof.
  split; [|apply between_dirty].
  destruct Eg as (Eo & Ek & Ef). destruct Er as (Er1 & Er2 & Er3 & Er4). assert (R := inactive_running c s I A0).
  constructor; auto; rewrite ?Er1, ?Er2, ?Er3, ?Er4, ?A, ?R; try (intros X; discriminate X); try (now intros ? []).
  - apply (wf_same c s); auto. apply (iv_wf _ _ I).
  - apply (iv_succ _ _ I).
  - apply (iv_ds _ _ I).
  - intros x. destruct (Hx x) as [X|X]; [right; now apply dirty_needs|]. destruct (iv_fresh _ _ I x) as [C|D].
    + left. now apply (same_correct c x s).
    + right. now apply between_dirty.
  - intros x o Ho Ha. destruct (Hx x) as [X|X]; [right; now apply dirty_needs|]. rewrite Eo in Ho.
    destruct (iv_nonau _ _ I x o Ho Ha) as [Y|D]; [left|right; now apply between_dirty].
    destruct (sm_nodes _ _ _ X o (or_introl Ho)) as (-> & -> & _). auto.
Qed.
End Between.

Lemma some_dec s x n : (exists o, In o (outs s x) /\ In n (kids s o)) \/ (exists o, In o (outs s x) /\ In n (fdeps s o))
  \/ forall o, In o (outs s x) -> ~ In n (kids s o) /\ ~ In n (fdeps s o).
Proof.
  destruct (existsb (fun o => mem n (kids s o)) (outs s x)) eqn:E1.
  { left. apply existsb_exists in E1. destruct E1 as (o & Ho & E1). exists o. split; auto. now apply mem_In. }
  destruct (existsb (fun o => mem n (fdeps s o)) (outs s x)) eqn:E2.
  { right; left. apply existsb_exists in E2. destruct E2 as (o & Ho & E2). exists o. split; auto. now apply mem_In. }
  right; right. intros o Ho. split; intros X.
  - rewrite <- not_true_iff_false in E1. apply E1. apply existsb_exists. exists o. split; auto. now apply mem_In.
  - rewrite <- not_true_iff_false in E2. apply E2. apply existsb_exists. exists o. split; auto. now apply mem_In.
Qed.

Lemma inv_edit c s n v m : deterministic c -> Inv c s -> active s = false -> (forall t, kd c n <> Generated t) ->
  fair c s (Edit n v m) ->
  Inv c (edit n v m s) /\ (forall x, dirty c s x -> dirty c (edit n v m s) x).
Proof.
  intros Dt I A K Fa. simpl in Fa. assert (W := iv_wf _ _ I). assert (Hnow := iv_now _ _ I).
  assert (Vm : before (now s) m -> valid m = true).
  { intros X. apply valid_spec. intros ->. ord. }
  assert (Vn : valid no_time = false) by reflexivity.
  apply (inv_between c s); auto.
  - simpl. destruct Fa as [Fa|[-> _]]; [rewrite (Vm Fa)|rewrite Vn]; ord.
  - intros k. assert (M := iv_mtime _ _ I k). simpl. destruct (Nat.eq_dec k n) as [->|Hk].
    + rewrite upd_same. destruct Fa as [Fa|[-> _]]; [rewrite (Vm Fa)|rewrite Vn]; split; ord.
    + rewrite upd_other; auto. destruct Fa as [Fa|[-> _]]; [rewrite (Vm Fa)|rewrite Vn]; split; ord.
  - intros k. assert (M := iv_ts _ _ I k). simpl. destruct Fa as [Fa|[-> _]]; [rewrite (Vm Fa)|rewrite Vn]; split; ord.
  - intros x. assert (Ft : file_time c (edit n v m s) n = m).
    { unfold file_time. destruct (kd c n) eqn:E; simpl; rewrite ?upd_same; auto. destruct (K t); auto. }
    destruct (some_dec s x n) as [(o & Ho & Hk)|[(o & Ho & Hd)|N]].
    + left. destruct Fa as [Fa|[-> Fd]].
      * apply (kid_newer c _ x o n); auto; [now apply (wf_same c s)|]. intros o' Ho'. rewrite Ft. assert (T := iv_ts _ _ I o'). simpl. ord.
      * destruct (wf_kids _ _ W _ _ _ Ho Hk) as [[X _]|(t' & X & _)]; congruence.
    + left. right; right; right; left. intros o' Ho'. right; right. exists n. split; [apply (wf_agree_fdeps _ _ W x o o'); auto|].
      simpl. rewrite upd_same. destruct Fa as [Fa|[-> _]]; [right|left; auto]. assert (T := iv_ts _ _ I o'). ord.
    + right. constructor; auto. intros k Hk. assert (Hn : k <> n).
      { intros ->. destruct Hk as [Hk|(o & Ho & Hk)]; [|destruct (N o Ho); tauto]. apply (wf_outs _ _ W) in Hk. apply (K x Hk). }
      simpl. rewrite !upd_other; auto.
Qed.
Lemma inv_reconfigure c s t v : deterministic c -> Inv c s -> active s = false ->
  Inv c (reconfigure t v s) /\ (forall x, dirty c s x -> dirty c (reconfigure t v s) x).
Proof.
  intros Dt I A. apply (inv_between c s); auto; try apply I. intros x. destruct (Nat.eq_dec x t) as [->|Hx].
  - left. right; right; left. simpl. rewrite !upd_same. auto.
  - right. constructor; simpl; auto; now rewrite upd_other.
Qed.
Lemma inv_end c s : deterministic c -> Inv c s -> running s = [] ->
  Inv c (set_active false s) /\ (forall x, dirty c s x -> dirty c (set_active false s) x).
Proof.
  intros Dt I R. assert (Di : forall x, dirty c s x -> dirty c (set_active false s) x).
  { intros x D. induction D as [x Hr|x N|x o k t' Ho Hk Ha Hkd D IH].
    - now apply dirty_running.
    - now apply dirty_needs.
    - now apply (dirty_kid c _ x o k t'). }
  split; [|exact Di].
  constructor; simpl; try (intros X; discriminate X); try apply I; try (rewrite R; now intros ? []).
  - apply (wf_same c s); auto. apply (iv_wf _ _ I).
  - intros x. destruct (iv_fresh _ _ I x); auto.
  - intros x o Ho Ha. destruct (iv_nonau _ _ I x o Ho Ha); auto.
Qed.

Lemma inv_mark c s t1 : deterministic c -> Inv c s -> (active s = true -> idle s t1 = true) ->
  Inv c (mark t1 s) /\ (forall x, dirty c s x -> dirty c (mark t1 s) x).
Proof.
  intros Dt I Id. assert (Sm : forall x, x <> t1 -> same x s (mark t1 s)).
  { intros x Hx. constructor; simpl; auto. now rewrite upd_other. }
  assert (N1 : needs c (mark t1 s) t1) by (right; left; simpl; apply upd_same).
  assert (Mono : forall x, dirty c s x -> dirty c (mark t1 s) x).
  { intros x D. induction D as [x Hr|x N|x o k t' Ho Hk Ha Hkd D IH].
    - now apply dirty_running.
    - apply dirty_needs. destruct (Nat.eq_dec x t1) as [->|Hx]; auto. apply (same_needs c x s); auto.
    - now apply (dirty_kid c _ x o k t'). }
  split; [|exact Mono].
  constructor; try apply I.
  - apply (wf_same c s); auto. apply (iv_wf _ _ I).
  - intros x. destruct (iv_fresh _ _ I x); [left|right]; auto.
  - intros x o Ho Ha. destruct (iv_nonau _ _ I x o Ho Ha); auto.
  - intros A t' x k o Ht' Hk Ha Ho Hk'. destruct (iv_link _ _ I A t' x k o Ht' Hk Ha Ho Hk') as [L1 L2]. split; [|auto].
    intros X Y. destruct (L1 X Y) as [L|L]; [|auto]. left. simpl. unfold upd. destruct (x =? t1); auto.
  - intros A Fu x Hx. specialize (Id A). apply idle_spec in Id as [Id1 Id2].
    apply (same_settled c x s); auto; [|apply incl_refl|apply (iv_done _ _ I A Fu x Hx)]. apply Sm. intros ->. auto.
Qed.

(** *** Beginning of a build *)
Lemma inv_begin c s o cf time s' : deterministic c -> Inv c s -> active s = false -> fair c s (Begin o cf time) ->
  begin c o cf time s = Some s' ->
  Inv c s' /\ (forall x, dirty c s x -> dirty c s' x).
Proof.
  intros Dt I A (F1 & F2 & F3) E.
  set (f := fun n => match kd c n with
                    | Source => if mem n cf then time
                                else if (match cf with [] => true | _ => false end) || negb (valid (ts s n)) then mtime s n else ts s n
                    | FileDep => mtime s n
                    | Generated _ => ts s n
                    end) in *.
  change ((if forallb (fun n => valid (f n)) (srcs c) then
    Some {| kids := kids s; fdeps := fdeps s; outs := outs s; ins := ins s; ts := f; marked := marked s; track := track s;
            changed := changed s; conf := conf s; content := content s; mtime := mtime s; now := time; bopts := o;
            active := true; began := time; done := []; running := []; started := []; succeeded := [] |}
    else None) = Some s') in E.
  destruct (forallb (fun n => valid (f n)) (srcs c)) eqn:Ev; [|discriminate]. injection E as <-.
  set (s' := {| kids := kids s; fdeps := fdeps s; outs := outs s; ins := ins s; ts := f; marked := marked s; track := track s;
                changed := changed s; conf := conf s; content := content s; mtime := mtime s; now := time; bopts := o;
                active := true; began := time; done := []; running := []; started := []; succeeded := [] |}).
  assert (W := iv_wf _ _ I). assert (Hnow := iv_now _ _ I). assert (R := inactive_running c s I A).
  assert (Gen : forall x n, In n (outs s x) -> f n = ts s n) by (intros x n Hn; unfold f; now rewrite (wf_outs _ _ W _ _ Hn)).
  assert (Nd : forall x, needs c s x -> needs c s' x).
  { intros x. apply needs_ext; auto.
    - intros p Hp. simpl. split; auto. split; auto. now apply (Gen x).
    - intros p k Hp Hk. unfold file_time, s', f. simpl. destruct (kd c k); auto. }
  assert (Mono : forall x, dirty c s x -> dirty c s' x).
  { intros x D. induction D as [x Hr|x N|x p k t' Ho Hk Ha Hkd D IH].
    - rewrite R in Hr. destruct Hr.
    - apply dirty_needs. auto.
    - now apply (dirty_kid c _ x p k t'). }
  split; [|exact Mono].
  constructor; try (simpl; now intros ? []).
  - apply (wf_same c s); auto.
  - simpl. ord.
  - intros n. assert (M := iv_mtime _ _ I n). simpl. split; ord.
  - intros n. assert (M := iv_mtime _ _ I n). assert (T := iv_ts _ _ I n). simpl. unfold f.
    destruct (kd c n); [|split; ord|split; ord]. destruct (mem n cf); [split; ord|].
    destruct (_ || _); split; ord.
  - intros _. simpl. split; [ord|]. split; [ord|]. intros x p Hp _. rewrite (Gen x); auto. assert (T := iv_ts _ _ I p). ord.
  - intros _ n. simpl. unfold f. split; intros K; rewrite K; auto. assert (M := iv_mtime _ _ I n).
    destruct (mem n cf) eqn:Em; [ord|]. destruct F3 as [->|F3]; [simpl; ord|].
    destruct (_ || _); [ord|]. intros X. apply mem_notIn in Em. auto.
  - intros _ n Hn K. simpl. rewrite forallb_forall in Ev. specialize (Ev n Hn). now apply valid_spec.
  - intros _. exact F2.
  - simpl. intros _ x [[]|[]].
  - intros x. destruct (iv_fresh _ _ I x) as [C|D]; [left|right; auto]. exact C.
  - intros x p Hp Ha. simpl. rewrite (Gen x); auto. destruct (iv_nonau _ _ I x p Hp Ha); auto.
Qed.

(** *** All states *)
Lemma fresh_inv c s : fresh c s -> Inv c s.
Proof.
  intros [W T M N (A & D & R & S & U)]. assert (Nd : forall x, needs c s x) by (intros x; right; right; right; left; intros o Ho; left; auto).
  constructor; auto; rewrite ?A, ?D, ?R, ?S, ?U; try (intros X; discriminate X); try (now intros ? []).
  - intros n. rewrite T. split; ord.
  - intros x. right. now apply dirty_needs.
  - intros x o Ho Ha. right. now apply dirty_needs.
Qed.

Lemma inv_step c s e s' : deterministic c -> Inv c s -> fair c s e -> step c s e = Next s' ->
  Inv c s' /\ (forall x, dirty c s x -> dirty c s' x \/ In x (succeeded s')).
Proof.
  intros Dt I Fa St.
  assert (G : forall P, P /\ (forall x, dirty c s x -> dirty c s' x) -> P /\ (forall x, dirty c s x -> dirty c s' x \/ In x (succeeded s')))
    by (intros P [X Y]; split; auto).
  destruct e as [o cf time|t|t touch time|t touch time|t os is ks fs| |n v m|t v|t].
  - cbn [step] in St. destruct (active s) eqn:A; [discriminate|]. destruct (begin c o cf time s) eqn:E; [|discriminate].
    injection St as <-. apply G. now apply (inv_begin c s o cf time).
  - apply G. now apply (inv_consider c s t).
  - cbn [step] in St. destruct (active s) eqn:A; [|discriminate]. destruct (mem t (running s)) eqn:R; [|discriminate]. apply mem_In in R.
    injection St as <-. split; [now apply inv_succeed|]. intros x D. destruct (Nat.eq_dec x t) as [->|Hx]; [right; now left|].
    left. now apply su_dirty.
  - cbn [step] in St. destruct (active s) eqn:A; [|discriminate]. destruct (mem t (running s)) eqn:R; [|discriminate]. apply mem_In in R.
    injection St as <-. split; [now apply inv_fail|]. intros x D. left. now apply fa_dirty.
  - cbn [step] in St. destruct (active s && negb (idle s t)) eqn:E; [discriminate|]. injection St as <-. apply G. apply inv_rewire; auto.
    intros A. rewrite A in E. simpl in E. now apply negb_false_iff.
  - cbn [step] in St. destruct (running s) eqn:R; [|discriminate]. injection St as <-. apply G. now apply inv_end.
  - cbn [step] in St. destruct (active s) eqn:A; [discriminate|]. destruct (kd c n) eqn:K; try discriminate; injection St as <-;
      apply G; apply inv_edit; auto; congruence.
  - cbn [step] in St. destruct (active s) eqn:A; [discriminate|]. injection St as <-. apply G. now apply inv_reconfigure.
  - cbn [step] in St. destruct (active s && negb (idle s t)) eqn:E; [discriminate|]. injection St as <-. apply G. apply inv_mark; auto.
    intros A. rewrite A in E. simpl in E. now apply negb_false_iff.
Qed.
Lemma inv_exec c es : forall s s', deterministic c -> Inv c s -> fair_history c s es -> exec c s es = Next s' -> Inv c s'.
Proof.
  induction es as [|e es IH]; intros s s' Dt I H E; cbn [exec fair_history] in *; [injection E as <-; auto|].
  destruct H as [Fa H]. destruct (step c s e) as [s2| |] eqn:St; try discriminate. apply (IH s2); auto. apply (inv_step c s e); auto.
Qed.
Lemma reachable_inv c s : deterministic c -> reachable c s -> Inv c s.
Proof. intros Dt (s0 & es & Fr & H & E). apply (inv_exec c es s0); auto. now apply fresh_inv. Qed.
