(** C19: which artifacts disappear together with one that is removed, and that nothing refers to them afterwards. *)
From Coq Require Import List Bool Arith Lia.
From Verif Require Import GraphModel GraphTheorems RemovalModel.
Import ListNotations.

(** * Specification *)

(** The artifacts that have to go together with the [seeds]: those that depend on one that goes, if everything they depend on
    goes or if no input of the rule application that made them stays. *)
Inductive doomed (info : nat -> ninfo) (tr : nat -> option nat) (g : graph) (inputs : nat -> list nat) (seeds : list nat) : nat -> Prop :=
| d_seed x : In x seeds -> doomed info tr g inputs seeds x
| d_all p x : n_artifact (info p) = true -> depends g p x -> doomed info tr g inputs seeds x ->
    (forall c, depends g p c -> doomed info tr g inputs seeds c) -> doomed info tr g inputs seeds p
| d_inputs p x t : n_artifact (info p) = true -> depends g p x -> doomed info tr g inputs seeds x -> tr p = Some t ->
    (forall i, In i (inputs t) -> doomed info tr g inputs seeds i) -> doomed info tr g inputs seeds p.

(** A consistent state: the edges satisfy what every history of operations guarantees (GraphTheorems.run_op_inv); artifacts depend
    on the inputs of the rule application that made them; rule nodes depend on their earlier inputs; nothing was removed so far. *)
Record consistent (info : nat -> ninfo) (tr : nat -> option nat) (st : rstate) : Prop := {
  cs_inv : inv info (r_g st);
  cs_inputs : forall p t, n_artifact (info p) = true -> tr p = Some t -> incl (r_inputs st t) (kids (r_g st) p);
  cs_old : forall r, n_artifact (info r) = false -> incl (r_old st r) (kids (r_g st) r);
  cs_cleared : r_cleared st = [];
  cs_removed : r_removed st = [];
}.

(** Nothing knows the artifact any more. *)
Record forgotten (info : nat -> ninfo) (tr : nat -> option nat) (st : rstate) (x : nat) : Prop := {
  fg_kids : kids (r_g st) x = [];
  fg_edges : forall p, ~ In x (kids (r_g st) p);
  fg_table : r_table st x = false;
  fg_product : r_product st x = false;
  fg_disk : n_type (info x) = Generated -> r_disk st x = false;
  fg_out : forall t, tr x = Some t -> ~ In x (r_outputs st t);
  fg_old : forall r, n_artifact (info r) = false -> ~ In x (r_old st r);
}.

(** * Proofs *)

Section Proofs.
  Variable info : nat -> ninfo.
  Variable tr : nat -> option nat.
  Variable st0 : rstate.
  Variable seeds : list nat.
  Hypothesis cons0 : consistent info tr st0.
  Hypothesis seeds_art : forall x, In x seeds -> n_artifact (info x) = true.

  Let g0 := r_g st0.
  Let Doomed := doomed info tr g0 (r_inputs st0) seeds.

  Lemma doomed_art x : Doomed x -> n_artifact (info x) = true.
  Proof. destruct 1; auto. Qed.

  Record rinv (R : nat -> Prop) (st : rstate) : Prop := {
    i_inv : inv info (r_g st);
    i_less : forall p c, In c (kids (r_g st) p) -> In c (kids g0 p);
    i_sound : forall x, R x -> Doomed x;
    i_lost : forall p c, ~ R p -> In c (kids g0 p) -> ~ In c (kids (r_g st) p) -> R c;
    i_some : forall p, ~ R p -> n_artifact (info p) = true -> kids g0 p <> [] -> kids (r_g st) p <> [];
    i_input : forall p t c, ~ R p -> n_artifact (info p) = true -> tr p = Some t -> In c (kids g0 p) -> ~ In c (kids (r_g st) p) ->
      exists i, In i (r_inputs st0 t) /\ In i (kids (r_g st) p);
    i_clean : forall p t c, ~ R p -> n_artifact (info p) = true -> tr p = Some t -> In c (kids g0 p) -> ~ In c (kids (r_g st) p) ->
      ~ In c (r_inputs st t);
    i_inputs : forall t i, In i (r_inputs st0 t) -> ~ In i (r_inputs st t) -> R i;
    i_inputs_less : forall t i, In i (r_inputs st t) -> In i (r_inputs st0 t);
    i_cleared : forall p, ~ R p -> n_artifact (info p) = true ->
      (In p (r_cleared st) <-> exists c, In c (kids g0 p) /\ ~ In c (kids (r_g st) p));
    i_table : forall x, ~ R x -> r_table st x = r_table st0 x /\ r_product st x = r_product st0 x /\ r_disk st x = r_disk st0 x;
    i_disk : forall x, n_type (info x) = SourceFile -> r_disk st x = r_disk st0 x;
    i_out : forall t x, ~ R x -> (In x (r_outputs st t) <-> In x (r_outputs st0 t));
    i_old : forall r, n_artifact (info r) = false -> incl (r_old st r) (kids (r_g st) r);
    i_old_less : forall r x, In x (r_old st r) -> In x (r_old st0 r);
    i_old_lost : forall r x, n_artifact (info r) = false -> In x (r_old st0 r) -> ~ In x (r_old st r) -> R x /\ In r (r_forced st);
    i_forced : forall r, In r (r_forced st) -> In r (r_forced st0) \/ exists x, In x (r_old st0 r) /\ ~ In x (r_old st r);
    i_explicit : forall t, r_explicit st t = r_explicit st0 t;
  }.

  Lemma rinv_weaken (R R' : nat -> Prop) st : rinv R st -> (forall x, R x -> R' x) -> (forall x, R' x -> Doomed x) -> rinv R' st.
  Proof.
    intros [] H D. split; auto.
    - intros p c Hp H1 H2. apply H, (i_lost0 p c); auto.
    - intros p t c Hp. apply i_input0; auto.
    - intros p t c Hp. apply i_clean0; auto.
    - intros t i H1 H2. apply H, (i_inputs0 t i); auto.
    - intros r x H1 H2 H3. destruct (i_old_lost0 r x H1 H2 H3). auto.
  Qed.

  Record later (st st' : rstate) : Prop := {
    l_kids : forall p c, In c (kids (r_g st') p) -> In c (kids (r_g st) p);
    l_removed : incl (r_removed st) (r_removed st');
    l_table : forall x, r_table st x = false -> r_table st' x = false;
    l_product : forall x, r_product st x = false -> r_product st' x = false;
    l_disk : forall x, r_disk st x = false -> r_disk st' x = false;
    l_out : forall t, incl (r_outputs st' t) (r_outputs st t);
    l_old : forall r, incl (r_old st' r) (r_old st r);
  }.
  Lemma later_refl st : later st st.
  Proof. split; auto; intros; apply incl_refl. Qed.
  Lemma later_trans a b c : later a b -> later b c -> later a c.
  Proof. intros [] []. split; auto; intros; eapply incl_tran; eauto. Qed.
  Lemma nil_iff (l : list nat) : l = [] <-> forall x, ~ In x l.
  Proof. split; [intros -> x []|]. intros H. destruct l; [reflexivity|]. exfalso. apply (H n). now left. Qed.
  Lemma forgotten_later st st' x : later st st' -> forgotten info tr st x -> forgotten info tr st' x.
  Proof.
    intros [] []. split; auto.
    - apply nil_iff. intros c Hc. apply l_kids0 in Hc. rewrite fg_kids0 in Hc. exact Hc.
    - intros p Hp. exact (fg_edges0 p (l_kids0 _ _ Hp)).
    - intros t Ht Hx. exact (fg_out0 t Ht (l_out0 _ _ Hx)).
    - intros r Hr Hx. exact (fg_old0 r Hr (l_old0 _ _ Hx)).
  Qed.

  (** ** removeArtifact *)

  Lemma rule_nodes_spec x : forall l st, let st' := fold_left (fun st r => remove_old_input st x r) l st in
    (forall r y, In y (r_old st' r) <-> In y (r_old st r) /\ ~ (y = x /\ In r l))
    /\ (forall r, In r (r_forced st') <-> In r (r_forced st) \/ (In r l /\ In x (r_old st r)))
    /\ r_g st' = r_g st /\ r_inputs st' = r_inputs st /\ r_explicit st' = r_explicit st /\ r_outputs st' = r_outputs st
    /\ r_table st' = r_table st /\ r_product st' = r_product st /\ r_disk st' = r_disk st /\ r_cleared st' = r_cleared st
    /\ r_removed st' = r_removed st.
  Proof.
    induction l as [|q l IH]; intros st; cbn zeta; cbn [fold_left].
    - split; [intros r y; cbn; intuition|]. split; [intros r; cbn; intuition|]. do 8 (split; [reflexivity|]). reflexivity.
    - destruct (IH (remove_old_input st x q)) as (A & B & C). clear IH. cbn zeta in *.
      split; [|split].
      + intros r y. rewrite A. unfold remove_old_input. destruct (mem x (r_old st q)) eqn:Mq; cbn [r_old In].
        * unfold upd. destruct (Nat.eqb_spec r q) as [->|Hr]; [rewrite in_del|]; intuition.
        * apply mem_not_in in Mq. intuition. subst. apply Mq. assumption.
      + intros r. rewrite B. unfold remove_old_input. destruct (mem x (r_old st q)) eqn:Mq; cbn [r_old r_forced In].
        * apply mem_in in Mq. rewrite in_add. unfold upd. destruct (Nat.eqb_spec r q) as [->|Hr]; [rewrite in_del|]; intuition.
        * apply mem_not_in in Mq. intuition. subst. contradiction.
      + destruct C as (C1 & C2 & C3 & C4 & C5 & C6 & C7 & C8 & C9). rewrite C1, C2, C3, C4, C5, C6, C7, C8, C9.
        unfold remove_old_input. destruct (mem x (r_old st q)); do 8 (split; [reflexivity|]); reflexivity.
  Qed.

  (** When no artifact depends on it any more. *)
  Lemma remove_artifact_spec st x : inv info (r_g st) ->
    (forall p, n_artifact (info p) = true -> ~ In x (kids (r_g st) p)) ->
    exists st', remove_artifact info tr st x = Some st'
      /\ r_g st' = disconnect_artifact info (r_g st) x
      /\ r_inputs st' = r_inputs st /\ r_explicit st' = r_explicit st
      /\ (forall t y, In y (r_outputs st' t) <-> In y (r_outputs st t) /\ ~ (y = x /\ tr x = Some t))
      /\ (forall r y, In y (r_old st' r) <-> In y (r_old st r) /\ ~ (y = x /\ n_artifact (info r) = false /\ In x (kids (r_g st) r)))
      /\ (forall r, In r (r_forced st') <-> In r (r_forced st) \/ (n_artifact (info r) = false /\ In x (kids (r_g st) r) /\ In x (r_old st r)))
      /\ r_table st' = upd (r_table st) x false /\ r_product st' = upd (r_product st) x false
      /\ r_disk st' = (match n_type (info x) with Generated => upd (r_disk st) x false | SourceFile => r_disk st end)
      /\ r_cleared st' = r_cleared st /\ r_removed st' = r_removed st.
  Proof.
    intros V No. unfold remove_artifact, remove_from_rule_nodes.
    match goal with |- context [fold_left _ (filter ?f (pars (r_g ?s) x)) ?s] =>
      set (sA := s); destruct (rule_nodes_spec x (filter f (pars (r_g sA) x)) sA) as (A & B & C1 & C2 & C3 & C4 & C5 & C6 & C7 & C8 & C9);
      set (sB := fold_left _ _ sA) in * end.
    cbn zeta in *.
    destruct V as ((M & _) & _ & Ir).
    assert (P : filter (fun p => n_artifact (info p)) (pars (disconnect_children (r_g sB) x) x) = []).
    { apply nil_iff. intros p Hp. apply filter_In in Hp as [Hp Ap]. rewrite C1 in Hp. unfold disconnect_children in Hp. cbn [pars sA r_g] in Hp.
      apply in_del_from in Hp as [Hp _]. apply (No p Ap), M, Hp. }
    rewrite P. cbn [forallb fold_left]. eexists. split; [reflexivity|]. cbn [set_g r_g r_inputs r_explicit r_outputs r_old r_forced r_table r_product r_disk r_cleared r_removed].
    rewrite C1, C2, C3, C4, C5, C6, C7, C8, C9. cbn [sA r_g r_inputs r_explicit r_outputs r_table r_product r_disk r_cleared r_removed].
    split; [reflexivity|]. split; [reflexivity|]. split; [reflexivity|]. split; [|split; [|split; [|auto]]].
    - intros t y. destruct (tr x) as [t'|]; [|intuition; discriminate]. unfold upd. destruct (Nat.eqb_spec t t') as [->|Ht].
      + rewrite in_del. intuition.
      + split; [|tauto]. intros Hy. split; [exact Hy|]. intros [_ E]. injection E as ->. now apply Ht.
    - intros r y. rewrite A. cbn [sA r_old]. rewrite filter_In, negb_true_iff. cbn [sA r_g]. rewrite (M r x). tauto.
    - intros r. rewrite B. cbn [sA r_old r_forced]. rewrite filter_In, negb_true_iff. cbn [sA r_g]. rewrite (M r x). tauto.
  Qed.

  Lemma detach_inv g x : inv info g -> inv info (disconnect_artifact info g x).
  Proof.
    intros (G & T & Ir). destruct (detach_good info g x T (Ir x) G) as [G' T']. split; [exact G'|]. split; [exact T'|].
    intros a Ha. apply (detach_edges info g x (proj1 G) (Ir x) a a) in Ha as [Ha _]. exact (Ir a Ha).
  Qed.
  Lemma disconnect_inv g u v : inv info g -> inv info (disconnect info g u v).
  Proof.
    intros (G & T & Ir). destruct (disconnect_good info g u v T G) as [G' T']. split; [exact G'|]. split; [exact T'|].
    intros x Hx. apply in_disconnect in Hx as [Hx _]. exact (Ir x Hx).
  Qed.

  Lemma finish st x (R : nat -> Prop) : rinv R st -> R x -> n_artifact (info x) = true ->
    (forall p, n_artifact (info p) = true -> ~ In x (kids (r_g st) p)) ->
    exists st', remove_artifact info tr st x = Some st' /\ rinv R st' /\ later st st' /\ r_removed st' = r_removed st /\ forgotten info tr st' x.
  Proof.
    intros V Rx Ax No. destruct (remove_artifact_spec st x (i_inv _ _ V) No) as (st' & E & G & In1 & Ex & Out & Old & Fo & Ta & Pr & Di & Cl & Re).
    exists st'. split; [exact E|].
    pose proof (i_inv _ _ V) as ((M & _) & _ & Ir).
    assert (K : forall a b, In b (kids (r_g st') a) <-> In b (kids (r_g st) a) /\ a <> x /\ b <> x).
    { intros a b. rewrite G. exact (proj1 (detach_edges info (r_g st) x M (Ir x) a b)). }
    assert (Kp : forall p, ~ R p -> n_artifact (info p) = true -> forall c, In c (kids (r_g st') p) <-> In c (kids (r_g st) p)).
    { intros p Hp Ap c. rewrite K. split; [tauto|]. intros Hc. split; [exact Hc|]. split; [intros ->; contradiction|]. intros ->. exact (No p Ap Hc). }
    split; [|split; [|split; [exact Re|]]].
    - destruct V. split; auto.
      + rewrite G. now apply detach_inv.
      + intros p c Hc. apply K in Hc as [Hc _]. auto.
      + intros p c Hp H1 H2. destruct (Nat.eq_dec c x) as [->|Hcx]; [exact Rx|]. apply (i_lost0 p c Hp H1). intros H3. apply H2, K.
        split; [exact H3|]. split; [intros ->; contradiction|exact Hcx].
      + intros p Hp Ap H0 H1. apply (i_some0 p Hp Ap H0). rewrite nil_iff in *. intros c Hc. apply (H1 c). now apply Kp.
      + intros p t c Hp Ap Ht H1 H2. rewrite Kp in H2 by assumption. destruct (i_input0 p t c Hp Ap Ht H1 H2) as (i & I1 & I2).
        exists i. split; [exact I1|]. now apply Kp.
      + intros p t c Hp Ap Ht H1 H2. rewrite Kp in H2 by assumption. rewrite In1. now apply (i_clean0 p t c).
      + intros t i. rewrite In1. apply i_inputs0.
      + intros t i. rewrite In1. apply i_inputs_less0.
      + intros p Hp Ap. rewrite Cl, (i_cleared0 p Hp Ap). split; intros (c & H1 & H2); exists c; (split; [exact H1|]); [now rewrite Kp|now rewrite Kp in H2].
      + intros y Hy. assert (y <> x) by (intros ->; contradiction). rewrite Ta, Pr, Di. destruct (i_table0 y Hy) as (T1 & T2 & T3).
        rewrite !upd_other by assumption. split; [exact T1|]. split; [exact T2|]. destruct (n_type (info x)); [exact T3|]. now rewrite upd_other.
      + intros y Hy. rewrite Di. destruct (n_type (info x)) eqn:Tx; [auto|]. rewrite upd_other; [auto|]. intros ->. congruence.
      + intros t y Hy. rewrite Out, <- (i_out0 t y Hy). split; [tauto|]. intros H1. split; [exact H1|]. intros [-> _]. contradiction.
      + intros r Hr y Hy. apply Old in Hy as [Hy H1]. apply K. split; [now apply (i_old0 r Hr)|]. split; [intros ->; congruence|].
        intros ->. apply H1. split; [reflexivity|]. split; [exact Hr|]. now apply (i_old0 r Hr).
      + intros r y Hy. apply Old in Hy as [Hy _]. auto.
      + intros r y Hr H1 H2. rewrite Fo. destruct (in_dec Nat.eq_dec y (r_old st r)) as [H3|H3].
        * destruct (Nat.eq_dec y x) as [->|Hyx].
          -- split; [exact Rx|]. right. split; [exact Hr|]. split; [now apply (i_old0 r Hr)|exact H3].
          -- exfalso. apply H2, Old. split; [exact H3|]. intros [E1 _]. contradiction.
        * destruct (i_old_lost0 r y Hr H1 H3). auto.
      + intros r Hr. apply Fo in Hr as [Hr|(H1 & H2 & H3)].
        * destruct (i_forced0 r Hr) as [H1|(y & H1 & H2)]; [now left|]. right. exists y. split; [exact H1|]. intros H3. apply Old in H3 as [H3 _]. contradiction.
        * right. exists x. split; [now apply i_old_less0|]. intros H4. apply Old in H4 as [_ H4]. apply H4. auto.
      + intros t. rewrite Ex. apply i_explicit0.
    - split.
      + intros p c Hc. apply K in Hc. tauto.
      + rewrite Re. apply incl_refl.
      + intros y Hy. rewrite Ta. unfold upd. now destruct (y =? x).
      + intros y Hy. rewrite Pr. unfold upd. now destruct (y =? x).
      + intros y Hy. rewrite Di. destruct (n_type (info x)); [exact Hy|]. unfold upd. now destruct (y =? x).
      + intros t y Hy. apply Out in Hy. tauto.
      + intros r y Hy. apply Old in Hy. tauto.
    - split.
      + apply nil_iff. intros c Hc. apply K in Hc. tauto.
      + intros p Hp. apply K in Hp. tauto.
      + now rewrite Ta, upd_same.
      + now rewrite Pr, upd_same.
      + intros T. now rewrite Di, T, upd_same.
      + intros t Ht Hx. apply Out in Hx. tauto.
      + intros r Hr Hx. apply Old in Hx as [H1 H2]. apply H2. split; [reflexivity|]. split; [exact Hr|]. now apply (i_old _ _ V r Hr).
  Qed.

  (** ** One dependent *)

  Lemma disconnected_inv st (R : nat -> Prop) p x : rinv R st -> R x -> Doomed p -> rinv (fun y => R y \/ y = p) (set_g st (disconnect info (r_g st) p x)).
  Proof.
    intros V Rx Dp.
    assert (K : forall a b, In b (kids (disconnect info (r_g st) p x) a) <-> In b (kids (r_g st) a) /\ ~ (a = p /\ b = x)) by (intros; apply in_disconnect).
    assert (Kq : forall q, q <> p -> kids (disconnect info (r_g st) p x) q = kids (r_g st) q).
    { intros q Hq. unfold disconnect. cbn. now rewrite upd_other. }
    destruct V. split; cbn [set_g r_g r_inputs r_explicit r_outputs r_old r_forced r_table r_product r_disk r_cleared r_removed]; auto.
    - now apply disconnect_inv.
    - intros a b Hb. apply K in Hb as [Hb _]. auto.
    - intros y [Hy| ->]; auto.
    - intros a b Ha H1 H2. left. rewrite Kq in H2 by (intros ->; apply Ha; now right). apply (i_lost0 a b); tauto.
    - intros a Ha. rewrite Kq by (intros ->; apply Ha; now right). apply i_some0. tauto.
    - intros a t c Ha. rewrite Kq by (intros ->; apply Ha; now right). apply i_input0. tauto.
    - intros a t c Ha. rewrite Kq by (intros ->; apply Ha; now right). apply i_clean0. tauto.
    - intros t i H1 H2. left. eauto.
    - intros a Ha. rewrite Kq by (intros ->; apply Ha; now right). apply i_cleared0. tauto.
    - intros r Hr y Hy. assert (r <> p) by (intros ->; apply doomed_art in Dp; congruence). rewrite Kq by assumption. now apply i_old0.
    - intros r y Hr H1 H2. destruct (i_old_lost0 r y Hr H1 H2). auto.
  Qed.

  Lemma inputs_removed st (R : nat -> Prop) x t : rinv R st -> R x -> rinv R (set_inputs st (upd (r_inputs st) t (del x (r_inputs st t)))).
  Proof.
    intros V Rx. destruct V.
    assert (K : forall t' i, In i (upd (r_inputs st) t (del x (r_inputs st t)) t') <-> In i (r_inputs st t') /\ ~ (t' = t /\ i = x)).
    { intros t' i. unfold upd. destruct (Nat.eqb_spec t' t) as [->|]; [rewrite in_del|]; intuition. }
    split; cbn [set_inputs r_g r_inputs r_explicit r_outputs r_old r_forced r_table r_product r_disk r_cleared r_removed]; auto.
    - intros p t' c Hp Ap Ht H1 H2 H3. apply K in H3 as [H3 _]. exact (i_clean0 p t' c Hp Ap Ht H1 H2 H3).
    - intros t' i H1 H2. destruct (in_dec Nat.eq_dec i (r_inputs st t')) as [H3|H3]; [|eauto].
      destruct (Nat.eq_dec i x) as [->|Hi]; [exact Rx|]. exfalso. apply H2, K. split; [exact H3|]. tauto.
    - intros t' i Hi. apply K in Hi as [Hi _]. auto.
  Qed.

  (** The dependent stays and is marked as out of date. *)
  Lemma survives st (R : nat -> Prop) p x : rinv R st -> R x -> In x (kids g0 p) -> n_artifact (info p) = true ->
    let g1 := disconnect info (r_g st) p x in
    kids g1 p <> [] ->
    forall inputs1,
    (match tr p with
     | Some t => inputs1 = upd (r_inputs st) t (del x (r_inputs st t)) /\ inputs1 t <> []
     | None => inputs1 = r_inputs st end) ->
    rinv R (set_cleared (set_inputs (set_g st g1) inputs1) (add p (r_cleared st))).
  Proof.
    intros V Rx Hx Ap g1 Ne inputs1 Hin.
    assert (K : forall a b, In b (kids g1 a) <-> In b (kids (r_g st) a) /\ ~ (a = p /\ b = x)) by (intros; apply in_disconnect).
    assert (Kq : forall q, q <> p -> kids g1 q = kids (r_g st) q).
    { intros q Hq. unfold g1, disconnect. cbn. now rewrite upd_other. }
    assert (KI : forall t' i, In i (inputs1 t') <-> In i (r_inputs st t') /\ ~ (tr p = Some t' /\ i = x)).
    { intros t' i. destruct (tr p) as [t|]; [destruct Hin as [-> _]|subst; intuition; discriminate].
      unfold upd. destruct (Nat.eqb_spec t' t) as [->|Ht]; [rewrite in_del; intuition|]. intuition. congruence. }
    destruct V. split; cbn [set_g set_inputs set_cleared r_g r_inputs r_explicit r_outputs r_old r_forced r_table r_product r_disk r_cleared r_removed]; auto.
    - now apply disconnect_inv.
    - intros a b Hb. apply K in Hb as [Hb _]. auto.
    - intros a b Ha H1 H2. destruct (Nat.eq_dec b x) as [->|Hb]; [exact Rx|]. apply (i_lost0 a b Ha H1). intros H3. apply H2, K. split; [exact H3|tauto].
    - intros a Ha Aa H0. destruct (Nat.eq_dec a p) as [->|Hap]; [exact Ne|]. rewrite Kq by exact Hap. now apply i_some0.
    - intros a t c Ha Aa Ht H1 H2. destruct (Nat.eq_dec a p) as [->|Hap].
      + rewrite Ht in Hin. destruct Hin as [_ Hne]. assert (exists i, In i (inputs1 t)) as (i & Hi) by (destruct (inputs1 t) as [|i l]; [contradiction|exists i; now left]).
        apply KI in Hi as [Hi Hix]. exists i. split; [now apply i_inputs_less0|].
        assert (Hi0 : In i (kids g0 p)) by (eapply (cs_inputs _ _ _ cons0 p t Ap Ht); now apply i_inputs_less0).
        destruct (in_dec Nat.eq_dec i (kids (r_g st) p)) as [H3|H3].
        * apply K. split; [exact H3|]. intros [_ ->]. apply Hix. auto.
        * exfalso. exact (i_clean0 p t i Ha Ap Ht Hi0 H3 Hi).
      + rewrite Kq in * by exact Hap. eauto.
    - intros a t c Ha Aa Ht H1 H2 H3. apply KI in H3 as [H3 H4]. destruct (Nat.eq_dec a p) as [->|Hap].
      + destruct (in_dec Nat.eq_dec c (kids (r_g st) p)) as [H5|H5]; [|exact (i_clean0 p t c Ha Ap Ht H1 H5 H3)].
        destruct (Nat.eq_dec c x) as [->|Hc]; [now apply H4|]. apply H2, K. split; [exact H5|tauto].
      + rewrite Kq in H2 by exact Hap. exact (i_clean0 a t c Ha Aa Ht H1 H2 H3).
    - intros t i H1 H2. destruct (Nat.eq_dec i x) as [->|Hi]; [exact Rx|]. apply (i_inputs0 t i H1). intros H3. apply H2, KI. split; [exact H3|tauto].
    - intros t i Hi. apply KI in Hi as [Hi _]. auto.
    - intros a Ha Aa. rewrite in_add. destruct (Nat.eq_dec a p) as [->|Hap].
      + split; [|now left]. intros _. exists x. split; [exact Hx|]. intros H. apply K in H. tauto.
      + rewrite Kq by exact Hap. rewrite <- (i_cleared0 a Ha Aa). intuition.
    - intros r Hr y Hy. assert (r <> p) by (intros ->; congruence). rewrite Kq by assumption. now apply i_old0.
  Qed.

  (** ** The recursion *)

  Lemma remove_dependents_unfold n st x : remove_dependents info tr (S n) st x =
        let r :=
          (fix loop (l : list nat) (st : rstate) : rresult :=
             match l with
             | [] => Removed st
             | p :: l =>
                 let st := set_g st (disconnect info (r_g st) p x) in
                 let r :=
                   match kids (r_g st) p with
                   | [] => remove_dependents info tr n st p
                   | _ :: _ =>
                       match tr p with
                       | Some t =>
                           let st := set_inputs st (upd (r_inputs st) t (del x (r_inputs st t))) in
                           match r_inputs st t with
                           | [] => remove_dependents info tr n st p
                           | _ :: _ => Removed (set_cleared st (add p (r_cleared st)))
                           end
                       | None => Removed (set_cleared st (add p (r_cleared st)))
                       end
                   end in
                 match r with Removed st => loop l st | r => r end
             end) (filter (fun p => n_artifact (info p)) (pars (r_g st) x)) (set_removed st (add x (r_removed st))) in
        match r with
        | Removed st => match remove_artifact info tr st x with Some st => Removed st | None => CheckFailed end
        | r => r
        end.
  Proof. reflexivity. Qed.

  Variable nodes : list nat.
  Hypothesis nodes_closed : forall p c, In c (kids g0 p) -> In p nodes.
  Hypothesis acyc : acyclic (depends g0).

  Let isR (st : rstate) (y : nat) : Prop := In y (r_removed st).

  (** [path]: the artifacts whose removal is under way. *)
  Definition enough (n : nat) (x : nat) : Prop :=
    exists path, NoDup path /\ incl path nodes /\ (forall y, In y path -> y <> x /\ reach (depends g0) x y) /\ length nodes < n + length path /\ In x nodes.

  Definition step_post (st : rstate) (st' : rstate) : Prop :=
    rinv (isR st') st' /\ later st st' /\ (forall y, isR st' y -> ~ isR st y -> forgotten info tr st' y).

  Lemma step_post_trans a b c : step_post a b -> step_post b c -> step_post a c.
  Proof.
    intros (A1 & A2 & A3) (B1 & B2 & B3). split; [exact B1|]. split; [eapply later_trans; eauto|]. intros y Hy Hn.
    destruct (in_dec Nat.eq_dec y (r_removed b)) as [Hb|Hb]; [|now apply B3]. eapply forgotten_later; [exact B2|]. now apply A3.
  Qed.

  Lemma remove_spec n : forall st x, rinv (fun y => isR st y \/ y = x) st -> Doomed x ->
    match remove_dependents info tr n st x with
    | Removed st' => step_post st st' /\ isR st' x /\ forgotten info tr st' x
    | CheckFailed => False
    | Unfinished => ~ enough n x
    end.
  Proof.
    induction n as [|n IH]; intros st x V Dx.
    - cbn. intros (path & D & Ip & _ & Hl & _). pose proof (NoDup_incl_length D Ip). lia.
    - rewrite remove_dependents_unfold.
      assert (Ax : n_artifact (info x) = true) by exact (doomed_art _ Dx).
      set (st1 := set_removed st (add x (r_removed st))).
      assert (V1 : rinv (isR st1) st1).
      { assert (Eq : forall y, isR st1 y <-> isR st y \/ y = x) by (intros y; unfold isR, st1; cbn; rewrite in_add; tauto).
        assert (W : rinv (isR st1) st).
        { apply (rinv_weaken (fun y => isR st y \/ y = x)); [exact V| |].
          - intros y Hy. now apply Eq.
          - intros y Hy. apply Eq in Hy. now apply (i_sound _ _ V). }
        destruct W. split; auto. }
      assert (R1x : isR st1 x) by (unfold isR, st1; cbn; rewrite in_add; now left).
      assert (L1 : later st st1).
      { split; auto; try (intros; apply incl_refl). intros y Hy. unfold st1. cbn. rewrite in_add. now right. }
      assert (Inp : forall p, In p (filter (fun p => n_artifact (info p)) (pars (r_g st) x)) -> n_artifact (info p) = true /\ In x (kids g0 p)).
      { intros p Hp. apply filter_In in Hp as [Hp Ap]. split; [exact Ap|]. apply (i_less _ _ V), (proj1 (proj1 (i_inv _ _ V))), Hp. }
      assert (G : forall l s, rinv (isR s) s -> isR s x -> (forall p, In p l -> n_artifact (info p) = true /\ In x (kids g0 p)) ->
        match (fix loop (l : list nat) (st : rstate) : rresult :=
             match l with
             | [] => Removed st
             | p :: l =>
                 let st := set_g st (disconnect info (r_g st) p x) in
                 let r :=
                   match kids (r_g st) p with
                   | [] => remove_dependents info tr n st p
                   | _ :: _ =>
                       match tr p with
                       | Some t =>
                           let st := set_inputs st (upd (r_inputs st) t (del x (r_inputs st t))) in
                           match r_inputs st t with
                           | [] => remove_dependents info tr n st p
                           | _ :: _ => Removed (set_cleared st (add p (r_cleared st)))
                           end
                       | None => Removed (set_cleared st (add p (r_cleared st)))
                       end
                   end in
                 match r with Removed st => loop l st | r => r end
             end) l s with
        | Removed s' => step_post s s' /\ forall p, In p l -> ~ In x (kids (r_g s') p)
        | CheckFailed => False
        | Unfinished => ~ enough (S n) x
        end).
      { induction l as [|p l IHl]; intros s Vs Rx Hl.
        - split; [|intros p []]. split; [exact Vs|]. split; [apply later_refl|]. intros y H1 H2. contradiction.
        - destruct (Hl p (or_introl eq_refl)) as [Ap Hpx]. cbn zeta. cbn [set_g set_inputs r_g r_inputs r_cleared].
          set (s1 := set_g s (disconnect info (r_g s) p x)).
          (* what one step has to achieve *)
          match goal with |- match (match ?r with Removed _ => _ | CheckFailed => _ | Unfinished => _ end) with _ => _ end =>
            assert (Step : match r with
              | Removed s' => step_post s s' /\ ~ In x (kids (r_g s') p)
              | CheckFailed => False
              | Unfinished => ~ enough (S n) x
              end); [|destruct r as [s'| |]; [|exact Step|exact Step]] end.
          { assert (Kp : forall b, In b (kids (disconnect info (r_g s) p x) p) <-> In b (kids (r_g s) p) /\ b <> x).
            { intros b. rewrite in_disconnect. intuition. }
            assert (Later1 : forall s', r_removed s' = r_removed s -> r_g s' = disconnect info (r_g s) p x -> r_table s' = r_table s -> r_product s' = r_product s ->
                r_disk s' = r_disk s -> r_outputs s' = r_outputs s -> r_old s' = r_old s -> later s s').
            { intros s' E1 E2 E3 E4 E5 E6 E7. split; rewrite ?E1, ?E3, ?E4, ?E5, ?E6, ?E7; auto using incl_refl.
              intros a b Hb. rewrite E2 in Hb. apply in_disconnect in Hb. tauto. }
            (* a recursive call *)
            assert (Rec : forall s', r_removed s' = r_removed s -> later s s' -> rinv (fun y => isR s y \/ y = p) s' -> ~ In x (kids (r_g s') p) -> Doomed p ->
              match remove_dependents info tr n s' p with
              | Removed s'' => step_post s s'' /\ ~ In x (kids (r_g s'') p)
              | CheckFailed => False
              | Unfinished => ~ enough (S n) x
              end).
            { intros s' Er Ls Vs' Hx Dp.
              assert (Vs2 : rinv (fun y => isR s' y \/ y = p) s').
              { apply (rinv_weaken (fun y => isR s y \/ y = p)); [exact Vs'| |]; unfold isR; rewrite Er; [auto|]. apply (i_sound _ _ Vs'). }
              pose proof (IH s' p Vs2 Dp) as X. destruct (remove_dependents info tr n s' p) as [s''| |]; [| |].
              - destruct X as ((X1 & X2 & X3) & X4 & X5). split.
                + split; [exact X1|]. split; [eapply later_trans; eauto|]. intros y H1 H2. apply X3; [exact H1|]. unfold isR. rewrite Er. exact H2.
                + intros H. apply (l_kids _ _ X2) in H. contradiction.
              - exact X.
              - intros (path & P1 & P2 & P3 & P4 & P5). apply X. exists (x :: path). split; [|split; [|split; [|split]]].
                + constructor; [|exact P1]. intros H. now apply (P3 x H).
                + intros y [<-|Hy]; auto.
                + intros y Hy. assert (Rxy : reach (depends g0) x y) by (destruct Hy as [<-|Hy]; [apply r_here|now apply P3]).
                  split.
                  * intros ->. apply (acyc p). exists x. split; [exact Hpx|exact Rxy].
                  * eapply r_step; [exact Hpx|exact Rxy].
                + cbn. lia.
                + eapply nodes_closed; exact Hpx. }
            assert (DpR : isR s p -> Doomed p) by apply (i_sound _ _ Vs).
            destruct (kids (disconnect info (r_g s) p x) p) as [|c0 cs] eqn:Kn.
            - apply Rec; [reflexivity|apply Later1; reflexivity| |cbn [s1 set_g r_g]; rewrite Kn; auto|].
              + apply disconnected_inv; [exact Vs|exact Rx|]. destruct (in_dec Nat.eq_dec p (r_removed s)) as [Hp|Hp]; [now apply DpR|].
                apply (d_all _ _ _ _ _ p x Ap Hpx); [now apply (i_sound _ _ Vs)|]. intros c Hc. apply (i_sound _ _ Vs).
                destruct (Nat.eq_dec c x) as [->|Hcx]; [exact Rx|]. apply (i_lost _ _ Vs p c Hp Hc). intros H.
                destruct (proj2 (Kp c) (conj H Hcx)).
              + destruct (in_dec Nat.eq_dec p (r_removed s)) as [Hp|Hp]; [now apply DpR|].
                apply (d_all _ _ _ _ _ p x Ap Hpx); [now apply (i_sound _ _ Vs)|]. intros c Hc. apply (i_sound _ _ Vs).
                destruct (Nat.eq_dec c x) as [->|Hcx]; [exact Rx|]. apply (i_lost _ _ Vs p c Hp Hc). intros H.
                destruct (proj2 (Kp c) (conj H Hcx)).
            - assert (Ne : kids (disconnect info (r_g s) p x) p <> []) by (rewrite Kn; discriminate).
              assert (Nx : ~ In x (kids (disconnect info (r_g s) p x) p)) by (intros H; apply in_disconnect in H; tauto).
              destruct (tr p) as [t|] eqn:Tp.
              + destruct (upd (r_inputs s) t (del x (r_inputs s t)) t) as [|i is] eqn:Ti.
                * assert (Dp : Doomed p).
                  { destruct (in_dec Nat.eq_dec p (r_removed s)) as [Hp|Hp]; [now apply DpR|].
                    apply (d_inputs _ _ _ _ _ p x t Ap Hpx); [now apply (i_sound _ _ Vs)|exact Tp|]. intros i Hi. apply (i_sound _ _ Vs).
                    destruct (Nat.eq_dec i x) as [->|Hix]; [exact Rx|]. apply (i_inputs _ _ Vs t i Hi). intros H.
                    rewrite upd_same in Ti. assert (Hd : In i (del x (r_inputs s t))) by (apply in_del; auto). rewrite Ti in Hd. exact Hd. }
                  apply Rec; [reflexivity|apply Later1; reflexivity| |exact Nx|exact Dp].
                  apply (inputs_removed s1 (fun y => isR s y \/ y = p) x t); [|now left].
                  apply disconnected_inv; [exact Vs|exact Rx|exact Dp].
                * pose proof (survives s (isR s) p x Vs Rx Hpx Ap Ne (upd (r_inputs s) t (del x (r_inputs s t)))) as W.
                  rewrite Tp in W. assert (Ne2 : upd (r_inputs s) t (del x (r_inputs s t)) t <> []) by (rewrite Ti; discriminate).
                  specialize (W (conj eq_refl Ne2)).
                  split; [|exact Nx]. split; [exact W|]. split; [apply Later1; reflexivity|]. intros y H1 H2. contradiction.
              + pose proof (survives s (isR s) p x Vs Rx Hpx Ap Ne (r_inputs s)) as W.
                rewrite Tp in W. specialize (W eq_refl).
                split; [|exact Nx]. split; [|split; [apply Later1; reflexivity|]].
                * destruct W. split; auto.
                * intros y H1 H2. contradiction. }
          destruct Step as [Sp Nx]. pose proof Sp as (Sv & Sl & _).
          specialize (IHl s' Sv (l_removed _ _ Sl x Rx) (fun q Hq => Hl q (or_intror Hq))).
          match type of IHl with match ?r with _ => _ end =>
            change (match r with
              | Removed s'' => step_post s s'' /\ forall q, In q (p :: l) -> ~ In x (kids (r_g s'') q)
              | CheckFailed => False
              | Unfinished => ~ enough (S n) x
              end); destruct r as [s''| |] end; [|exact IHl|exact IHl].
          destruct IHl as [Tp Tl]. split; [eapply step_post_trans; eauto|]. intros q [<-|Hq]; [|now apply Tl].
          intros H. apply (l_kids _ _ (proj1 (proj2 Tp))) in H. contradiction. }
      specialize (G _ st1 V1 R1x Inp). cbn zeta.
      match type of G with match ?r with _ => _ end => destruct r as [s'| |] end; [|exact G|exact G].
      destruct G as ((Gv & Gl & Gf) & Gn).
      assert (No : forall p, n_artifact (info p) = true -> ~ In x (kids (r_g s') p)).
      { intros p Ap H. apply (Gn p); [|exact H]. apply filter_In. split; [|exact Ap].
        apply (proj1 (proj1 (i_inv _ _ V))). apply (l_kids _ _ L1), (l_kids _ _ Gl), H. }
      destruct (finish s' x (isR s') Gv (l_removed _ _ Gl x R1x) Ax No) as (s2 & -> & F1 & F2 & F3 & F4).
      assert (Is : forall y, isR s2 y <-> isR s' y) by (intros y; unfold isR; now rewrite F3).
      split; [|split; [apply Is, (l_removed _ _ Gl x R1x)|exact F4]]. split; [|split].
      + apply (rinv_weaken (isR s')); [exact F1|intros y Hy; now apply Is|]. intros y Hy. apply Is in Hy. now apply (i_sound _ _ F1).
      + eapply later_trans; [exact L1|]. eapply later_trans; [exact Gl|exact F2].
      + intros y Hy Hn. destruct (Nat.eq_dec y x) as [->|Hyx]; [exact F4|]. eapply forgotten_later; [exact F2|]. apply Gf; [now apply Is|].
        unfold isR, st1. cbn. rewrite in_add. tauto.
  Qed.

  Lemma initial : rinv (isR st0) st0.
  Proof.
    destruct cons0. assert (No : forall x, ~ isR st0 x) by (intros x H; unfold isR in H; rewrite cs_removed0 in H; destruct H).
    split; auto; try (intros; exfalso; eapply No; eassumption); try (intros; contradiction); try tauto.
    intros p _ _. rewrite cs_cleared0. split; [intros []|]. intros (c & H1 & H2). contradiction.
  Qed.

  Lemma outputs_spec n : forall xs, incl xs seeds -> forall st, rinv (isR st) st ->
    match remove_outputs info tr n st xs with
    | Removed st' => step_post st st' /\ forall x, In x xs -> isR st' x /\ forgotten info tr st' x
    | CheckFailed => False
    | Unfinished => exists x, In x xs /\ ~ enough n x
    end.
  Proof.
    induction xs as [|x xs IH]; intros Hx st V; cbn [remove_outputs].
    - split; [|intros x []]. split; [exact V|]. split; [apply later_refl|]. intros y H1 H2. contradiction.
    - assert (Dx : Doomed x) by (apply d_seed, Hx; now left).
      assert (V1 : rinv (fun y => isR st y \/ y = x) st).
      { apply (rinv_weaken (isR st)); auto. intros y [Hy| ->]; [now apply (i_sound _ _ V)|exact Dx]. }
      pose proof (remove_spec n st x V1 Dx) as S1. destruct (remove_dependents info tr n st x) as [s| |].
      + destruct S1 as (S1 & S2 & S3). specialize (IH (proj2 (incl_cons_inv Hx)) s (proj1 S1)).
        destruct (remove_outputs info tr n s xs) as [s'| |].
        * destruct IH as [T1 T2]. split; [eapply step_post_trans; eauto|]. intros y [<-|Hy]; [|now apply T2].
          destruct T1 as (_ & T1 & _). split; [exact (l_removed _ _ T1 _ S2)|eapply forgotten_later; eauto].
        * exact IH.
        * destruct IH as (y & H1 & H2). exists y. split; [now right|exact H2].
      + exact S1.
      + exists x. split; [now left|exact S1].
  Qed.

  Section Result.
    Variable n : nat.
    Variable st : rstate.
    Hypothesis run : remove_outputs info tr n st0 seeds = Removed st.

    Lemma result : rinv (isR st) st /\ (forall x, isR st x -> forgotten info tr st x) /\ forall x, In x seeds -> isR st x.
    Proof.
      pose proof (outputs_spec n seeds (incl_refl _) st0 initial) as X. rewrite run in X. destruct X as ((X1 & X2 & X3) & X4).
      split; [exact X1|]. split; [|intros x Hx; now apply X4]. intros x Hx. apply X3; [exact Hx|]. unfold isR. rewrite (cs_removed _ _ _ cons0). auto.
    Qed.

    Lemma result_exact x : isR st x <-> Doomed x.
    Proof.
      destruct result as (V & Fg & Sd). split; [apply (i_sound _ _ V)|].
      induction 1 as [x Hx|p x Ap Hpx Dx IHx Dc IHc|p x t Ap Hpx Dx IHx Tp Di IHi]; [now apply Sd| |].
      - destruct (in_dec Nat.eq_dec p (r_removed st)) as [H|H]; [exact H|exfalso].
        apply (i_some _ _ V p H Ap).
        + intros E. unfold depends in Hpx. rewrite E in Hpx. destruct Hpx.
        + apply nil_iff. intros c Hc. apply (fg_edges _ _ _ _ (Fg c (IHc c (i_less _ _ V p c Hc))) p Hc).
      - destruct (in_dec Nat.eq_dec p (r_removed st)) as [H|H]; [exact H|exfalso].
        destruct (i_input _ _ V p t x H Ap Tp Hpx) as (i & I1 & I2).
        + exact (fg_edges _ _ _ _ (Fg x IHx) p).
        + exact (fg_edges _ _ _ _ (Fg i (IHi i I1)) p I2).
    Qed.
  End Result.
End Proofs.

(** * Theorems *)

Section Theorems.
  Variable info : nat -> ninfo.
  Variable tr : nat -> option nat.
  Variable st0 : rstate.
  Variable seeds : list nat.
  Hypothesis cons0 : consistent info tr st0.
  Hypothesis seeds_art : forall x, In x seeds -> n_artifact (info x) = true.
  Hypothesis acyc : acyclic (depends (r_g st0)).
  (** The graph is finite. *)
  Variable nodes : list nat.
  Hypothesis nodes_closed : forall p c, In c (kids (r_g st0) p) -> In p nodes.

  (** The removal comes to an end and no check fails. *)
  Theorem removal_terminates n : length nodes < n -> incl seeds nodes -> exists st, remove_outputs info tr n st0 seeds = Removed st.
  Proof.
    intros Hn Hs. pose proof (outputs_spec info tr st0 seeds cons0 seeds_art nodes nodes_closed acyc n seeds (incl_refl _) st0) as X.
    specialize (X (initial info tr st0 seeds cons0)). destruct (remove_outputs info tr n st0 seeds) as [st| |].
    - now exists st.
    - destruct X.
    - exfalso. destruct X as (x & Hx & X). apply X. exists []. split; [constructor|]. split; [intros y []|]. split; [intros y []|].
      split; [cbn; lia|now apply Hs].
  Qed.

  Variable n : nat.
  Variable st : rstate.
  Hypothesis run : remove_outputs info tr n st0 seeds = Removed st.

  (** Exactly those artifacts are removed that have to go. *)
  Theorem removal_exact x : In x (r_removed st) <-> doomed info tr (r_g st0) (r_inputs st0) seeds x.
  Proof. exact (result_exact info tr st0 seeds cons0 seeds_art nodes nodes_closed acyc n st run x). Qed.

  (** Nothing refers to them any more: no edge, no lookup table, no product, no rule application, no rule node; and the files of
      generated ones are gone. *)
  Theorem removal_forgets x : In x (r_removed st) ->
    forgotten info tr st x
    /\ (forall p, ~ In x (pars (r_g st) p) /\ ~ In x (scan (r_g st) p))
    /\ (forall p t, ~ In p (r_removed st) -> n_artifact (info p) = true -> tr p = Some t -> ~ In x (r_inputs st t)).
  Proof.
    intros Hx. destruct (result info tr st0 seeds cons0 seeds_art nodes nodes_closed acyc n st run) as (V & Fg & _).
    specialize (Fg x Hx). split; [exact Fg|]. pose proof (i_inv _ _ _ _ _ _ V) as ((M & Sc & _) & _). split.
    - intros p. split.
      + intros H. apply M in H. rewrite (fg_kids _ _ _ _ Fg) in H. exact H.
      + intros H. apply Sc in H. exact (fg_edges _ _ _ _ Fg p H).
    - intros p t Hp Ap Tp Hi.
      assert (Hk : In x (kids (r_g st0) p)) by (eapply (cs_inputs _ _ _ cons0 p t Ap Tp); now apply (i_inputs_less _ _ _ _ _ _ V)).
      exact (i_clean _ _ _ _ _ _ V p t x Hp Ap Tp Hk (fg_edges _ _ _ _ Fg p) Hi).
  Qed.

  (** Everything else stays as it was. *)
  Theorem removal_keeps :
    (forall p c, ~ In p (r_removed st) -> ~ In c (r_removed st) -> (In c (kids (r_g st) p) <-> In c (kids (r_g st0) p)))
    /\ (forall t i, ~ In i (r_removed st) -> (In i (r_inputs st t) <-> In i (r_inputs st0 t)))
    /\ (forall t x, ~ In x (r_removed st) -> (In x (r_outputs st t) <-> In x (r_outputs st0 t)))
    /\ (forall x, ~ In x (r_removed st) -> r_table st x = r_table st0 x /\ r_product st x = r_product st0 x /\ r_disk st x = r_disk st0 x)
    /\ (forall x, n_type (info x) = SourceFile -> r_disk st x = r_disk st0 x)
    /\ (forall r x, n_artifact (info r) = false -> ~ In x (r_removed st) -> (In x (r_old st r) <-> In x (r_old st0 r))).
  Proof.
    destruct (result info tr st0 seeds cons0 seeds_art nodes nodes_closed acyc n st run) as (V & _ & _).
    split; [|split; [|split; [|split; [|split]]]].
    - intros p c Hp Hc. split; [apply (i_less _ _ _ _ _ _ V)|]. intros H. destruct (in_dec Nat.eq_dec c (kids (r_g st) p)) as [H1|H1]; [exact H1|].
      exfalso. apply Hc. exact (i_lost _ _ _ _ _ _ V p c Hp H H1).
    - intros t i Hi. split; [apply (i_inputs_less _ _ _ _ _ _ V)|]. intros H. destruct (in_dec Nat.eq_dec i (r_inputs st t)) as [H1|H1]; [exact H1|].
      exfalso. apply Hi. exact (i_inputs _ _ _ _ _ _ V t i H H1).
    - exact (i_out _ _ _ _ _ _ V).
    - exact (i_table _ _ _ _ _ _ V).
    - exact (i_disk _ _ _ _ _ _ V).
    - intros r x Hr Hx. split; [apply (i_old_less _ _ _ _ _ _ V)|]. intros H. destruct (in_dec Nat.eq_dec x (r_old st r)) as [H1|H1]; [exact H1|].
      exfalso. apply Hx. exact (proj1 (i_old_lost _ _ _ _ _ _ V r x Hr H H1)).
  Qed.

  (** Those that depended on a removed artifact but stay are out of date from now on, and no others; rules that had a removed
      artifact as an input will see that their inputs changed, and no others. *)
  Theorem removal_marks :
    (forall p, ~ In p (r_removed st) -> n_artifact (info p) = true ->
       (In p (r_cleared st) <-> exists x, In x (r_removed st) /\ depends (r_g st0) p x))
    /\ (forall r, n_artifact (info r) = false -> ~ In r (r_forced st0) ->
       (In r (r_forced st) <-> exists x, In x (r_removed st) /\ In x (r_old st0 r))).
  Proof.
    destruct (result info tr st0 seeds cons0 seeds_art nodes nodes_closed acyc n st run) as (V & Fg & _). split.
    - intros p Hp Ap. rewrite (i_cleared _ _ _ _ _ _ V p Hp Ap). split.
      + intros (c & H1 & H2). exists c. split; [exact (i_lost _ _ _ _ _ _ V p c Hp H1 H2)|exact H1].
      + intros (x & H1 & H2). exists x. split; [exact H2|]. exact (fg_edges _ _ _ _ (Fg x H1) p).
    - intros r Hr Nr. split.
      + intros H. apply (i_forced _ _ _ _ _ _ V) in H as [H|(x & H1 & H2)]; [contradiction|]. exists x. split; [|exact H1].
        exact (proj1 (i_old_lost _ _ _ _ _ _ V r x Hr H1 H2)).
      + intros (x & H1 & H2). apply (i_old_lost _ _ _ _ _ _ V r x Hr H2). exact (fg_old _ _ _ _ (Fg x H1) r Hr).
  Qed.
End Theorems.

(** * Examples and refutations *)

(** Graphs given by a list of edges and the scanned ones among them; every file has its own path. *)
Definition of_edges (es sc : list (nat * nat)) : graph :=
  mkG (fun x => map snd (filter (fun e => fst e =? x) es)) (fun y => map fst (filter (fun e => snd e =? y) es))
      (fun x => map snd (filter (fun e => fst e =? x) sc)).
Lemma in_kids (es : list (nat * nat)) x y : In y (map snd (filter (fun e => fst e =? x) es)) <-> In (x, y) es.
Proof.
  rewrite in_map_iff. split.
  - intros ([u v] & <- & H). apply filter_In in H as [H E]. cbn in E. apply Nat.eqb_eq in E as ->. exact H.
  - intros H. exists (x, y). split; [reflexivity|]. apply filter_In. split; [exact H|]. cbn. apply Nat.eqb_refl.
Qed.
Lemma in_pars (es : list (nat * nat)) x y : In x (map fst (filter (fun e => snd e =? y) es)) <-> In (x, y) es.
Proof.
  rewrite in_map_iff. split.
  - intros ([u v] & <- & H). apply filter_In in H as [H E]. cbn in E. apply Nat.eqb_eq in E as ->. exact H.
  - intros H. exists (x, y). split; [reflexivity|]. apply filter_In. split; [exact H|]. cbn. apply Nat.eqb_refl.
Qed.
Lemma of_edges_inv info es sc : (forall x, n_path (info x) = x) -> forallb (fun e => snd e <? fst e) es = true ->
  incl sc es -> forallb (fun e => n_artifact (info (fst e)) && n_artifact (info (snd e))) sc = true -> inv info (of_edges es sc).
Proof.
  intros P A Hsc T. rewrite forallb_forall in A, T. split; [split; [|split]|split].
  - intros x y. cbn. rewrite in_kids, in_pars. reflexivity.
  - intros x y. cbn. rewrite !in_kids. apply Hsc.
  - intros p a b _ _ Hab _ _ E. rewrite !P in E. contradiction.
  - intros x y. cbn. rewrite in_kids. intros H. apply T in H. apply andb_true_iff in H. exact H.
  - intros x. cbn. rewrite in_kids. intros H. apply A in H. cbn in H. apply Nat.ltb_lt in H. lia.
Qed.
Lemma of_edges_acyclic es sc : forallb (fun e => snd e <? fst e) es = true -> acyclic (depends (of_edges es sc)).
Proof.
  intros A. rewrite forallb_forall in A. assert (L : forall x y, depends (of_edges es sc) x y -> y < x).
  { intros x y H. unfold depends in H. cbn in H. apply in_kids in H. apply A in H. now apply Nat.ltb_lt. }
  assert (R : forall x y, reach (depends (of_edges es sc)) x y -> y <= x).
  { induction 1 as [|x y z H1 H2 IH]; [lia|]. apply L in H1. lia. }
  intros x (y & H1 & H2). apply L in H1. apply R in H2. lia.
Qed.

Module Demo.
  (* sources 1, 2; rule node 3 with outputs 4 = o(1) and 5 = o(2); rule node 6 with output 7 made from 4 and 5; 9, made from 7
     by rule node 8.  Transformers 104, 105, 107, 109. *)
  Definition info (x : nat) : ninfo :=
    {| n_artifact := negb (mem x [3; 6; 8]); n_type := if mem x [1; 2] then SourceFile else Generated; n_product := 0; n_path := x |}.
  Definition tr (x : nat) : option nat := if mem x [4; 5; 7; 9] then Some (100 + x) else None.
  Definition edges := [(3, 1); (3, 2); (4, 1); (4, 3); (5, 2); (5, 3); (6, 4); (6, 5); (7, 4); (7, 5); (7, 6); (8, 7); (9, 7); (9, 8)].
  Definition g : graph := of_edges edges [].
  Definition assoc (l : list (nat * list nat)) (k : nat) : list nat := match find (fun e => fst e =? k) l with Some e => snd e | None => [] end.
  Definition inputs : nat -> list nat := assoc [(104, [1]); (105, [2]); (107, [4; 5]); (109, [7])].
  Definition old : nat -> list nat := assoc [(3, [1; 2]); (6, [4; 5]); (8, [7])].
  Definition st : rstate :=
    mkR g inputs (fun _ => []) (assoc [(104, [4]); (105, [5]); (107, [7]); (109, [9])]) old [] (fun _ => true) (fun _ => true) (fun _ => true) [] [].

  Lemma assoc_forall (P : nat -> nat -> bool) l : forallb (fun e => forallb (P (fst e)) (snd e)) l = true -> forall k i, In i (assoc l k) -> P k i = true.
  Proof.
    intros H k i. unfold assoc. destruct (find (fun e => fst e =? k) l) as [e|] eqn:F; [|intros []].
    apply find_some in F as [F1 F2]. apply Nat.eqb_eq in F2 as <-. rewrite forallb_forall in H. apply H in F1. rewrite forallb_forall in F1. apply F1.
  Qed.
  Example is_consistent : consistent info tr st.
  Proof.
    split; try reflexivity.
    - apply of_edges_inv; try reflexivity. intros x [].
    - intros p t _ Ht i Hi. unfold tr in Ht. destruct (mem p [4; 5; 7; 9]); [|discriminate]. assert (Et : t = 100 + p) by congruence. subst t.
      assert (X := assoc_forall (fun k i => mem i (kids g (k - 100))) [(104, [1]); (105, [2]); (107, [4; 5]); (109, [7])] eq_refl (100 + p) i Hi). cbn beta in X.
      replace (100 + p - 100) with p in X by lia. now apply mem_in.
    - intros r _ i Hi. assert (X := assoc_forall (fun k i => mem i (kids g k)) [(3, [1; 2]); (6, [4; 5]); (8, [7])] eq_refl r i Hi). now apply mem_in.
  Qed.
  Example is_acyclic : acyclic (depends (r_g st)).
  Proof. apply of_edges_acyclic. reflexivity. Qed.

  (* removing one object file: the library stays but is out of date *)
  Example one_object : match remove_outputs info tr 20 st [4] with
    | Removed s => (r_removed s, r_cleared s, r_forced s, r_inputs s 107, kids (r_g s) 7, kids (r_g s) 6, r_disk s 4, r_disk s 7)
    | _ => ([], [], [], [], [], [], true, true) end = ([4], [7], [6], [5], [5; 6], [5], false, true).
  Proof. vm_compute. reflexivity. Qed.
  (* removing both: everything made from them goes *)
  Example both_objects : match remove_outputs info tr 20 st [4; 5] with
    | Removed s => (r_removed s, r_forced s, map (r_disk s) [1; 2; 4; 5; 7; 9])
    | _ => ([], [], []) end = ([4; 5; 7; 9], [6; 8], [true; true; false; false; false; false]).
  Proof. vm_compute. reflexivity. Qed.
End Demo.

Definition final (r : rresult) (st : rstate) : rstate := match r with Removed st => st | _ => st end.
Lemma final_eq r st : match r with Removed _ => true | _ => false end = true -> r = Removed (final r st).
Proof. destruct r; [reflexivity|discriminate|discriminate]. Qed.

(** One reference is kept: the explicit dependencies of the rule application of a dependent that stays.  The artifact objects are
    deleted afterwards, so the set then contains a dangling pointer. *)
Theorem explicit_dependency_refuted :
  exists info tr st seeds st' p t x, consistent info tr st /\ acyclic (depends (r_g st)) /\ remove_outputs info tr 9 st seeds = Removed st'
    /\ In x (r_removed st') /\ ~ In p (r_removed st') /\ tr p = Some t /\ In p (r_outputs st' t) /\ In x (r_explicit st' t).
Proof.
  (* 1: the input, 2: the explicit dependency, 3: the output *)
  set (info := fun x => {| n_artifact := true; n_type := if x =? 1 then SourceFile else Generated; n_product := 0; n_path := x |}).
  set (tr := fun x => if x =? 3 then Some 0 else None).
  set (st := mkR (of_edges [(3, 1); (3, 2)] []) (fun _ => [1]) (fun _ => [2]) (fun _ => [3]) (fun _ => []) [] (fun _ => true) (fun _ => true) (fun _ => true) [] []).
  exists info, tr, st, [2], (final (remove_outputs info tr 9 st [2]) st), 3, 0, 2.
  split; [|split; [apply of_edges_acyclic; reflexivity|split; [apply final_eq; vm_compute; reflexivity|]]].
  - split; try reflexivity.
    + apply of_edges_inv; try reflexivity. intros x [].
    + intros p t _ H i [<-|[]]. unfold tr in H. destruct (Nat.eqb_spec p 3) as [->|]; [|discriminate]. cbn. now left.
    + intros r _ i [].
  - vm_compute. intuition; discriminate.
Qed.

(** A rule application without inputs never had one to lose, but its outputs go with any of their dependencies. *)
Theorem no_inputs_refuted :
  exists info tr st seeds st' p t, consistent info tr st /\ acyclic (depends (r_g st)) /\ remove_outputs info tr 9 st seeds = Removed st'
    /\ In p (r_removed st') /\ ~ In p seeds /\ tr p = Some t /\ r_inputs st t = [] /\ (exists c, depends (r_g st) p c /\ ~ In c (r_removed st')).
Proof.
  (* 1: a rule node, 2: a generated file found by a scanner, 3: the output of the rule *)
  set (info := fun x => {| n_artifact := negb (x =? 1); n_type := Generated; n_product := 0; n_path := x |}).
  set (tr := fun x => if x =? 3 then Some 0 else None).
  set (st := mkR (of_edges [(3, 1); (3, 2)] [(3, 2)]) (fun _ => []) (fun _ => []) (fun _ => [3]) (fun _ => []) [] (fun _ => true) (fun _ => true) (fun _ => true) [] []).
  exists info, tr, st, [2], (final (remove_outputs info tr 9 st [2]) st), 3, 0.
  split; [|split; [apply of_edges_acyclic; reflexivity|split; [apply final_eq; vm_compute; reflexivity|]]].
  - split; try reflexivity.
    + apply of_edges_inv; try reflexivity. intros x [<-|[]]. cbn. auto.
    + intros p t _ H i [].
    + intros r _ i [].
  - vm_compute. split; [intuition|]. split; [intuition; discriminate|]. split; [reflexivity|]. split; [reflexivity|]. exists 1. intuition; discriminate.
Qed.

Print Assumptions removal_terminates.
Print Assumptions removal_exact.
Print Assumptions removal_forgets.
Print Assumptions removal_keeps.
Print Assumptions removal_marks.
Print Assumptions explicit_dependency_refuted.
Print Assumptions no_inputs_refuted.
