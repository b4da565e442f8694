(** The safety invariant of the executor and its preservation. *)
From Coq Require Import List Bool Arith ZArith Lia Permutation.
From Verif Require Import ExecutorModel ExecutorSpec ExecutorBase.
Import ListNotations.

Definition delayed (s : state) : list nat := match ctl s with CSched d => d | _ => [] end.

Fixpoint runs (l : list event) : list nat :=
  match l with
  | [] => []
  | EvRun t :: l => t :: runs l
  | _ :: l => runs l
  end.
Fixpoint cmds (l : list event) : list (nat * nat) :=
  match l with
  | [] => []
  | EvCmd t i :: l => (t, i) :: cmds l
  | _ :: l => cmds l
  end.

Definition active (b : bstate) : Prop := b = Building \/ b = Built.

(** Graph part. [ex]: a node that is excused (the rule being applied). *)
Record GInv (cf : config) (ex : nat -> Prop) (s : state) : Prop := {
  g_wf : wf_graph cf (gr s);
  g_leaf : forall n, In n (leaves s ++ delayed s) ->
     In n (gnodes (gr s)) /\ bst s n <> Untouched
     /\ (ex n \/ (bst s n = Buildable -> children_built s n));
  g_rule : forall n t, In n (gnodes (gr s)) -> gkind (gr s) n = KGen t -> active (bst s n) ->
     bst s (cf_rule cf t) = Built;
  g_in : forall n, bst s n = Built -> In n (gnodes (gr s))
}.

(** Job part. *)
Record JInv (cf : config) (s : state) : Prop := {
  j_ids : NoDup (map jid (procs s) ++ avail s);
  j_len : length (procs s) + length (avail s) = cf_maxjobs cf;
  j_trs : NoDup (map jtr (procs s));
  j_cnt : forall p, cnt s p
     = Z.of_nat (length (filter (fun j => mem p (cf_pools cf (jtr j))) (procs s)));
  j_lim : forall j p i c, In j (procs s) -> jph j = Running i c -> In p (cf_pools cf (jtr j)) ->
     (0 < cf_limit cf (cf_prod cf (jtr j)) p)%Z ->
     (cnt s p <= cf_limit cf (cf_prod cf (jtr j)) p)%Z
}.

(** What the log tells about a node that is Built. *)
Definition handled (cf : config) (s : state) (n : nat) : Prop :=
  match gkind (gr s) n with
  | KSource => True
  | KGen t => In (EvSucceeded t) (log s) \/ In (EvSkip t) (log s) \/ cf_inprod cf (cf_prod cf t) = false
  | KRule => In (EvApply n) (log s) \/ cf_inprod cf (cf_ruleprod cf n) = false
  end.

(** Links between graph, jobs and log. *)
Record LInv (cf : config) (s : state) : Prop := {
  l_proc : forall j, In j (procs s) ->
     (forall o, In o (outs (gr s) (jtr j)) -> bst s o = Building)
     /\ In (EvRun (jtr j)) (log s)
     /\ ~ In (EvSucceeded (jtr j)) (log s) /\ ~ In (EvFailed (jtr j)) (log s);
  l_once : NoDup (runs (log s));
  l_run : forall t, In (EvRun t) (log s) ->
     (forall o, In o (outs (gr s) t) -> active (bst s o))
     /\ bst s (cf_rule cf t) = Built
     /\ (In t (map jtr (procs s)) \/ In (EvSucceeded t) (log s) \/ In (EvFailed t) (log s));
  l_end : forall t, In (EvSucceeded t) (log s) \/ In (EvFailed t) (log s) -> In (EvRun t) (log s);
  l_ok : forall t o, In (EvRun t) (log s) -> In o (outs (gr s) t) -> bst s o = Built ->
     In (EvSucceeded t) (log s);
  l_excl : forall t, In (EvSucceeded t) (log s) -> In (EvFailed t) (log s) -> False;
  l_cmds : NoDup (cmds (log s));
  l_cmd : forall t i, In (EvCmd t i) (log s) ->
     In (EvRun t) (log s)
     /\ i < cf_ncmds cf t
     /\ (forall k, k < i -> In (EvCmd t k) (log s))
     /\ forall j k c, In j (procs s) -> jtr j = t -> jph j = Running k c -> i <= k;
  l_phase : forall j, In j (procs s) ->
     match jph j with
     | Running k _ => In (EvCmd (jtr j) k) (log s)
     | Done true => forall k, k < cf_ncmds cf (jtr j) -> In (EvCmd (jtr j) k) (log s)
     | Done false => True
     end;
  l_succ : forall t, In (EvSucceeded t) (log s) ->
     forall k, k < cf_ncmds cf t -> In (EvCmd t k) (log s);
  l_done : forall n, In n (gnodes (gr s)) -> bst s n = Built -> handled cf s n
}.

(** Control part. *)
Record CInv (cf : config) (s : state) : Prop := {
  c_canc : est s = ECanceling -> forall j i c, In j (procs s) -> jph j = Running i c -> c = true;
  c_ran : est s = ERunning -> forall j i c, In j (procs s) -> jph j = Running i c -> c = false;
  c_log : In EvCancel (log s) -> est s <> ERunning;
  c_log2 : est s = ECanceling -> In EvCancel (log s);
  c_sched : forall d, ctl s = CSched d -> est s = ERunning;
  c_wait : ctl s = CWait -> est s <> Idle /\ procs s <> [];
  c_fin : ctl s = CFinished -> est s = Idle /\ procs s = [];
  c_assert : ctl s <> CAssert;
  c_err : est s = ERunning -> errs s = [];
  c_fail : forall t, In (EvFailed t) (log s) -> cf_keepgoing cf = false -> est s <> ERunning;
  c_first : forall t l2 l1, log s = l2 ++ EvFailed t :: l1 -> cf_keepgoing cf = false ->
     ~ In EvCancel l1 -> ~ (exists e, In (EvFinish e) l1) -> exists rest, errs s = ECommand t :: rest;
  c_notfin : ctl s <> CFinished -> ~ (exists e, In (EvFinish e) (log s));
  c_expl : expl s = true -> est s <> ERunning;
  c_delay : forall x d, ctl s = CSched (x :: d) -> procs s <> [];
  c_report : forall e, In (EvFinish e) (log s) -> errs s = e;
  c_failerr : forall t, In (EvFailed t) (log s) -> cf_keepgoing cf = false -> errs s <> []
}.

(** The outputs of a transformer in the build are started and finished together. *)
Definition UInv (cf : config) (s : state) : Prop :=
  est s = ERunning -> forall t o o', cf_inprod cf (cf_prod cf t) = true ->
  In o (outs (gr s) t) -> In o' (outs (gr s) t) -> active (bst s o) -> active (bst s o').

Record Inv (cf : config) (s : state) : Prop := {
  inv_u : UInv cf s;
  inv_g : GInv cf (fun _ => False) s;
  inv_j : JInv cf s;
  inv_l : LInv cf s;
  inv_c : CInv cf s
}.

(** *** finish_node *)
Lemma delayed_frame s s' : frame s s' -> delayed s' = delayed s.
Proof. intros F. unfold delayed. now rewrite (fr_ctl _ _ F). Qed.

Lemma children_built_upd s s' n m :
  gr s' = gr s -> bst s' = upd (bst s) n Built -> children_built s m -> children_built s' m.
Proof.
  intros G B H c Hc. rewrite G in Hc. rewrite B. destruct (Nat.eq_dec c n) as [->|Hn].
  - apply upd_same.
  - rewrite upd_other; auto.
Qed.

(** Finishing a node all of whose prerequisites for [g_rule] hold. *)
Lemma finish_node_GInv cf (ex : nat -> Prop) n s :
  GInv cf ex s -> In n (gnodes (gr s)) ->
  (forall t, gkind (gr s) n = KGen t -> bst s (cf_rule cf t) = Built) ->
  GInv cf (fun m => ex m /\ m <> n) (finish_node n s).
Proof.
  intros [WF LF RU BI] Hin Hn. destruct (finish_node_ok n s) as [F B O N C].
  set (s' := finish_node n s) in *.
  assert (G : gr s' = gr s) by apply (fr_gr _ _ F).
  constructor.
  - now rewrite G.
  - intros m Hm. rewrite (delayed_frame _ _ F) in Hm. rewrite G.
    assert (Old : In m (leaves s ++ delayed s) ->
        In m (gnodes (gr s)) /\ bst s' m <> Untouched /\
        ((ex m /\ m <> n) \/ (bst s' m = Buildable -> children_built s' m))).
    { intros H. destruct (LF m H) as (A1 & A2 & A3). split; auto. split.
      - rewrite B. unfold upd. destruct (m =? n); congruence.
      - destruct (Nat.eq_dec m n) as [->|Hmn].
        + right. rewrite B, upd_same. discriminate.
        + destruct A3 as [A3|A3]; [left; auto|right].
          rewrite B, upd_other by auto. intros Hb. eapply children_built_upd; eauto. }
    apply in_app_or in Hm. destruct Hm as [Hm|Hm].
    + apply N in Hm. destruct Hm as [Hm|(P1 & P2 & P3 & P4)].
      * apply Old. apply in_or_app; auto.
      * split; auto. split; [congruence|]. right. auto.
    + apply Old. apply in_or_app; auto.
  - intros m t Hm Hk Ha. rewrite G in *. rewrite B.
    unfold upd at 1. destruct (cf_rule cf t =? n) eqn:E; auto.
    rewrite B in Ha. destruct (Nat.eq_dec m n) as [->|Hmn].
    + auto.
    + rewrite upd_other in Ha by auto. eauto.
  - intros m Hm. rewrite G. rewrite B in Hm. destruct (Nat.eq_dec m n) as [->|Hmn]; auto.
    rewrite upd_other in Hm by auto. auto.
Qed.

(** The links survive if the finished node is not an output of a running job and, in case its
    transformer has been run, that one succeeded. *)
Lemma finish_node_LInv cf n s :
  LInv cf s ->
  (forall t, gkind (gr s) n = KGen t -> In n (gnodes (gr s)) -> In (EvRun t) (log s) ->
     In (EvSucceeded t) (log s)) ->
  handled cf s n ->
  LInv cf (finish_node n s).
Proof.
  intros [P ON R EN OK EX CM C PH SU DN] Hn Hh. destruct (finish_node_ok n s) as [F B _ _ _].
  set (s' := finish_node n s) in *.
  assert (G : gr s' = gr s) by apply (fr_gr _ _ F).
  assert (Pr : procs s' = procs s) by apply (fr_procs _ _ F).
  assert (Lg : log s' = log s) by apply (fr_log _ _ F).
  constructor; rewrite ?G, ?Pr, ?Lg; auto.
  - intros j Hj. destruct (P j Hj) as (P1 & P2 & P3 & P4). split; auto.
    intros o Ho. rewrite B. destruct (Nat.eq_dec o n) as [->|Hon].
    + exfalso. apply P3. apply In_outs in Ho. destruct Ho. eapply Hn; eauto.
    + rewrite upd_other; auto.
  - intros t Ht. destruct (R t Ht) as (R1 & R2 & R3). split; [|split]; auto.
    + intros o Ho. rewrite B. unfold upd. destruct (o =? n); [now right|auto].
    + rewrite B. unfold upd. destruct (_ =? n); auto.
  - intros t o Ht Ho Hb. rewrite B in Hb. destruct (Nat.eq_dec o n) as [->|Hon].
    + apply In_outs in Ho. destruct Ho. eapply Hn; eauto.
    + rewrite upd_other in Hb by auto. eauto.
  - intros m Hm Hb. unfold handled in *. rewrite G, Lg. rewrite B in Hb.
    destruct (Nat.eq_dec m n) as [->|Hmn]; auto. rewrite upd_other in Hb by auto. exact (DN m Hm Hb).
Qed.

Lemma frame_JInv cf s s' : frame s s' -> JInv cf s -> JInv cf s'.
Proof.
  intros F []. constructor; rewrite ?(fr_procs _ _ F), ?(fr_cnt _ _ F), ?(fr_avail _ _ F); auto.
Qed.
Lemma frame_CInv cf s s' : frame s s' -> CInv cf s -> CInv cf s'.
Proof.
  intros F [].
  constructor; rewrite ?(fr_est _ _ F), ?(fr_procs _ _ F), ?(fr_log _ _ F), ?(fr_ctl _ _ F),
    ?(fr_errs _ _ F), ?(fr_expl _ _ F); auto.
Qed.

(** *** finish_transformer *)
Lemma finish_outputs_frame inst l : forall s s' th,
  finish_outputs inst l s = (s', th) -> frame s s'.
Proof.
  induction l as [|n l IH]; intros s s' th; simpl.
  - intros [= <- <-]. apply frame_refl.
  - destruct (inst n).
    + intros [= <- <-]. apply frame_refl.
    + intros H. apply IH in H. eapply frame_trans; [|eauto]. apply (fn_frame _ _ _ (finish_node_ok n s)).
Qed.

Lemma finish_outputs_Inv cf inst l : forall s s' th,
  finish_outputs inst l s = (s', th) ->
  GInv cf (fun _ => False) s -> LInv cf s ->
  incl l (gnodes (gr s)) ->
  (forall n, In n l -> forall t, gkind (gr s) n = KGen t -> bst s (cf_rule cf t) = Built) ->
  (forall n, In n l -> forall t, gkind (gr s) n = KGen t -> In n (gnodes (gr s)) ->
     In (EvRun t) (log s) -> In (EvSucceeded t) (log s)) ->
  (forall n, In n l -> handled cf s n) ->
  GInv cf (fun _ => False) s' /\ LInv cf s'.
Proof.
  induction l as [|n l IH]; intros s s' th; simpl.
  - intros [= <- <-]; auto.
  - destruct (inst n).
    + intros [= <- <-]; auto.
    + intros H HG HL H0 H1 H2 H3.
      pose proof (fn_frame _ _ _ (finish_node_ok n s)) as F.
      apply IH in H; auto.
      * apply (finish_node_GInv cf _ n s) in HG; [|apply H0; now left|intros; eapply H1; eauto].
        destruct HG. constructor; auto. intros m Hm. destruct (g_leaf0 m Hm) as (A & B & [[C _]|C]); auto.
      * apply finish_node_LInv; auto. intros; eapply H2; eauto.
      * rewrite (fr_gr _ _ F). intros x Hx. apply H0. now right.
      * intros m Hm t. rewrite (fr_gr _ _ F). intros Hk.
        rewrite (fn_bst _ _ _ (finish_node_ok n s)). unfold upd. destruct (_ =? n); auto. eapply H1; eauto.
      * intros m Hm t. rewrite (fr_gr _ _ F), (fr_log _ _ F). eapply H2; eauto.
      * intros m Hm. unfold handled. rewrite (fr_gr _ _ F), (fr_log _ _ F). apply H3; auto.
Qed.

(** *** cancelling and finishing *)
Lemma cancel_jobs_ids s : map jid (procs (cancel_jobs s)) = map jid (procs s).
Proof.
  unfold cancel_jobs. destruct (est s); simpl; auto; rewrite map_map; apply map_ext;
  intros j; unfold cancel_job; destruct (jph j); reflexivity.
Qed.
Lemma cancel_jobs_trs s : map jtr (procs (cancel_jobs s)) = map jtr (procs s).
Proof.
  unfold cancel_jobs. destruct (est s); simpl; auto; rewrite map_map; apply map_ext;
  intros j; unfold cancel_job; destruct (jph j); reflexivity.
Qed.
Lemma cancel_jobs_In s j : In j (procs (cancel_jobs s)) ->
  exists j0, In j0 (procs s) /\ jtr j = jtr j0 /\ jid j = jid j0 /\
    (jph j = jph j0 \/ exists i c, jph j0 = Running i c /\ jph j = Running i true).
Proof.
  unfold cancel_jobs. destruct (est s); simpl; eauto 6; intros H; apply in_map_iff in H;
  destruct H as (j0 & <- & H); exists j0; (split; [exact H|]);
  unfold cancel_job; destruct (jph j0) eqn:E; simpl; auto; repeat split; eauto.
Qed.
Lemma cancel_jobs_est s : est (cancel_jobs s) = ECanceling.
Proof. unfold cancel_jobs. destruct (est s) eqn:E; auto. Qed.
Lemma cancel_jobs_misc s :
  let s' := cancel_jobs s in
  gr s' = gr s /\ bst s' = bst s /\ leaves s' = leaves s /\ avail s' = avail s /\ cnt s' = cnt s
  /\ errs s' = errs s /\ expl s' = expl s /\ ctl s' = ctl s
  /\ (log s' = log s \/ log s' = EvCancel :: log s).
Proof. unfold cancel_jobs. destruct (est s); simpl; auto 12. Qed.
Lemma cancel_jobs_procs_nil s : procs (cancel_jobs s) = [] <-> procs s = [].
Proof.
  split; intros H; apply (map_eq_nil jid).
  - rewrite <- cancel_jobs_ids, H. reflexivity.
  - rewrite cancel_jobs_ids, H. reflexivity.
Qed.

Lemma filter_map_len {A} (f : A -> bool) (g : A -> A) l :
  (forall x, f (g x) = f x) -> length (filter f (map g l)) = length (filter f l).
Proof.
  intros H. induction l as [|x l IH]; simpl; auto. rewrite H. destruct (f x); simpl; auto.
Qed.

Lemma cancel_jobs_GInv cf ex s : GInv cf ex s -> GInv cf ex (cancel_jobs s).
Proof.
  intros []. destruct (cancel_jobs_misc s) as (G & B & L & _ & _ & _ & _ & C & _).
  constructor; unfold delayed, children_built in *; rewrite ?G, ?B, ?L, ?C; auto.
Qed.
Lemma cancel_jobs_JInv cf s : JInv cf s -> JInv cf (cancel_jobs s).
Proof.
  intros []. destruct (cancel_jobs_misc s) as (_ & _ & _ & A & C & _ & _ & _ & _).
  assert (E : forall p, length (filter (fun j => mem p (cf_pools cf (jtr j))) (procs (cancel_jobs s)))
    = length (filter (fun j => mem p (cf_pools cf (jtr j))) (procs s))).
  { intros p. unfold cancel_jobs. destruct (est s); auto; simpl; apply filter_map_len;
    intros j; unfold cancel_job; destruct (jph j); reflexivity. }
  constructor; rewrite ?A, ?C, ?cancel_jobs_ids, ?cancel_jobs_trs; auto.
  - rewrite <- (map_length jid), cancel_jobs_ids, map_length. auto.
  - intros p. now rewrite E.
  - intros j p i c Hj Hp Hpool Hl. apply cancel_jobs_In in Hj.
    destruct Hj as (j0 & Hj & T & _ & Hph). rewrite T in *.
    destruct Hph as [Hph|(i0 & c0 & Hph & Hph2)].
    + apply (j_lim0 j0 p i c); auto. congruence.
    + apply (j_lim0 j0 p i0 c0); auto.
Qed.

Lemma runs_cancel s : runs (log (cancel_jobs s)) = runs (log s).
Proof. destruct (cancel_jobs_misc s) as (_&_&_&_&_&_&_&_&[->| ->]); auto. Qed.
Lemma cmds_cancel s : cmds (log (cancel_jobs s)) = cmds (log s).
Proof. destruct (cancel_jobs_misc s) as (_&_&_&_&_&_&_&_&[->| ->]); auto. Qed.
Lemma log_cancel s e : e <> EvCancel -> (In e (log (cancel_jobs s)) <-> In e (log s)).
Proof.
  intros H. destruct (cancel_jobs_misc s) as (_&_&_&_&_&_&_&_&[->| ->]); [tauto|].
  simpl. split; [intros [E|E]; congruence|auto].
Qed.

Lemma cancel_jobs_LInv cf s : LInv cf s -> LInv cf (cancel_jobs s).
Proof.
  intros []. destruct (cancel_jobs_misc s) as (G & B & _).
  constructor; rewrite ?G, ?B, ?runs_cancel, ?cmds_cancel, ?cancel_jobs_trs; auto.
  - intros j Hj. apply cancel_jobs_In in Hj. destruct Hj as (j0 & Hj & T & _). rewrite T.
    rewrite !log_cancel by discriminate. auto.
  - intros t. rewrite !log_cancel by discriminate. auto.
  - intros t. rewrite !log_cancel by discriminate. auto.
  - intros t o. rewrite !log_cancel by discriminate. eauto.
  - intros t. rewrite !log_cancel by discriminate. eauto.
  - intros t i. rewrite !log_cancel by discriminate. intros H.
    destruct (l_cmd0 t i H) as (A & A2 & B1 & C). split; auto. split; auto. split.
    + intros k Hk. apply log_cancel; [discriminate|auto].
    + intros j k c Hj Ht Hp. apply cancel_jobs_In in Hj. destruct Hj as (j0 & Hj & T & _ & Hph).
      destruct Hph as [Hph|(i0 & c0 & Hph & Hph2)].
      * apply (C j0 k c); auto; congruence.
      * assert (k = i0) by congruence. subst k. apply (C j0 i0 c0); auto; congruence.
  - intros j Hj. apply cancel_jobs_In in Hj. destruct Hj as (j0 & Hj & T & _ & Hph).
    specialize (l_phase0 j0 Hj). rewrite T.
    destruct Hph as [Hph|(i0 & c0 & Hph & Hph2)].
    + rewrite Hph. destruct (jph j0) as [k c|[]]; auto.
      * apply log_cancel; [discriminate|auto].
      * intros k Hk. apply log_cancel; [discriminate|auto].
    + rewrite Hph in l_phase0. rewrite Hph2. apply log_cancel; [discriminate|auto].
  - intros t. rewrite !log_cancel by discriminate. intros H k Hk. apply log_cancel; [discriminate|]. auto.
  - intros n Hn Hb. specialize (l_done0 n Hn Hb). unfold handled in *. rewrite G.
    destruct (gkind (gr s) n); rewrite ?log_cancel by discriminate; auto.
Qed.

(** *** saying things *)
Definition plain (e : event) : Prop :=
  match e with EvApply _ | EvSkip _ | EvCancel | EvFinish _ => True | _ => False end.

Lemma say_LInv_plain cf e s : plain e -> LInv cf s -> LInv cf (say e s).
Proof.
  intros Pe []. 
  assert (E : forall x, ~ plain x -> (In x (log (say e s)) <-> In x (log s))).
  { intros x Hx. simpl. split; [intros [<-|H]; tauto|auto]. }
  assert (R : runs (log (say e s)) = runs (log s)) by (simpl; destruct e; simpl in *; tauto).
  assert (C : cmds (log (say e s)) = cmds (log s)) by (simpl; destruct e; simpl in *; tauto).
  constructor; rewrite ?R, ?C; auto; cbn [gr bst procs say].
  - intros j Hj. rewrite !E by (simpl; tauto). auto.
  - intros t. rewrite !E by (simpl; tauto). auto.
  - intros t. rewrite !E by (simpl; tauto). auto.
  - intros t o. rewrite !E by (simpl; tauto). eauto.
  - intros t. rewrite !E by (simpl; tauto). eauto.
  - intros t i H. apply E in H; [|simpl; tauto]. destruct (l_cmd0 t i H) as (A & A2 & B & D).
    split; [apply E; simpl; tauto|]. split; auto. split; auto. intros k Hk. apply E; [simpl; tauto|auto].
  - intros j Hj. specialize (l_phase0 j Hj). destruct (jph j) as [k c|[]]; auto.
    + apply E; [simpl; tauto|auto].
    + intros k Hk. apply E; [simpl; tauto|auto].
  - intros t H k Hk. apply E in H; [|simpl; tauto]. apply E; [simpl; tauto|eauto].
  - intros n Hn Hb. specialize (l_done0 n Hn Hb). unfold handled in *. cbn [gr log say].
    destruct (gkind (gr s) n); simpl; tauto.
Qed.

(** *** finish *)
Lemma finish_fields cf s :
  let s' := finish cf s in
  gr s' = gr s /\ bst s' = bst s /\ leaves s' = leaves s /\ avail s' = avail s /\ cnt s' = cnt s
  /\ procs s' = procs s /\ est s' = Idle /\ ctl s' = CFinished /\ expl s' = expl s
  /\ (exists x, errs s' = errs s ++ x) /\ log s' = EvFinish (errs s') :: log s.
Proof.
  unfold finish. cbv zeta. simpl. repeat split; auto.
  destruct (_ && _), (expl s); rewrite <- ?app_assoc; eauto. exists []. now rewrite app_nil_r.
Qed.

(** Graph, job and link parts only look at some fields. *)
Lemma GInv_ext cf (ex : nat -> Prop) s s' : gr s' = gr s -> bst s' = bst s -> leaves s' = leaves s ->
  incl (delayed s') (delayed s) -> GInv cf ex s -> GInv cf ex s'.
Proof.
  intros G B L D []. constructor; unfold children_built in *; rewrite ?G, ?B, ?L; auto.
  intros n Hn. apply g_leaf0. apply in_app_or in Hn. apply in_or_app. destruct Hn; auto.
Qed.
Lemma JInv_ext cf s s' : avail s' = avail s -> procs s' = procs s -> cnt s' = cnt s ->
  JInv cf s -> JInv cf s'.
Proof. intros A P C []. constructor; rewrite ?A, ?P, ?C; auto. Qed.
Lemma LInv_ext cf s s' : gr s' = gr s -> bst s' = bst s -> procs s' = procs s -> log s' = log s ->
  LInv cf s -> LInv cf s'.
Proof. intros G B P L []. constructor; unfold handled in *; rewrite ?G, ?B, ?P, ?L; auto. Qed.

(** What [finish] needs of the control part. *)
Record CPre0 (cf : config) (s : state) : Prop := {
  p_canc : est s = ECanceling -> forall j i c, In j (procs s) -> jph j = Running i c -> c = true;
  p_ran : est s = ERunning -> forall j i c, In j (procs s) -> jph j = Running i c -> c = false;
  p_log : In EvCancel (log s) -> est s <> ERunning;
  p_log2 : est s = ECanceling -> In EvCancel (log s);
  p_first : forall t l2 l1, log s = l2 ++ EvFailed t :: l1 -> cf_keepgoing cf = false ->
     ~ In EvCancel l1 -> ~ (exists e, In (EvFinish e) l1) -> exists rest, errs s = ECommand t :: rest;
  p_notfin : ~ (exists e, In (EvFinish e) (log s));
  p_expl : expl s = true -> est s <> ERunning;
  p_idle : est s <> Idle;
  p_failerr : forall t, In (EvFailed t) (log s) -> cf_keepgoing cf = false -> errs s <> []
}.
Definition CPre (cf : config) (s : state) : Prop :=
  CPre0 cf s /\ forall t, In (EvFailed t) (log s) -> cf_keepgoing cf = false -> est s <> ERunning.

Lemma first_grow l (e : event) errs0 errs1 (P : list event -> Prop) :
  (forall t, e <> EvFailed t) ->
  (forall t l2 l1, l = l2 ++ EvFailed t :: l1 -> P l1 -> exists rest : list error, errs0 = ECommand t :: rest) ->
  (forall t rest, errs0 = ECommand t :: rest -> exists rest', errs1 = ECommand t :: rest') ->
  forall t l2 l1, e :: l = l2 ++ EvFailed t :: l1 -> P l1 -> exists rest, errs1 = ECommand t :: rest.
Proof.
  intros H1 H2 H3 t l2 l1 E HP. destruct l2 as [|x l2]; simpl in E.
  - injection E as E _. now apply H1 in E.
  - injection E as <- E. destruct (H2 t l2 l1 E HP) as [rest Hr]. eauto.
Qed.

Lemma finish_CInv cf s : CPre cf s -> procs s = [] -> CInv cf (finish cf s).
Proof.
  intros [[] p_fail0] Hp. destruct (finish_fields cf s) as (G & B & L & A & C & P & E & K & X & [x Er] & Lg).
  set (s' := finish cf s) in *.
  constructor; rewrite ?E, ?P, ?K, ?X; try discriminate; try congruence.
  - intros _. split; auto.
  - intros t l2 l1 El Hk Hc Hf. rewrite Lg in El.
    refine (first_grow (log s) (EvFinish (errs s')) (errs s) (errs s')
      (fun l1 => ~ In EvCancel l1 /\ ~ (exists e, In (EvFinish e) l1)) _ _ _ t l2 l1 El (conj Hc Hf)).
    + discriminate.
    + intros t0 a b E0 [H1 H2]. eapply p_first0; eauto.
    + intros t0 rest H. rewrite Er, H. simpl. eauto.
  - rewrite Lg. intros e [He|He]; [congruence|]. exfalso. eauto.
  - rewrite Lg. intros t [He|He] K0; [discriminate|]. rewrite Er. intros Hn.
    apply app_eq_nil in Hn. destruct Hn. eapply p_failerr0; eauto.
Qed.

Lemma UInv_not_running cf s : est s <> ERunning -> UInv cf s.
Proof. intros H E. congruence. Qed.

Lemma finish_Inv cf s : GInv cf (fun _ => False) s -> JInv cf s -> LInv cf s -> CPre cf s -> procs s = [] ->
  Inv cf (finish cf s).
Proof.
  intros HG HJ HL HC Hp.
  destruct (finish_fields cf s) as (G & B & L & A & C & P & E & K & X & Er & Lg).
  constructor.
  - apply UInv_not_running. rewrite E. discriminate.
  - eapply GInv_ext; eauto. unfold delayed. rewrite K. intros y [].
  - eapply JInv_ext; eauto.
  - pose proof (say_LInv_plain cf (EvFinish (errs (finish cf s))) s I HL) as H.
    eapply LInv_ext; [| | | |exact H]; auto.
  - apply finish_CInv; auto.
Qed.

(** *** cancelling *)
Lemma cancel_jobs_CPre cf s : CPre0 cf s -> CPre cf (cancel_jobs s).
Proof.
  intros []. split; [|intros; rewrite cancel_jobs_est; discriminate].
  destruct (cancel_jobs_misc s) as (G & B & L & A & C & Er & Ex & Ct & Lg).
  pose proof (cancel_jobs_est s) as E.
  assert (NF : ~ (exists e, In (EvFinish e) (log (cancel_jobs s)))).
  { intros [e He]. apply (proj1 (log_cancel s (EvFinish e) ltac:(discriminate))) in He. apply p_notfin0. eauto. }
  constructor; rewrite ?E, ?Er, ?Ex; try discriminate; try congruence.
  - intros _ j i c Hj Hph. unfold cancel_jobs in Hj. destruct (est s) eqn:Es; simpl in Hj;
    try (eapply p_canc0; eauto; fail);
    (apply in_map_iff in Hj; destruct Hj as (j0 & <- & Hj); unfold cancel_job in Hph;
     destruct (jph j0) eqn:E0; simpl in Hph; congruence).
  - intros _. unfold cancel_jobs. destruct (est s) eqn:Es; simpl; auto.
  - destruct Lg as [-> | ->]; auto.
    intros t l2 l1 El Hk Hc Hf.
    refine (first_grow (log s) EvCancel (errs s) (errs s)
      (fun l1 => ~ In EvCancel l1 /\ ~ (exists e, In (EvFinish e) l1)) _ _ _ t l2 l1 El (conj Hc Hf)).
    + discriminate.
    + intros t0 a b E0 [H1 H2]. eapply p_first0; eauto.
    + eauto.
  - intros t H. apply (proj1 (log_cancel s (EvFailed t) ltac:(discriminate))) in H. eauto.
Qed.

Lemma CPre_wait cf s : CPre cf s -> est s = ECanceling -> procs s <> [] -> CInv cf (set_ctl CWait s).
Proof.
  intros [[] p_fail0] E P. constructor; simpl; auto; try congruence; rewrite ?E; try discriminate; auto.
  intros e He. exfalso. eauto.
Qed.

Lemma set_errs_CPre cf e s : CPre cf s -> CPre cf (set_errs (errs s ++ [e]) s).
Proof.
  intros [[] p_fail0]. split; [|exact p_fail0]. constructor; simpl; auto; [intros t l2 l1 E K H1 H2|].
  - destruct (p_first0 t l2 l1 E K H1 H2) as [rest ->]. simpl. eauto.
  - destruct (errs s); discriminate.
Qed.

Lemma handle_error_Inv cf e s :
  GInv cf (fun _ => False) s -> JInv cf s -> LInv cf s -> CPre cf s -> Inv cf (handle_error cf e s).
Proof.
  intros HG HJ HL HC. unfold handle_error. cbv zeta.
  set (s1 := set_errs (errs s ++ [e]) s).
  assert (HG1 : GInv cf (fun _ => False) s1) by (eapply GInv_ext; [| | | |exact HG]; auto; apply incl_refl).
  assert (HJ1 : JInv cf s1) by (eapply JInv_ext; [| | |exact HJ]; auto).
  assert (HL1 : LInv cf s1) by (eapply LInv_ext; [| | | |exact HL]; auto).
  assert (HC1 : CPre cf s1) by (apply set_errs_CPre; auto).
  destruct (procs s1) eqn:E.
  - apply finish_Inv; auto.
  - constructor.
    + apply UInv_not_running. simpl. rewrite cancel_jobs_est. discriminate.
    + eapply GInv_ext; [| | | |apply cancel_jobs_GInv, HG1]; auto. intros x [].
    + eapply JInv_ext; [| | |apply cancel_jobs_JInv, HJ1]; auto.
    + eapply LInv_ext; [| | | |apply cancel_jobs_LInv, HL1]; auto.
    + apply CPre_wait.
      * apply cancel_jobs_CPre. apply HC1.
      * apply cancel_jobs_est.
      * rewrite cancel_jobs_procs_nil, E. discriminate.
Qed.

Lemma CInv_CPre cf s : CInv cf s -> ctl s <> CFinished -> CPre cf s.
Proof.
  intros [] H. split; [|auto]. constructor; auto. intros E.
  destruct (ctl s) eqn:K; try congruence.
  - now rewrite (c_sched0 _ eq_refl) in E.
  - destruct (c_wait0 eq_refl). contradiction.
Qed.
