(** Consequences of the safety invariant for single steps and for whole builds. *)
From Coq Require Import List Bool Arith ZArith Lia Permutation.
From Verif Require Import ExecutorModel ExecutorSpec ExecutorBase ExecutorInv ExecutorSteps.
Import ListNotations.

(** The leaf number [k] is taken from the queue. *)
Definition take (k : nat) (s : state) : state := set_leaves (remove_nth k (leaves s)) s.

(** The possible steps, case by case. *)
Inductive stepd (cf : config) (s : state) : input -> state -> Prop :=
| sd_stale k c n d : ctl s = CSched d -> nth_error (leaves s) k = Some n -> avail s <> [] ->
    active (bst s n) -> stepd cf s (ILeaf k c) (take k s)
| sd_delay k c n d : ctl s = CSched d -> nth_error (leaves s) k = Some n -> avail s <> [] ->
    bst s n = Buildable -> blocked cf (take k s) n = true ->
    stepd cf s (ILeaf k c) (set_ctl (CSched (n :: d)) (take k s))
| sd_node k c n d : ctl s = CSched d -> nth_error (leaves s) k = Some n -> avail s <> [] ->
    bst s n = Buildable -> gkind (gr s) n = KSource \/ in_build cf (gr s) n = false ->
    stepd cf s (ILeaf k c) (finish_node n (take k s))
| sd_throw k c n d : ctl s = CSched d -> nth_error (leaves s) k = Some n -> avail s <> [] ->
    bst s n = Buildable -> gkind (gr s) n <> KRule -> c_throw c = true ->
    stepd cf s (ILeaf k c) (handle_error cf (EException n) (take k s))
| sd_rule_throw k c n d : ctl s = CSched d -> nth_error (leaves s) k = Some n -> avail s <> [] ->
    bst s n = Buildable -> gkind (gr s) n = KRule -> c_rule c = RThrow ->
    stepd cf s (ILeaf k c) (handle_error cf (EException n) (say (EvApply n) (take k s)))
| sd_rule k c n d g cr inv : ctl s = CSched d -> nth_error (leaves s) k = Some n -> avail s <> [] ->
    bst s n = Buildable -> gkind (gr s) n = KRule -> c_rule c = ROk g cr inv ->
    in_build cf (gr s) n = true ->
    stepd cf s (ILeaf k c)
      (finish_node n (update_leaves inv (update_leaves cr (adopt g (say (EvApply n) (take k s))))))
| sd_skip k c n d t s' : ctl s = CSched d -> nth_error (leaves s) k = Some n -> avail s <> [] ->
    bst s n = Buildable -> gkind (gr s) n = KGen t -> in_build cf (gr s) n = true ->
    finish_transformer (c_inst c) t (say (EvSkip t) (take k s)) = (s', false) ->
    stepd cf s (ILeaf k c) s'
| sd_skip_throw k c n d t s' : ctl s = CSched d -> nth_error (leaves s) k = Some n -> avail s <> [] ->
    bst s n = Buildable -> gkind (gr s) n = KGen t -> in_build cf (gr s) n = true ->
    finish_transformer (c_inst c) t (say (EvSkip t) (take k s)) = (s', true) ->
    stepd cf s (ILeaf k c) (handle_error cf (EException n) s')
| sd_run k c n d t : ctl s = CSched d -> nth_error (leaves s) k = Some n -> avail s <> [] ->
    bst s n = Buildable -> gkind (gr s) n = KGen t -> in_build cf (gr s) n = true ->
    blocked cf (take k s) n = false -> cf_rulesonly cf = false ->
    stepd cf s (ILeaf k c) (run_transformer cf t (take k s))
| sd_end d : ctl s = CSched d -> leaves s = [] \/ avail s = [] -> stepd cf s ISchedEnd (sched_end cf d s)
| sd_cmd j ok jb k canceled : ctl s = CWait \/ (exists d, ctl s = CSched d) ->
    In jb (procs s) -> jph jb = Running k canceled ->
    stepd cf s (ICmd j ok) (cmd_finished cf jb k canceled ok s)
| sd_slot j cancel throw inst jb ok : ctl s = CWait -> In jb (procs s) -> jph jb = Done ok ->
    stepd cf s (ISlot j cancel throw inst) (job_slot cf jb ok cancel throw inst s)
| sd_tick : ctl s = CWait -> est s = ERunning -> stepd cf s ITick (cancel_jobs s).

Lemma leaf_facts cf s k n : Inv cf s -> nth_error (leaves s) k = Some n ->
  In n (gnodes (gr s)) /\ bst s n <> Untouched /\ (bst s n = Buildable -> children_built s n).
Proof.
  intros HI H. assert (Hl : In n (leaves s ++ delayed s)) by (apply in_or_app; left; eapply nth_error_In; eauto).
  destruct (g_leaf _ _ _ (inv_g _ _ HI) n Hl) as (A & B & [[]|C]). auto.
Qed.

Lemma step_stepd cf s i s' : Inv cf s -> step cf s i = Some s' -> stepd cf s i s'.
Proof.
  intros HI H. unfold step in H. destruct i as [k c| |j ok|j cancel throw inst|].
  - destruct (ctl s) as [d| | |] eqn:C; try discriminate.
    destruct (nth_error (leaves s) k) as [n|] eqn:Hk; [|discriminate].
    assert (A : avail s <> []) by (destruct (avail s); [discriminate|congruence]).
    assert (E : s' = visit cf n c (take k s)) by (destruct (avail s); [discriminate|injection H; auto]).
    clear H. subst s'. destruct (leaf_facts cf s k n HI Hk) as (Hn & Ht & Hb).
    unfold visit. change (bst (take k s) n) with (bst s n). destruct (bst s n) eqn:B; [congruence| | |].
    + destruct (blocked cf (take k s) n) eqn:Bl.
      * unfold delay. change (ctl (take k s)) with (ctl s). rewrite C. eapply sd_delay; eauto.
      * change (gkind (gr (take k s)) n) with (gkind (gr s) n). destruct (gkind (gr s) n) as [|t|] eqn:K.
        -- unfold build_artifact. change (gkind (gr (take k s)) n) with (gkind (gr s) n). rewrite K.
           destruct (c_throw c) eqn:Th.
           ++ eapply sd_throw; eauto. congruence.
           ++ eapply sd_node; eauto.
        -- unfold build_artifact. change (gr (take k s)) with (gr s). rewrite K.
           destruct (in_build cf (gr s) n) eqn:IB; simpl; [|eapply sd_node; eauto].
           destruct (c_throw c) eqn:Th; [eapply sd_throw; eauto; congruence|].
           destruct (c_skip c || cf_rulesonly cf) eqn:Sk.
           ++ destruct (finish_transformer (c_inst c) t (say (EvSkip t) (take k s))) as [s1 th] eqn:F.
              destruct th; [eapply sd_skip_throw; eauto|eapply sd_skip; eauto].
           ++ apply orb_false_iff in Sk. eapply sd_run; eauto. tauto.
        -- unfold execute_rule. change (gr (take k s)) with (gr s).
           destruct (in_build cf (gr s) n) eqn:IB; simpl; [|eapply sd_node; eauto].
           destruct (c_rule c) eqn:R; [eapply sd_rule_throw; eauto|eapply sd_rule; eauto].
    + eapply sd_stale; eauto. rewrite B. now left.
    + eapply sd_stale; eauto. rewrite B. now right.
  - destruct (ctl s) as [d| | |] eqn:C; try discriminate.
    destruct (leaves s) eqn:L.
    + injection H as <-. apply sd_end; auto.
    + destruct (avail s) eqn:A; [|discriminate]. injection H as <-. apply sd_end; auto.
  - assert (C : ctl s = CWait \/ exists d, ctl s = CSched d) by (destruct (ctl s); try discriminate; eauto).
    assert (X : exists jb k canceled, In jb (procs s) /\ jph jb = Running k canceled
       /\ s' = cmd_finished cf jb k canceled ok s).
    { destruct (ctl s); try discriminate;
      destruct (find_job j (procs s)) as [jb|] eqn:F; try discriminate; destruct (jph jb) eqn:P; try discriminate;
      apply find_job_In in F; exists jb, i, canceled; (split; [tauto|]; split; [exact P|congruence]). }
    destruct X as (jb & k & canceled & F & P & ->). apply sd_cmd; auto.
  - destruct (ctl s) eqn:C; try discriminate.
    destruct (find_job j (procs s)) as [jb|] eqn:F; try discriminate. destruct (jph jb) eqn:P; try discriminate.
    injection H as <-. apply find_job_In in F. apply sd_slot; tauto.
  - destruct (ctl s) eqn:C; try discriminate. destruct (est s) eqn:E; try discriminate. injection H as <-.
    apply sd_tick; auto.
Qed.

(** *** the log only grows *)
Definition grows (P : event -> Prop) (s s' : state) : Prop :=
  exists l, log s' = l ++ log s /\ Forall P l.

Lemma grows_refl P s s' : log s' = log s -> grows P s s'.
Proof. intros E. exists []. split; auto. Qed.
Lemma grows_one (P : event -> Prop) e s s' : log s' = e :: log s -> P e -> grows P s s'.
Proof. intros E H. exists [e]. split; auto. Qed.
Lemma grows_trans P a b c : grows P a b -> grows P b c -> grows P a c.
Proof.
  intros (l1 & E1 & F1) (l2 & E2 & F2). exists (l2 ++ l1). rewrite E2, E1, app_assoc. split; auto.
  apply Forall_app. auto.
Qed.
Lemma grows_weaken (P Q : event -> Prop) s s' : (forall e, P e -> Q e) -> grows P s s' -> grows Q s s'.
Proof. intros H (l & E & F). exists l. split; auto. eapply Forall_impl; eauto. Qed.

Definition quiet (e : event) : Prop := ~ starting e.

Lemma cancel_jobs_grows s : grows quiet s (cancel_jobs s).
Proof.
  destruct (cancel_jobs_misc s) as (_&_&_&_&_&_&_&_&[E|E]); [now apply grows_refl|].
  eapply grows_one; eauto. intros [].
Qed.
Lemma finish_grows cf s : grows quiet s (finish cf s).
Proof.
  destruct (finish_fields cf s) as (_&_&_&_&_&_&_&_&_&_&E). eapply grows_one; eauto. intros [].
Qed.
Lemma handle_error_grows cf e s : grows quiet s (handle_error cf e s).
Proof.
  unfold handle_error. cbv zeta. destruct (procs _).
  - apply (grows_trans _ _ (set_errs (errs s ++ [e]) s)); [now apply grows_refl|]. apply finish_grows.
  - apply (grows_trans _ _ (set_errs (errs s ++ [e]) s)); [now apply grows_refl|].
    destruct (cancel_jobs_grows (set_errs (errs s ++ [e]) s)) as (l0 & E & F). exists l0. auto.
Qed.
Lemma finish_node_grows n s : grows quiet s (finish_node n s).
Proof. apply grows_refl. apply (fr_log _ _ (fn_frame _ _ _ (finish_node_ok n s))). Qed.
Lemma finish_transformer_grows inst t s s' th : finish_transformer inst t s = (s', th) -> grows quiet s s'.
Proof. intros H. apply grows_refl. apply finish_outputs_frame in H. apply (fr_log _ _ H). Qed.

Lemma slot_tail_grows cf (b cancel : bool) s4 : grows quiet s4
   (let s := if b then cancel_jobs s4 else s4 in
    let s := match est s with
             | ERunning => if cancel then cancel_jobs (set_expl true s) else s
             | _ => s
             end in
    match est s with
    | ECanceling => match procs s with [] => finish cf s | _ :: _ => set_ctl CWait s end
    | _ => set_ctl (CSched []) s
    end).
Proof.
  cbv zeta. set (s1 := if b then cancel_jobs s4 else s4).
  assert (G1 : grows quiet s4 s1) by (unfold s1; destruct b; [apply cancel_jobs_grows|now apply grows_refl]).
  set (s2 := match est s1 with ERunning => _ | _ => _ end).
  assert (G2 : grows quiet s4 s2).
  { unfold s2. destruct (est s1); auto. destruct cancel; auto.
    eapply grows_trans; [exact G1|].
    destruct (cancel_jobs_grows (set_expl true s1)) as (l & E & F). exists l. auto. }
  destruct (est s2).
  - eapply grows_trans; [exact G2|]. now apply grows_refl.
  - eapply grows_trans; [exact G2|]. now apply grows_refl.
  - destruct (procs s2).
    + eapply grows_trans; [exact G2|]. apply finish_grows.
    + eapply grows_trans; [exact G2|]. now apply grows_refl.
Qed.

Lemma job_slot_grows cf jb ok cancel throw inst s : grows quiet s (job_slot cf jb ok cancel throw inst s).
Proof.
  unfold job_slot. cbv zeta.
  set (sa := if negb ok && negb (cf_keepgoing cf) then _ else s).
  assert (Ga : log sa = log s).
  { unfold sa. destruct (negb ok && negb (cf_keepgoing cf)); auto. destruct (errs s); auto. }
  set (sb := set_jobs _ _ _ sa). set (sc := say _ sb).
  assert (Gc : grows quiet s sc).
  { eapply grows_one; [cbn [sc log say sb set_jobs]; rewrite Ga; reflexivity|]. destruct ok; intros []. }
  match goal with |- grows _ _ (let '(_, _) := ?p in _) => destruct p as [s4 th] eqn:Ef end.
  assert (G4 : grows quiet s s4).
  { destruct ok; [destruct throw|].
    - injection Ef as <- _. exact Gc.
    - eapply grows_trans; [exact Gc|]. eapply finish_transformer_grows; eauto.
    - injection Ef as <- _. exact Gc. }
  destruct th; (eapply grows_trans; [exact G4|]).
  - apply handle_error_grows.
  - apply (slot_tail_grows cf (negb ok && negb (cf_keepgoing cf)) cancel s4).
Qed.

Lemma sched_end_cases cf d s : let s1 := set_leaves (d ++ leaves s) s in
  (d ++ leaves s = [] /\ procs s = [] /\ sched_end cf d s = finish cf s1)
  \/ ((d ++ leaves s <> [] \/ procs s <> []) /\ sched_end cf d s = set_ctl CWait s1).
Proof.
  cbv zeta. unfold sched_end. cbv zeta. cbn [leaves procs set_leaves].
  destruct (d ++ leaves s), (procs s); [left|right|right|right]; repeat split; auto;
    (left; discriminate) || (right; discriminate).
Qed.

(** What gets started in a step. *)
Lemma step_events cf s i s' : Inv cf s -> ok_input cf s i -> stepd cf s i s' ->
  grows quiet s s'
  \/ (exists k c n d t, i = ILeaf k c /\ ctl s = CSched d /\ nth_error (leaves s) k = Some n /\ avail s <> []
        /\ bst s n = Buildable /\ gkind (gr s) n = KGen t /\ in_build cf (gr s) n = true
        /\ blocked cf (take k s) n = false /\ gr s' = gr s
        /\ log s' = (match cf_ncmds cf t with O => [] | S _ => [EvCmd t 0] end) ++ EvRun t :: log s)
  \/ (exists k c n d, i = ILeaf k c /\ ctl s = CSched d /\ nth_error (leaves s) k = Some n
        /\ bst s n = Buildable /\ gkind (gr s) n = KRule
        /\ exists l, log s' = l ++ EvApply n :: log s /\ Forall quiet l)
  \/ (exists jb k, In jb (procs s) /\ jph jb = Running k false
        /\ (ctl s = CWait \/ exists d, ctl s = CSched d)
        /\ log s' = EvCmd (jtr jb) (S k) :: log s).
Proof.
  intros HI Hi H. destruct H as [k c n d C Hk A B|k c n d C Hk A B Bl|k c n d C Hk A B K|k c n d C Hk A B K T
    |k c n d C Hk A B K R|k c n d g cr inv C Hk A B K R IB|k c n d t s' C Hk A B K IB F|k c n d t s' C Hk A B K IB F
    |k c n d t C Hk A B K IB Bl RO|d C HL|j ok jb k canceled C Hj Hp|j cancel throw inst jb ok C Hj Hp|C E].
  - left. now apply grows_refl.
  - left. now apply grows_refl.
  - left. eapply grows_trans; [|apply finish_node_grows]. now apply grows_refl.
  - left. eapply grows_trans; [|apply handle_error_grows]. now apply grows_refl.
  - right. right. left. exists k, c, n, d. refine (conj eq_refl (conj C (conj Hk (conj B (conj K _))))).
    destruct (handle_error_grows cf (EException n) (say (EvApply n) (take k s))) as (l & E & F). eauto.
  - right. right. left. exists k, c, n, d. refine (conj eq_refl (conj C (conj Hk (conj B (conj K _))))).
    exists []. split; auto.
    rewrite (fr_log _ _ (fn_frame _ _ _ (finish_node_ok n _))).
    destruct (update_leaves_spec inv (update_leaves cr (adopt g (say (EvApply n) (take k s))))) as [x U].
    rewrite (fr_log _ _ (ul_frame _ _ _ _ U)).
    destruct (update_leaves_spec cr (adopt g (say (EvApply n) (take k s)))) as [y V].
    rewrite (fr_log _ _ (ul_frame _ _ _ _ V)). reflexivity.
  - left. eapply grows_trans; [|eapply finish_transformer_grows; eauto].
    eapply grows_one; [reflexivity|]. intros [].
  - left. eapply grows_trans; [|apply handle_error_grows].
    eapply grows_trans; [|eapply finish_transformer_grows; eauto].
    eapply grows_one; [reflexivity|]. intros [].
  - right. left. exists k, c, n, d, t.
    refine (conj eq_refl (conj C (conj Hk (conj A (conj B (conj K (conj IB (conj Bl _)))))))).
    destruct (run_transformer_eq cf (take k s) t A) as (j & rest & _ & E). rewrite E. split; reflexivity.
  - left. destruct (sched_end_cases cf d s) as [(_ & _ & ->)|(_ & ->)]; [|now apply grows_refl].
    eapply grows_trans; [|apply finish_grows]. now apply grows_refl.
  - unfold cmd_finished. destruct canceled; [left; now apply grows_refl|].
    destruct ok; simpl; [|left; now apply grows_refl].
    destruct (S k <? cf_ncmds cf (jtr jb)); [|left; now apply grows_refl].
    right. right. right. exists jb, k. auto.
  - left. apply job_slot_grows.
  - left. apply cancel_jobs_grows.
Qed.

Lemma step_grows cf s i s' : Inv cf s -> ok_input cf s i -> step cf s i = Some s' -> exists l, log s' = l ++ log s.
Proof.
  intros HI Hi H. apply step_stepd in H; auto. apply step_events in H; auto.
  destruct H as [(l & E & _)|[(k & c & n & d & t & _ & _ & _ & _ & _ & _ & _ & _ & _ & E)
    |[(k & c & n & d & _ & _ & _ & _ & _ & l & E & _)|(jb & k & _ & _ & _ & E)]]]; eauto.
  - rewrite E. eexists (_ ++ [EvRun t]). rewrite <- app_assoc. reflexivity.
  - exists (l ++ [EvApply n]). rewrite <- app_assoc. exact E.
  - exists [EvCmd (jtr jb) (S k)]. exact E.
Qed.

Lemma steps_Inv cf s s' : wf_config cf -> Inv cf s -> steps cf s s' -> Inv cf s'.
Proof. intros WC HI H. induction H; auto. apply IHsteps. eapply step_Inv; eauto. Qed.

Lemma steps_grows cf s s' : wf_config cf -> Inv cf s -> steps cf s s' -> exists l, log s' = l ++ log s.
Proof.
  intros WC HI H. induction H as [s|s i s1 s2 Hi H Hs IH]; [exists []; auto|].
  destruct (step_grows cf s i s1 HI Hi H) as [l1 E1].
  destruct IH as [l2 E2]; [eapply step_Inv; eauto|]. exists (l2 ++ l1). rewrite E2, E1, app_assoc. auto.
Qed.

(** *** Built nodes stay Built *)
Definition keeps (s s' : state) : Prop := forall n, bst s n = Built -> bst s' n = Built.
Lemma keeps_refl s s' : bst s' = bst s -> keeps s s'.
Proof. intros E n H. now rewrite E. Qed.
Lemma keeps_trans a b c : keeps a b -> keeps b c -> keeps a c.
Proof. intros H1 H2 n H. auto. Qed.
Lemma finish_node_keeps n s : keeps s (finish_node n s).
Proof.
  intros m H. rewrite (fn_bst _ _ _ (finish_node_ok n s)). unfold upd. destruct (m =? n); auto.
Qed.
Lemma finish_outputs_keeps inst l : forall s s' th, finish_outputs inst l s = (s', th) -> keeps s s'.
Proof.
  induction l as [|x l IH]; intros s s' th; simpl.
  - intros [= <- _]. now apply keeps_refl.
  - destruct (inst x); [intros [= <- _]; now apply keeps_refl|]. intros H. apply IH in H.
    eapply keeps_trans; [apply finish_node_keeps|exact H].
Qed.
Lemma cancel_jobs_bst s : bst (cancel_jobs s) = bst s /\ gr (cancel_jobs s) = gr s.
Proof. destruct (cancel_jobs_misc s) as (A & B & _). auto. Qed.
Lemma handle_error_bst cf e s : bst (handle_error cf e s) = bst s /\ gr (handle_error cf e s) = gr s.
Proof.
  unfold handle_error. cbv zeta. destruct (procs _).
  - destruct (finish_fields cf (set_errs (errs s ++ [e]) s)) as (A & B & _). auto.
  - destruct (cancel_jobs_bst (set_errs (errs s ++ [e]) s)) as (A & B). auto.
Qed.
Lemma slot_tail_bst cf (b cancel : bool) s4 : let s' :=
   (let s := if b then cancel_jobs s4 else s4 in
    let s := match est s with
             | ERunning => if cancel then cancel_jobs (set_expl true s) else s
             | _ => s
             end in
    match est s with
    | ECanceling => match procs s with [] => finish cf s | _ :: _ => set_ctl CWait s end
    | _ => set_ctl (CSched []) s
    end) in bst s' = bst s4 /\ gr s' = gr s4.
Proof.
  cbv zeta. set (s1 := if b then cancel_jobs s4 else s4).
  assert (G1 : bst s1 = bst s4 /\ gr s1 = gr s4) by (unfold s1; destruct b; [apply cancel_jobs_bst|auto]).
  set (s2 := match est s1 with ERunning => _ | _ => _ end).
  assert (G2 : bst s2 = bst s4 /\ gr s2 = gr s4).
  { unfold s2. destruct (est s1); auto. destruct cancel; auto.
    destruct (cancel_jobs_bst (set_expl true s1)) as [-> ->]. exact G1. }
  destruct (est s2); auto. destruct (procs s2); auto.
Qed.

Lemma job_slot_bst cf jb ok cancel throw inst s :
  let s' := job_slot cf jb ok cancel throw inst s in
  gr s' = gr s /\
  ((bst s' = bst s) \/ (exists sc s4 th, bst sc = bst s /\ gr sc = gr s /\ bst s' = bst s4
     /\ finish_transformer inst (jtr jb) sc = (s4, th))).
Proof.
  unfold job_slot. cbv zeta.
  set (sa := if negb ok && negb (cf_keepgoing cf) then _ else s).
  assert (Ga : bst sa = bst s /\ gr sa = gr s).
  { unfold sa. destruct (negb ok && negb (cf_keepgoing cf)); auto. destruct (errs s); auto. }
  set (sb := set_jobs _ _ _ sa). set (sc := say _ sb).
  assert (Gc : bst sc = bst s /\ gr sc = gr s) by exact Ga.
  match goal with |- context [let '(_, _) := ?p in _] => destruct p as [s4 th] eqn:Ef end.
  assert (X : gr s4 = gr s /\ (bst s4 = bst s \/ finish_transformer inst (jtr jb) sc = (s4, th))).
  { destruct ok; [destruct throw|].
    - injection Ef as <- _. tauto.
    - split; auto. pose proof (finish_outputs_frame _ _ _ _ _ Ef) as F. rewrite (fr_gr _ _ F). tauto.
    - injection Ef as <- _. tauto. }
  destruct X as [X1 X2].
  assert (Y : forall s', bst s' = bst s4 -> gr s' = gr s4 -> gr s' = gr s /\ ((bst s' = bst s) \/ (exists sc s4 th, bst sc = bst s /\ gr sc = gr s /\ bst s' = bst s4
     /\ finish_transformer inst (jtr jb) sc = (s4, th)))).
  { intros s' B1 B2. split; [congruence|]. destruct X2 as [X2|X2]; [left; congruence|right].
    exists sc, s4, th. tauto. }
  destruct th.
  - destruct (handle_error_bst cf (EOutput (jtr jb)) s4). apply Y; auto.
  - destruct (slot_tail_bst cf (negb ok && negb (cf_keepgoing cf)) cancel s4). apply Y; auto.
Qed.

Lemma sched_end_bst cf d s : bst (sched_end cf d s) = bst s /\ gr (sched_end cf d s) = gr s.
Proof.
  destruct (sched_end_cases cf d s) as [(_ & _ & ->)|(_ & ->)]; auto.
Qed.
Lemma cmd_finished_bst cf jb k canceled ok s :
  bst (cmd_finished cf jb k canceled ok s) = bst s /\ gr (cmd_finished cf jb k canceled ok s) = gr s.
Proof. unfold cmd_finished. destruct canceled, ok, (S k <? cf_ncmds cf (jtr jb)); auto. Qed.

(** The kind of a Built node does not change. *)
Lemma step_keeps cf s i s' : wf_config cf -> Inv cf s -> ok_input cf s i -> stepd cf s i s' ->
  forall n, bst s n = Built -> bst s' n = Built /\ gkind (gr s') n = gkind (gr s) n.
Proof.
  intros WC HI Hi H. assert (HIt : forall k, Inv cf (take k s)) by (intros; now apply take_Inv).
  destruct H as [k c n d C Hk A B|k c n d C Hk A B Bl|k c n d C Hk A B K|k c n d C Hk A B K T
    |k c n d C Hk A B K R|k c n d g cr inv C Hk A B K R IB|k c n d t s' C Hk A B K IB F|k c n d t s' C Hk A B K IB F
    |k c n d t C Hk A B K IB Bl RO|d C HL|j ok jb k canceled C Hj Hp|j cancel throw inst jb ok C Hj Hp|C E];
    intros m Hm; auto.
  - split; [now apply finish_node_keeps|].
    now rewrite (fr_gr _ _ (fn_frame _ _ _ (finish_node_ok n (take k s)))).
  - destruct (handle_error_bst cf (EException n) (take k s)) as [-> ->]. auto.
  - destruct (handle_error_bst cf (EException n) (say (EvApply n) (take k s))) as [-> ->]. auto.
  - destruct (leaf_facts cf s k n HI Hk) as (Hn & _ & _).
    assert (Had : admissible cf (gr s) (bst s) n g cr inv) by (eapply Hi; eauto).
    assert (Bm : bst (adopt g (say (EvApply n) (take k s))) m = Built).
    { apply (adopt_built cf (take k s) n g (HIt k)). exact Hm. }
    destruct (update_leaves_spec inv (update_leaves cr (adopt g (say (EvApply n) (take k s))))) as [x U].
    destruct (update_leaves_spec cr (adopt g (say (EvApply n) (take k s)))) as [y V].
    set (s2 := update_leaves cr _) in *. set (s3 := update_leaves inv s2) in *.
    assert (B2 : bst s2 m = Built) by (apply (mono_built _ _ m (ul_mono _ _ _ _ V)); exact Bm).
    assert (B3 : bst s3 m = Built) by (apply (mono_built _ _ m (ul_mono _ _ _ _ U)); exact B2).
    split; [now apply finish_node_keeps|].
    rewrite (fr_gr _ _ (fn_frame _ _ _ (finish_node_ok n s3))), (fr_gr _ _ (ul_frame _ _ _ _ U)),
      (fr_gr _ _ (ul_frame _ _ _ _ V)). change (gkind g m = gkind (gr s) m).
    pose proof (g_in _ _ _ (inv_g _ _ HI) m Hm) as Hi1.
    assert (Hi2 : In m (gnodes g)).
    { destruct (in_dec Nat.eq_dec m (gnodes g)) as [X|X]; auto. exfalso.
      destruct (ad_removed _ _ _ _ _ _ _ Had m Hi1 X) as (t & Kt & Nt). apply Nt.
      eapply g_rule; [apply HI|eauto|eauto|now right]. }
    destruct (ad_kind _ _ _ _ _ _ _ Had m Hi1 Hi2) as [X|(t0 & t1 & E0 & R0 & E1 & R1)]; auto.
    exfalso. assert (bst s (cf_rule cf t0) = Built) by (eapply g_rule; [apply HI|eauto|eauto|now right]). congruence.
  - pose proof (finish_outputs_frame _ _ _ _ _ F) as Fr. rewrite (fr_gr _ _ Fr).
    split; auto. eapply finish_outputs_keeps; eauto.
  - destruct (handle_error_bst cf (EException n) s') as [-> ->].
    pose proof (finish_outputs_frame _ _ _ _ _ F) as Fr. rewrite (fr_gr _ _ Fr).
    split; auto. eapply finish_outputs_keeps; eauto.
  - destruct (leaf_facts cf s k n HI Hk) as (Hn & _ & Hb). split.
    + eapply (run_bst_built cf (take k s) n t); eauto.
      unfold in_build in IB. rewrite K in IB. exact IB.
    + destruct (run_transformer_eq cf (take k s) t A) as (j & rest & _ & E). rewrite E. reflexivity.
  - destruct (sched_end_bst cf d s) as [-> ->]. auto.
  - destruct (cmd_finished_bst cf jb k canceled ok s) as [-> ->]. auto.
  - destruct (job_slot_bst cf jb ok cancel throw inst s) as [G X]. cbv zeta in *. rewrite G. split; auto.
    destruct X as [->|(sc & s4 & th & E1 & E2 & -> & F)]; auto.
    eapply finish_outputs_keeps; [exact F|]. congruence.
  - destruct (cancel_jobs_bst s) as [-> ->]. auto.
Qed.

(** A Built node is settled. *)
Lemma built_up_to_date cf s n : Inv cf s -> bst s n = Built -> up_to_date cf s n.
Proof.
  intros HI Hb. pose proof (g_in _ _ _ (inv_g _ _ HI) n Hb) as Hn.
  pose proof (l_done _ _ (inv_l _ _ HI) n Hn Hb) as H. unfold handled, up_to_date in *.
  destruct (gkind (gr s) n) eqn:K; auto. split; auto.
  intros Hbusy. apply in_map_iff in Hbusy. destruct Hbusy as (j & <- & Hj).
  destruct (l_proc _ _ (inv_l _ _ HI) j Hj) as (X & _). rewrite X in Hb; [discriminate|].
  apply In_outs. auto.
Qed.

Lemma built_settled cf s n : wf_config cf -> Inv cf s -> bst s n = Built -> settled cf s n.
Proof.
  intros WC HI Hb. split; [now apply built_up_to_date|].
  intros s' l Hs. revert l. revert HI Hb. induction Hs as [s|s i s1 s2 Hi H Hs IH]; intros HI Hb l El.
  - assert (l = []) by (apply (f_equal (@length event)) in El; rewrite app_length in El; destruct l; auto; simpl in El; lia).
    subst l. auto.
  - pose proof (step_Inv cf s i s1 WC HI Hi H) as HI1.
    destruct (step_grows cf s i s1 HI Hi H) as [l1 E1].
    destruct (steps_grows cf s1 s2 WC HI1 Hs) as [l2 E2].
    assert (L : l = l2 ++ l1).
    { apply (app_inv_tail (log s)). rewrite <- El, E2, E1, app_assoc. auto. }
    pose proof (step_stepd cf s i s1 HI H) as SD.
    destruct (step_keeps cf s i s1 WC HI Hi SD n Hb) as [Hb1 K1].
    destruct (IH HI1 Hb1 l2 E2) as [IH1 IH2]. rewrite K1 in *.
    pose proof (step_events cf s i s1 HI Hi SD) as EV.
    assert (Nq : forall l, Forall quiet l -> forall e, starting e -> ~ In e l).
    { intros l0 F e He X. rewrite Forall_forall in F. exact (F e X He). }
    assert (Sub : forall l0, log s1 = l0 ++ log s -> l0 = l1).
    { intros l0 X. apply (app_inv_tail (log s)). congruence. }
    split.
    + intros t K. rewrite L, in_app_iff. intros [X|X]; [exact (IH1 t K X)|].
      destruct EV as [(l0 & E & F)|[(k & c & n0 & d & t0 & _ & C & Hk & _ & Hbu & Kn & IB & _ & _ & E)
        |[(k & c & n0 & d & _ & _ & _ & _ & _ & l0 & E & F)|(jb & k & Hj & Hp & _ & E)]]].
      * apply Sub in E. subst l0. exact (Nq l1 F (EvRun t) I X).
      * assert (X0 : t = t0).
        { assert (Y : (match cf_ncmds cf t0 with O => [] | S _ => [EvCmd t0 0] end) ++ [EvRun t0] = l1).
          { apply Sub. rewrite E, <- app_assoc. reflexivity. }
          rewrite <- Y in X. apply in_app_or in X. destruct X as [X|[X|[]]]; [|congruence].
          destruct (cf_ncmds cf t0); simpl in X; [tauto|]. destruct X as [X|[]]; discriminate. }
        subst t0. destruct (leaf_facts cf s k n0 HI Hk) as (Hn0 & _ & _).
        assert (RN : est s = ERunning) by (eapply c_sched; [apply HI|eauto]).
        assert (IP : cf_inprod cf (cf_prod cf t) = true) by (unfold in_build in IB; now rewrite Kn in IB).
        assert (Ac : active (bst s n0)).
        { eapply (inv_u _ _ HI RN t n n0 IP).
          - apply In_outs. split; auto. apply (g_in _ _ _ (inv_g _ _ HI)). auto.
          - apply In_outs. auto.
          - now right. }
        rewrite Hbu in Ac. destruct Ac; discriminate.
      * assert (Y : l0 ++ [EvApply n0] = l1) by (apply Sub; rewrite E, <- app_assoc; reflexivity).
        rewrite <- Y in X. apply in_app_or in X. destruct X as [X|[X|[]]]; [|discriminate].
        exact (Nq l0 F (EvRun t) I X).
      * assert (Y : [EvCmd (jtr jb) (S k)] = l1) by (apply Sub; rewrite E; reflexivity).
        rewrite <- Y in X. destruct X as [X|[]]; discriminate.
    + intros K. rewrite L, in_app_iff. intros [X|X]; [exact (IH2 K X)|].
      destruct EV as [(l0 & E & F)|[(k & c & n0 & d & t0 & _ & C & Hk & _ & Hbu & Kn & IB & _ & _ & E)
        |[(k & c & n0 & d & _ & _ & Hk & Hbu & _ & l0 & E & F)|(jb & k & Hj & Hp & _ & E)]]].
      * apply Sub in E. subst l0. exact (Nq l1 F (EvApply n) I X).
      * assert (Y : (match cf_ncmds cf t0 with O => [] | S _ => [EvCmd t0 0] end) ++ [EvRun t0] = l1).
        { apply Sub. rewrite E, <- app_assoc. reflexivity. }
        rewrite <- Y in X. apply in_app_or in X. destruct X as [X|[X|[]]]; [|discriminate].
        destruct (cf_ncmds cf t0); simpl in X; [tauto|]. destruct X as [X|[]]; discriminate.
      * assert (Y : l0 ++ [EvApply n0] = l1) by (apply Sub; rewrite E, <- app_assoc; reflexivity).
        rewrite <- Y in X. apply in_app_or in X. destruct X as [X|[X|[]]].
        -- exact (Nq l0 F (EvApply n) I X).
        -- congruence.
      * assert (Y : [EvCmd (jtr jb) (S k)] = l1) by (apply Sub; rewrite E; reflexivity).
        rewrite <- Y in X. destruct X as [X|[]]; discriminate.
Qed.

(** *** outputs of one transformer with equal dependencies *)
Definition SInv (s : state) : Prop := forall n, In n (gnodes (gr s)) -> gkind (gr s) n <> KRule ->
  active (bst s n) -> children_built s n.

Lemma SInv_grow s s' : SInv s -> gr s' = gr s -> keeps s s' ->
  (forall m, In m (gnodes (gr s)) -> gkind (gr s) m <> KRule -> active (bst s' m) ->
     active (bst s m) \/ children_built s m) -> SInv s'.
Proof.
  intros S G K H n Hn Kn Ha c Hc. rewrite G in *. apply K.
  destruct (H n Hn Kn Ha) as [X|X]; auto. now apply (S n Hn Kn X).
Qed.

Lemma finish_outputs_active inst l : forall s s' th, finish_outputs inst l s = (s', th) ->
  forall m, active (bst s' m) -> active (bst s m) \/ In m l.
Proof.
  induction l as [|x l IH]; intros s s' th; simpl.
  - intros [= <- _]; auto.
  - destruct (inst x); [intros [= <- _]; auto|]. intros H m Ha. destruct (IH _ _ _ H m Ha) as [X|X]; auto.
    rewrite (fn_bst _ _ _ (finish_node_ok x s)) in X. destruct (Nat.eq_dec m x) as [->|Hm]; auto.
    rewrite upd_other in X by auto. auto.
Qed.

Lemma step_SInv cf s i s' : wf_config cf -> Inv cf s -> ok_input cf s i -> stepd cf s i s' ->
  siblings_agree (gr s) -> SInv s -> SInv s'.
Proof.
  intros WC HI Hi H SA S. pose proof (step_keeps cf s i s' WC HI Hi H) as KP.
  assert (KS : keeps s s') by (intros n Hn; apply (KP n Hn)). clear KP.
  destruct H as [k c n d C Hk A B|k c n d C Hk A B Bl|k c n d C Hk A B K|k c n d C Hk A B K T
    |k c n d C Hk A B K R|k c n d g cr inv C Hk A B K R IB|k c n d t s' C Hk A B K IB F|k c n d t s' C Hk A B K IB F
    |k c n d t C Hk A B K IB Bl RO|d C HL|j ok jb k canceled C Hj Hp|j cancel throw inst jb ok C Hj Hp|C E];
    try (destruct (leaf_facts cf s k n HI Hk) as (Hn & _ & Hcb)).
  - exact S.
  - exact S.
  - pose proof (finish_node_ok n (take k s)) as FO.
    apply (SInv_grow s); auto; [apply (fr_gr _ _ (fn_frame _ _ _ FO))|].
    intros m Hm Km Ha. rewrite (fn_bst _ _ _ FO) in Ha. destruct (Nat.eq_dec m n) as [->|E]; auto.
    rewrite upd_other in Ha by auto. auto.
  - destruct (handle_error_bst cf (EException n) (take k s)) as [E1 E2].
    apply (SInv_grow s); auto. intros m _ _. rewrite E1. auto.
  - destruct (handle_error_bst cf (EException n) (say (EvApply n) (take k s))) as [E1 E2].
    apply (SInv_grow s); auto. intros m _ _. rewrite E1. auto.
  - assert (Had : admissible cf (gr s) (bst s) n g cr inv) by (eapply Hi; eauto).
    destruct (update_leaves_spec inv (update_leaves cr (adopt g (say (EvApply n) (take k s))))) as [x U].
    destruct (update_leaves_spec cr (adopt g (say (EvApply n) (take k s)))) as [y V].
    set (s1 := adopt g (say (EvApply n) (take k s))) in *.
    set (s2 := update_leaves cr s1) in *. set (s3 := update_leaves inv s2) in *.
    pose proof (finish_node_ok n s3) as FO.
    assert (G3 : gr (finish_node n s3) = g).
    { rewrite (fr_gr _ _ (fn_frame _ _ _ FO)), (fr_gr _ _ (ul_frame _ _ _ _ U)), (fr_gr _ _ (ul_frame _ _ _ _ V)). reflexivity. }
    assert (Kn : gkind g n = KRule).
    { destruct (ad_self _ _ _ _ _ _ _ Had) as [Sf _].
      destruct (ad_kind _ _ _ _ _ _ _ Had n Hn Sf) as [E|(t0 & t1 & E0 & _)]; congruence. }
    intros m Hm Km Ha c0 Hc0. rewrite G3 in *.
    assert (Hmn : m <> n) by (intros ->; contradiction).
    rewrite (fn_bst _ _ _ FO), upd_other in Ha by auto.
    apply (mono_active _ _ m (ul_mono _ _ _ _ U)), (mono_active _ _ m (ul_mono _ _ _ _ V)) in Ha.
    assert (Hi1 : In m (gnodes (gr s))).
    { destruct (in_dec Nat.eq_dec m (gnodes (gr s))) as [X|X]; auto. exfalso.
      unfold s1, adopt in Ha. cbn [bst set_gr set_bst gr say take set_leaves] in Ha.
      apply mem_notIn in X. rewrite X in Ha. destruct Ha; discriminate. }
    assert (E1 : bst s1 m = bst s m) by (apply (adopt_old (take k s) n g m); exact Hi1).
    rewrite E1 in Ha.
    assert (Km1 : gkind (gr s) m <> KRule).
    { destruct (ad_kind _ _ _ _ _ _ _ Had m Hi1 Hm) as [X|(t0 & t1 & X & _)]; congruence. }
    apply KS. apply (S m Hi1 Km1 Ha). apply (ad_edges _ _ _ _ _ _ _ Had m c0); auto.
    intros X. specialize (S m Hi1 Km1 Ha n X). congruence.
  - pose proof (finish_outputs_frame _ _ _ _ _ F) as Fr.
    apply (SInv_grow s); auto; [apply (fr_gr _ _ Fr)|].
    intros m Hm Km Ha. destruct (finish_outputs_active _ _ _ _ _ F m Ha) as [X|X]; auto.
    right. intros c0 Hc0. apply (Hcb B). apply (SA t m n); auto. apply In_outs; auto.
  - destruct (handle_error_bst cf (EException n) s') as [E1 E2].
    pose proof (finish_outputs_frame _ _ _ _ _ F) as Fr.
    apply (SInv_grow s); auto; [rewrite E2; apply (fr_gr _ _ Fr)|].
    intros m Hm Km Ha. rewrite E1 in Ha. destruct (finish_outputs_active _ _ _ _ _ F m Ha) as [X|X]; auto.
    right. intros c0 Hc0. apply (Hcb B). apply (SA t m n); auto. apply In_outs; auto.
  - destruct (run_transformer_eq cf (take k s) t A) as (j & rest & _ & E).
    apply (SInv_grow s); auto; [rewrite E; reflexivity|].
    intros m Hm Km Ha. rewrite E in Ha. cbn [bst gr take set_leaves] in Ha.
    destruct (mem m (outs (gr s) t)) eqn:M; auto. apply mem_In in M.
    right. intros c0 Hc0. apply (Hcb B). apply (SA t m n); auto. apply In_outs; auto.
  - destruct (sched_end_bst cf d s) as [E1 E2]. apply (SInv_grow s); auto. intros m _ _. rewrite E1. auto.
  - destruct (cmd_finished_bst cf jb k canceled ok s) as [E1 E2]. apply (SInv_grow s); auto. intros m _ _. rewrite E1. auto.
  - destruct (job_slot_bst cf jb ok cancel throw inst s) as [G X]. cbv zeta in *.
    apply (SInv_grow s); auto. intros m _ _ Ha. left.
    destruct X as [X|(sc & s4 & th & E1 & E2 & E3 & F)]; [now rewrite X in Ha|].
    rewrite E3 in Ha. destruct (finish_outputs_active _ _ _ _ _ F m Ha) as [X|X]; [congruence|].
    rewrite E2 in X. left. apply (l_proc _ _ (inv_l _ _ HI) jb Hj). exact X.
  - destruct (cancel_jobs_bst s) as [E1 E2]. apply (SInv_grow s); auto. intros m _ _. rewrite E1. auto.
Qed.

Lemma init_inactive cf g n : ~ active (bst (init cf g) n).
Proof.
  unfold init. destruct (update_leaves_spec (groots g)
    {| gr := g; bst := prepare_reachable g; leaves := []; avail := seq 0 (cf_maxjobs cf);
       procs := []; cnt := fun _ => 0%Z; est := ERunning; errs := []; expl := false;
       ctl := CSched []; log := [] |}) as [x U].
  intros Ha. apply (mono_active _ _ n (ul_mono _ _ _ _ U)) in Ha. cbn [bst] in Ha.
  destruct (prepare_range g n) as [E|E]; rewrite E in Ha; destruct Ha; discriminate.
Qed.

Lemma reachable_in_reachable P cf g s : reachable_in P cf g s -> reachable cf g s /\ P (gr s).
Proof.
  intros H. induction H as [H|s i s' H IH Hi Hs Hp].
  - split; [constructor|]. unfold init. destruct (update_leaves_spec (groots g)
    {| gr := g; bst := prepare_reachable g; leaves := []; avail := seq 0 (cf_maxjobs cf);
       procs := []; cnt := fun _ => 0%Z; est := ERunning; errs := []; expl := false;
       ctl := CSched []; log := [] |}) as [x U]. now rewrite (fr_gr _ _ (ul_frame _ _ _ _ U)).
  - split; auto. econstructor; eauto. tauto.
Qed.

Lemma reachable_SInv cf g s : wf_config cf -> wf_graph cf g -> reachable_in siblings_agree cf g s -> SInv s.
Proof.
  intros WC WF H. induction H as [H|s i s' H IH Hi Hs Hp].
  - intros n _ _ Ha. now apply init_inactive in Ha.
  - apply reachable_in_reachable in H. destruct H as [H SA].
    pose proof (reachable_Inv cf g s WC WF H) as HI.
    eapply step_SInv; eauto. now apply step_stepd.
Qed.

(** *** what starts and when *)
Lemma new_run cf s i s' l t : Inv cf s -> ok_input cf s i -> step cf s i = Some s' ->
  log s' = l ++ log s -> In (EvRun t) l ->
  exists k n, nth_error (leaves s) k = Some n /\ In n (outs (gr s) t) /\ bst s n = Buildable
    /\ gr s' = gr s /\ cf_inprod cf (cf_prod cf t) = true /\ est s = ERunning.
Proof.
  intros HI Hi H El X. apply step_stepd in H; auto.
  pose proof (step_events cf s i s' HI Hi H) as EV.
  assert (Sub : forall l0, log s' = l0 ++ log s -> l0 = l).
  { intros l0 Y. apply (app_inv_tail (log s)). congruence. }
  assert (Nq : forall l, Forall quiet l -> ~ In (EvRun t) l).
  { intros l0 F Y. rewrite Forall_forall in F. exact (F _ Y I). }
  destruct EV as [(l0 & E & F)|[(k & c & n0 & d & t0 & _ & C & Hk & _ & Hbu & Kn & IB & _ & G & E)
    |[(k & c & n0 & d & _ & _ & _ & _ & _ & l0 & E & F)|(jb & k & Hj & Hp & _ & E)]]].
  - apply Sub in E. subst l0. exfalso. eapply Nq; eauto.
  - assert (X0 : t = t0).
    { assert (Y : (match cf_ncmds cf t0 with O => [] | S _ => [EvCmd t0 0] end) ++ [EvRun t0] = l).
      { apply Sub. rewrite E, <- app_assoc. reflexivity. }
      rewrite <- Y in X. apply in_app_or in X. destruct X as [X|[X|[]]]; [|congruence].
      destruct (cf_ncmds cf t0); simpl in X; [tauto|]. destruct X as [X|[]]; discriminate. }
    subst t0. destruct (leaf_facts cf s k n0 HI Hk) as (Hn0 & _ & _).
    exists k, n0. refine (conj Hk (conj _ (conj Hbu (conj G (conj _ _))))).
    + apply In_outs; auto.
    + unfold in_build in IB. now rewrite Kn in IB.
    + eapply c_sched; [apply HI|eauto].
  - assert (Y : l0 ++ [EvApply n0] = l) by (apply Sub; rewrite E, <- app_assoc; reflexivity).
    rewrite <- Y in X. apply in_app_or in X. exfalso. destruct X as [X|[X|[]]]; [|discriminate]. eapply Nq; eauto.
  - assert (Y : [EvCmd (jtr jb) (S k)] = l) by (apply Sub; rewrite E; reflexivity).
    rewrite <- Y in X. destruct X as [X|[]]; discriminate.
Qed.

Lemma new_apply cf s i s' l r : Inv cf s -> ok_input cf s i -> step cf s i = Some s' ->
  log s' = l ++ log s -> In (EvApply r) l ->
  In r (gnodes (gr s)) /\ gkind (gr s) r = KRule /\ bst s r = Buildable /\ children_built s r.
Proof.
  intros HI Hi H El X. apply step_stepd in H; auto.
  pose proof (step_events cf s i s' HI Hi H) as EV.
  assert (Sub : forall l0, log s' = l0 ++ log s -> l0 = l).
  { intros l0 Y. apply (app_inv_tail (log s)). congruence. }
  assert (Nq : forall l, Forall quiet l -> ~ In (EvApply r) l).
  { intros l0 F Y. rewrite Forall_forall in F. exact (F _ Y I). }
  destruct EV as [(l0 & E & F)|[(k & c & n0 & d & t0 & _ & C & Hk & _ & Hbu & Kn & IB & _ & G & E)
    |[(k & c & n0 & d & _ & _ & Hk & Hbu & Kn & l0 & E & F)|(jb & k & Hj & Hp & _ & E)]]].
  - apply Sub in E. subst l0. exfalso. eapply Nq; eauto.
  - exfalso. assert (Y : (match cf_ncmds cf t0 with O => [] | S _ => [EvCmd t0 0] end) ++ [EvRun t0] = l).
    { apply Sub. rewrite E, <- app_assoc. reflexivity. }
    rewrite <- Y in X. apply in_app_or in X. destruct X as [X|[X|[]]]; [|congruence].
    destruct (cf_ncmds cf t0); simpl in X; [tauto|]. destruct X as [X|[]]; discriminate.
  - assert (Y : l0 ++ [EvApply n0] = l) by (apply Sub; rewrite E, <- app_assoc; reflexivity).
    rewrite <- Y in X. apply in_app_or in X. destruct X as [X|[X|[]]]; [exfalso; eapply Nq; eauto|].
    injection X as ->. destruct (leaf_facts cf s k r HI Hk) as (Hn0 & _ & Hcb). auto.
  - assert (Y : [EvCmd (jtr jb) (S k)] = l) by (apply Sub; rewrite E; reflexivity).
    rewrite <- Y in X. destruct X as [X|[]]; discriminate.
Qed.

Lemma handle_error_est cf e s : est (handle_error cf e s) <> ERunning.
Proof.
  unfold handle_error. cbv zeta. set (s1 := set_errs _ s). destruct (procs s1).
  - destruct (finish_fields cf s1) as (_ & _ & _ & _ & _ & _ & -> & _). discriminate.
  - cbn [est set_ctl]. rewrite cancel_jobs_est. discriminate.
Qed.

(** Once the executor is cancelling nothing starts. *)
Lemma stopped_step cf s i s' : Inv cf s -> ok_input cf s i -> step cf s i = Some s' -> est s <> ERunning ->
  grows quiet s s' /\ est s' <> ERunning.
Proof.
  intros HI Hi H NR. apply step_stepd in H; auto. pose proof (inv_c _ _ HI) as HC.
  assert (NS : forall d, ctl s <> CSched d) by (intros d C; apply NR; eapply c_sched; eauto).
  split.
  - destruct (step_events cf s i s' HI Hi H) as [G|[(k & c & n0 & d & t0 & _ & C & _)
    |[(k & c & n0 & d & _ & C & _)|(jb & k & Hj & Hp & C & E)]]]; auto; try (exfalso; eapply NS; eauto; fail).
    exfalso. destruct C as [C|[d C]]; [|eapply NS; eauto].
    destruct (c_wait _ _ HC C) as [NI _]. destruct (est s) eqn:Es; try congruence.
    pose proof (c_canc _ _ HC Es jb k false Hj Hp). discriminate.
  - destruct H as [k c n d C Hk A B|k c n d C Hk A B Bl|k c n d C Hk A B K|k c n d C Hk A B K T
    |k c n d C Hk A B K R|k c n d g cr inv C Hk A B K R IB|k c n d t s' C Hk A B K IB F|k c n d t s' C Hk A B K IB F
    |k c n d t C Hk A B K IB Bl RO|d C HL|j ok jb k canceled C Hj Hp|j cancel throw inst jb ok C Hj Hp|C E];
    try (exfalso; eapply NS; eauto; fail).
    + unfold cmd_finished. destruct canceled, ok, (S k <? cf_ncmds cf (jtr jb)); auto.
    + destruct (c_wait _ _ HC C) as [NI _]. destruct (est s) eqn:Es; try congruence.
      unfold job_slot. cbv zeta.
      set (sa := if negb ok && negb (cf_keepgoing cf) then _ else s).
      assert (Ga : est sa = ECanceling).
      { unfold sa. destruct (negb ok && negb (cf_keepgoing cf)); auto. destruct (errs s); auto. }
      set (sb := set_jobs _ _ _ sa). set (sc := say _ sb).
      match goal with |- context [let '(_, _) := ?p in _] => destruct p as [s4 th] eqn:Ef end.
      assert (G4 : est s4 = ECanceling).
      { destruct ok; [destruct throw|].
        - injection Ef as <- _. exact Ga.
        - apply finish_outputs_frame in Ef. rewrite (fr_est _ _ Ef). exact Ga.
        - injection Ef as <- _. exact Ga. }
      destruct th.
      * apply handle_error_est.
      * set (s5 := if negb ok && negb (cf_keepgoing cf) then cancel_jobs s4 else s4).
        assert (G5 : est s5 = ECanceling) by (unfold s5; destruct (_ && _); [apply cancel_jobs_est|auto]).
        rewrite G5, G5. destruct (procs s5); [|simpl; congruence].
        destruct (finish_fields cf s5) as (_ & _ & _ & _ & _ & _ & -> & _). discriminate.
    + congruence.
Qed.

Lemma stopped_steps cf s s' : wf_config cf -> Inv cf s -> est s <> ERunning -> steps cf s s' ->
  exists l, log s' = l ++ log s /\ forall e, In e l -> ~ starting e.
Proof.
  intros WC HI NR H. induction H as [s|s i s1 s2 Hi H Hs IH]; [exists []; auto|].
  destruct (stopped_step cf s i s1 HI Hi H NR) as [(l1 & E1 & F1) NR1].
  destruct IH as (l2 & E2 & F2); auto; [eapply step_Inv; eauto|].
  exists (l2 ++ l1). rewrite E2, E1, app_assoc. split; auto. intros e He. apply in_app_or in He.
  rewrite Forall_forall in F1. destruct He; auto. now apply F1.
Qed.
