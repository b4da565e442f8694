(** Facts about the order of events in the log. *)
From Coq Require Import List Bool Arith ZArith Lia Permutation.
From Verif Require Import ExecutorModel ExecutorSpec ExecutorBase ExecutorInv ExecutorSteps ExecutorSafety ExecutorLive.
Import ListNotations.

Lemma split_app {A} (l l0 l2 l1 : list A) e : l ++ l0 = l2 ++ e :: l1 ->
  (exists x, l0 = x ++ e :: l1 /\ l2 = l ++ x) \/ (exists y, l = l2 ++ e :: y /\ l1 = y ++ l0).
Proof.
  revert l2. induction l as [|a l IH]; intros l2 H; simpl in H.
  - left. exists l2. auto.
  - destruct l2 as [|b l2]; simpl in H; injection H as -> H.
    + right. exists l. subst. auto.
    + destruct (IH l2 H) as [(x & E1 & E2)|(y & E1 & E2)]; subst; [left; exists x; auto|right; exists y; auto].
Qed.

(** What a step adds, in order. *)
Lemma step_adds cf s i s' : Inv cf s -> ok_input cf s i -> step cf s i = Some s' ->
  exists l, log s' = l ++ log s /\
   (Forall quiet l
    \/ (exists t, (l = [EvRun t] /\ cf_ncmds cf t = 0) \/ l = [EvCmd t 0; EvRun t])
    \/ (exists r l', l = l' ++ [EvApply r] /\ Forall quiet l')
    \/ (exists t k, l = [EvCmd t (S k)] /\ In (EvCmd t k) (log s))).
Proof.
  intros HI Hi H. apply step_stepd in H; auto.
  destruct (step_events cf s i s' HI Hi H) as [(l & E & F)|[(k & c & n & d & t & _ & _ & _ & _ & _ & _ & _ & _ & _ & E)
    |[(k & c & n & d & _ & _ & _ & _ & _ & l & E & F)|(jb & k & Hj & Hp & _ & E)]]].
  - exists l. auto.
  - exists (match cf_ncmds cf t with O => [] | S _ => [EvCmd t 0] end ++ [EvRun t]). split.
    + rewrite E, <- app_assoc. reflexivity.
    + right. left. exists t. destruct (cf_ncmds cf t); auto.
  - exists (l ++ [EvApply n]). rewrite <- app_assoc. split; auto. right. right. left. eauto.
  - exists [EvCmd (jtr jb) (S k)]. split; auto. right. right. right. exists (jtr jb), k. split; auto.
    pose proof (l_phase _ _ (inv_l _ _ HI) jb Hj) as X. now rewrite Hp in X.
Qed.

(** A command starts after the job of its transformer and after all earlier commands. *)
Lemma cmd_order cf g s t i l2 l1 : wf_config cf -> wf_graph cf g -> reachable cf g s ->
  log s = l2 ++ EvCmd t i :: l1 -> In (EvRun t) l1 /\ forall k, k < i -> In (EvCmd t k) l1.
Proof.
  intros WC WF H. revert l2 l1. induction H as [|s inp s' H IH Hi Hs]; intros l2 l1 E.
  - assert (L : log (init cf g) = []).
    { unfold init. set (s0 := {| gr := g |}). destruct (update_leaves_spec (groots g) s0) as [x U].
      now rewrite (fr_log _ _ (ul_frame _ _ _ _ U)). }
    rewrite L in E. destruct l2; discriminate.
  - pose proof (reachable_Inv cf g s WC WF H) as HI.
    destruct (step_adds cf s inp s' HI Hi Hs) as (l & El & C).
    rewrite El in E. apply split_app in E. destruct E as [(x & E1 & E2)|(y & E1 & E2)]; [eauto|]. subst l1.
    destruct C as [C|[(u & C)|[(r & l' & C & C')|(u & k & C & C')]]].
    + exfalso. rewrite Forall_forall in C. apply (C (EvCmd t i)); [|exact I]. rewrite E1. apply in_or_app. right. now left.
    + destruct C as [[C _]|C]; rewrite C in E1.
      * destruct l2 as [|? [|]]; discriminate.
      * destruct l2 as [|? [|? [|]]]; try discriminate. injection E1 as <- <- <-. split; [now left|]. intros k Hk. lia.
    + exfalso. rewrite C in E1. assert (X : In (EvCmd t i) (l' ++ [EvApply r])) by (rewrite E1; apply in_or_app; right; now left).
      apply in_app_or in X. destruct X as [X|[X|[]]]; [|discriminate]. rewrite Forall_forall in C'. exact (C' _ X I).
    + rewrite C in E1. destruct l2 as [|? [|]]; try discriminate. injection E1 as <- <- <-.
      destruct (l_cmd _ _ (inv_l _ _ HI) u k C') as (A1 & _ & A3 & _). split; auto.
      intros j Hj. destruct (Nat.eq_dec j k) as [->|]; auto. apply A3. lia.
Qed.

(** Success is reported after all commands. *)
Lemma succ_order cf g s t l2 l1 : wf_config cf -> wf_graph cf g -> reachable cf g s ->
  log s = l2 ++ EvSucceeded t :: l1 -> forall k, k < cf_ncmds cf t -> In (EvCmd t k) l1.
Proof.
  intros WC WF H. revert l2 l1. induction H as [|s inp s' H IH Hi Hs]; intros l2 l1 E k Hk.
  - assert (L : log (init cf g) = []).
    { unfold init. set (s0 := {| gr := g |}). destruct (update_leaves_spec (groots g) s0) as [x U].
      now rewrite (fr_log _ _ (ul_frame _ _ _ _ U)). }
    rewrite L in E. destruct l2; discriminate.
  - pose proof (reachable_Inv cf g s WC WF H) as HI.
    pose proof (step_Inv cf s inp s' WC HI Hi Hs) as HI'.
    destruct (step_adds cf s inp s' HI Hi Hs) as (l & El & C).
    pose proof E as E0. rewrite El in E. apply split_app in E. destruct E as [(x & E1 & E2)|(y & E1 & E2)]; [eauto|]. subst l1.
    assert (Q : forall e, In e l -> ~ (exists u j, e = EvCmd u j)).
    { destruct C as [C|[(u & C)|[(r & l' & C & C')|(u & k0 & C & C')]]].
      - rewrite Forall_forall in C. intros e He (u & j & ->). exact (C _ He I).
      - exfalso. destruct C as [[C _]|C]; rewrite C in E1; destruct l2 as [|? [|? [|]]]; discriminate.
      - intros e He (u & j & ->). rewrite C in He. apply in_app_or in He. destruct He as [He|[He|[]]]; [|discriminate].
        rewrite Forall_forall in C'. exact (C' _ He I).
      - exfalso. rewrite C in E1; destruct l2 as [|? [|? [|]]]; discriminate. }
    assert (X : In (EvCmd t k) (log s')).
    { apply (l_succ _ _ (inv_l _ _ HI')); auto. rewrite E0. apply in_or_app. right. now left. }
    rewrite El in X. apply in_app_or in X. destruct X as [X|X].
    + exfalso. apply (Q _ X). eauto.
    + apply in_or_app. auto.
Qed.

(** Events after which nothing must be started any more. *)
Definition stopping (cf : config) (e : event) : Prop :=
  match e with EvCancel | EvFinish _ => True | EvFailed _ => cf_keepgoing cf = false | _ => False end.

Lemma stopping_state cf s e : Inv cf s -> stopping cf e -> In e (log s) -> est s <> ERunning.
Proof.
  intros HI He H. pose proof (inv_c _ _ HI) as HC. destruct e; simpl in He; try contradiction.
  - eapply c_fail; eauto.
  - eapply c_log; eauto.
  - intros Er. assert (X : ctl s <> CFinished) by (intros X; destruct (c_fin _ _ HC X); congruence).
    apply (c_notfin _ _ HC X). eauto.
Qed.

Lemma stop_order cf g s e l2 l1 : wf_config cf -> wf_graph cf g -> reachable cf g s ->
  log s = l2 ++ e :: l1 -> stopping cf e -> forall x, In x l2 -> ~ starting x.
Proof.
  intros WC WF H. revert l2 l1. induction H as [|s inp s' H IH Hi Hs]; intros l2 l1 E He x Hx.
  - assert (L : log (init cf g) = []).
    { unfold init. set (s0 := {| gr := g |}). destruct (update_leaves_spec (groots g) s0) as [y U].
      now rewrite (fr_log _ _ (ul_frame _ _ _ _ U)). }
    rewrite L in E. destruct l2; discriminate.
  - pose proof (reachable_Inv cf g s WC WF H) as HI.
    destruct (step_adds cf s inp s' HI Hi Hs) as (l & El & C).
    rewrite El in E. apply split_app in E. destruct E as [(y & E1 & E2)|(y & E1 & E2)].
    + subst l2. apply in_app_or in Hx. destruct Hx as [Hx|Hx]; [|eauto].
      assert (NR : est s <> ERunning) by (eapply stopping_state; eauto; rewrite E1; apply in_or_app; right; now left).
      destruct (stopped_step cf s inp s' HI Hi Hs NR) as [(l' & El' & F) _].
      assert (l' = l) by (apply (app_inv_tail (log s)); congruence). subst l'.
      rewrite Forall_forall in F. exact (F x Hx).
    + destruct C as [C|[(u & C)|[(r & l' & C & C')|(u & k & C & C')]]].
      * rewrite Forall_forall in C. apply C. rewrite E1. apply in_or_app. auto.
      * exfalso. destruct C as [[C _]|C]; rewrite C in E1.
        -- destruct l2 as [|? [|]]; try discriminate. injection E1 as <- _. exact He.
        -- destruct l2 as [|? [|? [|]]]; try discriminate; [injection E1 as <- _|injection E1 as _ <- _]; exact He.
      * rewrite C in E1. destruct y as [|y0 y] using rev_ind.
        -- apply app_inj_tail in E1. destruct E1 as [_ <-]. destruct He.
        -- clear IHy. replace (l2 ++ e :: y ++ [y0]) with ((l2 ++ e :: y) ++ [y0]) in E1 by (rewrite <- app_assoc; reflexivity).
           apply app_inj_tail in E1. destruct E1 as [E1 _]. rewrite Forall_forall in C'. apply C'.
           rewrite E1. apply in_or_app. auto.
      * exfalso. rewrite C in E1. destruct l2 as [|? [|]]; try discriminate. injection E1 as <- _. exact He.
Qed.

(** The jobs the log shows as running are the processing jobs. *)

Lemma running_busy cf s t : Inv cf s -> (running (log s) t <-> busy s t).
Proof.
  intros HI. pose proof (inv_l _ _ HI) as HL. split.
  - intros (A & B & C). destruct (l_run _ _ HL t A) as (_ & _ & [X|[X|X]]); [exact X|contradiction|contradiction].
  - intros H. apply in_map_iff in H. destruct H as (j & <- & Hj). destruct (l_proc _ _ HL j Hj) as (_ & A & B & C). split; auto.
Qed.

Lemma busy_sublist s (f : nat -> bool) ts : NoDup ts -> (forall t, In t ts -> busy s t /\ f t = true) ->
  length ts <= length (filter (fun j => f (jtr j)) (procs s)).
Proof.
  intros N H. rewrite <- (map_length jtr (filter _ _)). apply NoDup_incl_length; auto.
  intros t Ht. destruct (H t Ht) as [B F]. apply in_map_iff in B. destruct B as (j & <- & Hj).
  apply in_map. apply filter_In. auto.
Qed.

Lemma runs_app l1 l2 : runs (l1 ++ l2) = runs l1 ++ runs l2.
Proof. induction l1 as [|e l IH]; simpl; auto. destruct e; simpl; congruence. Qed.
Lemma cmds_app l1 l2 : cmds (l1 ++ l2) = cmds l1 ++ cmds l2.
Proof. induction l1 as [|e l IH]; simpl; auto. destruct e; simpl; congruence. Qed.
