(** Every step of the executor preserves the safety invariant. *)
From Coq Require Import List Bool Arith ZArith Lia Permutation.
From Verif Require Import ExecutorModel ExecutorSpec ExecutorBase ExecutorInv.
Import ListNotations.

(** *** job counts *)
Lemma add_counts_spec pools d : forall c p, NoDup pools ->
  add_counts pools d c p = (c p + (if mem p pools then d else 0))%Z.
Proof.
  unfold add_counts. induction pools as [|q pools IH]; intros c p ND; simpl.
  - lia.
  - inversion_clear ND as [|? ? Hq ND']. rewrite IH by auto.
    destruct (Nat.eq_dec p q) as [->|Hp].
    + rewrite upd_same, Nat.eqb_refl. simpl.
      apply mem_notIn in Hq. rewrite Hq. lia.
    + rewrite upd_other by auto. apply Nat.eqb_neq in Hp. rewrite Hp. simpl. reflexivity.
Qed.

Lemma find_job_In j l jb : find_job j l = Some jb -> In jb l /\ jid jb = j.
Proof.
  induction l as [|x l IH]; simpl; [discriminate|].
  destruct (jid x =? j) eqn:E.
  - intros [= <-]. apply Nat.eqb_eq in E. auto.
  - intros H. apply IH in H. tauto.
Qed.

Lemma NoDup_map_inj {A B} (f : A -> B) l x y :
  NoDup (map f l) -> In x l -> In y l -> f x = f y -> x = y.
Proof.
  induction l as [|a l IH]; simpl; [tauto|]. intros ND. inversion_clear ND as [|? ? H1 H2].
  intros [<-|Hx] [<-|Hy] E; auto.
  - exfalso. apply H1. rewrite E. now apply in_map.
  - exfalso. apply H1. rewrite <- E. now apply in_map.
Qed.

Lemma drop_job_In j l x : In x (drop_job j l) <-> In x l /\ jid x <> j.
Proof.
  unfold drop_job. rewrite filter_In, negb_true_iff, Nat.eqb_neq. tauto.
Qed.

Lemma drop_job_perm l jb : NoDup (map jid l) -> In jb l ->
  Permutation l (jb :: drop_job (jid jb) l).
Proof.
  induction l as [|x l IH]; simpl; [tauto|]. intros ND. inversion_clear ND as [|? ? H1 H2].
  intros [->|Hj].
  - rewrite Nat.eqb_refl. simpl. apply perm_skip.
    assert (E : drop_job (jid jb) l = l).
    { clear - H1. induction l as [|y l IH]; simpl; auto. simpl in H1.
      destruct (jid y =? jid jb) eqn:E; simpl.
      - apply Nat.eqb_eq in E. exfalso. auto.
      - f_equal. apply IH. tauto. }
    rewrite E. reflexivity.
  - destruct (jid x =? jid jb) eqn:E.
    + apply Nat.eqb_eq in E. exfalso. apply H1. rewrite E. now apply in_map.
    + simpl. rewrite (IH H2 Hj) at 1. apply perm_swap.
Qed.

Lemma set_phase_ids j p l : map jid (set_phase j p l) = map jid l.
Proof. unfold set_phase. rewrite map_map. apply map_ext. intros x. destruct (_ =? _); reflexivity. Qed.
Lemma set_phase_trs j p l : map jtr (set_phase j p l) = map jtr l.
Proof. unfold set_phase. rewrite map_map. apply map_ext. intros x. destruct (_ =? _); reflexivity. Qed.
Lemma set_phase_In j p l x : In x (set_phase j p l) ->
  exists x0, In x0 l /\ jid x = jid x0 /\ jtr x = jtr x0 /\
    ((jid x0 = j /\ jph x = p) \/ (jid x0 <> j /\ x = x0)).
Proof.
  unfold set_phase. intros H. apply in_map_iff in H. destruct H as (x0 & <- & H). exists x0.
  split; auto. destruct (jid x0 =? j) eqn:E; simpl.
  - apply Nat.eqb_eq in E. auto.
  - apply Nat.eqb_neq in E. auto.
Qed.

(** *** the leaf taken from the queue *)
Lemma remove_nth_incl k l : incl (remove_nth k l) l.
Proof.
  revert k. induction l as [|x l IH]; intros [|k]; simpl; intros y Hy; auto; [now right|].
  destruct Hy as [<-|Hy]; [now left|right; now apply (IH k)].
Qed.

Lemma take_GInv cf k s : GInv cf (fun _ => False) s ->
  GInv cf (fun _ => False) (set_leaves (remove_nth k (leaves s)) s).
Proof.
  intros []. constructor; simpl; auto. intros n Hn. apply g_leaf.
  apply in_app_or in Hn. apply in_or_app. destruct Hn as [Hn|Hn]; auto.
  left. eapply remove_nth_incl; eauto.
Qed.

Lemma GInv_ex_False cf ex s : (forall m, ~ ex m) -> GInv cf ex s -> GInv cf (fun _ => False) s.
Proof.
  intros H []. constructor; auto. intros n Hn. destruct (g_leaf n Hn) as (A & B & [C|C]); auto.
  exfalso. eapply H; eauto.
Qed.

(** *** running a transformer *)
Lemma blocked_false cf s n t p : gkind (gr s) n = KGen t -> blocked cf s n = false ->
  In p (cf_pools cf t) -> cnt s p <> 0%Z ->
  ((0 < cf_limit cf (cf_prod cf t) p)%Z -> (cnt s p < cf_limit cf (cf_prod cf t) p)%Z)
  /\ (forall j i c, In j (procs s) -> jph j = Running i c -> In p (cf_pools cf (jtr j)) ->
        (0 < cf_limit cf (cf_prod cf (jtr j)) p)%Z -> (cnt s p < cf_limit cf (cf_prod cf (jtr j)) p)%Z).
Proof.
  intros K H Hp Hc. unfold blocked in H. rewrite K in H.
  assert (X : limit_exceeded cf (cf_prod cf t) p (cnt s p)
     || existsb (fun j => mem p (job_pools cf j) && negb (cf_prod cf (jtr j) =? cf_prod cf t)
                                  && limit_exceeded cf (cf_prod cf (jtr j)) p (cnt s p)) (procs s) = false).
  { match goal with |- ?b = false => destruct b eqn:Y; [|reflexivity] end.
    exfalso. apply not_true_iff_false in H. apply H. apply existsb_exists. exists p.
    split; auto. apply Z.eqb_neq in Hc. rewrite Hc. exact Y. }
  apply orb_false_iff in X. destruct X as [X1 X2].
  assert (Own : (0 < cf_limit cf (cf_prod cf t) p)%Z -> (cnt s p < cf_limit cf (cf_prod cf t) p)%Z).
  { intros L. unfold limit_exceeded in X1. apply andb_false_iff in X1.
    rewrite Z.ltb_ge, Z.leb_gt in X1. lia. }
  split; auto.
  intros j i c Hj Hph Hpj L.
  destruct (Nat.eq_dec (cf_prod cf (jtr j)) (cf_prod cf t)) as [E|E].
  - rewrite E in *. auto.
  - destruct (limit_exceeded cf (cf_prod cf (jtr j)) p (cnt s p)) eqn:Q.
    + exfalso. rewrite <- not_true_iff_false in X2. apply X2. apply existsb_exists. exists j.
      split; auto. rewrite Q. unfold job_pools. rewrite Hph.
      apply mem_In in Hpj. rewrite Hpj. apply Nat.eqb_neq in E. rewrite E. reflexivity.
    + unfold limit_exceeded in Q. apply andb_false_iff in Q. rewrite Z.ltb_ge, Z.leb_gt in Q. lia.
Qed.

Lemma runs_In t l : In t (runs l) <-> In (EvRun t) l.
Proof.
  induction l as [|e l IH]; simpl; [tauto|]. destruct e; simpl; rewrite IH; split; intros H;
  try (destruct H as [H|H]; [congruence|]); auto; destruct H as [H|H]; auto; injection H; auto.
Qed.
Lemma cmds_In t i l : In (t, i) (cmds l) <-> In (EvCmd t i) l.
Proof.
  induction l as [|e l IH]; simpl; [tauto|]. destruct e; simpl; rewrite IH; split; intros H;
  try (destruct H as [H|H]; [congruence|]); auto; destruct H as [H|H]; auto; left; congruence.
Qed.

Section Run.
  Variables (cf : config) (s : state) (n t : nat).
  Hypothesis WC : wf_config cf.
  Hypothesis HI : Inv cf s.
  Hypothesis Hn : In n (gnodes (gr s)).
  Hypothesis Hk : gkind (gr s) n = KGen t.
  Hypothesis Hb : bst s n = Buildable.
  Hypothesis Hcb : children_built s n.
  Hypothesis Hbl : blocked cf s n = false.
  Hypothesis Hav : avail s <> [].
  Hypothesis Hctl : exists d, ctl s = CSched d.

  Lemma run_not_started : ~ In (EvRun t) (log s).
  Proof.
    intros H. destruct (l_run _ _ (inv_l _ _ HI) t H) as (A & _). 
    destruct (A n) as [E|E]; [apply In_outs; auto|congruence|congruence].
  Qed.

  Lemma run_rule_built : bst s (cf_rule cf t) = Built.
  Proof. apply Hcb. eapply wf_gen; eauto. apply (g_wf _ _ _ (inv_g _ _ HI)). Qed.

  Lemma run_transformer_eq : exists j rest, avail s = j :: rest /\
    let ph := match cf_ncmds cf t with O => Done true | S _ => Running 0 false end in
    run_transformer cf t s =
    {| gr := gr s; bst := fun m => if mem m (outs (gr s) t) then Building else bst s m;
       leaves := leaves s; avail := rest; procs := {| jid := j; jtr := t; jph := ph |} :: procs s;
       cnt := add_counts (cf_pools cf t) 1 (cnt s); est := est s; errs := errs s; expl := expl s;
       ctl := ctl s;
       log := (match cf_ncmds cf t with O => [] | S _ => [EvCmd t 0] end) ++ EvRun t :: log s |}.
  Proof.
    unfold run_transformer. destruct (avail s) as [|j rest]; [congruence|]. exists j, rest.
    split; auto. destruct (cf_ncmds cf t); reflexivity.
  Qed.

  Hypothesis Hin : cf_inprod cf (cf_prod cf t) = true.

  Lemma run_running : est s = ERunning.
  Proof. destruct Hctl as [d H]. eapply c_sched; eauto. apply HI. Qed.

  (** No output of [t] is active when [t] starts. *)
  Lemma run_outs_inactive o : In o (outs (gr s) t) -> ~ active (bst s o).
  Proof.
    intros Ho Ha. destruct (inv_u _ _ HI run_running t o n Hin Ho) as [E|E]; auto; try congruence.
    apply In_outs; auto.
  Qed.

  Lemma run_bst_built m : bst s m = Built -> bst (run_transformer cf t s) m = Built.
  Proof.
    intros H. destruct run_transformer_eq as (j & rest & _ & ->). simpl.
    destruct (mem m (outs (gr s) t)) eqn:M; auto. apply mem_In in M.
    exfalso. apply (run_outs_inactive m M). now right.
  Qed.

  Lemma run_procs_outs j o : In j (procs s) -> In o (outs (gr s) (jtr j)) -> ~ In o (outs (gr s) t).
  Proof.
    intros Hj Ho Ht. destruct (l_proc _ _ (inv_l _ _ HI) j Hj) as (A & _).
    apply (run_outs_inactive o Ht). left. auto.
  Qed.

  Lemma run_GInv : GInv cf (fun _ => False) (run_transformer cf t s).
  Proof.
    pose proof run_bst_built as BB.
    destruct run_transformer_eq as (j & rest & _ & E). rewrite E in *. clear E. simpl in BB.
    destruct (inv_g _ _ HI) as [WF LF RU BI].
    constructor; simpl.
    - exact WF.
    - unfold delayed in *. simpl. intros m Hm. destruct (LF m Hm) as (A & B & C).
      split; auto. split.
      + destruct (mem m (outs (gr s) t)); [discriminate|auto].
      + right. destruct (mem m (outs (gr s) t)); [discriminate|].
        destruct C as [[]|C]. intros Hm2 c Hc. simpl. apply BB. now apply C.
    - intros m t' Hm Km Ha. apply BB.
      destruct (mem m (outs (gr s) t)) eqn:M.
      + apply mem_In, In_outs in M. destruct M as [_ M]. rewrite Km in M. injection M as ->.
        apply run_rule_built.
      + eauto.
    - intros m. destruct (mem m (outs (gr s) t)); [discriminate|auto].
  Qed.

  Lemma run_JInv : JInv cf (run_transformer cf t s).
  Proof.
    destruct run_transformer_eq as (j & rest & Ea & E). rewrite E. clear E.
    destruct (inv_j _ _ HI) as [ID LE TR CN LI]. rewrite Ea in *. simpl in LE.
    constructor; simpl.
    - apply (Permutation_NoDup (l := map jid (procs s) ++ j :: rest)); auto.
      symmetry. apply Permutation_middle.
    - lia.
    - constructor; auto. intros H. apply run_not_started.
      apply in_map_iff in H. destruct H as (j0 & <- & Hj).
      apply (l_proc _ _ (inv_l _ _ HI) j0 Hj).
    - intros p. rewrite add_counts_spec by apply (wfc_pools _ WC). rewrite CN.
      destruct (mem p (cf_pools cf t)); simpl; lia.
    - intros j0 p i c Hj Hph Hp L. rewrite add_counts_spec by apply (wfc_pools _ WC).
      destruct (mem p (cf_pools cf t)) eqn:M.
      + apply mem_In in M.
        destruct (Z.eq_dec (cnt s p) 0) as [Z0|Z0]; [lia|].
        destruct (blocked_false cf s n t p Hk Hbl M Z0) as [B1 B2].
        destruct Hj as [<-|Hj]; simpl in *.
        * specialize (B1 L). lia.
        * specialize (B2 j0 i c Hj Hph Hp L). lia.
      + destruct Hj as [<-|Hj]; simpl in *.
        * apply mem_In in Hp. congruence.
        * specialize (LI j0 p i c Hj Hph Hp L). lia.
  Qed.

  Lemma run_log_In e : (forall i, e <> EvCmd t i) -> e <> EvRun t ->
    (In e (log (run_transformer cf t s)) <-> In e (log s)).
  Proof.
    intros H1 H2. destruct run_transformer_eq as (j & rest & Ea & E). rewrite E. simpl.
    rewrite in_app_iff. simpl. split; [|auto]. intros [H|[H|H]]; auto.
    - destruct (cf_ncmds cf t); simpl in H; [tauto|]. destruct H as [H|[]].
      exfalso. now apply (H1 0).
    - exfalso. now apply H2.
  Qed.

  Lemma run_LInv : LInv cf (run_transformer cf t s).
  Proof.
    pose proof run_bst_built as BB. pose proof run_log_In as LG. pose proof run_not_started as NS.
    assert (NC : forall i, ~ In (EvCmd t i) (log s)).
    { intros i H. apply NS. apply (l_cmd _ _ (inv_l _ _ HI) t i H). }
    assert (NSu : ~ In (EvSucceeded t) (log s) /\ ~ In (EvFailed t) (log s)).
    { split; intros H; apply NS; apply (l_end _ _ (inv_l _ _ HI)); auto. }
    assert (Old : forall e, In e (log s) -> In e (log (run_transformer cf t s))).
    { intros e He. destruct run_transformer_eq as (j & rest & Ea & E). rewrite E. simpl.
      apply in_or_app. right. now right. }
    assert (NewR : In (EvRun t) (log (run_transformer cf t s))).
    { destruct run_transformer_eq as (j & rest & Ea & E). rewrite E. simpl.
      apply in_or_app. right. now left. }
    assert (RunIn : forall u, In (EvRun u) (log (run_transformer cf t s)) -> u = t \/ In (EvRun u) (log s)).
    { intros u Hu. destruct (Nat.eq_dec u t) as [->|Hne]; auto. right.
      apply LG in Hu; auto; [discriminate|congruence]. }
    assert (CmdIn : forall u i, In (EvCmd u i) (log (run_transformer cf t s)) ->
        (u = t /\ i = 0 /\ 0 < cf_ncmds cf t) \/ (u <> t /\ In (EvCmd u i) (log s))).
    { intros u i Hu. destruct run_transformer_eq as (j & rest & Ea & E). rewrite E in Hu. simpl in Hu.
      destruct (cf_ncmds cf t) as [|q]; simpl in Hu.
      - destruct Hu as [Hu|Hu]; [discriminate|]. right. split; auto. intros ->. eapply NC; eauto.
      - destruct Hu as [Hu|[Hu|Hu]]; [injection Hu as <- <-; left; auto with arith|discriminate|].
        right. split; auto. intros ->. eapply NC; eauto. }
    destruct (inv_l _ _ HI) as [P ON R EN OK EX CM C PH SU DN].
    assert (Runs : runs (log (run_transformer cf t s)) = t :: runs (log s)).
    { destruct run_transformer_eq as (j & rest & Ea & E). rewrite E. simpl.
      destruct (cf_ncmds cf t); reflexivity. }
    assert (Cmds : cmds (log (run_transformer cf t s)) =
       match cf_ncmds cf t with O => [] | S _ => [(t, 0)] end ++ cmds (log s)).
    { destruct run_transformer_eq as (j & rest & Ea & E). rewrite E. simpl.
      destruct (cf_ncmds cf t); reflexivity. }
    set (ph := match cf_ncmds cf t with O => Done true | S _ => Running 0 false end).
    assert (Pr : exists j0, procs (run_transformer cf t s) = {| jid := j0; jtr := t; jph := ph |} :: procs s).
    { destruct run_transformer_eq as (j & rest & Ea & E). rewrite E. simpl. eauto. }
    destruct Pr as [j0 Pr].
    assert (G : gr (run_transformer cf t s) = gr s).
    { destruct run_transformer_eq as (j & rest & Ea & E). rewrite E. reflexivity. }
    assert (Bout : forall o, In o (outs (gr s) t) -> bst (run_transformer cf t s) o = Building).
    { intros o Ho. destruct run_transformer_eq as (j & rest & Ea & E). rewrite E. simpl.
      apply mem_In in Ho. now rewrite Ho. }
    assert (Both : forall o, ~ In o (outs (gr s) t) -> bst (run_transformer cf t s) o = bst s o).
    { intros o Ho. destruct run_transformer_eq as (j & rest & Ea & E). rewrite E. simpl.
      apply mem_notIn in Ho. now rewrite Ho. }
    assert (SI : forall u, In (EvSucceeded u) (log (run_transformer cf t s)) <-> In (EvSucceeded u) (log s)).
    { intros u. apply LG; discriminate. }
    assert (FI : forall u, In (EvFailed u) (log (run_transformer cf t s)) <-> In (EvFailed u) (log s)).
    { intros u. apply LG; discriminate. }
    clear LG.
    constructor; rewrite ?Runs, ?Cmds, ?Pr, ?G.
    - intros j [<-|Hj]; simpl.
      + rewrite SI, FI. tauto.
      + destruct (P j Hj) as (P1 & P2 & P3 & P4). rewrite SI, FI. split; auto.
        intros o Ho. rewrite Both; auto. eapply run_procs_outs; eauto.
    - constructor; auto. now rewrite runs_In.
    - intros u Hu. apply RunIn in Hu. rewrite SI, FI. destruct Hu as [->|Hu].
      + split; [|split].
        * intros o Ho. left. auto.
        * apply BB. apply run_rule_built.
        * left. simpl. auto.
      + destruct (R u Hu) as (R1 & R2 & R3). split; [|split].
        * intros o Ho. destruct (in_dec Nat.eq_dec o (outs (gr s) t)) as [Hi|Hi].
          -- left. auto.
          -- rewrite Both; auto.
        * auto.
        * simpl. tauto.
    - intros u Hu. rewrite SI, FI in Hu. auto.
    - intros u o Hu Ho Hbo. apply SI. apply RunIn in Hu. destruct Hu as [->|Hu].
      + rewrite Bout in Hbo; [discriminate|auto].
      + destruct (in_dec Nat.eq_dec o (outs (gr s) t)) as [Hi|Hi].
        * rewrite Bout in Hbo; [discriminate|auto].
        * rewrite Both in Hbo by auto. eauto.
    - intros u. rewrite SI, FI. eauto.
    - destruct (cf_ncmds cf t); simpl; auto. constructor; auto. rewrite cmds_In. apply NC.
    - intros u i Hu. apply CmdIn in Hu. destruct Hu as [(-> & -> & Hpos)|[Hne Hu]].
      + split; auto. split; auto. split; [intros k Hk0; lia|]. intros; lia.
      + destruct (C u i Hu) as (C1 & C2 & C3 & C4). split; auto. split; auto. split; [intros; auto|].
        intros j k c [<-|Hj] Hj2 Hj3; simpl in *; [congruence|eauto].
    - intros j [<-|Hj]; simpl.
      + unfold ph. destruct (cf_ncmds cf t) eqn:En; [intros k Hk0; lia|].
        destruct run_transformer_eq as (j & rest & Ea & E). rewrite E, En. simpl. auto.
      + specialize (PH j Hj). destruct (jph j) as [k c|[]]; auto.
    - intros u Hu k Hk0. apply SI in Hu. eauto.
    - intros m Hm Hbm. assert (Hi : ~ In m (outs (gr s) t)).
      { intros Hi. apply Bout in Hi. congruence. }
      rewrite Both in Hbm by auto. specialize (DN m Hm Hbm). unfold handled in *. rewrite G.
      destruct (gkind (gr s) m); auto.
      + destruct DN as [X|[X|X]]; auto.
      + destruct DN; auto.
  Qed.

  Lemma run_CInv : CInv cf (run_transformer cf t s).
  Proof.
    pose proof run_running as RN.
    destruct run_transformer_eq as (j & rest & Ea & E). rewrite E. clear E.
    destruct (inv_c _ _ HI). 
    assert (LGs : forall e, (forall i, e <> EvCmd t i) -> e <> EvRun t ->
       In e ((match cf_ncmds cf t with O => [] | S _ => [EvCmd t 0] end) ++ EvRun t :: log s) -> In e (log s)).
    { intros e H1 H2 H. rewrite in_app_iff in H. simpl in H. destruct H as [H|[H|H]]; auto.
      - destruct (cf_ncmds cf t); simpl in H; [tauto|]. destruct H as [H|[]].
        exfalso. now apply (H1 0).
      - exfalso. now apply H2. }
    destruct Hctl as [d Hd].
    constructor; simpl; rewrite ?RN, ?Hd; try discriminate; auto.
    - intros _ j0 i c [<-|Hj] Hph; simpl in *; eauto.
      destruct (cf_ncmds cf t); congruence.
    - intros H. apply LGs in H; [|discriminate|discriminate]. apply c_log in H. congruence.
    - intros u H K. apply LGs in H; [|discriminate|discriminate]. apply (c_fail u) in H; auto.
    - intros u l2 l1 El K N1 N2.
      assert (X : exists l2', log s = l2' ++ EvFailed u :: l1).
      { destruct (cf_ncmds cf t); simpl in El.
        - destruct l2 as [|x l2]; [discriminate|]. injection El as _ El. eauto.
        - destruct l2 as [|x [|y l2]]; try discriminate. injection El as _ _ El. eauto. }
      destruct X as [l2' X]. eauto.
    - intros _ [e He]. apply c_notfin; [congruence|]. exists e. apply LGs; auto; discriminate.
    - intros H. apply c_expl in H. congruence.
    - intros e He. apply LGs in He; [|discriminate|discriminate]. auto.
    - intros u H K. apply LGs in H; [|discriminate|discriminate]. eauto.
  Qed.

  Lemma run_UInv : UInv cf (run_transformer cf t s).
  Proof.
    intros _ u o o' Hu Ho Ho' Ha.
    destruct run_transformer_eq as (j & rest & Ea & E). rewrite E in *. clear E. simpl in *.
    destruct (Nat.eq_dec u t) as [->|Hne].
    - apply mem_In in Ho'. rewrite Ho'. now left.
    - assert (D : forall x, In x (outs (gr s) u) -> mem x (outs (gr s) t) = false).
      { intros x Hx. apply mem_notIn. rewrite In_outs in *. intros [_ X]. destruct Hx; congruence. }
      rewrite D in Ha by auto. rewrite D by auto. exact (inv_u _ _ HI run_running u o o' Hu Ho Ho' Ha).
  Qed.

  Lemma run_Inv : Inv cf (run_transformer cf t s).
  Proof. constructor; [apply run_UInv|apply run_GInv|apply run_JInv|apply run_LInv|apply run_CInv]. Qed.
End Run.

(** *** updateLeaves *)
Lemma mono_active b b' n : mono b b' -> (active (b' n) <-> active (b n)).
Proof.
  intros M. unfold active. rewrite (mono_built _ _ n M), (mono_building _ _ n M). tauto.
Qed.

Lemma update_leaves_Inv cf ex l s :
  incl l (gnodes (gr s)) -> GInv cf ex s -> LInv cf s -> UInv cf s ->
  let s' := update_leaves l s in
  frame s s' /\ mono (bst s) (bst s') /\ GInv cf ex s' /\ LInv cf s' /\ UInv cf s'.
Proof.
  intros Hl HG HL HU. cbv zeta.
  pose proof (update_leaves_safe cf l s (g_wf _ _ _ HG) Hl) as H. cbv zeta in H.
  set (s' := update_leaves l s) in *. destruct H as (F & M & Lo & Ln).
  pose proof (fr_gr _ _ F) as G. pose proof (fr_procs _ _ F) as P. pose proof (fr_log _ _ F) as Lg.
  pose proof (delayed_frame _ _ F) as D.
  split; auto. split; auto. split; [|split].
  - destruct HG. constructor; rewrite ?G; auto.
    + rewrite D. intros n Hn.
      assert (X : In n (leaves s ++ delayed s) \/
        In n (gnodes (gr s)) /\ bst s' n <> Untouched /\ children_built s' n).
      { apply in_app_or in Hn. destruct Hn as [Hn|Hn].
        - apply Ln in Hn. destruct Hn; auto. left. apply in_or_app; auto.
        - left. apply in_or_app; auto. }
      destruct X as [X|(X1 & X2 & X3)]; auto.
      destruct (g_leaf n X) as (A & B & C). split; auto. split; [eapply mono_touched; eauto|].
      destruct C as [C|C]; auto. right. intros Hb c Hc. rewrite G in Hc.
      apply (mono_built _ _ c M). apply C; auto.
      destruct (M n) as [E|[E _]]; congruence.
    + intros n t Hn Hk Ha. apply (mono_built _ _ _ M). eapply g_rule; eauto. now apply (mono_active _ _ n M).
    + intros n Hn. apply (mono_built _ _ n M) in Hn. auto.
  - destruct HL. constructor; rewrite ?G, ?P, ?Lg; auto.
    + intros j Hj. destruct (l_proc j Hj) as (A & B). split; auto.
      intros o Ho. apply (mono_building _ _ o M). auto.
    + intros t Ht. destruct (l_run t Ht) as (A & B & C). split; [|split]; auto.
      * intros o Ho. apply (mono_active _ _ o M). auto.
      * apply (mono_built _ _ _ M). auto.
    + intros t o Ht Ho Hb. apply (mono_built _ _ o M) in Hb. eauto.
    + intros n Hn Hb. apply (mono_built _ _ n M) in Hb. specialize (l_done n Hn Hb).
      unfold handled in *. rewrite G, Lg. exact l_done.
  - intros E t o o' Ht Ho Ho' Ha. rewrite (fr_est _ _ F) in E. rewrite G in *.
    apply (mono_active _ _ o' M). apply (mono_active _ _ o M) in Ha. eapply HU; eauto.
Qed.

(** *** a single node finishes *)
Lemma finish_node_Inv cf n s : Inv cf s -> In n (gnodes (gr s)) ->
  (forall t, gkind (gr s) n = KGen t -> bst s (cf_rule cf t) = Built /\ ~ In (EvRun t) (log s)
     /\ cf_inprod cf (cf_prod cf t) = false) ->
  handled cf s n ->
  Inv cf (finish_node n s).
Proof.
  intros [HU HG HJ HL HC] Hn Ht Hh.
  pose proof (finish_node_ok n s) as S. pose proof (fn_frame _ _ _ S) as F.
  constructor.
  - intros E t o o' Hp Ho Ho' Ha. rewrite (fr_est _ _ F) in E. rewrite (fr_gr _ _ F) in *.
    assert (X : forall x, In x (outs (gr s) t) -> bst (finish_node n s) x = bst s x).
    { intros x Hx. rewrite (fn_bst _ _ _ S). apply upd_other. intros ->. apply In_outs in Hx.
      destruct Hx as [_ Hx]. apply Ht in Hx. destruct Hx as (_ & _ & Hx). congruence. }
    rewrite X in Ha by auto. rewrite X by auto. eapply HU; eauto.
  - eapply GInv_ex_False; [|apply (finish_node_GInv cf _ n s HG)]; auto.
    + intros m [[] _].
    + intros t Hk. now apply Ht.
  - eapply frame_JInv; eauto.
  - apply finish_node_LInv; auto. intros t Hk _ H. destruct (Ht t Hk) as (_ & X & _). contradiction.
  - eapply frame_CInv; eauto.
Qed.

Lemma say_CPre0 cf e s : plain e -> (forall x, e <> EvFinish x) -> e <> EvCancel -> CPre0 cf s -> CPre0 cf (say e s).
Proof.
  intros Pe N1 N2 []. constructor; simpl; auto.
  - intros [H|H]; [congruence|auto].
  - intros t l2 l1 El Hk Hc Hf.
    refine (first_grow (log s) e (errs s) (errs s)
      (fun l1 => ~ In EvCancel l1 /\ ~ (exists e, In (EvFinish e) l1)) _ _ _ t l2 l1 El (conj Hc Hf)).
    + intros u ->. exact Pe.
    + intros t0 a b E0 [H1 H2]. eapply p_first; eauto.
    + eauto.
  - intros [x [H|H]]; [eapply N1; eauto|]. apply p_notfin. eauto.
  - intros t [H|H]; [subst e; destruct Pe|eauto].
Qed.

Lemma say_CPre cf e s : plain e -> (forall x, e <> EvFinish x) -> e <> EvCancel -> CPre cf s -> CPre cf (say e s).
Proof.
  intros Pe N1 N2 [H0 H1]. split; [apply say_CPre0; auto|]. simpl. intros t [->|H]; eauto.
Qed.

Lemma CPre_sched cf d s : CPre cf s -> errs s = [] -> est s = ERunning -> ctl s = CSched d ->
  (d <> [] -> procs s <> []) -> CInv cf s.
Proof.
  intros [[] p_fail] Er E C D. constructor; rewrite ?C; auto; try discriminate; try congruence.
  - intros x d' [= ->]. apply D. discriminate.
  - intros e He. exfalso. eauto.
Qed.

Lemma say_CInv cf e d s : plain e -> (forall x, e <> EvFinish x) -> e <> EvCancel -> ctl s = CSched d ->
  CInv cf s -> CInv cf (say e s).
Proof.
  intros Pe N1 N2 C HC. apply (CPre_sched cf d).
  - apply say_CPre; auto. apply CInv_CPre; auto. congruence.
  - simpl. apply (c_err _ _ HC). eapply c_sched; eauto.
  - simpl. eapply c_sched; eauto.
  - exact C.
  - destruct d; [congruence|]. intros _. apply (c_delay _ _ HC _ _ C).
Qed.

(** *** applying a rule *)
Section Rule.
  Variables (cf : config) (s : state) (r : nat) (g' : graph) (created invalidated : list nat).
  Hypothesis HI : Inv cf s.
  Hypothesis Hr : In r (gnodes (gr s)).
  Hypothesis Hk : gkind (gr s) r = KRule.
  Hypothesis Hb : bst s r = Buildable.
  Hypothesis Had : admissible cf (gr s) (bst s) r g' created invalidated.
  Variable d : list nat.
  Hypothesis Hctl : ctl s = CSched d.

  Let s1 := adopt g' (say (EvApply r) s).
  Let HG := inv_g _ _ HI.

  Lemma adopt_old n : In n (gnodes (gr s)) -> bst s1 n = bst s n.
  Proof. intros H. unfold s1, adopt. simpl. apply mem_In in H. now rewrite H. Qed.
  Lemma adopt_built n : bst s1 n = Built <-> bst s n = Built.
  Proof.
    unfold s1, adopt. simpl. destruct (mem n (gnodes (gr s))) eqn:M; [tauto|].
    apply mem_notIn in M. split; [discriminate|]. intros H. apply (g_in _ _ _ HG) in H. contradiction.
  Qed.

  (** An active output keeps its transformer; its rule is not [r]. *)
  Lemma adopt_active n t : In n (gnodes g') -> gkind g' n = KGen t -> active (bst s1 n) ->
    In n (gnodes (gr s)) /\ gkind (gr s) n = KGen t /\ active (bst s n) /\ cf_rule cf t <> r.
  Proof.
    intros Hn Kn Ha.
    destruct (in_dec Nat.eq_dec n (gnodes (gr s))) as [Hi|Hi].
    - rewrite adopt_old in Ha by auto.
      destruct (ad_kind _ _ _ _ _ _ _ Had n Hi Hn) as [E|(t0 & t1 & E0 & R0 & E1 & R1)].
      + rewrite Kn in E. repeat split; auto. intros Er.
        pose proof (g_rule _ _ _ HG n t Hi (eq_sym E) Ha). congruence.
      + exfalso. pose proof (g_rule _ _ _ HG n t0 Hi E0 Ha). congruence.
    - exfalso. unfold s1, adopt in Ha. simpl in Ha. apply mem_notIn in Hi. rewrite Hi in Ha.
      destruct Ha; discriminate.
  Qed.

  (** Outputs of transformers of other rules are old. *)
  Lemma adopt_outs o t : cf_rule cf t <> r -> In o (outs g' t) ->
    In o (outs (gr s) t) /\ bst s1 o = bst s o.
  Proof.
    intros Nr Ho. apply In_outs in Ho. destruct Ho as [Ho Ko].
    destruct (in_dec Nat.eq_dec o (gnodes (gr s))) as [Hi|Hi].
    - rewrite adopt_old by auto. split; auto. apply In_outs. split; auto.
      destruct (ad_kind _ _ _ _ _ _ _ Had o Hi Ho) as [E|(t0 & t1 & E0 & R0 & E1 & R1)]; congruence.
    - exfalso. destruct (ad_new _ _ _ _ _ _ _ Had o Ho Hi) as (_ & _ & t0 & E & R). congruence.
  Qed.

  Lemma ran_rule t : In (EvRun t) (log s) -> cf_rule cf t <> r.
  Proof.
    intros H E. destruct (l_run _ _ (inv_l _ _ HI) t H) as (_ & B & _). congruence.
  Qed.

  Lemma adopt_GInv : GInv cf (fun m => m = r) s1.
  Proof.
    constructor.
    - apply (ad_wf _ _ _ _ _ _ _ Had).
    - intros n Hn. change (In n (leaves s ++ delayed s)) in Hn.
      destruct (g_leaf _ _ _ HG n Hn) as (A & B & [[]|C]).
      assert (In' : In n (gnodes g')).
      { destruct (in_dec Nat.eq_dec n (gnodes g')) as [H|H]; auto. exfalso.
        destruct (ad_removed _ _ _ _ _ _ _ Had n A H) as (t & Kt & Nt). apply Nt.
        destruct (bst s n) eqn:E; try congruence.
        - apply C; auto. eapply wf_gen; eauto. apply (g_wf _ _ _ HG).
        - eapply g_rule; eauto. rewrite E. now left.
        - eapply g_rule; eauto. rewrite E. now right. }
      split; [exact In'|]. rewrite adopt_old by auto. split; auto.
      destruct (Nat.eq_dec n r) as [E|E]; [now left|right].
      intros Hbu c Hc. apply adopt_built. apply C; auto.
      apply (ad_edges _ _ _ _ _ _ _ Had n c); auto.
      intros Hrc. specialize (C Hbu r Hrc). congruence.
    - intros n t Hn Kn Ha. destruct (adopt_active n t Hn Kn Ha) as (A & B & C & _).
      apply adopt_built. eapply g_rule; eauto.
    - intros n Hn. apply adopt_built in Hn. pose proof (g_in _ _ _ HG n Hn) as Hi.
      change (In n (gnodes g')).
      destruct (in_dec Nat.eq_dec n (gnodes g')) as [H|H]; auto. exfalso.
      destruct (ad_removed _ _ _ _ _ _ _ Had n Hi H) as (t & Kt & Nt). apply Nt.
      eapply g_rule; eauto. now right.
  Qed.

  Lemma adopt_LInv : LInv cf s1.
  Proof.
    pose proof (say_LInv_plain cf (EvApply r) s I (inv_l _ _ HI)) as HL.
    assert (RR : forall t, In (EvRun t) (EvApply r :: log s) -> cf_rule cf t <> r).
    { intros t [H|H]; [discriminate|]. now apply ran_rule. }
    destruct HL. cbn [log procs gr bst say] in *.
    constructor; cbn [s1 adopt log procs gr set_gr set_bst say] in *; auto.
    - intros j Hj. destruct (l_proc j Hj) as (A & B & C). split; auto. intros o Ho.
      change (bst s1 o = Building).
      destruct (adopt_outs o (jtr j)) as [X Y]; auto. rewrite Y. auto.
    - intros t Ht. destruct (l_run t Ht) as (A & B & C). split; [|split]; auto.
      + intros o Ho. change (active (bst s1 o)). destruct (adopt_outs o t) as [X Y]; auto. rewrite Y. auto.
      + change (bst s1 (cf_rule cf t) = Built). now apply adopt_built.
    - intros t o Ht Ho Hbo. change (bst s1 o = Built) in Hbo. destruct (adopt_outs o t) as [X Y]; auto.
      rewrite Y in Hbo. eauto.
    - intros n Hn Hbn. change (bst s1 n = Built) in Hbn. change (In n (gnodes g')) in Hn.
      pose proof Hbn as Hbo. apply adopt_built in Hbo. pose proof (g_in _ _ _ HG n Hbo) as Hi.
      specialize (l_done n Hi Hbo). unfold handled in *. cbn [gr log say s1 adopt set_gr set_bst] in *.
      destruct (ad_kind _ _ _ _ _ _ _ Had n Hi Hn) as [->|(t0 & t1 & E0 & R0 & E1 & R1)]; auto.
      exfalso. assert (bst s (cf_rule cf t0) = Built) by (eapply g_rule; eauto; now right). congruence.
  Qed.

  Lemma adopt_UInv : UInv cf s1.
  Proof.
    intros E t o o' Ht Ho Ho' Ha. change (est s = ERunning) in E.
    change (In o (outs g' t)) in Ho. change (In o' (outs g' t)) in Ho'.
    pose proof Ho as Ho2. apply In_outs in Ho2. destruct Ho2 as [H1 H2].
    destruct (adopt_active o t H1 H2 Ha) as (A & B & C & D).
    destruct (adopt_outs o t D Ho) as [X _]. destruct (adopt_outs o' t D Ho') as [X' Y'].
    rewrite Y'. exact (inv_u _ _ HI E t o o' Ht X X' C).
  Qed.

  Lemma rule_Inv : Inv cf (finish_node r (update_leaves invalidated (update_leaves created s1))).
  Proof.
    pose proof (ad_result _ _ _ _ _ _ _ Had) as RS.
    assert (I1 : incl created (gnodes (gr s1))) by (intros x Hx; apply RS, in_or_app; auto).
    destruct (update_leaves_Inv cf (fun m => m = r) created s1 I1 adopt_GInv adopt_LInv adopt_UInv)
      as (F2 & M2 & G2 & L2 & U2).
    set (s2 := update_leaves created s1) in *.
    assert (I2 : incl invalidated (gnodes (gr s2))).
    { rewrite (fr_gr _ _ F2). intros x Hx; apply RS, in_or_app; auto. }
    destruct (update_leaves_Inv cf (fun m => m = r) invalidated s2 I2 G2 L2 U2)
      as (F3 & M3 & G3 & L3 & U3).
    set (s3 := update_leaves invalidated s2) in *.
    pose proof (frame_trans _ _ _ F2 F3) as F.
    destruct (ad_self _ _ _ _ _ _ _ Had) as [Self _].
    assert (Gr : gr s3 = g') by (rewrite (fr_gr _ _ F); reflexivity).
    assert (Kr : gkind g' r = KRule).
    { destruct (ad_kind _ _ _ _ _ _ _ Had r Hr Self) as [E|(t0 & t1 & E0 & _)]; congruence. }
    pose proof (finish_node_ok r s3) as S. pose proof (fn_frame _ _ _ S) as F4.
    constructor.
    - intros E t o o' Hp Ho Ho' Ha. rewrite (fr_est _ _ F4) in E. rewrite (fr_gr _ _ F4) in *.
      assert (X : forall x, In x (outs (gr s3) t) -> bst (finish_node r s3) x = bst s3 x).
      { intros x Hx. rewrite (fn_bst _ _ _ S). apply upd_other. intros ->. apply In_outs in Hx.
        rewrite Gr in Hx. destruct Hx; congruence. }
      rewrite X in Ha by auto. rewrite X by auto. exact (U3 E t o o' Hp Ho Ho' Ha).
    - eapply GInv_ex_False; [|apply (finish_node_GInv cf _ r s3 G3)]; rewrite ?Gr; auto.
      + intros m [X Y]. contradiction.
      + intros t X. congruence.
    - eapply frame_JInv; [eapply frame_trans; [exact F|exact F4]|].
      eapply JInv_ext; [| | |exact (inv_j _ _ HI)]; reflexivity.
    - apply finish_node_LInv; auto.
      + rewrite Gr. intros t X. congruence.
      + unfold handled. rewrite Gr, Kr, (fr_log _ _ F). left. now left.
    - eapply frame_CInv; [eapply frame_trans; [exact F|exact F4]|].
      assert (C1 : CInv cf (say (EvApply r) s)).
      { apply (say_CInv cf _ d); auto; [exact I|discriminate|discriminate|apply HI]. }
      destruct C1. constructor; auto.
  Qed.
End Rule.

Lemma execute_rule_Inv cf s r c d :
  Inv cf s -> In r (gnodes (gr s)) -> gkind (gr s) r = KRule -> bst s r = Buildable -> ctl s = CSched d ->
  (forall g' cr inv, c_rule c = ROk g' cr inv -> admissible cf (gr s) (bst s) r g' cr inv) ->
  Inv cf (execute_rule cf r c s).
Proof.
  intros HI Hr Hk Hb Hc Ha. unfold execute_rule. destruct (negb (in_build cf (gr s) r)) eqn:IB.
  - apply finish_node_Inv; auto; [intros t H; congruence|]. unfold handled. rewrite Hk.
    apply negb_true_iff in IB. unfold in_build in IB. rewrite Hk in IB. auto.
  - destruct (c_rule c) as [|g' cr inv] eqn:E.
    + apply handle_error_Inv.
      * eapply GInv_ext; [| | | |apply HI]; auto. apply incl_refl.
      * eapply JInv_ext; [| | |apply HI]; auto.
      * apply say_LInv_plain; [exact I|apply HI].
      * apply say_CPre; [exact I|discriminate|discriminate|]. apply CInv_CPre; [apply HI|congruence].
    + eapply rule_Inv; eauto.
Qed.

(** *** artifacts *)
Lemma finish_outputs_bst inst l : forall s s',
  finish_outputs inst l s = (s', false) ->
  forall n, bst s' n = if mem n l then Built else bst s n.
Proof.
  induction l as [|x l IH]; intros s s'; simpl.
  - intros [= <-]; auto.
  - destruct (inst x); [discriminate|]. intros H n. rewrite (IH _ _ H).
    rewrite (fn_bst _ _ _ (finish_node_ok x s)). unfold upd.
    destruct (n =? x) eqn:E; simpl; destruct (mem n l); auto.
Qed.

Lemma outs_disjoint g t u x : In x (outs g t) -> In x (outs g u) -> t = u.
Proof. rewrite !In_outs. intros [_ A] [_ B]. congruence. Qed.

Lemma finish_transformer_parts cf inst t s s' th :
  finish_transformer inst t s = (s', th) ->
  GInv cf (fun _ => False) s -> LInv cf s ->
  (outs (gr s) t <> [] -> bst s (cf_rule cf t) = Built) ->
  (In (EvRun t) (log s) -> In (EvSucceeded t) (log s)) ->
  In (EvSucceeded t) (log s) \/ In (EvSkip t) (log s) ->
  frame s s' /\ GInv cf (fun _ => False) s' /\ LInv cf s' /\
  (th = false -> forall n, bst s' n = if mem n (outs (gr s) t) then Built else bst s n).
Proof.
  intros H HG HL H1 H2 H3. unfold finish_transformer in H.
  split; [eapply finish_outputs_frame; eauto|].
  destruct (finish_outputs_Inv cf inst _ _ _ _ H HG HL) as [A B].
  - intros x Hx. apply In_outs in Hx. tauto.
  - intros x Hx u Hu. apply In_outs in Hx as Hx2. destruct Hx2 as [_ Kx].
    assert (u = t) by congruence. subst u. apply H1. intros E. rewrite E in Hx. destruct Hx.
  - intros x Hx u Hu _ Hr. apply In_outs in Hx. destruct Hx as [_ Kx].
    assert (u = t) by congruence. subst u. auto.
  - intros x Hx. apply In_outs in Hx. destruct Hx as [_ Kx]. unfold handled. rewrite Kx. tauto.
  - split; auto. split; auto. intros ->. eapply finish_outputs_bst; eauto.
Qed.

Lemma finish_transformer_UInv cf t s s' :
  gr s' = gr s -> (forall n, bst s' n = if mem n (outs (gr s) t) then Built else bst s n) ->
  (forall u o o', u <> t -> cf_inprod cf (cf_prod cf u) = true ->
     In o (outs (gr s) u) -> In o' (outs (gr s) u) -> active (bst s o) -> active (bst s o')) ->
  UInv cf s'.
Proof.
  intros G B U _ u o o' Hu Ho Ho' Ha. rewrite G in *. destruct (Nat.eq_dec u t) as [->|Hne].
  - rewrite B. apply mem_In in Ho'. rewrite Ho'. now right.
  - assert (D : forall x, In x (outs (gr s) u) -> bst s' x = bst s x).
    { intros x Hx. rewrite B. destruct (mem x (outs (gr s) t)) eqn:M; auto.
      apply mem_In in M. exfalso. apply Hne. eapply outs_disjoint; eauto. }
    rewrite D in Ha by auto. rewrite D by auto. exact (U u o o' Hne Hu Ho Ho' Ha).
Qed.

Lemma build_artifact_Inv cf s n c d :
  wf_config cf -> Inv cf s -> In n (gnodes (gr s)) -> gkind (gr s) n <> KRule -> bst s n = Buildable ->
  children_built s n -> blocked cf s n = false -> avail s <> [] -> ctl s = CSched d ->
  Inv cf (build_artifact cf n c s).
Proof.
  intros WC HI Hn Hk Hb Hcb Hbl Hav Hc. unfold build_artifact.
  assert (CP : CPre cf s) by (apply CInv_CPre; [apply HI|congruence]).
  pose proof (inv_g _ _ HI) as HG. pose proof (inv_l _ _ HI) as HL. pose proof (inv_j _ _ HI) as HJ.
  destruct (gkind (gr s) n) as [|t|] eqn:K; [| |congruence].
  - destruct (c_throw c); [apply handle_error_Inv; auto|].
    apply finish_node_Inv; auto; [congruence|]. unfold handled. now rewrite K.
  - assert (NR : ~ In (EvRun t) (log s)) by (eapply run_not_started; eauto).
    assert (RB : bst s (cf_rule cf t) = Built) by (eapply run_rule_built; eauto).
    unfold in_build. rewrite K. destruct (cf_inprod cf (cf_prod cf t)) eqn:P; simpl.
    + destruct (c_throw c); [apply handle_error_Inv; auto|].
      destruct (c_skip c || cf_rulesonly cf).
      * set (s0 := say (EvSkip t) s).
        destruct (finish_transformer (c_inst c) t s0) as [s' th] eqn:E.
        assert (HG0 : GInv cf (fun _ => False) s0) by (eapply GInv_ext; [| | | |exact HG]; auto; apply incl_refl).
        assert (HL0 : LInv cf s0) by (apply say_LInv_plain; [exact I|exact HL]).
        assert (HJ0 : JInv cf s0) by (eapply JInv_ext; [| | |exact HJ]; auto).
        assert (HC0 : CInv cf s0).
        { apply (say_CInv cf _ d); [exact I|discriminate|discriminate|exact Hc|apply HI]. }
        destruct (finish_transformer_parts cf _ _ _ _ _ E HG0 HL0) as (F & HG' & HL' & B); auto.
        { intros [X|X]; [discriminate|contradiction]. }
        { right. now left. }
        assert (HC' : CInv cf s') by (eapply frame_CInv; eauto).
        assert (HJ' : JInv cf s') by (eapply frame_JInv; eauto).
        destruct th.
        -- apply handle_error_Inv; auto. apply CInv_CPre; auto. rewrite (fr_ctl _ _ F). cbn [s0 say ctl]. congruence.
        -- constructor; auto. eapply finish_transformer_UInv; [apply (fr_gr _ _ F)|apply B; auto|].
           intros u o o' _. apply (inv_u _ _ HI). eapply c_sched; eauto. apply HI.
      * eapply run_Inv; eauto.
    + apply finish_node_Inv; auto.
      * intros u Ku. assert (u = t) by congruence. subst u. auto.
      * unfold handled. rewrite K. auto.
Qed.

(** *** one round of the loop *)
Lemma take_Inv cf k s : Inv cf s -> Inv cf (set_leaves (remove_nth k (leaves s)) s).
Proof.
  intros [HU HG HJ HL HC]. constructor.
  - exact HU.
  - now apply take_GInv.
  - eapply JInv_ext; [| | |exact HJ]; auto.
  - eapply LInv_ext; [| | | |exact HL]; auto.
  - destruct HC; constructor; auto.
Qed.

Lemma blocked_procs cf s n : JInv cf s -> blocked cf s n = true -> procs s <> [].
Proof.
  intros HJ H. unfold blocked in H. destruct (gkind (gr s) n) as [|t|]; try discriminate.
  apply existsb_exists in H. destruct H as (p & _ & H).
  destruct (cnt s p =? 0)%Z eqn:E; [discriminate|]. apply Z.eqb_neq in E.
  intros P. apply E. rewrite (j_cnt _ _ HJ), P. reflexivity.
Qed.

Lemma leaf_Inv cf s k c d n :
  wf_config cf -> Inv cf s -> ctl s = CSched d -> nth_error (leaves s) k = Some n -> avail s <> [] ->
  (forall g' cr inv, gkind (gr s) n = KRule -> c_rule c = ROk g' cr inv ->
     admissible cf (gr s) (bst s) n g' cr inv) ->
  Inv cf (visit cf n c (set_leaves (remove_nth k (leaves s)) s)).
Proof.
  intros WC HI Hc Hk Hav Had.
  assert (Hl : In n (leaves s ++ delayed s)) by (apply in_or_app; left; eapply nth_error_In; eauto).
  destruct (g_leaf _ _ _ (inv_g _ _ HI) n Hl) as (Hn & Ht & [[]|Hcb]).
  pose proof (take_Inv cf k s HI) as HI'. set (s' := set_leaves _ s) in *.
  change (ctl s') with (ctl s) in *.
  assert (Hc' : ctl s' = CSched d) by exact Hc.
  unfold visit. change (bst s' n) with (bst s n). destruct (bst s n) eqn:B; auto; [congruence|].
  destruct (blocked cf s' n) eqn:Bl.
  - unfold delay. rewrite Hc'. pose proof (blocked_procs cf s' n (inv_j _ _ HI') Bl) as NP.
    destruct HI' as [HU HG HJ HL HC]. constructor.
    + exact HU.
    + destruct HG. constructor; auto. intros m Hm. unfold delayed in *. cbn [ctl set_ctl leaves set_leaves] in Hm.
      change (ctl s') with (ctl s) in g_leaf. rewrite Hc in g_leaf.
      assert (X : m = n \/ In m (leaves s' ++ d)).
      { apply in_app_or in Hm. destruct Hm as [Hm|[Hm|Hm]]; auto; right; apply in_or_app; auto. }
      destruct X as [->|X]; [|apply g_leaf; exact X].
      split; [exact Hn|]. split; [change (bst s n <> Untouched); congruence|]. right. intros _. exact (Hcb eq_refl).
    + eapply JInv_ext; [| | |exact HJ]; auto.
    + eapply LInv_ext; [| | | |exact HL]; auto.
    + apply (CPre_sched cf (n :: d)); auto.
      * destruct HC. split; [constructor|]; auto.
        -- apply c_notfin. congruence.
        -- change (est s' <> Idle). rewrite (c_sched d); auto. discriminate.
      * apply (c_err _ _ HC). eapply c_sched; eauto.
      * change (est s' = ERunning). apply (c_sched _ _ HC d). exact Hc'.
  - destruct (gkind (gr s') n) eqn:K.
    + eapply build_artifact_Inv; eauto. congruence.
    + eapply build_artifact_Inv; eauto. congruence.
    + eapply execute_rule_Inv; eauto.
Qed.

(** *** end of the loop *)
Lemma sched_end_Inv cf s d :
  wf_config cf -> Inv cf s -> ctl s = CSched d -> (leaves s = [] \/ avail s = []) -> Inv cf (sched_end cf d s).
Proof.
  intros WC HI Hc Hle. unfold sched_end. cbv zeta.
  set (s1 := set_leaves (d ++ leaves s) s).
  assert (CP : CPre cf s) by (apply CInv_CPre; [apply HI|congruence]).
  destruct HI as [HU HG HJ HL HC].
  assert (HG1 : GInv cf (fun _ => False) s1).
  { destruct HG. constructor; auto. intros n Hn. apply g_leaf. unfold delayed in *.
    cbn [s1 leaves set_leaves ctl] in Hn. rewrite Hc in *.
    apply in_or_app. apply in_app_or in Hn. destruct Hn as [Hn|Hn]; auto. apply in_app_or in Hn. tauto. }
  assert (HJ1 : JInv cf s1) by (eapply JInv_ext; [| | |exact HJ]; auto).
  assert (HL1 : LInv cf s1) by (eapply LInv_ext; [| | | |exact HL]; auto).
  assert (CP1 : CPre cf s1) by (destruct CP as [[] ?]; split; [constructor|]; auto).
  assert (RN : est s = ERunning) by (eapply c_sched; eauto).
  assert (Wait : procs s <> [] -> Inv cf (set_ctl CWait s1)).
  { intros NP. constructor.
    - exact HU.
    - eapply GInv_ext; [| | | |exact HG1]; auto. intros x [].
    - eapply JInv_ext; [| | |exact HJ1]; auto.
    - eapply LInv_ext; [| | | |exact HL1]; auto.
    - destruct CP1 as [[] p_fail]. constructor; auto; try discriminate.
      + intros _. exact (c_err _ _ HC RN).
      + intros e He. exfalso. eauto. }
  destruct (leaves s1) eqn:E1.
  - destruct (procs s1) eqn:E2.
    + apply finish_Inv; auto.
    + apply Wait. intros X. change (procs s1) with (procs s) in E2. congruence.
  - apply Wait. intros X. destruct Hle as [Hle|Hle].
    + cbn [s1 leaves set_leaves] in E1. rewrite Hle, app_nil_r in E1. subst d.
      eapply (c_delay _ _ HC); eauto.
    + pose proof (j_len _ _ HJ) as JL. rewrite X, Hle in JL. pose proof (wfc_jobs _ WC). simpl in JL. lia.
Qed.

(** *** a command ends *)
Section Cmd.
  Variables (cf : config) (s : state) (jb : job) (k : nat) (canceled ok : bool).
  Hypothesis HI : Inv cf s.
  Hypothesis Hj : In jb (procs s).
  Hypothesis Hph : jph jb = Running k canceled.
  Hypothesis Hctl : ctl s = CWait \/ exists d, ctl s = CSched d.

  Lemma cmd_ids : NoDup (map jid (procs s)).
  Proof.
    pose proof (j_ids _ _ (inv_j _ _ HI)) as H. clear - H.
    induction (map jid (procs s)) as [|x l IH]; [constructor|]. simpl in H.
    inversion_clear H as [|? ? H1 H2]. constructor; auto. intros X. apply H1, in_or_app; auto.
  Qed.

  Lemma phase_not_idle : est s <> Idle.
  Proof.
    destruct Hctl as [C|[d C]].
    - apply (c_wait _ _ (inv_c _ _ HI) C).
    - rewrite (c_sched _ _ (inv_c _ _ HI) d C). discriminate.
  Qed.

  (** Changing the phase of a running job. *)
  Lemma set_phase_parts p : (forall i c, p = Running i c -> c = canceled) ->
    let s' := set_procs (set_phase (jid jb) p (procs s)) s in
    UInv cf s' /\ GInv cf (fun _ => False) s' /\ JInv cf s' /\ CInv cf s'.
  Proof.
    intros Hp. cbv zeta. set (s' := set_procs _ s).
    pose proof cmd_ids as ND.
    assert (X : forall x, In x (procs s') -> exists x0, In x0 (procs s) /\ jid x = jid x0 /\ jtr x = jtr x0 /\
       ((x0 = jb /\ jph x = p) \/ x = x0)).
    { intros x Hx. apply set_phase_In in Hx. destruct Hx as (x0 & A & B & C & D). exists x0.
      split; auto. split; auto. split; auto. destruct D as [[D1 D2]|[_ D]]; auto. left. split; auto.
      apply (NoDup_map_inj jid (procs s)); auto. }
    assert (NN : procs s <> [] -> procs s' <> []).
    { intros N E. apply N. apply (map_eq_nil jid). rewrite <- (set_phase_ids (jid jb) p).
      change (set_phase _ _ _) with (procs s'). rewrite E. reflexivity. }
    destruct HI as [HU HG HJ HL HC]. split; [exact HU|]. split; [|split].
    - eapply GInv_ext; [| | | |exact HG]; auto. apply incl_refl.
    - destruct HJ. constructor; cbn [s' procs avail cnt set_procs];
        rewrite ?set_phase_ids, ?set_phase_trs; auto.
      + unfold set_phase. now rewrite map_length.
      + intros q. rewrite j_cnt. unfold set_phase. rewrite filter_map_len; auto.
        intros x. destruct (_ =? _); reflexivity.
      + intros j q i c Hj' Hq. destruct (X j Hj') as (x0 & A & B & C & D). rewrite C.
        destruct D as [[-> D]|D].
        * apply (j_lim jb q k canceled); auto.
        * apply (j_lim x0 q i c); auto. now rewrite <- D.
    - destruct HC. constructor; auto.
      + intros E j i c Hj' Hq. destruct (X j Hj') as (x0 & A & B & C & D).
        destruct D as [[-> D]|D].
        * rewrite (Hp i c) by congruence. eapply c_canc; eauto.
        * subst j. eapply c_canc; eauto.
      + intros E j i c Hj' Hq. destruct (X j Hj') as (x0 & A & B & C & D).
        destruct D as [[-> D]|D].
        * rewrite (Hp i c) by congruence. eapply c_ran; eauto.
        * subst j. eapply c_ran; eauto.
      + intros E. destruct (c_wait E). split; auto.
      + intros E. exfalso. change (ctl s = CFinished) in E. destruct Hctl as [C|[d C]]; congruence.
      + intros x d E. apply NN. eapply c_delay; eauto.
  Qed.

  (** Ending the job. *)
  Lemma set_done_Inv b : (b = true -> S k = cf_ncmds cf (jtr jb)) ->
    Inv cf (set_procs (set_phase (jid jb) (Done b) (procs s)) s).
  Proof.
    intros Hb. destruct (set_phase_parts (Done b)) as (HU & HG & HJ & HC); [discriminate|].
    constructor; auto. clear HU HG HJ HC.
    pose proof cmd_ids as ND. destruct (inv_l _ _ HI) as [P ON R EN OK EX CM C PH SU DN].
    constructor; cbn [procs log gr bst set_procs]; rewrite ?set_phase_trs; auto.
    - intros j Hj'. apply set_phase_In in Hj'. destruct Hj' as (x0 & A & B & E & D). rewrite E. auto.
    - intros t i Ht. destruct (C t i Ht) as (C1 & C2 & C3 & C4). split; auto. split; auto. split; auto.
      intros j q c Hj' Et Ep. apply set_phase_In in Hj'. destruct Hj' as (x0 & A & B & E & D).
      destruct D as [[D1 D2]|[_ D]]; [congruence|]. subst j. eauto.
    - intros j Hj'. apply set_phase_In in Hj'. destruct Hj' as (x0 & A & B & E & D).
      destruct D as [[D1 D2]|[_ D]].
      + assert (x0 = jb) by (apply (NoDup_map_inj jid (procs s)); auto). subst x0. rewrite D2, E.
        destruct b; auto. specialize (Hb eq_refl). intros i Hi.
        specialize (PH jb Hj). rewrite Hph in PH.
        destruct (Nat.eq_dec i k) as [->|Hik]; auto.
        destruct (C (jtr jb) k PH) as (_ & _ & C3 & _). apply C3. lia.
      + subst j. exact (PH x0 A).
  Qed.

  (** Starting the next command. *)
  Lemma set_next_Inv : canceled = false -> S k < cf_ncmds cf (jtr jb) ->
    Inv cf (say (EvCmd (jtr jb) (S k)) (set_procs (set_phase (jid jb) (Running (S k) false) (procs s)) s)).
  Proof.
    intros Hc Hlt. pose proof phase_not_idle as NI.
    destruct (set_phase_parts (Running (S k) false)) as (HU & HG & HJ & HC); [congruence|].
    pose proof cmd_ids as ND. destruct (inv_l _ _ HI) as [P ON R EN OK EX CM C PH SU DN].
    assert (NE : ~ In (EvCmd (jtr jb) (S k)) (log s)).
    { intros H. destruct (C _ _ H) as (_ & _ & _ & C4). specialize (C4 jb k canceled Hj eq_refl Hph). lia. }
    assert (RN : est s = ERunning).
    { destruct (est s) eqn:E; auto; [congruence|].
      pose proof (c_canc _ _ (inv_c _ _ HI) E jb k canceled Hj Hph). congruence. }
    set (s' := set_procs _ s) in *.
    constructor.
    - exact HU.
    - eapply GInv_ext; [| | | |exact HG]; auto. apply incl_refl.
    - eapply JInv_ext; [| | |exact HJ]; auto.
    - assert (LG : forall e, (forall t i, e <> EvCmd t i) -> (In e (EvCmd (jtr jb) (S k) :: log s) <-> In e (log s))).
      { intros e He. simpl. split; auto. intros [H|H]; auto. exfalso. eapply He; eauto. }
      constructor; cbn [procs log gr bst set_procs say s' runs cmds]; rewrite ?set_phase_trs; auto.
      + intros j Hj'. apply set_phase_In in Hj'. destruct Hj' as (x0 & A & B & E & D). rewrite E.
        rewrite !LG by discriminate. auto.
      + intros t. rewrite !LG by discriminate. auto.
      + intros t. rewrite !LG by discriminate. auto.
      + intros t o. rewrite !LG by discriminate. eauto.
      + intros t. rewrite !LG by discriminate. eauto.
      + constructor; auto. rewrite cmds_In. exact NE.
      + intros t i [Ht|Ht].
        * injection Ht as <- <-. rewrite LG by discriminate. split; [apply (P jb Hj)|]. split; [exact Hlt|].
          specialize (PH jb Hj). rewrite Hph in PH. split.
          -- intros q Hq. right. destruct (Nat.eq_dec q k) as [->|Hqk]; auto.
             destruct (C (jtr jb) k PH) as (_ & _ & C3 & _). apply C3. lia.
          -- intros j q c Hj' Et Ep. apply set_phase_In in Hj'. destruct Hj' as (x0 & A & B & E & D).
             destruct D as [[D1 D2]|[D1 D]]; [rewrite D2 in Ep; injection Ep; lia|]. subst j.
             exfalso. apply D1. f_equal. apply (NoDup_map_inj jtr (procs s)); auto. apply (j_trs _ _ (inv_j _ _ HI)).
        * destruct (C t i Ht) as (C1 & C2 & C3 & C4). rewrite LG by discriminate. split; auto. split; auto. split.
          -- intros q Hq. right. auto.
          -- intros j q c Hj' Et Ep. apply set_phase_In in Hj'. destruct Hj' as (x0 & A & B & E & D).
             destruct D as [[D1 D2]|[_ D]].
             ++ assert (x0 = jb) by (apply (NoDup_map_inj jid (procs s)); auto). subst x0.
                rewrite D2 in Ep. injection Ep as <- <-. 
                assert (i <= k) by (eapply C4; eauto; congruence). lia.
             ++ subst j. eauto.
      + intros j Hj'. apply set_phase_In in Hj'. destruct Hj' as (x0 & A & B & E & D).
        destruct D as [[D1 D2]|[_ D]].
        * assert (x0 = jb) by (apply (NoDup_map_inj jid (procs s)); auto). subst x0. rewrite D2, E. now left.
        * subst j. specialize (PH x0 A). destruct (jph x0) as [q c|[]]; auto.
          -- now right.
          -- intros q Hq. right. auto.
      + intros t. rewrite LG by discriminate. intros Ht q Hq. right. eauto.
      + intros m Hm Hb. specialize (DN m Hm Hb). unfold handled in *. cbn [gr log say set_procs s'] in *.
        destruct (gkind (gr s) m); simpl; tauto.
    - assert (LG : forall e, (forall t i, e <> EvCmd t i) -> In e (EvCmd (jtr jb) (S k) :: log s) -> In e (log s)).
      { intros e He. simpl. intros [H|H]; auto. exfalso. eapply He; eauto. }
      destruct HC. constructor; auto; cbn [log say] in *.
      + intros H. apply LG in H; [|discriminate]. auto.
      + intros H. right. auto.
      + intros t H K. apply LG in H; [|discriminate]. eauto.
      + intros t l2 l1 El K N1 N2. destruct l2 as [|x l2]; [discriminate|]. injection El as <- El. eauto.
      + intros H [e He]. apply LG in He; [|discriminate]. apply c_notfin; eauto.
      + intros e He. apply LG in He; [|discriminate]. auto.
      + intros t H K. apply LG in H; [|discriminate]. eauto.
  Qed.

  Lemma cmd_Inv : Inv cf (cmd_finished cf jb k canceled ok s).
  Proof.
    assert (D : Inv cf (set_procs (set_phase (jid jb) (Done false) (procs s)) s))
      by (apply set_done_Inv; discriminate).
    unfold cmd_finished. destruct (bool_dec canceled true) as [Ec|Ec]; [rewrite Ec; exact D|].
    apply not_true_is_false in Ec. rewrite Ec. destruct ok; simpl; [|exact D].
    destruct (S k <? cf_ncmds cf (jtr jb)) eqn:L.
    - apply Nat.ltb_lt in L. apply set_next_Inv; auto.
    - apply Nat.ltb_ge in L. apply set_done_Inv. intros _.
      pose proof (l_phase _ _ (inv_l _ _ HI) jb Hj) as PH. rewrite Hph in PH.
      destruct (l_cmd _ _ (inv_l _ _ HI) _ _ PH) as (_ & A & _). lia.
  Qed.
End Cmd.

(** *** the finished signal arrives *)
Section Slot.
  Variables (cf : config) (s : state) (jb : job) (ok cancel throw : bool) (inst : nat -> bool).
  Hypothesis WC : wf_config cf.
  Hypothesis HI : Inv cf s.
  Hypothesis Hj : In jb (procs s).
  Hypothesis Hph : jph jb = Done ok.
  Hypothesis Hctl : ctl s = CWait.

  Let t := jtr jb.
  Let sa := if negb ok && negb (cf_keepgoing cf)
           then match errs s with [] => set_errs [ECommand t] s | _ => s end else s.
  Let sb := set_jobs (avail sa ++ [jid jb]) (drop_job (jid jb) (procs sa))
                    (add_counts (cf_pools cf t) (-1) (cnt sa)) sa.
  Let sc := say (if ok then EvSucceeded t else EvFailed t) sb.

  Lemma slot_fields : gr sc = gr s /\ bst sc = bst s /\ leaves sc = leaves s /\ avail sc = avail s ++ [jid jb]
    /\ procs sc = drop_job (jid jb) (procs s) /\ cnt sc = add_counts (cf_pools cf t) (-1) (cnt s)
    /\ est sc = est s /\ expl sc = expl s /\ ctl sc = CWait
    /\ log sc = (if ok then EvSucceeded t else EvFailed t) :: log s
    /\ (errs sc = errs s \/ (ok = false /\ cf_keepgoing cf = false /\ errs s = [] /\ errs sc = [ECommand t]))
    /\ (ok = false -> cf_keepgoing cf = false -> errs s = [] -> errs sc = [ECommand t]).
  Proof.
    unfold sc, sb, sa. destruct ok, (cf_keepgoing cf); simpl;
      try (destruct (errs s) eqn:E; simpl); repeat split; auto; congruence || tauto.
  Qed.

  Lemma slot_drop x : In x (procs sc) -> In x (procs s) /\ jtr x <> t.
  Proof.
    destruct slot_fields as (_ & _ & _ & _ & P & _). rewrite P, drop_job_In. intros [H1 H2].
    split; auto. intros E. apply H2. f_equal.
    apply (NoDup_map_inj jtr (procs s)); auto. apply (j_trs _ _ (inv_j _ _ HI)).
  Qed.

  Lemma slot_GInv : GInv cf (fun _ => False) sc.
  Proof.
    destruct slot_fields as (G & B & L & _ & _ & _ & _ & _ & C & _).
    eapply GInv_ext; [| | | |apply (inv_g _ _ HI)]; auto. unfold delayed. rewrite C, Hctl. apply incl_refl.
  Qed.

  Lemma slot_JInv : JInv cf sc.
  Proof.
    destruct slot_fields as (_ & _ & _ & A & P & C & _).
    pose proof (cmd_ids cf s HI) as ND. pose proof (drop_job_perm (procs s) jb ND Hj) as PM.
    destruct (inv_j _ _ HI) as [ID LE TR CN LI].
    constructor; rewrite ?A, ?P, ?C.
    - apply (Permutation_NoDup (l := map jid (procs s) ++ avail s)); auto.
      rewrite (Permutation_map jid PM). simpl. rewrite app_assoc. rewrite <- Permutation_cons_append. reflexivity.
    - apply Permutation_length in PM. simpl in PM. rewrite app_length. simpl. lia.
    - apply (Permutation_map jtr) in PM. apply (Permutation_NoDup PM) in TR. simpl in TR.
      inversion_clear TR. auto.
    - intros p. rewrite add_counts_spec by apply (wfc_pools _ WC). rewrite CN.
      assert (E : length (filter (fun j => mem p (cf_pools cf (jtr j))) (procs s)) =
        length (filter (fun j => mem p (cf_pools cf (jtr j))) (jb :: drop_job (jid jb) (procs s)))).
      { clear - PM. induction PM; simpl; auto.
        - destruct (mem _ _); simpl; auto.
        - destruct (mem p (cf_pools cf (jtr x))), (mem p (cf_pools cf (jtr y))); reflexivity.
        - congruence. }
      rewrite E. simpl. fold t. destruct (mem p (cf_pools cf t)); simpl length; lia.
    - intros j p i c Hj' Hp Hpool L. rewrite add_counts_spec by apply (wfc_pools _ WC).
      apply drop_job_In in Hj'. destruct Hj' as [Hj' _].
      specialize (LI j p i c Hj' Hp Hpool L). destruct (mem p _); lia.
  Qed.

  Lemma slot_LInv : LInv cf sc.
  Proof.
    pose proof slot_drop as SD.
    destruct slot_fields as (G & B & _ & _ & P & _ & _ & _ & _ & Lg & _).
    destruct (inv_l _ _ HI) as [Pr ON R EN OK EX CM C PH SU DN].
    destruct (Pr jb Hj) as (P1 & P2 & P3 & P4). fold t in P1, P2, P3, P4.
    assert (New : forall e, In e (log sc) <-> In e (log s) \/ e = (if ok then EvSucceeded t else EvFailed t)).
    { intros e. rewrite Lg. simpl. split; intros [H|H]; auto. }
    assert (Sk : forall e, e <> EvSucceeded t -> e <> EvFailed t -> (In e (log sc) <-> In e (log s))).
    { intros e H1 H2. rewrite New. split; auto. intros [H|H]; auto. destruct ok; congruence. }
    assert (Ru : runs (log sc) = runs (log s)) by (rewrite Lg; destruct ok; reflexivity).
    assert (Cm : cmds (log sc) = cmds (log s)) by (rewrite Lg; destruct ok; reflexivity).
    constructor; rewrite ?G, ?B, ?Ru, ?Cm; auto.
    - intros j Hj'. destruct (SD j Hj') as [A E]. destruct (Pr j A) as (Q1 & Q2 & Q3 & Q4).
      split; auto. rewrite !Sk by congruence. auto.
    - intros u Hu. apply Sk in Hu; try discriminate. destruct (R u Hu) as (R1 & R2 & R3).
      split; auto. split; auto. destruct (Nat.eq_dec u t) as [->|Ne].
      + right. rewrite !New. destruct ok; auto.
      + rewrite !Sk by congruence. destruct R3 as [R3|R3]; auto. left.
        apply in_map_iff in R3. destruct R3 as (j & Ej & Hj'). apply in_map_iff. exists j. split; auto.
        rewrite P. apply drop_job_In. split; auto. intros E. apply Ne. rewrite <- Ej. unfold t. f_equal.
        apply (NoDup_map_inj jid (procs s)); auto. apply (cmd_ids cf s HI).
    - intros u Hu. apply Sk; try discriminate. rewrite !New in Hu.
      destruct Hu as [[Hu|Hu]|[Hu|Hu]]; auto; destruct ok; try discriminate; injection Hu as ->; auto.
    - intros u o Hu Ho Hb. apply Sk in Hu; try discriminate. apply New. left. eauto.
    - intros u. rewrite !New. intros [H1|H1] [H2|H2]; eauto;
        destruct ok; try discriminate; try (injection H1 as ->); try (injection H2 as ->); auto.
    - intros u i Hu. apply Sk in Hu; try discriminate. destruct (C u i Hu) as (C1 & C2 & C3 & C4).
      rewrite Sk by discriminate. split; auto. split; auto. split.
      + intros q Hq. apply Sk; try discriminate; auto.
      + intros j q c Hj'. destruct (SD j Hj') as [A E]. eauto.
    - intros j Hj'. destruct (SD j Hj') as [A E]. specialize (PH j A).
      destruct (jph j) as [q c|[]]; auto.
      + apply Sk; try discriminate; auto.
      + intros q Hq. apply Sk; try discriminate; auto.
    - intros u Hu q Hq. apply Sk; try discriminate. apply New in Hu. destruct Hu as [Hu|Hu]; eauto.
      destruct ok; [|discriminate]. injection Hu as ->. specialize (PH jb Hj). rewrite Hph in PH. auto.
    - intros m Hm Hb. specialize (DN m Hm Hb). unfold handled in *. rewrite G.
      destruct (gkind (gr s) m); rewrite ?New; tauto.
  Qed.

  Lemma slot_CPre0 : CPre0 cf sc.
  Proof.
    pose proof slot_drop as SD.
    destruct slot_fields as (G & B & _ & _ & P & _ & E & X & C & Lg & Er & Er2).
    assert (NF : ctl s <> CFinished) by congruence.
    pose proof (CInv_CPre cf s (inv_c _ _ HI) NF) as [[] p_fail].
    pose proof (c_err _ _ (inv_c _ _ HI)) as CE.
    constructor; rewrite ?E, ?X; auto.
    - intros Ec j i c Hj'. apply SD in Hj'. destruct Hj'. eauto.
    - intros Ec j i c Hj'. apply SD in Hj'. destruct Hj'. eauto.
    - rewrite Lg. intros [H|H]; [destruct ok; discriminate|auto].
    - rewrite Lg. intros H. right. auto.
    - rewrite Lg. intros u l2 l1 El K N1 N2. destruct l2 as [|x l2]; simpl in El.
      + injection El as Eo El. destruct ok; [discriminate|]. injection Eo as <-.
        rewrite Er2; eauto. apply CE. rewrite <- El in N1. destruct (est s) eqn:Es; auto; [congruence|].
        exfalso. auto.
      + injection El as _ El. destruct (p_first u l2 l1 El K N1 N2) as [rest Hr].
        destruct Er as [->|(_ & _ & Hn & _)]; [eauto|congruence].
    - rewrite Lg. intros [e [H|H]]; [destruct ok; discriminate|]. apply p_notfin. eauto.
    - rewrite Lg. intros u [H|H] K.
      + destruct ok eqn:Eo; [discriminate|]. destruct (errs s) eqn:Ee.
        * rewrite Er2; auto. discriminate.
        * destruct Er as [->|(_ & _ & Hn & _)]; discriminate.
      + pose proof (p_failerr u H K) as X1. destruct Er as [->|(_ & _ & Hn & _)]; congruence.
  Qed.

  Lemma slot_UInv_other u o o' : est s = ERunning -> cf_inprod cf (cf_prod cf u) = true ->
     In o (outs (gr sc) u) -> In o' (outs (gr sc) u) -> active (bst sc o) -> active (bst sc o').
  Proof.
    destruct slot_fields as (G & B & _). rewrite G, B. intros R Hu Ho Ho' Ha. exact (inv_u _ _ HI R u o o' Hu Ho Ho' Ha).
  Qed.

  (** From the state after the transformer was dealt with to the end of the slot. *)
  Lemma slot_tail s4 :
    GInv cf (fun _ => False) s4 -> JInv cf s4 -> LInv cf s4 -> CPre0 cf s4 ->
    (est s4 = ERunning -> errs s4 = [] \/ ok = false /\ cf_keepgoing cf = false) ->
    UInv cf s4 -> ctl s4 = CWait ->
    ((ok = true \/ cf_keepgoing cf = true) -> CPre cf s4) ->
    Inv cf (let s := if negb ok && negb (cf_keepgoing cf) then cancel_jobs s4 else s4 in
    let s := match est s with
             | ERunning => if cancel then cancel_jobs (set_expl true s) else s
             | _ => s
             end in
    match est s with
    | ECanceling => match procs s with [] => finish cf s | _ :: _ => set_ctl CWait s end
    | _ => set_ctl (CSched []) s
    end).
  Proof.
    intros HG HJ HL HC HE HU HW HK.
    assert (Canc : forall x, GInv cf (fun _ => False) x -> JInv cf x -> LInv cf x -> CPre cf x ->
      est x = ECanceling -> ctl x = CWait ->
      Inv cf (match procs x with [] => finish cf x | _ :: _ => set_ctl CWait x end)).
    { intros x A1 A2 A3 A4 A5 A6. destruct (procs x) eqn:Ep.
      - apply finish_Inv; auto.
      - constructor.
        + apply UInv_not_running. simpl. congruence.
        + eapply GInv_ext; [| | | |exact A1]; auto. intros y [].
        + eapply JInv_ext; [| | |exact A2]; auto.
        + eapply LInv_ext; [| | | |exact A3]; auto.
        + apply CPre_wait; auto. congruence. }
    cbv zeta. destruct (negb ok && negb (cf_keepgoing cf)) eqn:E.
    - rewrite cancel_jobs_est. rewrite cancel_jobs_est. apply Canc.
      + now apply cancel_jobs_GInv.
      + now apply cancel_jobs_JInv.
      + now apply cancel_jobs_LInv.
      + now apply cancel_jobs_CPre.
      + apply cancel_jobs_est.
      + destruct (cancel_jobs_misc s4) as (_ & _ & _ & _ & _ & _ & _ & -> & _). exact HW.
    - assert (KK : ok = true \/ cf_keepgoing cf = true) by (destruct ok, (cf_keepgoing cf); auto; discriminate).
      specialize (HK KK).
      assert (Run : est s4 = ERunning -> Inv cf (set_ctl (CSched []) s4)).
      { intros R. constructor.
        - exact HU.
        - eapply GInv_ext; [| | | |exact HG]; auto. intros y [].
        - eapply JInv_ext; [| | |exact HJ]; auto.
        - eapply LInv_ext; [| | | |exact HL]; auto.
        - apply (CPre_sched cf []); auto.
          + destruct HK as [[] ?]; split; [constructor|]; auto.
          + destruct (HE R) as [X|[X Y]]; auto. destruct KK; congruence. }
      destruct (est s4) eqn:Es.
      + destruct HK as [[] ?]. congruence.
      + destruct cancel.
        * rewrite cancel_jobs_est. apply Canc.
          -- apply cancel_jobs_GInv. eapply GInv_ext; [| | | |exact HG]; auto. apply incl_refl.
          -- apply cancel_jobs_JInv. eapply JInv_ext; [| | |exact HJ]; auto.
          -- apply cancel_jobs_LInv. eapply LInv_ext; [| | | |exact HL]; auto.
          -- pose proof (cancel_jobs_CPre cf s4 HC) as CC.
             assert (EQ : cancel_jobs (set_expl true s4) = set_expl true (cancel_jobs s4))
               by (unfold cancel_jobs; simpl; destruct (est s4); reflexivity).
             rewrite EQ. pose proof (cancel_jobs_est s4) as CE. destruct CC as [[] ?]; split; [constructor|]; auto.
          -- apply cancel_jobs_est.
          -- destruct (cancel_jobs_misc (set_expl true s4)) as (_ & _ & _ & _ & _ & _ & _ & -> & _). exact HW.
        * rewrite Es. auto.
      + rewrite Es. apply Canc; auto.
  Qed.

  Lemma slot_CPre : ok = true \/ cf_keepgoing cf = true -> CPre cf sc.
  Proof.
    intros H. split; [apply slot_CPre0|]. intros u Hu K.
    destruct slot_fields as (_ & _ & _ & _ & _ & _ & -> & _ & _ & Lg & _). rewrite Lg in Hu.
    destruct Hu as [Hu|Hu].
    - destruct ok; [discriminate|]. destruct H; congruence.
    - eapply c_fail; eauto. apply HI.
  Qed.

  Lemma slot_errs : est sc = ERunning -> errs sc = [] \/ ok = false /\ cf_keepgoing cf = false.
  Proof.
    destruct slot_fields as (_ & _ & _ & _ & _ & _ & E & _ & _ & _ & Er & _). rewrite E. intros R.
    destruct Er as [->|(A & B & _)]; auto. left. apply (c_err _ _ (inv_c _ _ HI) R).
  Qed.

  Lemma slot_Inv : Inv cf (job_slot cf jb ok cancel throw inst s).
  Proof.
    unfold job_slot. cbv zeta. fold t. fold sa. fold sb. fold sc.
    pose proof slot_GInv as HG. pose proof slot_JInv as HJ. pose proof slot_LInv as HL.
    pose proof slot_CPre0 as HC0. pose proof slot_CPre as HC. pose proof slot_errs as HE.
    destruct slot_fields as (G & B & L & A & P & C & E & X & Ct & Lg & _).
    match goal with |- Inv cf (let '(_, _) := ?p in _) => destruct p as [s4 th] eqn:Ef end.
    destruct (bool_dec ok true) as [Eok|Eok].
    - specialize (HC (or_introl Eok)). rewrite Eok in Ef.
      destruct throw; [injection Ef as <- <-; apply handle_error_Inv; auto|].
      destruct (finish_transformer_parts cf _ _ _ _ _ Ef HG HL) as (F & HG' & HL' & B').
      + intros _. rewrite B. apply (l_run _ _ (inv_l _ _ HI)). apply (l_proc _ _ (inv_l _ _ HI) jb Hj).
      + intros _. rewrite Lg, Eok. now left.
      + left. rewrite Lg, Eok. now left.
      + assert (HJ' : JInv cf s4) by (eapply frame_JInv; eauto).
        assert (HC' : CPre cf s4).
        { destruct HC as [[] pf]. split; [constructor|]; rewrite ?(fr_est _ _ F), ?(fr_procs _ _ F), ?(fr_log _ _ F),
            ?(fr_errs _ _ F), ?(fr_expl _ _ F); auto. }
        destruct th; [apply handle_error_Inv; auto|].
        apply (slot_tail s4); auto.
        * apply HC'.
        * rewrite (fr_est _ _ F), (fr_errs _ _ F). exact HE.
        * intros R. pose proof R as R0. rewrite (fr_est _ _ F), E in R.
          eapply finish_transformer_UInv; [apply (fr_gr _ _ F)|apply B'; auto| |exact R0].
          intros u o o' _. apply slot_UInv_other; auto.
        * rewrite (fr_ctl _ _ F). exact Ct.
    - apply not_true_is_false in Eok. rewrite Eok in Ef. injection Ef as <- <-.
      apply (slot_tail sc); auto.
      intros R u o o' Hu Ho Ho' Ha. rewrite E in R. exact (slot_UInv_other u o o' R Hu Ho Ho' Ha).
  Qed.
End Slot.

(** *** the timer *)
Lemma tick_Inv cf s : Inv cf s -> ctl s = CWait -> Inv cf (cancel_jobs s).
Proof.
  intros HI Hc. assert (CP : CPre cf s) by (apply CInv_CPre; [apply HI|congruence]).
  destruct (cancel_jobs_misc s) as (_ & _ & _ & _ & _ & _ & _ & Ct & _).
  destruct (c_wait _ _ (inv_c _ _ HI) Hc) as [_ NP].
  constructor.
  - apply UInv_not_running. rewrite cancel_jobs_est. discriminate.
  - apply cancel_jobs_GInv, HI.
  - apply cancel_jobs_JInv, HI.
  - apply cancel_jobs_LInv, HI.
  - assert (H : CInv cf (set_ctl CWait (cancel_jobs s))).
    { apply CPre_wait; [apply cancel_jobs_CPre, CP|apply cancel_jobs_est|].
      rewrite cancel_jobs_procs_nil. exact NP. }
    assert (Eq : ctl (cancel_jobs s) = CWait) by congruence.
    destruct H. cbn [ctl set_ctl est procs log errs expl] in *. constructor; rewrite ?Eq; auto.
Qed.

Lemma step_Inv cf s i s' : wf_config cf -> Inv cf s -> ok_input cf s i -> step cf s i = Some s' -> Inv cf s'.
Proof.
  intros WC HI Hi H. unfold step in H. destruct i as [k c| |j ok|j cancel throw inst|].
  - destruct (ctl s) eqn:C; try discriminate. destruct (nth_error (leaves s) k) as [n|] eqn:Hk; [|discriminate].
    destruct (avail s) eqn:A; [discriminate|]. injection H as <-.
    eapply leaf_Inv; eauto; congruence || (intros; eapply Hi; eauto).
  - destruct (ctl s) as [d| | |] eqn:C; try discriminate.
    assert (X : (leaves s = [] \/ avail s = []) /\ s' = sched_end cf d s).
    { destruct (leaves s); [split; [auto|congruence]|]. destruct (avail s); [split; [auto|congruence]|discriminate]. }
    destruct X as [X ->]. apply sched_end_Inv; auto.
  - assert (C : ctl s = CWait \/ exists d, ctl s = CSched d).
    { destruct (ctl s); try discriminate; eauto. }
    assert (X : exists jb k canceled, In jb (procs s) /\ jph jb = Running k canceled
       /\ s' = cmd_finished cf jb k canceled ok s).
    { destruct (ctl s); try discriminate;
      destruct (find_job j (procs s)) as [jb|] eqn:F; try discriminate; destruct (jph jb) eqn:P; try discriminate;
      apply find_job_In in F; exists jb, i, canceled; (split; [tauto|]; split; [exact P|congruence]). }
    destruct X as (jb & k & canceled & F & P & ->). apply cmd_Inv; auto.
  - destruct (ctl s) eqn:C; try discriminate.
    destruct (find_job j (procs s)) as [jb|] eqn:F; try discriminate. destruct (jph jb) eqn:P; try discriminate.
    injection H as <-. apply find_job_In in F. apply slot_Inv; tauto.
  - destruct (ctl s) eqn:C; try discriminate. destruct (est s) eqn:E; try discriminate. injection H as <-.
    apply tick_Inv; auto.
Qed.

(** *** initial state *)
Lemma mark_range fuel ch : forall n b, (forall m, b m = Untouched \/ b m = Buildable) ->
  forall m, mark fuel ch n b m = Untouched \/ mark fuel ch n b m = Buildable.
Proof.
  induction fuel as [|fuel IH]; intros n b H; simpl; auto.
  destruct (is_untouched (b n)); auto.
  assert (H1 : forall m, upd b n Buildable m = Untouched \/ upd b n Buildable m = Buildable).
  { intros m. unfold upd. destruct (m =? n); auto. }
  revert H1. generalize (upd b n Buildable). induction (ch n) as [|c l IHl]; intros b1 H1; simpl; auto.
Qed.

Lemma prepare_range g m : prepare_reachable g m = Untouched \/ prepare_reachable g m = Buildable.
Proof.
  unfold prepare_reachable.
  assert (H : forall l b, (forall m, b m = Untouched \/ b m = Buildable) ->
    forall m, fold_left (fun b n => mark (S (length (gnodes g))) (gchildren g) n b) l b m = Untouched
           \/ fold_left (fun b n => mark (S (length (gnodes g))) (gchildren g) n b) l b m = Buildable).
  { induction l as [|n l IH]; intros b Hb; [exact Hb|]. simpl. apply IH. apply (mark_range (S _)); auto. }
  apply H. auto.
Qed.

Lemma init_Inv cf g : wf_graph cf g -> Inv cf (init cf g).
Proof.
  intros WF. unfold init. set (s0 := {| gr := g |}).
  assert (NA : forall m, ~ active (bst s0 m)).
  { intros m. cbn [bst s0]. destruct (prepare_range g m) as [E|E]; rewrite E; intros [X|X]; discriminate. }
  assert (G0 : GInv cf (fun _ => False) s0).
  { constructor; auto.
    - intros n [].
    - intros n t _ _ Ha. now apply NA in Ha.
    - intros n Hn. exfalso. apply (NA n). now right. }
  assert (L0 : LInv cf s0).
  { constructor; cbn [procs log s0]; try (intros; contradiction); try (exact (NoDup_nil _)); try (simpl; tauto).
    intros n _ Hb. exfalso. apply (NA n). now right. }
  assert (U0 : UInv cf s0).
  { intros _ t o o' _ _ _ Ha. now apply NA in Ha. }
  assert (I0 : incl (groots g) (gnodes (gr s0))) by (intros n Hn; apply (wf_roots _ _ WF); auto).
  destruct (update_leaves_Inv cf _ (groots g) s0 I0 G0 L0 U0) as (F & M & HG & HL & HU).
  constructor; auto.
  - eapply frame_JInv; [exact F|]. constructor; cbn [procs avail cnt s0 map].
    + simpl. apply seq_NoDup.
    + simpl. apply seq_length.
    + constructor.
    + reflexivity.
    + intros j p i c [].
  - eapply frame_CInv; [exact F|]. constructor; cbn [procs est ctl log errs expl s0]; try discriminate; try tauto.
    + intros _ j i c [].
    + intros t l2 l1 E. destruct l2; discriminate.
    + intros _ [e []].
    + intros e [].
Qed.

Theorem reachable_Inv cf g s : wf_config cf -> wf_graph cf g -> reachable cf g s -> Inv cf s.
Proof.
  intros WC WF H. induction H; [now apply init_Inv|]. eapply step_Inv; eauto.
Qed.
