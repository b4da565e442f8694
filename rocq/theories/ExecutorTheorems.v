(** The properties of the build executor (C01-C08). *)
From Coq Require Import List Bool Arith ZArith Lia Permutation.
From Verif Require Import ExecutorModel ExecutorSpec ExecutorBase ExecutorInv ExecutorSteps ExecutorSafety ExecutorLive ExecutorOrder.
Import ListNotations.

(** *** A concrete build used as witness below.
    Source 1, rule 0 with input 1, rule 3 consuming what rule 0 creates.  Applying 0 creates artifact 2
    (transformer 0, two commands), applying 3 creates artifact 4 (transformer 1, one command). *)
Definition ex_cf (keep : bool) : config := {|
  cf_maxjobs := 2; cf_keepgoing := keep; cf_rulesonly := false;
  cf_ncmds := fun t => match t with 0 => 2 | _ => 1 end;
  cf_pools := fun _ => [0]; cf_prod := fun _ => 0;
  cf_rule := fun t => match t with 0 => 0 | _ => 3 end;
  cf_limit := fun _ _ => 1%Z; cf_ruleprod := fun _ => 0; cf_inprod := fun _ => true |}.

Definition ex_kind (n : nat) : kind :=
  match n with 1 => KSource | 2 => KGen 0 | 4 => KGen 1 | _ => KRule end.
Definition ex_g0 : graph := {| gnodes := [1; 0; 3]; gkind := ex_kind;
  gchildren := fun n => match n with 0 => [1] | 3 => [0] | _ => [] end; groots := [3] |}.
Definition ex_g1 : graph := {| gnodes := [1; 0; 3; 2]; gkind := ex_kind;
  gchildren := fun n => match n with 0 => [1] | 2 => [0; 1] | 3 => [0; 2] | _ => [] end; groots := [3] |}.
Definition ex_g2 : graph := {| gnodes := [1; 0; 3; 2; 4]; gkind := ex_kind;
  gchildren := fun n => match n with 0 => [1] | 2 => [0; 1] | 3 => [0; 2] | 4 => [3; 2] | _ => [] end;
  groots := [3; 4] |}.

Definition ex_go : choice :=
  {| c_throw := false; c_skip := false; c_inst := fun _ => false; c_rule := RThrow |}.
Definition ex_apply g cr : choice :=
  {| c_throw := false; c_skip := false; c_inst := fun _ => false; c_rule := ROk g cr [] |}.

(** Up to the point where the command of transformer 0 may be started. *)
Definition ex_in1 : list input := [ILeaf 0 ex_go; ILeaf 0 (ex_apply ex_g1 [2])].
(** ... until it runs, until it is done, ... *)
Definition ex_in2 : list input := ex_in1 ++ [ILeaf 0 ex_go; ILeaf 0 ex_go; ISchedEnd].
Definition ex_in3 : list input := ex_in2 ++ [ICmd 0 true; ICmd 0 true; ISlot 0 false false (fun _ => false)].
(** ... and the rest. *)
Definition ex_in4 : list input := ex_in3 ++ [ILeaf 0 (ex_apply ex_g2 [4]); ILeaf 0 ex_go; ILeaf 0 ex_go; ISchedEnd].
Definition ex_in5 : list input := ex_in4 ++ [ICmd 1 true; ISlot 1 false false (fun _ => false); ISchedEnd].
(** The first command of transformer 0 fails. *)
Definition ex_in_fail : list input := ex_in2 ++ [ICmd 0 false; ISlot 0 false false (fun _ => false)].

Fixpoint oks (cf : config) (s : state) (l : list input) : Prop :=
  match l with
  | [] => True
  | i :: l => ok_input cf s i /\ tracking_input s i
      /\ match step cf s i with Some s' => siblings_agree (gr s') /\ oks cf s' l | None => False end
  end.

Lemma oks_reachable cf g l : forall s s', reachable cf g s -> oks cf s l -> run cf s l = Some s' -> reachable cf g s'.
Proof.
  induction l as [|i l IH]; simpl; intros s s' H O R; [congruence|]. destruct O as (A & _ & O).
  destruct (step cf s i) as [s1|] eqn:E; [|contradiction]. apply (IH s1); auto; [econstructor; eauto|tauto].
Qed.
Lemma oks_reachable_in cf g l : forall s s', reachable_in siblings_agree cf g s -> oks cf s l -> run cf s l = Some s' ->
  reachable_in siblings_agree cf g s'.
Proof.
  induction l as [|i l IH]; simpl; intros s s' H O R; [congruence|]. destruct O as (A & _ & O).
  destruct (step cf s i) as [s1|] eqn:E; [|contradiction]. apply (IH s1); auto; [econstructor; eauto; tauto|tauto].
Qed.
Lemma oks_reachable_tracking cf g l : forall s s', reachable_tracking cf g s -> oks cf s l -> run cf s l = Some s' ->
  reachable_tracking cf g s'.
Proof.
  induction l as [|i l IH]; simpl; intros s s' H O R; [congruence|]. destruct O as (A & B & O).
  destruct (step cf s i) as [s1|] eqn:E; [|contradiction]. apply (IH s1); auto; [econstructor; eauto|tauto].
Qed.

Ltac cases := repeat match goal with
  | H : _ \/ _ |- _ => destruct H
  | H : False |- _ => destruct H
  | H : _ /\ _ |- _ => destruct H
  | H : _ = ?x |- _ => is_var x; subst x
  | H : ?x = _ |- _ => is_var x; subst x
  end.
Ltac brute := intros; simpl in *; cases; simpl in *; try discriminate; try tauto; try congruence;
  try (repeat split; simpl in *; intros; cases; simpl in *; try discriminate; try tauto; try congruence; eauto 10; fail).

Lemma ex_wf keep : wf_config (ex_cf keep).
Proof. constructor; simpl; [lia|]. intros _. repeat constructor. intros []. Qed.

Ltac nodup := repeat (apply NoDup_cons; [simpl; intuition discriminate|]); apply NoDup_nil.
Lemma ex_wf0 keep : wf_graph (ex_cf keep) ex_g0.
Proof. constructor; [nodup|brute..]. Qed.
Lemma ex_wf1 keep : wf_graph (ex_cf keep) ex_g1.
Proof. constructor; [nodup|brute..]; injection H0 as <-; simpl; auto. Qed.
Lemma ex_wf2 keep : wf_graph (ex_cf keep) ex_g2.
Proof. constructor; [nodup|brute..]; injection H0 as <-; simpl; auto. Qed.

Lemma ex_adm1 keep b : admissible (ex_cf keep) ex_g0 b 0 ex_g1 [2] [].
Proof.
  constructor; [apply ex_wf1|simpl; split; [auto|lia]|brute..].
Qed.
Lemma ex_adm2 keep b : admissible (ex_cf keep) ex_g1 b 3 ex_g2 [4] [].
Proof.
  constructor; [apply ex_wf2|simpl; split; [auto|lia]|brute..].
Qed.
Lemma ex_tr1 b : tracking ex_g0 b 0 ex_g1 [2] [].
Proof. constructor; brute. Qed.
Lemma ex_tr2 b : tracking ex_g1 b 3 ex_g2 [4] [].
Proof. constructor; brute. Qed.
Lemma ex_sib g : In g [ex_g0; ex_g1; ex_g2] -> siblings_agree g.
Proof.
  intros H t a b c Ha Hb. apply In_outs in Ha, Hb. destruct Ha as [Ha Ka], Hb as [Hb Kb].
  assert (a = b); [|now subst].
  destruct H as [<-|[<-|[<-|[]]]]; simpl in Ha, Hb, Ka, Kb; cases; simpl in *; congruence.
Qed.

Definition ex_init keep := init (ex_cf keep) ex_g0.
Definition ex_after keep l : state :=
  match run (ex_cf keep) (ex_init keep) l with Some s => s | None => ex_init keep end.


Lemma oks_cons cf s i l s' : ok_input cf s i -> tracking_input s i -> step cf s i = Some s' ->
  siblings_agree (gr s') -> oks cf s' l -> oks cf s (i :: l).
Proof. intros H1 H2 H3 H4 H5. simpl. rewrite H3. auto. Qed.

Ltac ok_one := intros ? ? ? ? Hn Hk Hc; try discriminate Hc; vm_compute in Hn; injection Hn as <-; injection Hc as <- <- <-;
  first [exact (ex_adm1 _ _)|exact (ex_adm2 _ _)|exact (ex_tr1 _)|exact (ex_tr2 _)].
Ltac ok_step := eapply oks_cons;
  [first [exact I|ok_one]|first [exact I|ok_one]|vm_compute; reflexivity
  |first [exact (ex_sib ex_g0 (or_introl eq_refl))|exact (ex_sib ex_g1 (or_intror (or_introl eq_refl)))
         |exact (ex_sib ex_g2 (or_intror (or_intror (or_introl eq_refl))))]|].

Lemma oks_app cf l1 : forall s l2, oks cf s (l1 ++ l2) -> oks cf s l1.
Proof.
  induction l1 as [|i l1 IH]; simpl; auto. intros s l2 (A & B & C). split; auto. split; auto.
  destruct (step cf s i); auto. destruct C. split; eauto.
Qed.

Lemma ex_oks5 keep : oks (ex_cf keep) (ex_init keep) ex_in5.
Proof. unfold ex_init. destruct keep; repeat ok_step; exact I. Qed.
Lemma ex_oks_fail keep : oks (ex_cf keep) (ex_init keep) ex_in_fail.
Proof. unfold ex_init. destruct keep; repeat ok_step; exact I. Qed.

(** *** Consequences of the invariant used by several theorems *)
Lemma trigger_ready cf s k n : Inv cf s -> nth_error (leaves s) k = Some n -> bst s n = Buildable ->
  In n (gnodes (gr s)) /\ children_built s n.
Proof.
  intros HI Hk B. assert (Hn : In n (leaves s ++ delayed s)) by (apply in_or_app; left; eapply nth_error_In; eauto).
  destruct (g_leaf _ _ _ (inv_g _ _ HI) n Hn) as (X & _ & [[]|Y]); auto.
Qed.

Lemma deps_built cf s n c : Inv cf s -> SInv s -> In n (gnodes (gr s)) -> children_built s n ->
  depends_on (gr s) n c -> bst s c = Built.
Proof.
  intros HI S Hn CB D. induction D as [n c Hc|n m c Hm Km D IH]; [now apply CB|].
  apply IH.
  - eapply wf_edges; [apply HI| |]; eauto.
  - apply S; auto; [eapply wf_edges; [apply HI| |]; eauto|]. right. now apply CB.
Qed.

Lemma sibling_children s t a b : siblings_agree (gr s) -> In a (outs (gr s) t) -> In b (outs (gr s) t) ->
  children_built s a -> children_built s b.
Proof. intros SA Ha Hb CB c Hc. apply CB. apply (SA t b a c); auto. Qed.

Lemma started_deps_built cf g s i s' l t o c : wf_config cf -> wf_graph cf g ->
  reachable_in siblings_agree cf g s -> ok_input cf s i -> step cf s i = Some s' ->
  log s' = l ++ log s -> In (EvRun t) l -> In o (outs (gr s) t) -> depends_on (gr s) o c -> bst s c = Built.
Proof.
  intros WC WF R Hi Hs El Hl Ho D. pose proof (reachable_SInv cf g s WC WF R) as S.
  apply reachable_in_reachable in R. destruct R as [R SA]. pose proof (reachable_Inv cf g s WC WF R) as HI.
  destruct (new_run cf s i s' l t HI Hi Hs El Hl) as (k & n & Hk & Hn & B & _).
  destruct (trigger_ready cf s k n HI Hk B) as [Gn CB].
  apply (deps_built cf s o c HI S); auto; [now apply In_outs in Ho|]. apply (sibling_children s t n o); auto.
Qed.

Lemma failed_not_built cf s t o : Inv cf s -> In (EvFailed t) (log s) -> In o (outs (gr s) t) -> bst s o <> Built.
Proof.
  intros HI F Ho B. pose proof (inv_l _ _ HI) as HL.
  assert (R : In (EvRun t) (log s)) by (apply (l_end _ _ HL); auto).
  apply (l_excl _ _ HL t); auto. now apply (l_ok _ _ HL t o).
Qed.

(** *** C01: prerequisites come before commands *)

(** When the job of [t] is started, everything its outputs depend on is up to date and will not be
    touched again in this build; provided the outputs of every transformer have the same dependencies. *)
Theorem prerequisites_first cf g s i s' l t o c : wf_config cf -> wf_graph cf g ->
  reachable_in siblings_agree cf g s -> ok_input cf s i -> step cf s i = Some s' ->
  log s' = l ++ log s -> In (EvRun t) l -> In o (outs (gr s) t) -> depends_on (gr s) o c -> settled cf s c.
Proof.
  intros WC WF R Hi Hs El Hl Ho D. pose proof (started_deps_built cf g s i s' l t o c WC WF R Hi Hs El Hl Ho D) as B.
  apply reachable_in_reachable in R. destruct R as [R _].
  apply built_settled; auto. eapply reachable_Inv; eauto.
Qed.

(** Without that proviso: at least one output of [t] has all its direct dependencies up to date. *)
Theorem prerequisites_first_partial cf g s i s' l t : wf_config cf -> wf_graph cf g ->
  reachable cf g s -> ok_input cf s i -> step cf s i = Some s' ->
  log s' = l ++ log s -> In (EvRun t) l ->
  exists o, In o (outs (gr s) t) /\ forall c, In c (gchildren (gr s) o) -> settled cf s c.
Proof.
  intros WC WF R Hi Hs El Hl. pose proof (reachable_Inv cf g s WC WF R) as HI.
  destruct (new_run cf s i s' l t HI Hi Hs El Hl) as (k & n & Hk & Hn & B & _).
  destruct (trigger_ready cf s k n HI Hk B) as [Gn CB].
  exists n. split; auto. intros c Hc. apply built_settled; auto.
Qed.

(** A rule is applied only when everything it consumes is up to date for good. *)
Theorem inputs_before_rule cf g s i s' l r c : wf_config cf -> wf_graph cf g ->
  reachable cf g s -> ok_input cf s i -> step cf s i = Some s' ->
  log s' = l ++ log s -> In (EvApply r) l -> In c (gchildren (gr s) r) -> settled cf s c.
Proof.
  intros WC WF R Hi Hs El Hl Hc. pose proof (reachable_Inv cf g s WC WF R) as HI.
  destruct (new_apply cf s i s' l r HI Hi Hs El Hl) as (_ & _ & _ & CB). apply built_settled; auto.
Qed.

Lemma ex_reach_in keep l l2 : ex_in5 = l ++ l2 -> reachable_in siblings_agree (ex_cf keep) ex_g0 (ex_after keep l).
Proof.
  intros E. pose proof (ex_oks5 keep) as O. rewrite E in O. apply oks_app in O.
  unfold ex_after. destruct (run _ _ l) eqn:R.
  - refine (oks_reachable_in _ _ _ _ _ _ O R). constructor. apply ex_sib. simpl. auto.
  - constructor. apply ex_sib. simpl. auto.
Qed.
Lemma ex_reach keep l l2 : ex_in5 = l ++ l2 -> reachable (ex_cf keep) ex_g0 (ex_after keep l).
Proof. intros E. apply (ex_reach_in keep) in E. now apply reachable_in_reachable in E. Qed.
Lemma ex_reach_tracking keep l l2 : ex_in5 = l ++ l2 -> reachable_tracking (ex_cf keep) ex_g0 (ex_after keep l).
Proof.
  intros E. pose proof (ex_oks5 keep) as O. rewrite E in O. apply oks_app in O.
  unfold ex_after. destruct (run _ _ l) eqn:R; [|constructor].
  refine (oks_reachable_tracking _ _ _ _ _ _ O R). constructor.
Qed.
Lemma ex_reach_fail keep l l2 : ex_in_fail = l ++ l2 -> reachable (ex_cf keep) ex_g0 (ex_after keep l).
Proof.
  intros E. pose proof (ex_oks_fail keep) as O. rewrite E in O. apply oks_app in O.
  unfold ex_after. destruct (run _ _ l) eqn:R; [|constructor].
  refine (oks_reachable _ _ _ _ _ _ O R). constructor.
Qed.
Lemma ex_reach_fail_tracking keep l l2 : ex_in_fail = l ++ l2 ->
  reachable_tracking (ex_cf keep) ex_g0 (ex_after keep l).
Proof.
  intros E. pose proof (ex_oks_fail keep) as O. rewrite E in O. apply oks_app in O.
  unfold ex_after. destruct (run _ _ l) eqn:R; [|constructor].
  refine (oks_reachable_tracking _ _ _ _ _ _ O R). constructor.
Qed.

Lemma step_log cf s i l : option_map log (step cf s i) = Some l -> exists s', step cf s i = Some s' /\ log s' = l.
Proof. destruct (step cf s i) as [s'|]; simpl; intros [= E]. eauto. Qed.

(** The second command of the example build is started when its input, artifact 2, is there. *)
Definition ex_in4a : list input := ex_in3 ++ [ILeaf 0 (ex_apply ex_g2 [4])].
Example prerequisites_first_case : exists s' l,
  step (ex_cf false) (ex_after false ex_in4a) (ILeaf 0 ex_go) = Some s'
  /\ log s' = l ++ log (ex_after false ex_in4a) /\ In (EvRun 1) l
  /\ In 4 (outs (gr (ex_after false ex_in4a)) 1) /\ depends_on (gr (ex_after false ex_in4a)) 4 2
  /\ settled (ex_cf false) (ex_after false ex_in4a) 2.
Proof.
  set (s := ex_after false ex_in4a).
  assert (R : reachable_in siblings_agree (ex_cf false) ex_g0 s)
    by (apply (ex_reach_in false ex_in4a (skipn (length ex_in4a) ex_in5)); reflexivity).
  destruct (step_log (ex_cf false) s (ILeaf 0 ex_go) ([EvCmd 1 0; EvRun 1] ++ log s)) as (s' & E & L);
    [vm_compute; reflexivity|]. exists s', [EvCmd 1 0; EvRun 1].
  assert (D : depends_on (gr s) 4 2) by (apply dep_child; vm_compute; auto).
  assert (O : In 4 (outs (gr s) 1)) by (vm_compute; auto).
  split; [exact E|]. split; [exact L|]. split; [right; left; reflexivity|]. split; [exact O|]. split; [exact D|].
  refine (prerequisites_first _ _ _ (ILeaf 0 ex_go) _ _ 1 4 2 (ex_wf _) (ex_wf0 _) R _ E L (or_intror (or_introl eq_refl)) O D).
  intros ? ? ? ? _ _ X. discriminate X.
Qed.

(** The same for the rule consuming artifact 2. *)
Example inputs_before_rule_case : exists s' l,
  step (ex_cf false) (ex_after false ex_in3) (ILeaf 0 (ex_apply ex_g2 [4])) = Some s'
  /\ log s' = l ++ log (ex_after false ex_in3) /\ In (EvApply 3) l
  /\ In 2 (gchildren (gr (ex_after false ex_in3)) 3).
Proof.
  set (s := ex_after false ex_in3).
  destruct (step_log (ex_cf false) s (ILeaf 0 (ex_apply ex_g2 [4])) ([EvApply 3] ++ log s)) as (s' & E & L);
    [vm_compute; reflexivity|]. exists s', [EvApply 3].
  split; [exact E|]. split; [exact L|]. split; [left; reflexivity|]. vm_compute. auto.
Qed.

(** The proviso is needed: rule 0 creates artifacts 2 and 3 (transformer 0) from source 1, rule 5
    creates 4 (transformer 1); 3 also depends on 4, as it does when a scanner found 4 in an input of a
    later build step.  Then the job for 2 and 3 is started while 4 does not exist yet. *)
Definition rf_cf : config := {|
  cf_maxjobs := 2; cf_keepgoing := false; cf_rulesonly := false;
  cf_ncmds := fun _ => 1; cf_pools := fun _ => []; cf_prod := fun _ => 0;
  cf_rule := fun t => match t with 0 => 0 | _ => 5 end;
  cf_limit := fun _ _ => (-1)%Z; cf_ruleprod := fun _ => 0; cf_inprod := fun _ => true |}.
Definition rf_kind (n : nat) : kind :=
  match n with 1 => KSource | 2 | 3 => KGen 0 | 4 => KGen 1 | _ => KRule end.
Definition rf_g0 : graph := {| gnodes := [1; 0; 5]; gkind := rf_kind;
  gchildren := fun n => match n with 0 | 5 => [1] | _ => [] end; groots := [0; 5] |}.
Definition rf_g1 : graph := {| gnodes := [1; 0; 5; 4]; gkind := rf_kind;
  gchildren := fun n => match n with 0 | 5 => [1] | 4 => [5; 1] | _ => [] end; groots := [0; 5; 4] |}.
Definition rf_g2 : graph := {| gnodes := [1; 0; 5; 4; 2; 3]; gkind := rf_kind;
  gchildren := fun n => match n with 0 | 5 => [1] | 4 => [5; 1] | 2 => [0; 1] | 3 => [0; 1; 4] | _ => [] end;
  groots := [0; 5; 4; 2; 3] |}.

Lemma rf_wfc : wf_config rf_cf.
Proof. constructor; simpl; [lia|]. intros _. constructor. Qed.
Lemma rf_wf0 : wf_graph rf_cf rf_g0.
Proof. constructor; [nodup|brute..]. Qed.
Lemma rf_wf1 : wf_graph rf_cf rf_g1.
Proof. constructor; [nodup|brute..]; injection H0 as <-; simpl; auto. Qed.
Lemma rf_wf2 : wf_graph rf_cf rf_g2.
Proof. constructor; [nodup|brute..]; injection H0 as <-; simpl; auto. Qed.
Lemma rf_adm1 b : admissible rf_cf rf_g0 b 5 rf_g1 [4] [].
Proof. constructor; [apply rf_wf1|simpl; split; [auto|lia]|brute..]. Qed.
Lemma rf_adm2 b : admissible rf_cf rf_g1 b 0 rf_g2 [2; 3] [].
Proof. constructor; [apply rf_wf2|simpl; split; [auto|lia]|brute..]. Qed.

Definition rf_in : list input :=
  [ILeaf 0 ex_go; ILeaf 0 (ex_apply rf_g1 [4]); ILeaf 2 (ex_apply rf_g2 [2; 3])].
Definition rf_state : state :=
  match run rf_cf (init rf_cf rf_g0) rf_in with Some s => s | None => init rf_cf rf_g0 end.

Fixpoint okr (cf : config) (s : state) (l : list input) : Prop :=
  match l with
  | [] => True
  | i :: l => ok_input cf s i /\ match step cf s i with Some s' => okr cf s' l | None => False end
  end.
Lemma okr_cons cf s i l s' : ok_input cf s i -> step cf s i = Some s' -> okr cf s' l -> okr cf s (i :: l).
Proof. intros H1 H2 H3. simpl. rewrite H2. auto. Qed.
Lemma okr_reachable cf g l : forall s s', reachable cf g s -> okr cf s l -> run cf s l = Some s' -> reachable cf g s'.
Proof.
  induction l as [|i l IH]; simpl; intros s s' H O R; [congruence|]. destruct O as (A & O).
  destruct (step cf s i) as [s1|] eqn:E; [|contradiction]. apply (IH s1); auto. econstructor; eauto.
Qed.
Ltac okr_step tac := eapply okr_cons; [first [exact I|intros ? ? ? ? Hn Hk Hc; try discriminate Hc; vm_compute in Hn;
  injection Hn as <-; injection Hc as <- <- <-; tac]|vm_compute; reflexivity|].

Lemma rf_ok : okr rf_cf (init rf_cf rf_g0) rf_in.
Proof. repeat okr_step ltac:(first [apply rf_adm1|apply rf_adm2]). exact I. Qed.
Lemma rf_reachable : reachable rf_cf rf_g0 rf_state.
Proof.
  unfold rf_state. destruct (run rf_cf (init rf_cf rf_g0) rf_in) eqn:R; [|constructor].
  refine (okr_reachable _ _ _ _ _ _ rf_ok R). constructor.
Qed.

Theorem prerequisites_first_refuted : exists cf g s i s' l t o c,
  wf_config cf /\ wf_graph cf g /\ reachable cf g s /\ ok_input cf s i /\ step cf s i = Some s'
  /\ log s' = l ++ log s /\ In (EvRun t) l /\ In o (outs (gr s) t) /\ In c (gchildren (gr s) o)
  /\ ~ up_to_date cf s c.
Proof.
  destruct (step_log rf_cf rf_state (ILeaf 0 ex_go) ([EvCmd 0 0; EvRun 0] ++ log rf_state)) as (s' & E & L);
    [vm_compute; reflexivity|].
  exists rf_cf, rf_g0, rf_state, (ILeaf 0 ex_go), s', [EvCmd 0 0; EvRun 0], 0, 3, 4.
  split; [apply rf_wfc|]. split; [apply rf_wf0|]. split; [apply rf_reachable|].
  split; [intros ? ? ? ? _ _ X; discriminate X|]. split; [exact E|]. split; [exact L|].
  split; [right; left; reflexivity|]. split; [vm_compute; auto|]. split; [vm_compute; auto|].
  assert (X : up_to_date rf_cf rf_state 4 = (~ busy rf_state 1 /\ (In (EvSucceeded 1) [EvApply 0; EvApply 5]
      \/ In (EvSkip 1) [EvApply 0; EvApply 5] \/ true = false))) by reflexivity.
  rewrite X. intros (_ & [A|[A|A]]); [| |discriminate]; simpl in A; intuition discriminate.
Qed.

(** *** C02, C03: limits on what runs at the same time *)
Theorem max_jobs cf g s ts : wf_config cf -> wf_graph cf g -> reachable cf g s ->
  NoDup ts -> (forall t, In t ts -> running (log s) t) -> length ts <= cf_maxjobs cf.
Proof.
  intros WC WF R N H. pose proof (reachable_Inv cf g s WC WF R) as HI.
  assert (X : length ts <= length (filter (fun _ => true) (procs s))).
  { apply (busy_sublist s (fun _ => true)); auto. intros t Ht. split; auto. now apply (running_busy cf s t HI), H. }
  assert (Y : length (filter (fun _ => true) (procs s)) = length (procs s))
    by (clear; induction (procs s); simpl; congruence).
  pose proof (j_len _ _ (inv_j _ _ HI)). lia.
Qed.

(** At the moment the job of [t] is started, and as long as it executes, at most [limit] jobs use the
    pool, counting all jobs of all products. *)
Theorem pool_limits cf g s j k c p ts : wf_config cf -> wf_graph cf g -> reachable cf g s ->
  In j (procs s) -> jph j = Running k c -> In p (cf_pools cf (jtr j)) ->
  (0 < cf_limit cf (cf_prod cf (jtr j)) p)%Z ->
  NoDup ts -> (forall t, In t ts -> running (log s) t /\ In p (cf_pools cf t)) ->
  (Z.of_nat (length ts) <= cf_limit cf (cf_prod cf (jtr j)) p)%Z.
Proof.
  intros WC WF R Hj Hp Hq Hl N H. pose proof (reachable_Inv cf g s WC WF R) as HI.
  assert (X : length ts <= length (filter (fun j => mem p (cf_pools cf (jtr j))) (procs s))).
  { apply (busy_sublist s (fun t => mem p (cf_pools cf t))); auto. intros t Ht.
    split; [now apply (running_busy cf s t HI), H|]. apply mem_In. now apply H. }
  pose proof (j_cnt _ _ (inv_j _ _ HI) p). pose proof (j_lim _ _ (inv_j _ _ HI) j p k c Hj Hp Hq Hl). lia.
Qed.

Example limits_case : exists s j, reachable (ex_cf false) ex_g0 s /\ procs s = [j]
  /\ jph j = Running 0 false /\ running (log s) 0 /\ In 0 (cf_pools (ex_cf false) (jtr j))
  /\ cf_limit (ex_cf false) (cf_prod (ex_cf false) (jtr j)) 0 = 1%Z /\ cf_maxjobs (ex_cf false) = 2.
Proof.
  exists (ex_after false ex_in2), {| jid := 0; jtr := 0; jph := Running 0 false |}.
  split; [apply (ex_reach false ex_in2 (skipn (length ex_in2) ex_in5)); reflexivity|].
  split; [vm_compute; reflexivity|]. split; [reflexivity|].
  split; [|vm_compute; auto].
  assert (E : log (ex_after false ex_in2) = [EvCmd 0 0; EvRun 0; EvApply 0]) by (vm_compute; reflexivity).
  rewrite E. split; [simpl; auto|]. split; simpl; intuition discriminate.
Qed.

(** *** C04: nothing is run twice, and commands run in order *)
Lemma In_runs l t : In (EvRun t) l -> In t (runs l).
Proof. induction l as [|e l IH]; simpl; [auto|]. intros [->|H]; simpl; auto. destruct e; simpl; auto. Qed.
Lemma In_cmds l t i : In (EvCmd t i) l -> In (t, i) (cmds l).
Proof. induction l as [|e l IH]; simpl; [auto|]. intros [->|H]; simpl; auto. destruct e; simpl; auto. Qed.
Lemma NoDup_mid {A} (l2 l1 : list A) x : NoDup (l2 ++ x :: l1) -> ~ In x l1 /\ ~ In x l2.
Proof.
  intros H. apply NoDup_remove in H. destruct H as [_ H]. split; intros X; apply H, in_or_app; auto.
Qed.

Theorem job_once cf g s t l2 l1 : wf_config cf -> wf_graph cf g -> reachable cf g s ->
  log s = l2 ++ EvRun t :: l1 -> ~ In (EvRun t) (l2 ++ l1).
Proof.
  intros WC WF R E H. pose proof (l_once _ _ (inv_l _ _ (reachable_Inv cf g s WC WF R))) as N.
  rewrite E, runs_app in N. simpl in N. apply NoDup_mid in N. destruct N as [A B].
  apply in_app_or in H. destruct H as [H|H]; apply In_runs in H; auto.
Qed.
Theorem command_once cf g s t i l2 l1 : wf_config cf -> wf_graph cf g -> reachable cf g s ->
  log s = l2 ++ EvCmd t i :: l1 -> ~ In (EvCmd t i) (l2 ++ l1).
Proof.
  intros WC WF R E H. pose proof (l_cmds _ _ (inv_l _ _ (reachable_Inv cf g s WC WF R))) as N.
  rewrite E, cmds_app in N. simpl in N. apply NoDup_mid in N. destruct N as [A B].
  apply in_app_or in H. destruct H as [H|H]; apply In_cmds in H; auto.
Qed.
(** Command [i] of a job is started after its commands [0 .. i-1]; success is reported after all of
    them. *)
Theorem commands_in_order cf g s : wf_config cf -> wf_graph cf g -> reachable cf g s ->
  (forall t i l2 l1, log s = l2 ++ EvCmd t i :: l1 ->
     i < cf_ncmds cf t /\ In (EvRun t) l1 /\ forall k, k < i -> In (EvCmd t k) l1)
  /\ (forall t l2 l1, log s = l2 ++ EvSucceeded t :: l1 -> forall k, k < cf_ncmds cf t -> In (EvCmd t k) l1).
Proof.
  intros WC WF R. split.
  - intros t i l2 l1 E. split; [|now apply (cmd_order cf g s t i l2 l1)].
    apply (l_cmd _ _ (inv_l _ _ (reachable_Inv cf g s WC WF R)) t i). rewrite E. apply in_or_app. right. now left.
  - intros t l2 l1 E. now apply (succ_order cf g s t l2 l1).
Qed.
Example once_case : reachable (ex_cf false) ex_g0 (ex_after false ex_in5)
  /\ log (ex_after false ex_in5) = [EvFinish []; EvSucceeded 1; EvCmd 1 0; EvRun 1; EvApply 3;
       EvSucceeded 0; EvCmd 0 1; EvCmd 0 0; EvRun 0; EvApply 0].
Proof. split; [apply (ex_reach false ex_in5 []); reflexivity|vm_compute; reflexivity]. Qed.

Lemma idle_finished cf s : Inv cf s -> est s = Idle -> ctl s = CFinished.
Proof.
  intros HI Es. pose proof (inv_c _ _ HI) as HC. destruct (ctl s) as [d| | |] eqn:C; auto; exfalso.
  - pose proof (c_sched _ _ HC d C). congruence.
  - destruct (c_wait _ _ HC C). congruence.
  - now apply (c_assert _ _ HC).
Qed.
Lemma idle_no_jobs cf s : Inv cf s -> est s = Idle -> procs s = [].
Proof. intros HI Es. apply (c_fin _ _ (inv_c _ _ HI)). now apply (idle_finished cf). Qed.

(** *** C05: without keep-going the first failure ends the build *)
Theorem failure_stops cf g s t l2 l1 : wf_config cf -> wf_graph cf g -> reachable cf g s ->
  cf_keepgoing cf = false -> log s = l2 ++ EvFailed t :: l1 ->
  (forall e, In e l2 -> ~ starting e)
  /\ (forall j k c, In j (procs s) -> jph j = Running k c -> c = true)
  /\ (forall es, In (EvFinish es) (log s) -> es <> [])
  /\ (~ In EvCancel l1 -> (forall es, ~ In (EvFinish es) l1) ->
      forall es, In (EvFinish es) (log s) -> exists rest, es = ECommand t :: rest).
Proof.
  intros WC WF R KG E. pose proof (reachable_Inv cf g s WC WF R) as HI. pose proof (inv_c _ _ HI) as HC.
  assert (F : In (EvFailed t) (log s)) by (rewrite E; apply in_or_app; right; now left).
  split; [|split; [|split]].
  - intros e. apply (stop_order cf g s (EvFailed t) l2 l1 WC WF R E). exact KG.
  - intros j k c Hj Hp. destruct (est s) eqn:Es.
    + exfalso. rewrite (idle_no_jobs cf s HI Es) in Hj. destruct Hj.
    + exfalso. now apply (c_fail _ _ HC t).
    + now apply (c_canc _ _ HC Es j k c).
  - intros es He. rewrite <- (c_report _ _ HC es He). now apply (c_failerr _ _ HC t).
  - intros NC NF es He. rewrite <- (c_report _ _ HC es He).
    apply (c_first _ _ HC t l2 l1 E KG NC). intros [e X]. now apply (NF e).
Qed.

Example failure_stops_case : reachable (ex_cf false) ex_g0 (ex_after false ex_in_fail)
  /\ cf_keepgoing (ex_cf false) = false
  /\ exists l1, log (ex_after false ex_in_fail)
       = [EvFinish [ECommand 0; EUnbuilt]; EvCancel] ++ EvFailed 0 :: l1 /\ In (EvRun 0) l1.
Proof.
  split; [apply (ex_reach_fail false ex_in_fail []); reflexivity|]. split; [reflexivity|].
  eexists. split; [vm_compute; reflexivity|]. simpl. auto.
Qed.

(** *** C06: with keep-going everything that does not need the failed output is built *)

(** Nothing that needs the output of a failed command is started: neither a rule ... *)
Theorem failed_not_consumed cf g s i s' l r t o : wf_config cf -> wf_graph cf g -> reachable cf g s ->
  ok_input cf s i -> step cf s i = Some s' -> log s' = l ++ log s -> In (EvApply r) l ->
  In (EvFailed t) (log s) -> In o (outs (gr s) t) -> ~ In o (gchildren (gr s) r).
Proof.
  intros WC WF R Hi Hs El Hl F Ho Hc. pose proof (reachable_Inv cf g s WC WF R) as HI.
  destruct (new_apply cf s i s' l r HI Hi Hs El Hl) as (_ & _ & _ & CB).
  apply (failed_not_built cf s t o HI F Ho). now apply CB.
Qed.
(** ... nor a command. *)
Theorem failed_not_needed cf g s i s' l t o u n : wf_config cf -> wf_graph cf g ->
  reachable_in siblings_agree cf g s -> ok_input cf s i -> step cf s i = Some s' -> log s' = l ++ log s ->
  In (EvRun u) l -> In (EvFailed t) (log s) -> In o (outs (gr s) t) -> In n (outs (gr s) u) ->
  ~ depends_on (gr s) n o.
Proof.
  intros WC WF R Hi Hs El Hl F Ho Hn D.
  pose proof (started_deps_built cf g s i s' l u n o WC WF R Hi Hs El Hl Hn D) as B.
  apply reachable_in_reachable in R. destruct R as [R _]. pose proof (reachable_Inv cf g s WC WF R) as HI.
  now apply (failed_not_built cf s t o HI F Ho).
Qed.

(** When the build ends by itself, every root is up to date or something below it has failed. *)
Theorem keep_going_complete cf g s es n : wf_config cf -> wf_graph cf g -> reachable_tracking cf g s ->
  acyclic (gr s) -> In (EvFinish es) (log s) -> ~ In EvCancel (log s) -> (forall e, In e es -> ~ exceptional e) ->
  In n (groots (gr s)) ->
  up_to_date cf s n \/ exists o t, below (gr s) n o /\ In o (outs (gr s) t) /\ In (EvFailed t) (log s).
Proof.
  intros WC WF RT AC F NC NE Hn. pose proof (reachable_tracking_reachable _ _ _ RT) as R.
  pose proof (reachable_Inv cf g s WC WF R) as HI.
  assert (Es : est s <> ERunning) by (apply (stopping_state cf s (EvFinish es) HI); [exact I|exact F]).
  destruct (reachable_ended cf g s WC WF RT Es) as [X|[(e & X & Y)|(L & P & T & C & E)]]; [contradiction| |].
  - exfalso. apply (NE e); auto. now rewrite <- (c_report _ _ (inv_c _ _ HI) es F).
  - destruct (stuck_nodes cf s HI T L P AC n) as [B|B]; auto.
    + apply (wf_roots _ _ (g_wf _ _ _ (inv_g _ _ HI))); auto.
    + now apply (t_roots _ _ T).
    + left. now apply built_up_to_date.
Qed.
(** If moreover something failed below a root, the build is reported as failed. *)
Theorem keep_going_reports cf g s es n : wf_config cf -> wf_graph cf g -> reachable cf g s ->
  In (EvFinish es) (log s) -> cf_rulesonly cf = false -> In n (groots (gr s)) -> ~ up_to_date cf s n -> es <> [].
Proof.
  intros WC WF R F RO Hn NU. pose proof (reachable_Inv cf g s WC WF R) as HI.
  assert (C : ctl s = CFinished).
  { destruct (ctl s) eqn:C; auto; exfalso; apply (c_notfin _ _ (inv_c _ _ HI)); eauto; congruence. }
  destruct (reachable_report cf g s WC WF R C) as (X & _ & _).
  rewrite (c_report _ _ (inv_c _ _ HI) es F) in X. destruct (X RO) as [Y|Y].
  - exfalso. apply NU. apply built_up_to_date; auto.
  - destruct es; [destruct Y|discriminate].
Qed.

Definition ex_in_fail2 : list input := ex_in_fail ++ [ISchedEnd].
Lemma ex_oks_fail2 : oks (ex_cf true) (ex_init true) ex_in_fail2.
Proof. unfold ex_init. repeat ok_step; exact I. Qed.
Example keep_going_case : reachable_tracking (ex_cf true) ex_g0 (ex_after true ex_in_fail2)
  /\ acyclic (gr (ex_after true ex_in_fail2))
  /\ log (ex_after true ex_in_fail2) = [EvFinish [EUnbuilt]; EvFailed 0; EvCmd 0 0; EvRun 0; EvApply 0]
  /\ groots (gr (ex_after true ex_in_fail2)) = [3] /\ below (gr (ex_after true ex_in_fail2)) 3 2
  /\ In 2 (outs (gr (ex_after true ex_in_fail2)) 0).
Proof.
  split; [|split; [|split; [vm_compute; reflexivity|split; [vm_compute; reflexivity|]]]].
  - pose proof ex_oks_fail2 as O. unfold ex_after. destruct (run _ _ ex_in_fail2) eqn:R; [|constructor].
    refine (oks_reachable_tracking _ _ _ _ _ _ O R). constructor.
  - assert (E : gr (ex_after true ex_in_fail2) = ex_g1) by (vm_compute; reflexivity). rewrite E.
    exists (fun n => match n with 3 => 3 | 2 => 2 | 0 => 1 | _ => 0 end). intros n c Hn Hc.
    simpl in Hn. cases; simpl in Hc; cases; lia.
  - assert (E : gr (ex_after true ex_in_fail2) = ex_g1) by (vm_compute; reflexivity). rewrite E.
    split; [|simpl; auto]. apply below_child with 2; [simpl; auto|apply below_refl].
Qed.

(** A failed command whose outputs no root depends on goes unreported: the build of the graph below
    (rule 0 is a root, its output 2 is not) ends with success although its only command failed. *)
Definition un_g0 : graph := {| gnodes := [1; 0]; gkind := ex_kind;
  gchildren := fun n => match n with 0 => [1] | _ => [] end; groots := [0] |}.
Definition un_g1 : graph := {| gnodes := [1; 0; 2]; gkind := ex_kind;
  gchildren := fun n => match n with 0 => [1] | 2 => [0; 1] | _ => [] end; groots := [0] |}.
Lemma un_wf0 keep : wf_graph (ex_cf keep) un_g0.
Proof. constructor; [nodup|brute..]. Qed.
Lemma un_wf1 keep : wf_graph (ex_cf keep) un_g1.
Proof. constructor; [nodup|brute..]; injection H0 as <-; simpl; auto. Qed.
Lemma un_adm keep b : admissible (ex_cf keep) un_g0 b 0 un_g1 [2] [].
Proof. constructor; [apply un_wf1|simpl; split; [auto|lia]|brute..]. Qed.
Definition un_in : list input := [ILeaf 0 ex_go; ILeaf 0 (ex_apply un_g1 [2]); ILeaf 0 ex_go; ILeaf 0 ex_go; ISchedEnd].
Definition un_fail : list input := un_in ++ [ICmd 0 false; ISlot 0 false false (fun _ => false); ISchedEnd].
Definition un_tick : list input := un_in ++ [ITick; ICmd 0 true; ISlot 0 false false (fun _ => false)].
Definition un_after keep l : state :=
  match run (ex_cf keep) (init (ex_cf keep) un_g0) l with Some s => s | None => init (ex_cf keep) un_g0 end.
Lemma un_ok_fail : okr (ex_cf true) (init (ex_cf true) un_g0) un_fail.
Proof. repeat okr_step ltac:(apply un_adm). exact I. Qed.
Lemma un_ok_tick keep : okr (ex_cf keep) (init (ex_cf keep) un_g0) un_tick.
Proof. destruct keep; repeat okr_step ltac:(apply un_adm); exact I. Qed.

Theorem failure_reported_refuted : exists cf g s t,
  wf_config cf /\ wf_graph cf g /\ reachable cf g s /\ In (EvFailed t) (log s) /\ In (EvFinish []) (log s).
Proof.
  exists (ex_cf true), un_g0, (un_after true un_fail), 0.
  split; [apply ex_wf|]. split; [apply un_wf0|]. split.
  - unfold un_after. destruct (run (ex_cf true) _ un_fail) eqn:R; [|constructor].
    refine (okr_reachable _ _ _ _ _ _ un_ok_fail R). constructor.
  - assert (E : log (un_after true un_fail) = [EvFinish []; EvFailed 0; EvCmd 0 0; EvRun 0; EvApply 0])
      by (vm_compute; reflexivity).
    rewrite E. simpl. auto.
Qed.

(** *** C07: success means everything is there, and the build always comes to its end *)
Theorem success_complete cf g s n : wf_config cf -> wf_graph cf g -> reachable cf g s ->
  cf_rulesonly cf = false -> In (EvFinish []) (log s) -> In n (groots (gr s)) -> settled cf s n.
Proof.
  intros WC WF R RO F Hn. pose proof (reachable_Inv cf g s WC WF R) as HI.
  assert (C : ctl s = CFinished).
  { destruct (ctl s) eqn:C; auto; exfalso; apply (c_notfin _ _ (inv_c _ _ HI)); eauto; congruence. }
  destruct (reachable_report cf g s WC WF R C) as (X & _ & _).
  rewrite (c_report _ _ (inv_c _ _ HI) [] F) in X. destruct (X RO) as [Y|[]]. apply built_settled; auto.
Qed.
(** ... and so is everything the root artifacts depend on. *)
Theorem success_complete_deep cf g s n c : wf_config cf -> wf_graph cf g ->
  reachable_in siblings_agree cf g s ->
  cf_rulesonly cf = false -> In (EvFinish []) (log s) -> In n (groots (gr s)) -> gkind (gr s) n <> KRule ->
  depends_on (gr s) n c -> settled cf s c.
Proof.
  intros WC WF R RO F Hn K D. pose proof (reachable_SInv cf g s WC WF R) as S.
  apply reachable_in_reachable in R. destruct R as [R _].
  pose proof (reachable_Inv cf g s WC WF R) as HI.
  assert (C : ctl s = CFinished).
  { destruct (ctl s) eqn:C; auto; exfalso; apply (c_notfin _ _ (inv_c _ _ HI)); eauto; congruence. }
  destruct (reachable_report cf g s WC WF R C) as (X & _ & _).
  rewrite (c_report _ _ (inv_c _ _ HI) [] F) in X. destruct (X RO) as [Y|[]].
  assert (Gn : In n (gnodes (gr s))) by (apply (wf_roots _ _ (g_wf _ _ _ (inv_g _ _ HI))); auto).
  apply built_settled; auto. apply (deps_built cf s n c HI S Gn); auto. apply S; auto. right. auto.
Qed.
(** If no command fails, nobody cancels and nothing throws, success is reported. *)
Theorem no_failure_success cf g s es : wf_config cf -> wf_graph cf g -> reachable_tracking cf g s ->
  acyclic (gr s) -> In (EvFinish es) (log s) -> ~ In EvCancel (log s) -> (forall e, In e es -> ~ exceptional e) ->
  (forall t, ~ In (EvFailed t) (log s)) -> es = [].
Proof.
  intros WC WF RT AC F NC NE NF. pose proof (reachable_tracking_reachable _ _ _ RT) as R.
  pose proof (reachable_Inv cf g s WC WF R) as HI.
  assert (Es : est s <> ERunning) by (apply (stopping_state cf s (EvFinish es) HI); [exact I|exact F]).
  pose proof (c_report _ _ (inv_c _ _ HI) es F) as Ee.
  destruct (reachable_ended cf g s WC WF RT Es) as [X|[(e & X & Y)|(L & P & T & C & E)]]; [contradiction| |].
  - exfalso. apply (NE e); auto. now rewrite <- Ee.
  - assert (B : forall n, In n (groots (gr s)) -> bst s n = Built).
    { intros n Hn. destruct (stuck_nodes cf s HI T L P AC n) as [B|(o & t & _ & _ & B)]; auto.
      + apply (wf_roots _ _ (g_wf _ _ _ (inv_g _ _ HI))); auto.
      + now apply (t_roots _ _ T).
      + destruct (NF t B). }
    rewrite <- Ee, E. destruct (forallb _ _) eqn:FB; [now rewrite andb_false_r|].
    exfalso. rewrite <- not_true_iff_false in FB. apply FB. apply forallb_forall. intros n Hn.
    now rewrite (B n Hn).
Qed.
(** From every state of a build, every continuation reaches the end. *)
Theorem build_ends cf g s : wf_config cf -> wf_graph cf g -> reachable cf g s -> always_ends cf s.
Proof. intros WC WF R. apply inevitable; auto. eapply reachable_Inv; eauto. Qed.
(** At the end exactly one report is made; it is the last thing that happens and no job is left. *)
Theorem one_report cf g s l2 es l1 : wf_config cf -> wf_graph cf g -> reachable cf g s ->
  log s = l2 ++ EvFinish es :: l1 ->
  l2 = [] /\ (forall es', ~ In (EvFinish es') l1) /\ (forall t, ~ running (log s) t)
  /\ forall i, step cf s i = None.
Proof.
  intros WC WF R. revert l2 l1. induction R as [|s i s' R IH Hi Hs]; intros l2 l1 E.
  - exfalso. assert (L : log (init cf g) = []).
    { unfold init. set (s0 := {| gr := g |}). destruct (update_leaves_spec (groots g) s0) as [y U].
      now rewrite (fr_log _ _ (ul_frame _ _ _ _ U)). }
    rewrite L in E. destruct l2; discriminate.
  - pose proof (reachable_Inv cf g s WC WF R) as HI. pose proof (step_Inv cf s i s' WC HI Hi Hs) as HI'.
    assert (C' : ctl s' = CFinished).
    { destruct (ctl s') eqn:C; auto; exfalso; apply (c_notfin _ _ (inv_c _ _ HI')); try congruence;
      exists es; rewrite E; apply in_or_app; right; now left. }
    destruct (step_finished cf s i s' HI (step_stepd cf s i s' HI Hs) C') as (s0 & E0 & N0).
    assert (C : ctl s <> CFinished).
    { intros C. unfold step in Hs. rewrite C in Hs. destruct i; discriminate. }
    pose proof (c_notfin _ _ (inv_c _ _ HI) C) as NF.
    destruct (step_adds cf s i s' HI Hi Hs) as (l & El & _).
    assert (Q : exists q, log s' = EvFinish (errs s') :: q /\ forall es', ~ In (EvFinish es') q).
    { destruct (finish_fields cf s0) as (_ & _ & _ & _ & _ & _ & _ & _ & _ & _ & F). rewrite <- E0 in F.
      exists (log s0). split; auto. intros es' He. apply NF. exists es'. now apply N0. }
    destruct Q as (q & Q & NQ). rewrite Q in E. destruct l2 as [|e l2].
    + injection E as <- <-. split; auto. split; auto. split.
      * intros t Ht. apply (running_busy cf s' t HI') in Ht. unfold busy in Ht.
        rewrite (proj2 (c_fin _ _ (inv_c _ _ HI') C')) in Ht. destruct Ht.
      * intros i'. unfold step. rewrite C'. now destruct i'.
    + exfalso. injection E as _ ->. apply (NQ es), in_or_app. right. now left.
Qed.

Example success_case : reachable_in siblings_agree (ex_cf false) ex_g0 (ex_after false ex_in5)
  /\ reachable_tracking (ex_cf false) ex_g0 (ex_after false ex_in5)
  /\ acyclic (gr (ex_after false ex_in5))
  /\ log (ex_after false ex_in5) = EvFinish [] :: tl (log (ex_after false ex_in5))
  /\ groots (gr (ex_after false ex_in5)) = [3; 4]
  /\ depends_on (gr (ex_after false ex_in5)) 4 2.
Proof.
  split; [apply (ex_reach_in false ex_in5 []); reflexivity|].
  split; [apply (ex_reach_tracking false ex_in5 []); reflexivity|].
  assert (E : gr (ex_after false ex_in5) = ex_g2) by (vm_compute; reflexivity). rewrite E.
  split; [|split; [vm_compute; reflexivity|split; [reflexivity|]]].
  - exists (fun n => match n with 4 => 4 | 3 => 3 | 2 => 2 | 0 => 1 | _ => 0 end). intros n c Hn Hc.
    simpl in Hn. cases; simpl in Hc; cases; lia.
  - apply dep_child. simpl. auto.
Qed.

(** *** C08: cancelling *)

(** While the executor waits for jobs, a cancellation request is always accepted. *)
Theorem cancel_accepted cf g s : wf_config cf -> wf_graph cf g -> reachable cf g s ->
  ctl s = CWait -> est s = ERunning -> exists s', step cf s ITick = Some s' /\ In EvCancel (log s').
Proof.
  intros WC WF R C E. unfold step. rewrite C, E. eexists. split; [reflexivity|].
  unfold cancel_jobs. rewrite E. simpl. auto.
Qed.
(** Afterwards nothing is started any more, and all commands still executing have been told to stop. *)
Theorem cancel_stops cf g s l2 l1 : wf_config cf -> wf_graph cf g -> reachable cf g s ->
  log s = l2 ++ EvCancel :: l1 ->
  (forall e, In e l2 -> ~ starting e)
  /\ (forall j k c, In j (procs s) -> jph j = Running k c -> c = true).
Proof.
  intros WC WF R E. pose proof (reachable_Inv cf g s WC WF R) as HI. pose proof (inv_c _ _ HI) as HC. split.
  - intros e. apply (stop_order cf g s EvCancel l2 l1 WC WF R E). exact I.
  - intros j k c Hj Hp. assert (F : In EvCancel (log s)) by (rewrite E; apply in_or_app; right; now left).
    destruct (est s) eqn:Es.
    + exfalso. rewrite (idle_no_jobs cf s HI Es) in Hj. destruct Hj.
    + exfalso. now apply (c_log _ _ HC).
    + now apply (c_canc _ _ HC Es j k c).
Qed.

Definition keeps_errors (s s' : state) : Prop :=
  (exists x, errs s' = errs s ++ x) /\ (expl s = true -> expl s' = true).
Lemma ke_refl s s' : errs s' = errs s -> expl s' = expl s -> keeps_errors s s'.
Proof. intros A B. split; [exists []; now rewrite app_nil_r|now rewrite B]. Qed.
Lemma ke_frame s s' : frame s s' -> keeps_errors s s'.
Proof. intros F. apply ke_refl; [apply (fr_errs _ _ F)|apply (fr_expl _ _ F)]. Qed.
Lemma ke_trans s1 s2 s3 : keeps_errors s1 s2 -> keeps_errors s2 s3 -> keeps_errors s1 s3.
Proof.
  intros [(x & A) B] [(y & C) D]. split; auto. exists (x ++ y). now rewrite C, A, app_assoc.
Qed.
Lemma ke_finish cf s : keeps_errors s (finish cf s).
Proof.
  destruct (finish_fields cf s) as (_ & _ & _ & _ & _ & _ & _ & _ & E & X & _). split; [exact X|congruence].
Qed.
Lemma ke_cancel s : keeps_errors s (cancel_jobs s).
Proof. destruct (cancel_jobs_misc s) as (_ & _ & _ & _ & _ & A & B & _). now apply ke_refl. Qed.
Lemma ke_handle cf e s : keeps_errors s (handle_error cf e s).
Proof.
  unfold handle_error. cbv zeta. set (s1 := set_errs (errs s ++ [e]) s).
  assert (K : keeps_errors s s1) by (split; [exists [e]; reflexivity|auto]).
  destruct (procs s1); (eapply ke_trans; [exact K|]); [apply ke_finish|].
  eapply ke_trans; [apply ke_cancel|]. now apply ke_refl.
Qed.
Lemma ke_ul l s : keeps_errors s (update_leaves l s).
Proof. destruct (update_leaves_spec l s) as [x U]. apply ke_frame, (ul_frame _ _ _ _ U). Qed.
Lemma step_ke cf s i s' : Inv cf s -> step cf s i = Some s' -> keeps_errors s s'.
Proof.
  intros HI H. apply step_stepd in H; auto.
  destruct H as [k c n d C Hk A B|k c n d C Hk A B Bl|k c n d C Hk A B K|k c n d C Hk A B K Th
    |k c n d C Hk A B K R|k c n d g cr inv C Hk A B K R IB|k c n d t s' C Hk A B K IB F|k c n d t s' C Hk A B K IB F
    |k c n d t C Hk A B K IB Bl RO|d C HL|j ok jb k canceled C Hj Hp|j cancel throw inst jb ok C Hj Hp|C E].
  - now apply ke_refl.
  - now apply ke_refl.
  - eapply ke_trans; [|apply ke_frame, (fn_frame _ _ _ (finish_node_ok n _))]. now apply ke_refl.
  - eapply ke_trans; [|apply ke_handle]. now apply ke_refl.
  - eapply ke_trans; [|apply ke_handle]. now apply ke_refl.
  - eapply ke_trans; [|apply ke_frame, (fn_frame _ _ _ (finish_node_ok n _))].
    eapply ke_trans; [|apply ke_ul]. eapply ke_trans; [|apply ke_ul]. now apply ke_refl.
  - apply finish_outputs_frame in F. eapply ke_trans; [|apply ke_frame, F]. now apply ke_refl.
  - eapply ke_trans; [|apply ke_handle]. apply finish_outputs_frame in F. eapply ke_trans; [|apply ke_frame, F]. now apply ke_refl.
  - destruct (run_transformer_eq cf (take k s) t A) as (j & rest & _ & E). rewrite E. now apply ke_refl.
  - destruct (sched_end_cases cf d s) as [(_ & _ & E)|(_ & E)]; rewrite E; [|now apply ke_refl].
    eapply ke_trans; [|apply ke_finish]. now apply ke_refl.
  - unfold cmd_finished. destruct canceled, ok, (S k <? cf_ncmds cf (jtr jb)); now apply ke_refl.
  - unfold job_slot. cbv zeta.
    set (sa := if negb ok && negb (cf_keepgoing cf) then _ else s) in *.
    set (sb := set_jobs _ _ _ sa) in *. set (sc := say _ sb) in *.
    match goal with |- context [let '(_, _) := ?p in _] => destruct p as [s4 th] eqn:Ef end.
    assert (Ka : keeps_errors s sa).
    { unfold sa. destruct (_ && _); [|now apply ke_refl]. destruct (errs s) eqn:E; [|now apply ke_refl].
      split; auto. rewrite E. simpl. eauto. }
    assert (Kc : keeps_errors s sc) by (eapply ke_trans; [exact Ka|now apply ke_refl]).
    assert (K4 : keeps_errors s s4).
    { destruct ok; [destruct throw|].
      - injection Ef as <- _. exact Kc.
      - apply finish_outputs_frame in Ef. eapply ke_trans; [exact Kc|now apply ke_frame].
      - injection Ef as <- _. exact Kc. }
    destruct th; [eapply ke_trans; [exact K4|apply ke_handle]|].
    set (s5 := if negb ok && negb (cf_keepgoing cf) then cancel_jobs s4 else s4) in *.
    assert (K5 : keeps_errors s s5)
      by (unfold s5; destruct (_ && _); auto; eapply ke_trans; [exact K4|apply ke_cancel]).
    set (s6 := match est s5 with ERunning => _ | _ => _ end) in *.
    assert (K6 : keeps_errors s s6).
    { unfold s6. destruct (est s5); auto. destruct cancel; auto. eapply ke_trans; [exact K5|].
      eapply ke_trans; [|apply ke_cancel]. split; [exists []; now rewrite app_nil_r|auto]. }
    destruct (est s6).
    + eapply ke_trans; [exact K6|now apply ke_refl].
    + eapply ke_trans; [exact K6|now apply ke_refl].
    + destruct (procs s6); (eapply ke_trans; [exact K6|]); [apply ke_finish|now apply ke_refl].
  - apply ke_cancel.
Qed.
Lemma steps_ke cf s s' : wf_config cf -> Inv cf s -> steps cf s s' -> keeps_errors s s'.
Proof.
  intros WC HI H. induction H as [s|s i s1 s2 Hi H Hs IH]; [now apply ke_refl|].
  eapply ke_trans; [eapply step_ke; eauto|]. apply IH. eapply step_Inv; eauto.
Qed.

(** A cancellation asked for by the user (noticed when a job ends) makes the build be reported as not
    successful. *)
Theorem cancel_reported cf g s j throw inst s1 s2 es : wf_config cf -> wf_graph cf g -> reachable cf g s ->
  est s = ERunning -> step cf s (ISlot j true throw inst) = Some s1 -> steps cf s1 s2 ->
  In (EvFinish es) (log s2) ->
  In ECancelMsg es \/ (exists t, In (ECommand t) es) \/ (exists t, In (EOutput t) es).
Proof.
  intros WC WF R Er Hs St F. pose proof (reachable_Inv cf g s WC WF R) as HI.
  pose proof (step_Inv cf s (ISlot j true throw inst) s1 WC HI I Hs) as HI1. pose proof (steps_Inv cf s1 s2 WC HI1 St) as HI2.
  assert (R2 : reachable cf g s2).
  { assert (R1 : reachable cf g s1) by (apply (reach_step cf g s (ISlot j true throw inst) s1 R I Hs)).
    clear -St R1. induction St as [|s i s1 s2 Hi H St IH]; auto. apply IH. econstructor; eauto. }
  destruct (steps_ke cf s1 s2 WC HI1 St) as [(x & Ex) Kx].
  pose proof (c_report _ _ (inv_c _ _ HI2) es F) as Ees.
  assert (C2 : ctl s2 = CFinished).
  { destruct (ctl s2) eqn:C; auto; exfalso; apply (c_notfin _ _ (inv_c _ _ HI2)); eauto; congruence. }
  destruct (reachable_report cf g s2 WC WF R2 C2) as (_ & X & _).
  pose proof (step_stepd cf s _ s1 HI Hs) as SD. inversion SD as [| | | | | | | | | | |? ? ? ? jb ok C Hj Hp|]; subst; clear SD.
  match goal with _ : steps _ ?z _ |- _ => set (s1 := z) in * end.
  assert (Q : expl s1 = true \/ (exists t, In (ECommand t) (errs s1)) \/ (exists t, In (EOutput t) (errs s1))).
  { clear -Er HI. unfold s1, job_slot. cbv zeta.
    set (sa := if negb ok && negb (cf_keepgoing cf) then _ else s) in *.
    set (sb := set_jobs _ _ _ sa) in *. set (sc := say _ sb) in *.
    match goal with |- context [let '(_, _) := ?p in _] => destruct p as [s4 th] eqn:Ef end.
    destruct th; [right; right; exists (jtr jb); apply handle_error_records|].
    assert (Ea : est sa = ERunning).
    { unfold sa. destruct (_ && _); auto. destruct (errs s); auto. }
    assert (F4 : est s4 = ERunning /\ errs s4 = errs sa).
    { destruct ok; [destruct throw|].
      - discriminate.
      - apply finish_outputs_frame in Ef. rewrite (fr_est _ _ Ef), (fr_errs _ _ Ef). auto.
      - injection Ef as <-. auto. }
    destruct F4 as [E4 G4].
    destruct (negb ok && negb (cf_keepgoing cf)) eqn:B.
    - right. left. exists (jtr jb).
      assert (A5 : In (ECommand (jtr jb)) (errs (cancel_jobs s4))).
      { destruct (cancel_jobs_misc s4) as (_ & _ & _ & _ & _ & A & _). rewrite A, G4. unfold sa.
        rewrite (c_err _ _ (inv_c _ _ HI) Er). simpl. auto. }
      set (s5 := cancel_jobs s4) in *.
      assert (E5 : est s5 = ECanceling) by (unfold s5, cancel_jobs; now rewrite E4).
      rewrite E5. rewrite E5. destruct (procs s5); [|exact A5].
      destruct (ke_finish cf s5) as [(y & Ey) _]. rewrite Ey. apply in_or_app. auto.
    - left. rewrite E4. set (s6 := cancel_jobs (set_expl true s4)).
      assert (X6 : expl s6 = true) by (apply ke_cancel; reflexivity).
      assert (E6 : est s6 = ECanceling) by (unfold s6, cancel_jobs; change (est (set_expl true s4)) with (est s4); now rewrite E4).
      rewrite E6. destruct (procs s6); [|exact X6]. now apply ke_finish. }
  destruct Q as [Q|[(t & Q)|(t & Q)]].
  - left. auto.
  - right. left. exists t. rewrite Ex. apply in_or_app. auto.
  - right. right. exists t. rewrite Ex. apply in_or_app. auto.
Qed.

Definition ex_cancel : list input := ex_in2 ++ [ICmd 0 true; ICmd 0 true].
Example cancel_case :
  reachable (ex_cf false) ex_g0 (ex_after false ex_in2) /\ ctl (ex_after false ex_in2) = CWait
  /\ est (ex_after false ex_in2) = ERunning
  /\ reachable (ex_cf false) ex_g0 (ex_after false ex_cancel) /\ est (ex_after false ex_cancel) = ERunning
  /\ exists s1, step (ex_cf false) (ex_after false ex_cancel) (ISlot 0 true false (fun _ => false)) = Some s1
     /\ log s1 = [EvFinish [EUnbuilt; ECancelMsg]; EvCancel; EvSucceeded 0] ++ log (ex_after false ex_cancel).
Proof.
  split; [apply (ex_reach false ex_in2 (skipn (length ex_in2) ex_in5)); reflexivity|].
  split; [vm_compute; reflexivity|]. split; [vm_compute; reflexivity|].
  split; [apply (ex_reach false ex_cancel (skipn (length ex_cancel) ex_in5)); reflexivity|].
  split; [vm_compute; reflexivity|].
  apply step_log. vm_compute. reflexivity.
Qed.

(** A cancellation request noticed by the periodic check is not recorded as such.  With keep-going,
    and if no root depends on what was being built, the build that was cancelled reports success. *)
Theorem cancel_reported_refuted : exists cf g s t,
  wf_config cf /\ wf_graph cf g /\ reachable cf g s /\ In EvCancel (log s) /\ In (EvFailed t) (log s)
  /\ In (EvFinish []) (log s).
Proof.
  exists (ex_cf true), un_g0, (un_after true un_tick), 0.
  split; [apply ex_wf|]. split; [apply un_wf0|]. split.
  - unfold un_after. destruct (run (ex_cf true) _ un_tick) eqn:R; [|constructor].
    refine (okr_reachable _ _ _ _ _ _ (un_ok_tick true) R). constructor.
  - assert (E : log (un_after true un_tick) = [EvFinish []; EvFailed 0; EvCancel; EvCmd 0 0; EvRun 0; EvApply 0])
      by (vm_compute; reflexivity).
    rewrite E. simpl. auto 7.
Qed.

Print Assumptions prerequisites_first.
Print Assumptions prerequisites_first_partial.
Print Assumptions prerequisites_first_refuted.
Print Assumptions inputs_before_rule.
Print Assumptions max_jobs.
Print Assumptions pool_limits.
Print Assumptions job_once.
Print Assumptions command_once.
Print Assumptions commands_in_order.
Print Assumptions failure_stops.
Print Assumptions failed_not_consumed.
Print Assumptions failed_not_needed.
Print Assumptions keep_going_complete.
Print Assumptions keep_going_reports.
Print Assumptions failure_reported_refuted.
Print Assumptions success_complete.
Print Assumptions success_complete_deep.
Print Assumptions no_failure_success.
Print Assumptions build_ends.
Print Assumptions one_report.
Print Assumptions cancel_accepted.
Print Assumptions cancel_stops.
Print Assumptions cancel_reported.
Print Assumptions cancel_reported_refuted.
