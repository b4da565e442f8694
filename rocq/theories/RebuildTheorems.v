(** Theorems about up-to-date checks and incremental builds (C09, C10, C11). *)
From Coq Require Import List Bool Arith ZArith Lia.
From Verif Require Import RebuildModel RebuildSpec RebuildDecide RebuildInv RebuildSteps RebuildJobs RebuildReach RebuildFinal RebuildPlain.
Import ListNotations.

(** *** A small project: file 0 -> transformer 0 -> file 1 -> transformer 1 -> file 2 *)
Definition ex_F (t v : nat) (e : nat -> option nat) (o : nat) : nat :=
  v + match e (o - 1) with Some x => 2 * x + 1 | None => 0 end.
Definition ex_cfg : cfg := {|
  kd := fun n => match n with 0 => Source | 1 => Generated 0 | 2 => Generated 1 | _ => FileDep end;
  au := fun _ => true; always := fun _ => false; tags := fun _ => []; tprod := fun _ => 0; srcs := [0]; F := ex_F |}.
Definition ex_opts : opts := {| force := false; rules_only := false; active_tags := []; files := []; file_prods := []; needed_tags := [] |}.
Definition rules_opts : opts := {| force := false; rules_only := true; active_tags := []; files := []; file_prods := []; needed_tags := [] |}.
Definition tag_opts : opts := {| force := false; rules_only := false; active_tags := [5]; files := []; file_prods := []; needed_tags := [] |}.
Definition ex_state : state := {|
  kids := fun n => match n with 1 => [0] | 2 => [1] | _ => [] end; fdeps := fun _ => [];
  outs := fun t => match t with 0 => [1] | 1 => [2] | _ => [] end;
  ins := fun t => match t with 0 => [0] | 1 => [1] | _ => [] end; ts := fun _ => no_time;
  marked := fun _ => false; track := fun _ => false; changed := fun _ => false; conf := fun _ => 0;
  content := fun n => match n with 0 => 7 | _ => 0 end; mtime := fun n => match n with 0 => (3, 0)%Z | _ => no_time end;
  now := (10, 0)%Z; bopts := ex_opts; active := false; began := no_time; done := []; running := []; started := []; succeeded := [] |}.
Lemma ex_wf s : (forall n, kids s n = kids ex_state n) -> (forall n, fdeps s n = fdeps ex_state n) ->
  (forall n, outs s n = outs ex_state n) -> wf ex_cfg s.
Proof.
  intros A B C. constructor.
  - intros t o. rewrite C. destruct t as [|[|t]]; simpl; intuition subst; reflexivity.
  - intros t o k. rewrite C, A. destruct t as [|[|t]]; simpl; [| |tauto]; intros [<-|[]] [<-|[]]; simpl; auto. right. exists 0. rewrite C. simpl; auto.
  - intros t o k. rewrite C, B. destruct t as [|[|t]]; simpl; tauto.
  - intros t o o' k. rewrite C, !A. destruct t as [|[|t]]; simpl; [| |tauto]; intros [<-|[]] [<-|[]]; auto.
  - intros t o o' k. rewrite C, !B. simpl. tauto.
  - exists (fun t => t). intros t o k t'. rewrite C, A. destruct t as [|[|t]]; simpl; [| |tauto]; intros [<-|[]] [<-|[]]; simpl; intros E; [discriminate|].
    injection E as <-. lia.
Qed.
Lemma ex_deterministic : deterministic ex_cfg.
Proof. intros t v e e' o H. simpl. unfold ex_F. now rewrite H. Qed.
Lemma ex_fresh : fresh ex_cfg ex_state.
Proof.
  constructor.
  - now apply ex_wf.
  - reflexivity.
  - intros [|n]; split; unfold upto, before, no_time; simpl; lia.
  - unfold before, no_time; simpl; lia.
  - repeat split.
Qed.
(** A first build, in which both transformers are run. *)
Definition touched (z : Z) : nat -> option ftime := fun _ => Some (z, 0)%Z.
Definition build1 : list event :=
  [Begin ex_opts [] (20, 0)%Z; Consider 0; Succeed 0 (touched 21) (22, 0)%Z; Consider 1; Succeed 1 (touched 23) (24, 0)%Z].

(** Checkers for the histories of the examples. *)
Definition plausible_b (c : cfg) (s : state) (e : event) : bool :=
  match e with
  | Begin o cf time => negb (ft_lt time (now s)) && negb (force o) && match cf with [] => true | _ => false end
  | Succeed t touch time => negb (ft_lt time (now s)) && forallb (fun o => match touch o with
       | Some m => ft_lt (began s) m && negb (ft_lt time m)
       | None => content s o =? F c t (conf s t) (env s o) o
       end) (outs s t)
  | Fail t touch time => negb (ft_lt time (now s)) && forallb (fun o => match touch o with
       | Some (m, _) => ft_lt (began s) m && negb (ft_lt time m)
       | None => true
       end) (outs s t)
  | Rewire _ _ _ _ _ => false
  | Edit n v m => ft_lt (now s) m
  | _ => true
  end.
Definition fair_b (c : cfg) (s : state) (e : event) : bool :=
  match e with
  | Consider t => match active_tags (bopts s), files (bopts s), rules_only (bopts s) with [], [], false => true | _, _, _ => false end
  | Fail _ _ _ => false
  | _ => plausible_b c s e
  end.
Fixpoint all_b (f : state -> event -> bool) (c : cfg) (s : state) (es : list event) : bool :=
  match es with
  | [] => true
  | e :: es => f s e && match step c s e with Next s' => all_b f c s' es | _ => true end
  end.
Lemma upto_b a b : negb (ft_lt b a) = true -> upto a b.
Proof. intros H. apply negb_true_iff, ft_lt_false in H. exact H. Qed.
Lemma plausible_b_ok c s e : plausible_b c s e = true -> plausible c s e.
Proof.
  destruct e as [o cf time|t|t touch time|t touch time|t os is ks fs| |n v m|t v|t]; cbn [plausible_b plausible fair]; auto; try discriminate.
  - rewrite !andb_true_iff. intros [[A B] C]. split; [now apply upto_b|]. split; [now apply negb_true_iff|]. left. destruct cf; [auto|discriminate].
  - rewrite andb_true_iff, forallb_forall. intros [A B]. split; [now apply upto_b|]. intros o Ho. specialize (B o Ho).
    destruct (touch o); [|now apply Nat.eqb_eq]. apply andb_prop in B as [B1 B2]. split; [now apply ft_lt_before|now apply upto_b].
  - rewrite andb_true_iff, forallb_forall. intros [A B]. split; [now apply upto_b|]. intros o m v Ho E. specialize (B o Ho).
    rewrite E in B. apply andb_prop in B as [B1 B2]. split; [now apply ft_lt_before|now apply upto_b].
  - intros H. left. now apply ft_lt_before.
Qed.
Lemma fair_b_ok c s e : fair_b c s e = true -> fair c s e.
Proof.
  intros H. assert (P : plausible_b c s e = true -> fair c s e).
  { intros X. apply plausible_b_ok in X. destruct e; try exact X; [|discriminate H].
    intros s' _ N. destruct N. cbn [fair_b] in H. unfold full. destruct (active_tags (bopts s)); [|discriminate].
    destruct (files (bopts s)); [|discriminate]. destruct (rules_only (bopts s)); [discriminate|]. auto. }
  apply P. destruct e; try exact H; try discriminate H; reflexivity.
Qed.
Lemma plausible_all c es : forall s, all_b (plausible_b c) c s es = true -> plausible_history c s es.
Proof.
  induction es as [|e es IH]; intros s H; cbn [all_b plausible_history] in *; auto. apply andb_prop in H as [A B].
  split; [now apply plausible_b_ok|]. destruct (step c s e); auto.
Qed.
Lemma fair_all c es : forall s, all_b (fair_b c) c s es = true -> fair_history c s es.
Proof.
  induction es as [|e es IH]; intros s H; cbn [all_b fair_history] in *; auto. apply andb_prop in H as [A B].
  split; [now apply fair_b_ok|]. destruct (step c s e); auto.
Qed.
Lemma plausible_app c es1 : forall es2 s s1, plausible_history c s es1 -> exec c s es1 = Next s1 -> plausible_history c s1 es2 ->
  plausible_history c s (es1 ++ es2).
Proof.
  induction es1 as [|e es1 IH]; intros es2 s s1 H E H2; simpl in *; [injection E as <-; auto|].
  destruct H as [A B]. split; auto. destruct (step c s e); try discriminate. eauto.
Qed.
Lemma plausible_cons c s e es s1 : plausible c s e -> step c s e = Next s1 -> plausible_history c s1 es -> plausible_history c s (e :: es).
Proof. intros A E H. cbn [plausible_history]. rewrite E. auto. Qed.
Definition state_of (r : result) : state := match r with Next s => s | _ => ex_state end.
Lemma state_of_ok r : match r with Next _ => true | _ => false end = true -> r = Next (state_of r).
Proof. destruct r; auto; discriminate. Qed.
Ltac ran := apply state_of_ok; vm_compute; reflexivity.

(** *** C09 *)
Theorem rebuild_decision c s t :
  active s = true -> idle s t = true -> outs s t <> [] ->
  (forall o k, In o (outs s t) -> In k (kids s o) -> built c s k = true) ->
  apart s t -> checks c s t ->
  exists s', step c s (Consider t) = Next s'
    /\ (selected c s t /\ must_run c s t /\ rules_only (bopts s) = false ->
          started s' = t :: started s /\ running s' = t :: running s /\ done s' = done s)
    /\ (~ (selected c s t /\ must_run c s t /\ rules_only (bopts s) = false) ->
          started s' = started s /\ running s' = running s /\ done s' = t :: done s)
    /\ content s' = content s /\ mtime s' = mtime s /\ kids s' = kids s /\ fdeps s' = fdeps s /\ outs s' = outs s
    /\ (forall n, ~ In n (outs s t) \/ force (bopts s) = false -> ts s' n = ts s n)
    /\ (forall t', t' <> t -> marked s' t' = marked s t' /\ track s' t' = track s t').
Proof.
  intros A Id Ne B Ap Ch. unfold step. rewrite A, Id.
  assert (E1 : negb (match outs s t with [] => true | _ :: _ => false end) = true) by (destruct (outs s t); [congruence|reflexivity]).
  assert (E2 : forallb (fun o => forallb (built c s) (kids s o)) (outs s t) = true).
  { apply forallb_forall. intros o Ho. apply forallb_forall. intros k Hk. eauto. }
  rewrite E1, E2. cbn [andb]. unfold consider. assert (Ms := matching_spec c s t).
  destruct (matching_tags c s t) eqn:M1; simpl.
  2:{ exists (finish t s). split; [reflexivity|]. split.
      { intros (S & _). apply Ms in S. discriminate. }
      repeat split; auto; simpl; now rewrite ?upd_other. }
  destruct (matching_files c s t) eqn:M2; simpl.
  2:{ exists (finish t s). split; [reflexivity|]. split.
      { intros (S & _). apply Ms in S. discriminate. }
      repeat split; auto; simpl; now rewrite ?upd_other. }
  assert (S : selected c s t) by now apply Ms.
  destruct (must_execute_spec c s t Ap Ch) as (b & s2 & E & Hb & Ad & _). rewrite E.
  assert (U : forall n, ~ In n (outs s t) \/ force (bopts s) = false -> ts s2 n = ts s n).
  { intros n [X|X]; [now apply (ad_ts _ _ _ Ad)|now apply (ad_ts_noforce _ _ _ Ad)]. }
  destruct b.
  - rewrite (ad_bopts _ _ _ Ad). destruct (rules_only (bopts s)).
    + exists (finish t s2). split; [reflexivity|]. split; [intros (_ & _ & X); discriminate|].
      simpl. rewrite (ad_started _ _ _ Ad), (ad_running _ _ _ Ad), (ad_done _ _ _ Ad), (ad_marked _ _ _ Ad), (ad_content _ _ _ Ad),
        (ad_mtime _ _ _ Ad), (ad_kids _ _ _ Ad), (ad_fdeps _ _ _ Ad), (ad_outs _ _ _ Ad).
      repeat split; auto; try (now rewrite upd_other). now apply (ad_track _ _ _ Ad).
    + exists (run t s2). split; [reflexivity|]. assert (M : must_run c s t) by now apply Hb.
      simpl. rewrite (ad_started _ _ _ Ad), (ad_running _ _ _ Ad), (ad_done _ _ _ Ad), (ad_marked _ _ _ Ad), (ad_content _ _ _ Ad),
        (ad_mtime _ _ _ Ad), (ad_kids _ _ _ Ad), (ad_fdeps _ _ _ Ad), (ad_outs _ _ _ Ad).
      split; [auto|]. split; [intros X; destruct X; auto|].
      repeat split; auto. now apply (ad_track _ _ _ Ad).
  - exists (finish t s2). split; [reflexivity|]. split; [intros (_ & X & _); apply Hb in X; discriminate|].
    simpl. rewrite (ad_started _ _ _ Ad), (ad_running _ _ _ Ad), (ad_done _ _ _ Ad), (ad_marked _ _ _ Ad), (ad_content _ _ _ Ad),
        (ad_mtime _ _ _ Ad), (ad_kids _ _ _ Ad), (ad_fdeps _ _ _ Ad), (ad_outs _ _ _ Ad).
    repeat split; auto; try (now rewrite upd_other). now apply (ad_track _ _ _ Ad).
Qed.
Lemma ex_decide s b : wf ex_cfg s -> outs s 0 = [1] -> kids s 1 = [0] -> ts s 0 <> no_time -> fst (must_execute ex_cfg s 0) = Some b ->
  apart s 0 /\ checks ex_cfg s 0 /\ (b = true <-> must_run ex_cfg s 0).
Proof.
  intros W Eo Ek Et E. assert (Ap := wf_apart ex_cfg s 0 W). split; auto.
  assert (Ch : checks ex_cfg s 0). { intros o k Ho Hk _. rewrite Eo in Ho. destruct Ho as [<-|[]]. rewrite Ek in Hk. destruct Hk as [<-|[]]. auto. }
  split; auto. destruct (must_execute_spec ex_cfg s 0 Ap Ch) as (b' & s' & E' & Hb & _). rewrite E' in E. injection E as ->. exact Hb.
Qed.
(** In the second build after a change of file 0, transformer 0 is run; without one it is not. *)
Definition s_edited : state := state_of (exec ex_cfg ex_state (build1 ++ [End; Edit 0 8 (30, 0)%Z; Begin ex_opts [] (40, 0)%Z])).
Definition s_same : state := state_of (exec ex_cfg ex_state (build1 ++ [End; Begin ex_opts [] (40, 0)%Z])).
Example rebuild_decision_example :
  active s_edited = true /\ idle s_edited 0 = true /\ outs s_edited 0 <> [] /\ apart s_edited 0 /\ checks ex_cfg s_edited 0
  /\ selected ex_cfg s_edited 0 /\ must_run ex_cfg s_edited 0 /\ rules_only (bopts s_edited) = false
  /\ idle s_same 0 = true /\ apart s_same 0 /\ checks ex_cfg s_same 0 /\ selected ex_cfg s_same 0 /\ ~ must_run ex_cfg s_same 0.
Proof.
  destruct (ex_decide s_edited true) as (A1 & A2 & A3); try (vm_compute; (reflexivity || discriminate)).
  { apply ex_wf; reflexivity. }
  destruct (ex_decide s_same false) as (B1 & B2 & B3); try (vm_compute; (reflexivity || discriminate)).
  { apply ex_wf; reflexivity. }
  split; [vm_compute; reflexivity|]. split; [vm_compute; reflexivity|]. split; [vm_compute; discriminate|].
  split; [exact A1|]. split; [exact A2|]. split. { split; left; vm_compute; reflexivity. }
  split; [now apply A3|]. split; [vm_compute; reflexivity|]. split; [vm_compute; reflexivity|].
  split; [exact B1|]. split; [exact B2|]. split. { split; left; vm_compute; reflexivity. }
  intros X. apply B3 in X. discriminate.
Qed.

(** The time stamp of a directory covers everything in it. *)
Theorem directory_time e :
  (forall t, within e t -> upto t (recursive_file_time e))
  /\ (within e (recursive_file_time e) \/ recursive_file_time e = no_time).
Proof.
  induction e as [|m c|m c es IH] using entry_induction.
  - split; [intros t H; inversion H|now right].
  - simpl. destruct (ft_max_spec m c) as (A & B & C). split.
    + intros t H. inversion H; subst; auto.
    + left. destruct C as [-> | ->]; constructor.
  - cbn [recursive_file_time]. destruct (newest_fold recursive_file_time es (ft_max m c)) as (A & B & C).
    destruct (ft_max_spec m c) as (D & E & G). cbv zeta in *. split.
    + intros t H. inversion H as [| | | |? ? ? e ? He Ht]; subst; [ord|ord|]. destruct (IH e He) as [X _]. specialize (X t Ht). specialize (B e He). ord.
    + destruct C as [-> | (e & He & ->)].
      * left. destruct G as [-> | ->]; constructor.
      * destruct (IH e He) as [_ [X|X]]; [left; now apply (within_dir_e m c es e)|now right].
Qed.
Example directory_time_example :
  recursive_file_time (Dir (5, 0) (5, 0) [File (4, 1) (4, 1); Dir (2, 0) (2, 0) [File (9, 3) (1, 0)]])%Z = (9, 3)%Z.
Proof. reflexivity. Qed.

(** *** No internal check fails in builds that are not restricted *)
Theorem no_check_failure c s e : deterministic c -> reachable c s -> full s -> step c s e <> CheckFailed.
Proof.
  intros Dt R Fu. assert (I := reachable_inv c s Dt R).
  destruct e; cbn [step].
  - destruct (active s); [discriminate|]. destruct (begin c o changed_files time s); discriminate.
  - destruct (active s && idle s t && negb (match outs s t with [] => true | _ :: _ => false end)
              && forallb (fun o => forallb (built c s) (kids s o)) (outs s t)) eqn:E; [|discriminate].
    apply andb_prop in E as [E B]. apply andb_prop in E as [E _]. apply andb_prop in E as [A _].
    unfold consider. destruct (matching_tags c s t); simpl; [|discriminate]. destruct (matching_files c s t); simpl; [|discriminate].
    destruct (must_execute_spec c s t (wf_apart c s t (iv_wf _ _ I)) (kids_checked c s t I A Fu B)) as (b & s2 & -> & _).
    destruct b; [|discriminate]. destruct (rules_only (bopts s2)); discriminate.
  - destruct (_ && _); discriminate.
  - destruct (_ && _); discriminate.
  - destruct (_ && _); discriminate.
  - destruct (running s); discriminate.
  - destruct (active s); [discriminate|]. destruct (kd c n); discriminate.
  - destruct (active s); discriminate.
  - destruct (_ && _); discriminate.
Qed.
(** In restricted builds one can: a build that only executes rules leaves file 1 without time stamp. *)
Theorem check_failure_restricted_refuted : exists c s0 es, deterministic c /\ fresh c s0 /\ plausible_history c s0 es
  /\ exec c s0 es = CheckFailed.
Proof.
  exists ex_cfg, ex_state, ((build1 ++ [End]) ++ [Rewire 0 [1] [0] (kids ex_state) (fdeps ex_state); Begin rules_opts [] (30, 0)%Z; Consider 0; Consider 1]).
  split; [apply ex_deterministic|]. split; [apply ex_fresh|]. split; [|vm_compute; reflexivity].
  apply (plausible_app _ _ _ _ (state_of (exec ex_cfg ex_state (build1 ++ [End])))).
  - apply plausible_all. vm_compute. reflexivity.
  - ran.
  - eapply plausible_cons; [|ran|].
    + apply ex_wf; intros [|[|[|n]]]; reflexivity.
    + apply plausible_all. vm_compute. reflexivity.
Qed.

(** *** C10 *)
Theorem null_build c s1 o time es s' :
  deterministic c -> reachable c s1 -> active s1 = true -> full s1 -> force o = false ->
  (forall t, In t (done s1) -> exists p, In p (outs s1 t) /\ au c p = true) ->
  (forall t p d, In t (done s1) -> In p (outs s1 t) -> In d (fdeps s1 p) -> mtime s1 d <> no_time) ->
  Forall (build_only (done s1)) es ->
  exec c s1 (End :: Begin o [] time :: es) = Next s' ->
  forall t, In t (started s') -> tainted c s1 t.
Proof.
  intros Dt R A Fu Fo Au Ex B E. assert (I := reachable_inv c s1 Dt R). cbn [exec step] in E.
  destruct (running s1); [|discriminate]. cbn [active set_active] in E.
  destruct (begin c o [] time (set_active false s1)) as [s2|] eqn:Eb; [|discriminate].
  assert (N := null_begin c s1 o time s2 I A Fu Fo Au Ex Eb).
  apply (nu_started _ _ _ _ (null_exec c (done s1) s1 es s2 s' (iv_wf _ _ I) N B E)).
Qed.
(** Without rules that are always run, nothing is run. *)
Corollary null_build_nothing c s1 o time es s' :
  deterministic c -> reachable c s1 -> active s1 = true -> full s1 -> force o = false ->
  (forall t, In t (done s1) -> exists p, In p (outs s1 t) /\ au c p = true) ->
  (forall t p d, In t (done s1) -> In p (outs s1 t) -> In d (fdeps s1 p) -> mtime s1 d <> no_time) ->
  (forall t, always c t = false) ->
  Forall (build_only (done s1)) es ->
  exec c s1 (End :: Begin o [] time :: es) = Next s' -> started s' = [].
Proof.
  intros Dt R A Fu Fo Au Ex Al B E. destruct (started s') as [|t l] eqn:Es; auto. exfalso.
  assert (T : tainted c s1 t) by (apply (null_build c s1 o time es s'); auto; rewrite Es; now left).
  clear - T Al. induction T as [t X|t p k t' _ _ _ _ IH]; [rewrite Al in X; discriminate|exact IH].
Qed.
Definition s_built : state := state_of (exec ex_cfg ex_state build1).
Lemma s_built_reachable : reachable ex_cfg s_built.
Proof.
  exists ex_state, build1. split; [apply ex_fresh|]. split; [|ran]. apply fair_all. vm_compute. reflexivity.
Qed.
Example null_build_example :
  reachable ex_cfg s_built /\ active s_built = true /\ full s_built /\ done s_built = [1; 0] /\ started s_built = [1; 0]
  /\ (forall t, In t (done s_built) -> exists p, In p (outs s_built t) /\ au ex_cfg p = true)
  /\ exists s', exec ex_cfg s_built (End :: Begin ex_opts [] (40, 0)%Z :: [Consider 0; Consider 1]) = Next s'
     /\ done s' = [1; 0] /\ started s' = [].
Proof.
  split; [apply s_built_reachable|]. split; [reflexivity|]. split; [vm_compute; auto|]. split; [reflexivity|]. split; [reflexivity|]. split.
  - intros t Ht. vm_compute in Ht. destruct Ht as [<-|[<-|[]]]; [exists 2|exists 1]; vm_compute; auto.
  - exists (state_of (exec ex_cfg s_built (End :: Begin ex_opts [] (40, 0)%Z :: [Consider 0; Consider 1]))).
    split; [ran|]. split; vm_compute; reflexivity.
Qed.

(** *** C11 *)
Theorem incremental_is_clean c s t o :
  deterministic c -> reachable c s -> active s = true -> full s -> In t (done s) -> In o (outs s t) ->
  clean_content c s o (content s o) /\ forall v, clean_content c s o v -> v = content s o.
Proof.
  intros Dt R A Fu Hd Ho. assert (I := reachable_inv c s Dt R).
  destruct (wf_acyclic _ _ (iv_wf _ _ I)) as [rank Hr].
  assert (C := settled_clean c s Dt I A Fu (rank t) rank Hr t (le_n _) Hd o Ho). split; auto.
  intros v Hv. apply (clean_unique c s o Dt (iv_wf _ _ I)); auto.
Qed.
(** For histories of unrestricted builds and changes of files and dependencies nothing has to be assumed about
    failed jobs. *)
Theorem unrestricted_builds_are_clean c s0 es s t o :
  deterministic c -> fresh c s0 -> (forall t, track s0 t = false) -> plain_history c s0 es -> exec c s0 es = Next s ->
  active s = true -> In t (done s) -> In o (outs s t) ->
  clean_content c s o (content s o) /\ forall v, clean_content c s o v -> v = content s o.
Proof.
  intros Dt Fr Tr H E A Hd Ho.
  assert (Ntc : forall t, track s0 t = true -> changed s0 t = true -> False) by (intros x X; rewrite Tr in X; discriminate).
  assert (Fa : fair_history c s0 es) by (apply plain_fair_history; auto; [now apply fresh_plain|eauto]).
  assert (P : forall es s0, Plain c s0 -> (forall t, track s0 t = true -> changed s0 t = true -> False) -> plain_history c s0 es ->
     exec c s0 es = Next s -> Plain c s).
  { clear - Dt. induction es as [|e es IH]; intros s0 P N H E; cbn [plain_history exec] in *; [injection E as <-; auto|].
    destruct H as [H1 H2]. destruct (step c s0 e) as [s1| |] eqn:St; try discriminate.
    destruct (plain_step c s0 e s1 Dt N P H1 St). apply (IH s1); auto. }
  assert (Pl := P es s0 (fresh_plain c s0 Fr) Ntc H E).
  apply (incremental_is_clean c s t o); auto; [exists s0, es; auto|]. now apply (pl_full _ _ Pl).
Qed.
(** The job for file 1 fails after the change; file 1 was overwritten with garbage.  The third build repairs it. *)
Definition broken : list event :=
  build1 ++ [End; Edit 0 8 (30, 0)%Z; Begin ex_opts [] (40, 0)%Z; Consider 0; Fail 0 (fun _ => Some ((41, 0)%Z, 99)) (42, 0)%Z; End;
             Begin ex_opts [] (50, 0)%Z; Consider 0; Succeed 0 (touched 51) (52, 0)%Z; Consider 1; Succeed 1 (touched 53) (54, 0)%Z].
Lemma plain_all es : forall s, all_b (fun s e => plausible_b ex_cfg s e && match e with
    | Begin o cf _ => match cf, active_tags o, files o, rules_only o with [], [], [], false => true | _, _, _, _ => false end
    | Reconfigure _ _ => false | _ => true end) ex_cfg s es = true -> plain_history ex_cfg s es.
Proof.
  induction es as [|e es IH]; intros s H; cbn [all_b plain_history] in *; auto. apply andb_prop in H as [A B]. apply andb_prop in A as [A1 A2].
  split.
  - split; [now apply plausible_b_ok|]. destruct e; auto; [|discriminate]. destruct changed_files; [|discriminate].
    destruct (active_tags o); [|discriminate]. destruct (files o); [|discriminate]. destruct (rules_only o); [discriminate|auto].
  - destruct (step ex_cfg s e); auto.
Qed.
Example unrestricted_builds_example : exists s, plain_history ex_cfg ex_state broken /\ exec ex_cfg ex_state broken = Next s
  /\ active s = true /\ done s = [1; 0] /\ content s 1 = 17 /\ content s 2 = 35.
Proof.
  exists (state_of (exec ex_cfg ex_state broken)). split; [apply plain_all; vm_compute; reflexivity|]. split; [ran|].
  split; [vm_compute; reflexivity|]. split; [vm_compute; reflexivity|]. split; vm_compute; reflexivity.
Qed.

Theorem affected_regenerated c s0 n v m es1 o cf time es2 s t :
  deterministic c -> reachable c s0 -> before (now s0) m ->
  let es := Edit n v m :: es1 ++ Begin o cf time :: es2 in
  fair_history c s0 es -> Forall outside es1 -> Forall not_begin es2 ->
  exec c s0 es = Next s -> active s = true -> full s ->
  affected c (edit n v m s0) n t -> In t (done s) -> In t (succeeded s).
Proof.
  intros Dt R Hm es H O N E A Fu Af Hd. unfold es in *. assert (I := reachable_inv c s0 Dt R).
  cbn [exec fair_history] in E, H. destruct H as [Fe H]. destruct (step c s0 (Edit n v m)) as [s1| |] eqn:S1; try discriminate.
  destruct (inv_step c s0 _ s1 Dt I Fe S1) as [I1 _]. cbn [step] in S1. destruct (active s0) eqn:A0; [discriminate|].
  assert (K : forall t, kd c n <> Generated t) by (intros x X; rewrite X in S1; discriminate).
  assert (s1 = edit n v m s0) as -> by (destruct (kd c n); try discriminate; injection S1 as <-; auto). clear S1.
  assert (D := affected_dirty c s0 n v m t I A0 K Hm Af).
  destruct (exec_app _ _ _ _ _ E) as (s2 & E1 & E2). destruct (fair_app _ _ _ _ _ H E1) as [H1 H2].
  assert (I2 := inv_exec c es1 _ s2 Dt I1 H1 E1).
  assert (D2 := outside_dirty c es1 _ s2 Dt I1 H1 O E1 t D).
  cbn [exec fair_history] in E2, H2. destruct H2 as [Fb H2]. destruct (step c s2 (Begin o cf time)) as [s3| |] eqn:S3; try discriminate.
  destruct (inv_step c s2 _ s3 Dt I2 Fb S3) as [I3 D3].
  assert (I4 := inv_exec c es2 s3 s Dt I3 H2 E2).
  destruct (during_dirty c es2 s3 s Dt I3 H2 N E2 t (D3 t D2)) as [X|X]; auto.
  now apply settled_dirty with (c := c).
Qed.
(** Changing file 0 after the first build: both transformers are run again. *)
Definition build2 : list event :=
  [Begin ex_opts [] (40, 0)%Z; Consider 0; Succeed 0 (touched 41) (42, 0)%Z; Consider 1; Succeed 1 (touched 43) (44, 0)%Z].
Definition s_idle : state := state_of (exec ex_cfg ex_state (build1 ++ [End])).
Definition s_again : state := state_of (exec ex_cfg ex_state (build1 ++ End :: Edit 0 8 (30, 0)%Z :: build2)).
Example incremental_example :
  reachable ex_cfg s_again /\ active s_again = true /\ full s_again /\ In 1 (done s_again) /\ In 2 (outs s_again 1)
  /\ content s_built 2 = 31 /\ content s_again 2 = 35 /\ succeeded s_again = [1; 0]
  /\ reachable ex_cfg s_idle /\ fair_history ex_cfg s_idle (Edit 0 8 (30, 0)%Z :: [] ++ build2)
  /\ affected ex_cfg (edit 0 8 (30, 0)%Z s_idle) 0 1.
Proof.
  split. { exists ex_state, (build1 ++ End :: Edit 0 8 (30, 0)%Z :: build2). split; [apply ex_fresh|]. split; [|ran].
           apply fair_all. vm_compute. reflexivity. }
  split; [reflexivity|]. split; [vm_compute; auto|]. split; [vm_compute; auto|]. split; [vm_compute; auto|].
  split; [vm_compute; reflexivity|]. split; [vm_compute; reflexivity|]. split; [vm_compute; reflexivity|].
  split. { exists ex_state, (build1 ++ [End]). split; [apply ex_fresh|]. split; [|ran]. apply fair_all. vm_compute. reflexivity. }
  split. { apply fair_all. vm_compute. reflexivity. }
  apply (affected_kid _ _ _ 1 2 1 0); try (vm_compute; auto; fail). apply (affected_direct _ _ _ 0 1); vm_compute; auto.
Qed.

(** *** What gets lost *)
(** In all of these the last build is a full one, and the transformer is considered up to date although its
    output is not what a clean build would produce. *)
Definition wrong_output (c : cfg) (s : state) : Prop := exists t o,
  active s = true /\ full s /\ In t (done s) /\ In o (outs s t) /\ ~ clean_content c s o (content s o).
Lemma ex_wrong s : wf ex_cfg s -> In 1 (outs s 0) -> kids s 1 = [0] -> fdeps s 1 = [] ->
  content s 1 <> ex_F 0 (conf s 0) (fun k => if k =? 0 then Some (content s 0) else None) 1 -> ~ clean_content ex_cfg s 1 (content s 1).
Proof.
  intros W Ho Ek Ef Ne C. inversion C as [n Hn Eq|t o v Ho' Hk Eq E]; subst.
  - destruct (Hn 0). reflexivity.
  - assert (t = 0) as -> by (apply (wf_producer ex_cfg s t 0 1 W); auto). apply Ne. rewrite <- E. apply ex_deterministic. intros k.
    rewrite Ek, Ef. unfold mem. simpl. destruct (k =? 0) eqn:K; auto. simpl. f_equal. apply Nat.eqb_eq in K. subst k.
    assert (X := Hk 0). rewrite Ek in X. specialize (X (or_introl (or_introl eq_refl))). inversion X as [|? ? ? Y]; subst; auto.
    apply (wf_outs _ _ W) in Y. discriminate.
Qed.

(** The commands have changed, and the job fails. *)
Theorem failed_job_lost_refuted : exists c s0 es s, deterministic c /\ fresh c s0 /\ plausible_history c s0 es
  /\ exec c s0 es = Next s /\ wrong_output c s.
Proof.
  set (es := build1 ++ [End; Reconfigure 0 5; Begin ex_opts [] (50, 0)%Z; Consider 0; Fail 0 (fun _ => None) (51, 0)%Z; End;
                        Begin ex_opts [] (60, 0)%Z; Consider 0]).
  exists ex_cfg, ex_state, es, (state_of (exec ex_cfg ex_state es)).
  split; [apply ex_deterministic|]. split; [apply ex_fresh|]. split; [apply plausible_all; vm_compute; reflexivity|].
  split; [ran|]. exists 0, 1. split; [vm_compute; reflexivity|]. split; [vm_compute; auto|]. split; [vm_compute; auto|].
  split; [vm_compute; auto|]. apply ex_wrong; try (vm_compute; auto; fail); [|vm_compute; discriminate].
  apply ex_wf; reflexivity.
Qed.
(** The commands have changed, and the next build executes rules only. *)
Theorem rules_only_lost_refuted : exists c s0 es s, deterministic c /\ fresh c s0 /\ plausible_history c s0 es
  /\ exec c s0 es = Next s /\ wrong_output c s.
Proof.
  set (es := build1 ++ [End; Reconfigure 0 5; Begin rules_opts [] (50, 0)%Z; Consider 0; End;
                        Begin ex_opts [] (60, 0)%Z; Consider 0]).
  exists ex_cfg, ex_state, es, (state_of (exec ex_cfg ex_state es)).
  split; [apply ex_deterministic|]. split; [apply ex_fresh|]. split; [apply plausible_all; vm_compute; reflexivity|].
  split; [ran|]. exists 0, 1. split; [vm_compute; reflexivity|]. split; [vm_compute; auto|]. split; [vm_compute; auto|].
  split; [vm_compute; auto|]. apply ex_wrong; try (vm_compute; auto; fail); [|vm_compute; discriminate].
  apply ex_wf; reflexivity.
Qed.
(** A transformer marked for re-run that does not match the file tag filter of a build is not run in a later
    full build either. *)
Theorem mark_lost_refuted : exists c s1 t es s, deterministic c /\ reachable c s1 /\ marked s1 t = true
  /\ plausible_history c s1 es /\ exec c s1 es = Next s /\ active s = true /\ full s /\ In t (done s) /\ ~ In t (started s)
  /\ forall n, n <= length es -> forall s', exec c s1 (firstn n es) = Next s' -> ~ In t (running s').
Proof.
  set (es := [Begin tag_opts [] (50, 0)%Z; Consider 0; End; Begin ex_opts [] (60, 0)%Z; Consider 0]).
  set (s1 := state_of (exec ex_cfg ex_state (build1 ++ [End; Mark 0]))).
  exists ex_cfg, s1, 0, es, (state_of (exec ex_cfg s1 es)).
  split; [apply ex_deterministic|].
  split. { exists ex_state, (build1 ++ [End; Mark 0]). split; [apply ex_fresh|]. split; [|ran]. apply fair_all. vm_compute. reflexivity. }
  split; [vm_compute; reflexivity|]. split; [apply plausible_all; vm_compute; reflexivity|].
  split; [ran|]. split; [vm_compute; reflexivity|]. split; [vm_compute; auto|]. split; [vm_compute; auto|].
  split; [vm_compute; tauto|].
  intros n Hn s' E. assert (R : running (state_of (exec ex_cfg s1 (firstn n es))) = []).
  { simpl in Hn. destruct n as [|[|[|[|[|[|n]]]]]]; [| | | | | |lia]; vm_compute; reflexivity. }
  rewrite E in R. simpl in R. rewrite R. auto.
Qed.

Print Assumptions rebuild_decision.
Print Assumptions directory_time.
Print Assumptions no_check_failure.
Print Assumptions check_failure_restricted_refuted.
Print Assumptions null_build.
Print Assumptions null_build_nothing.
Print Assumptions incremental_is_clean.
Print Assumptions unrestricted_builds_are_clean.
Print Assumptions affected_regenerated.
Print Assumptions failed_job_lost_refuted.
Print Assumptions rules_only_lost_refuted.
Print Assumptions mark_lost_refuted.
