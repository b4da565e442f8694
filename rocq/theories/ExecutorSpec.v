(** What a build graph and a rule application look like from outside the executor,
    and the executions the theorems range over. *)
From Coq Require Import List Bool Arith ZArith.
From Verif Require Import ExecutorModel.
Import ListNotations.

(** A well-formed build graph: nodes are distinct, edges and roots stay within the graph,
    a generated artifact depends on the rule that creates it
    (rulesapplicator.cpp 485: connect(outputArtifact, m_ruleNode)). *)
Record wf_graph (cf : config) (g : graph) : Prop := {
  wf_nodup : NoDup (gnodes g);
  wf_edges : forall p c, In p (gnodes g) -> In c (gchildren g p) -> In c (gnodes g);
  wf_roots : forall n, In n (groots g) -> In n (gnodes g);
  wf_gen : forall n t, In n (gnodes g) -> gkind g n = KGen t ->
             In (cf_rule cf t) (gchildren g n);
  wf_rule : forall n t, In n (gnodes g) -> gkind g n = KGen t ->
             gkind g (cf_rule cf t) = KRule
}.

(** What applying rule node [r] may do to the graph (rulenode.cpp 79-245, rulesapplicator.cpp
    163-506, inputartifactscanner.cpp 166-194, projectbuilddata.cpp 155-241):
    - it removes generated artifacts whose own rule has not been applied yet,
    - it creates artifacts generated by [r],
    - it gives new transformers to existing outputs of [r],
    - it adds edges only at [r] itself and at nodes that directly depend on [r]
      (its outputs and the rules consuming them); elsewhere it can only remove edges. *)
Record admissible (cf : config) (g : graph) (b : nat -> bstate) (r : nat)
    (g' : graph) (created invalidated : list nat) : Prop := {
  ad_wf : wf_graph cf g';
  ad_self : In r (gnodes g') /\ ~ In r (gchildren g' r);
  ad_removed : forall n, In n (gnodes g) -> ~ In n (gnodes g') ->
      exists t, gkind g n = KGen t /\ b (cf_rule cf t) <> Built;
  ad_new : forall n, In n (gnodes g') -> ~ In n (gnodes g) ->
      In n created /\ In r (gchildren g' n) /\ exists t, gkind g' n = KGen t /\ cf_rule cf t = r;
  ad_kind : forall n, In n (gnodes g) -> In n (gnodes g') ->
      gkind g' n = gkind g n
      \/ exists t t', gkind g n = KGen t /\ cf_rule cf t = r
                      /\ gkind g' n = KGen t' /\ cf_rule cf t' = r;
  ad_depends : forall n, In n (gnodes g) -> In n (gnodes g') ->
      (In r (gchildren g' n) <-> In r (gchildren g n));
  ad_edges : forall n c, In n (gnodes g) -> In n (gnodes g') ->
      n <> r -> ~ In r (gchildren g n) -> In c (gchildren g' n) -> In c (gchildren g n);
  ad_result : forall n, In n (created ++ invalidated) -> In n (gnodes g')
}.

(** Inputs that respect this. *)
Definition ok_input (cf : config) (s : state) (i : input) : Prop :=
  match i with
  | ILeaf k c =>
      forall n g' cr inv, nth_error (leaves s) k = Some n -> gkind (gr s) n = KRule ->
        c_rule c = ROk g' cr inv -> admissible cf (gr s) (bst s) n g' cr inv
  | _ => True
  end.

(** States that can be reached in a build of graph [g]. *)
Inductive reachable (cf : config) (g : graph) : state -> Prop :=
| reach_init : reachable cf g (init cf g)
| reach_step s i s' : reachable cf g s -> ok_input cf s i -> step cf s i = Some s' ->
    reachable cf g s'.

(** Sane configurations: at least one job (lines 246-250), jobPools() is a set. *)
Record wf_config (cf : config) : Prop := {
  wfc_jobs : 0 < cf_maxjobs cf;
  wfc_pools : forall t, NoDup (cf_pools cf t)
}.

(** Later states of the same build. *)
Inductive steps (cf : config) : state -> state -> Prop :=
| steps_refl s : steps cf s s
| steps_step s i s1 s2 : ok_input cf s i -> step cf s i = Some s1 -> steps cf s1 s2 -> steps cf s s2.

(** The job of transformer [t] has been started and its end has not been dealt with yet. *)
Definition busy (s : state) (t : nat) : Prop := In t (map jtr (procs s)).

(** A node has been brought up to date in this build: the commands generating it succeeded or were
    found not to be needed, the rule was applied; or its product does not take part. *)
Definition up_to_date (cf : config) (s : state) (n : nat) : Prop :=
  match gkind (gr s) n with
  | KSource => True
  | KGen t => ~ busy s t /\
      (In (EvSucceeded t) (log s) \/ In (EvSkip t) (log s) \/ cf_inprod cf (cf_prod cf t) = false)
  | KRule => In (EvApply n) (log s) \/ cf_inprod cf (cf_ruleprod cf n) = false
  end.

(** ... and it will not be touched again in this build. *)
Definition settled (cf : config) (s : state) (n : nat) : Prop :=
  up_to_date cf s n /\
  forall s' l, steps cf s s' -> log s' = l ++ log s ->
    (forall t, gkind (gr s) n = KGen t -> ~ In (EvRun t) l)
    /\ (gkind (gr s) n = KRule -> ~ In (EvApply n) l).

(** Events that start something. *)
Definition starting (e : event) : Prop :=
  match e with EvRun _ | EvCmd _ _ | EvApply _ => True | _ => False end.

(** All outputs of a transformer have the same dependencies. *)
Definition siblings_agree (g : graph) : Prop :=
  forall t a b c, In a (outs g t) -> In b (outs g t) -> In c (gchildren g a) -> In c (gchildren g b).

(** Dependencies reached through artifacts. *)
Inductive depends_on (g : graph) : nat -> nat -> Prop :=
| dep_child n c : In c (gchildren g n) -> depends_on g n c
| dep_trans n m c : In m (gchildren g n) -> gkind g m <> KRule -> depends_on g m c -> depends_on g n c.

(** Builds in which every intermediate graph satisfies [P]. *)
Inductive reachable_in (P : graph -> Prop) (cf : config) (g : graph) : state -> Prop :=
| reach_in_init : P g -> reachable_in P cf g (init cf g)
| reach_in_step s i s' : reachable_in P cf g s -> ok_input cf s i -> step cf s i = Some s' ->
    P (gr s') -> reachable_in P cf g s'.

(** *** Progress *)

(** Rule applications that do not make the executor lose track of a node:
    - a node that does not depend on the rule, was not created and not invalidated, keeps the
      unfinished nodes it waits for;
    - a node that was not part of the build so far only becomes a dependency of one that is if one of
      the two was created or invalidated;
    - new root nodes were created or invalidated. *)
Record tracking (g : graph) (b : nat -> bstate) (r : nat) (g' : graph)
    (created invalidated : list nat) : Prop := {
  tr_lost : forall n c, In n (gnodes g) -> In n (gnodes g') -> n <> r -> ~ In r (gchildren g n) ->
      ~ In n (created ++ invalidated) -> In c (gchildren g n) -> b c <> Built -> In c (gchildren g' n);
  tr_gain : forall n c, In n (gnodes g') -> In c (gchildren g' n) ->
      (In n (gnodes g) /\ In c (gchildren g n))
      \/ In n (created ++ invalidated) \/ In c (created ++ invalidated)
      \/ (In c (gnodes g) /\ b c <> Untouched);
  tr_roots : forall n, In n (groots g') -> In n (groots g) \/ In n (created ++ invalidated)
}.

Definition tracking_input (s : state) (i : input) : Prop :=
  match i with
  | ILeaf k c =>
      forall n g' cr inv, nth_error (leaves s) k = Some n -> gkind (gr s) n = KRule ->
        c_rule c = ROk g' cr inv -> tracking (gr s) (bst s) n g' cr inv
  | _ => True
  end.

Inductive reachable_tracking (cf : config) (g : graph) : state -> Prop :=
| reach_tr_init : reachable_tracking cf g (init cf g)
| reach_tr_step s i s' : reachable_tracking cf g s -> ok_input cf s i -> tracking_input s i ->
    step cf s i = Some s' -> reachable_tracking cf g s'.

Definition acyclic (g : graph) : Prop :=
  exists rank : nat -> nat, forall n c, In n (gnodes g) -> In c (gchildren g n) -> rank c < rank n.

(** [m] is [n] or a direct or indirect dependency of it. *)
Inductive below (g : graph) : nat -> nat -> Prop :=
| below_refl n : below g n n
| below_child n m c : In m (gchildren g n) -> below g m c -> below g n c.

(** Whatever happens from here on, the build comes to its end, and before that something other than a
    cancellation request can always happen. *)
Inductive always_ends (cf : config) (s : state) : Prop :=
| ends_now : ctl s = CFinished -> always_ends cf s
| ends_later i0 s0 : i0 <> ITick -> ok_input cf s i0 -> step cf s i0 = Some s0 ->
    (forall i s', ok_input cf s i -> step cf s i = Some s' -> always_ends cf s') -> always_ends cf s.

(** An exception while a node was being handled ended the build. *)
Definition exceptional (e : error) : Prop :=
  match e with EException _ | EOutput _ => True | _ => False end.

(** The log shows the job of [t] as started and not ended. *)
Definition running (l : list event) (t : nat) : Prop :=
  In (EvRun t) l /\ ~ In (EvSucceeded t) l /\ ~ In (EvFailed t) l.
