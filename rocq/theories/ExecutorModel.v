(** Model of the build executor:
    src/lib/corelib/buildgraph/executor.cpp and executorjob.cpp.

    The executor lives in one thread; what happens around it (how commands end,
    what rules produce, what is up to date, which of several leaves is taken first)
    is passed in as input.  Theorems quantify over all inputs.

    Simplifications that hold for the whole file:
    - Nodes and transformers are numbers.  A transformer is the application of one
      rule to its inputs ([src/lib/corelib/buildgraph/transformer.h]); re-applying a
      rule creates new transformer objects, hence new numbers.
    - Parents are computed from children; that both relations mirror each other is
      the subject of another model.
    - Progress reporting, elapsed times, installing and time stamps are left out
      here, except that installing and checking time stamps may throw.
    - Rule application is atomic: no event is handled while it runs. *)
From Coq Require Import List Bool Arith ZArith Lia.
Import ListNotations.

(** BuildGraphNode::BuildState, buildgraphnode.h. *)
Inductive bstate := Untouched | Buildable | Building | Built.

Definition is_built (b : bstate) : bool := match b with Built => true | _ => false end.
Definition is_buildable (b : bstate) : bool := match b with Buildable => true | _ => false end.
Definition is_untouched (b : bstate) : bool := match b with Untouched => true | _ => false end.

(** Node kinds: source artifact, artifact generated by a transformer (artifact.h:
    artifactType, transformer), rule node. *)
Inductive kind := KSource | KGen (t : nat) | KRule.

(** The build graph as far as the executor looks at it. *)
Record graph := {
  gnodes : list nat;                (* all nodes of all products *)
  gkind : nat -> kind;
  gchildren : nat -> list nat;      (* BuildGraphNode::children *)
  groots : list nat                 (* root nodes of the primary products *)
}.

Definition mem (n : nat) (l : list nat) : bool := existsb (Nat.eqb n) l.

(** Transformer::outputs. *)
Definition outs (g : graph) (t : nat) : list nat :=
  filter (fun n => match gkind g n with KGen t' => Nat.eqb t t' | _ => false end) (gnodes g).

(** BuildGraphNode::parents, the mirror image of children. *)
Definition parents (g : graph) (n : nat) : list nat :=
  filter (fun p => mem n (gchildren g p)) (gnodes g).

(** What is fixed for one build: executor.cpp 244-334, BuildOptions. *)
Record config := {
  cf_maxjobs : nat;                 (* m_buildOptions.maxJobCount() *)
  cf_keepgoing : bool;              (* m_buildOptions.keepGoing() *)
  cf_rulesonly : bool;              (* m_buildOptions.executeRulesOnly() *)
  cf_ncmds : nat -> nat;            (* transformer->commands.size() *)
  cf_pools : nat -> list nat;       (* transformer->jobPools() *)
  cf_prod : nat -> nat;             (* transformer->product() *)
  cf_rule : nat -> nat;             (* the rule node transformer->rule belongs to *)
  cf_limit : nat -> nat -> Z;       (* m_jobLimitsPerProduct[product].getLimit(pool);
                                       a product without entry counts as "no limit" (-1) *)
  cf_ruleprod : nat -> nat;         (* product of a rule node *)
  cf_inprod : nat -> bool           (* the product test of checkNodeProduct, lines 977-978 *)
}.

(** checkNodeProduct, lines 975-988: does the node belong to a product to build?  The product of
    an artifact is that of its transformer (transformer.cpp: Transformer::product). *)
Definition in_build (cf : config) (g : graph) (n : nat) : bool :=
  match gkind g n with
  | KGen t => cf_inprod cf (cf_prod cf t)
  | _ => cf_inprod cf (cf_ruleprod cf n)
  end.

(** ExecutorJob: between run() and the processing of its finished signal.
    [Running i c]: command i is executing; c: cancel() was called (m_error is set).
    [Done ok]: setFinished() was called (members are reset, lines 158-172), the queued
    signal has not been delivered yet. *)
Inductive phase := Running (i : nat) (canceled : bool) | Done (ok : bool).
Record job := { jid : nat; jtr : nat; jph : phase }.

(** Executor::ExecutorState. *)
Inductive estate := Idle | ERunning | ECanceling.

(** Entries of m_error, by origin. *)
Inductive error :=
  | ECommand (t : nat)       (* a command of t failed or was cancelled *)
  | EException (n : nat)     (* exception while handling node n *)
  | EOutput (t : nat)        (* exception after t's commands succeeded *)
  | EUnbuilt                 (* "The following products could not be built" *)
  | ECancelMsg.              (* "Build canceled" *)

(** Where the executor's thread is: in the loop of scheduleJobs (with the list
    delayedLeaves), back in the event loop, after finish(), or after a failed
    assertion. *)
Inductive control := CSched (delayed : list nat) | CWait | CFinished | CAssert.

(** What an observer sees; most recent first. *)
Inductive event :=
  | EvApply (r : nat)                    (* rule node r gets applied *)
  | EvSkip (t : nat)                     (* t is found up to date or filtered out *)
  | EvRun (t : nat)                      (* the job for t is started *)
  | EvCmd (t i : nat)                    (* command i of t is started *)
  | EvSucceeded (t : nat)                (* success of t's job arrives at the executor *)
  | EvFailed (t : nat)                   (* failure of t's job arrives at the executor *)
  | EvCancel                             (* the executor starts cancelling *)
  | EvFinish (errs : list error).        (* finished() is emitted *)

Record state := {
  gr : graph;
  bst : nat -> bstate;
  leaves : list nat;         (* m_leaves; which element is the top is an input *)
  avail : list nat;          (* m_availableJobs *)
  procs : list job;          (* m_processingJobs *)
  cnt : nat -> Z;            (* m_jobCountPerPool *)
  est : estate;              (* m_state *)
  errs : list error;         (* m_error *)
  expl : bool;               (* m_explicitlyCanceled *)
  ctl : control;
  log : list event
}.

Definition upd {A} (f : nat -> A) (k : nat) (v : A) : nat -> A :=
  fun x => if Nat.eqb x k then v else f x.

Definition set_gr g s := {| gr := g; bst := bst s; leaves := leaves s; avail := avail s;
  procs := procs s; cnt := cnt s; est := est s; errs := errs s; expl := expl s; ctl := ctl s; log := log s |}.
Definition set_bst b s := {| gr := gr s; bst := b; leaves := leaves s; avail := avail s;
  procs := procs s; cnt := cnt s; est := est s; errs := errs s; expl := expl s; ctl := ctl s; log := log s |}.
Definition set_leaves l s := {| gr := gr s; bst := bst s; leaves := l; avail := avail s;
  procs := procs s; cnt := cnt s; est := est s; errs := errs s; expl := expl s; ctl := ctl s; log := log s |}.
Definition set_jobs a p c s := {| gr := gr s; bst := bst s; leaves := leaves s; avail := a;
  procs := p; cnt := c; est := est s; errs := errs s; expl := expl s; ctl := ctl s; log := log s |}.
Definition set_procs p s := {| gr := gr s; bst := bst s; leaves := leaves s; avail := avail s;
  procs := p; cnt := cnt s; est := est s; errs := errs s; expl := expl s; ctl := ctl s; log := log s |}.
Definition set_est e s := {| gr := gr s; bst := bst s; leaves := leaves s; avail := avail s;
  procs := procs s; cnt := cnt s; est := e; errs := errs s; expl := expl s; ctl := ctl s; log := log s |}.
Definition set_errs e s := {| gr := gr s; bst := bst s; leaves := leaves s; avail := avail s;
  procs := procs s; cnt := cnt s; est := est s; errs := e; expl := expl s; ctl := ctl s; log := log s |}.
Definition set_expl x s := {| gr := gr s; bst := bst s; leaves := leaves s; avail := avail s;
  procs := procs s; cnt := cnt s; est := est s; errs := errs s; expl := x; ctl := ctl s; log := log s |}.
Definition set_ctl c s := {| gr := gr s; bst := bst s; leaves := leaves s; avail := avail s;
  procs := procs s; cnt := cnt s; est := est s; errs := errs s; expl := expl s; ctl := c; log := log s |}.
Definition say e s := {| gr := gr s; bst := bst s; leaves := leaves s; avail := avail s;
  procs := procs s; cnt := cnt s; est := est s; errs := errs s; expl := expl s; ctl := ctl s; log := e :: log s |}.

(** allChildrenBuilt, lines 662-665. *)
Definition all_children_built (s : state) (n : nat) : bool :=
  forallb (fun c => is_built (bst s c)) (gchildren (gr s) n).

(** finishNode, lines 667-686: the node becomes Built; parents that are Buildable and
    have only built children become leaves. *)
Definition push_ready (s : state) (p : nat) : state :=
  if is_buildable (bst s p) && all_children_built s p then set_leaves (p :: leaves s) s else s.
Definition finish_node (n : nat) (s : state) : state :=
  fold_left push_ready (parents (gr s) n) (set_bst (upd (bst s) n Built) s).

(** finishTransformer, lines 879-894; [inst n]: installing artifact n throws
    (possiblyInstallArtifact, 896-907).  The boolean tells whether an exception got out. *)
Fixpoint finish_outputs (inst : nat -> bool) (l : list nat) (s : state) : state * bool :=
  match l with
  | [] => (s, false)
  | n :: rest => if inst n then (s, true) else finish_outputs inst rest (finish_node n s)
  end.
Definition finish_transformer (inst : nat -> bool) (t : nat) (s : state) : state * bool :=
  finish_outputs inst (outs (gr s) t) s.

(** cancelJobs, lines 760-769, with ExecutorJob::cancel, executorjob.cpp 113-119: only a job
    that has a current command executor is affected. *)
Definition cancel_job (j : job) : job :=
  match jph j with
  | Running i _ => {| jid := jid j; jtr := jtr j; jph := Running i true |}
  | Done _ => j
  end.
Definition cancel_jobs (s : state) : state :=
  match est s with
  | ECanceling => s
  | _ => say EvCancel (set_procs (map cancel_job (procs s)) (set_est ECanceling s))
  end.

(** finish, lines 990-1020, with checkForUnbuiltProducts, lines 938-973. *)
Definition finish (cf : config) (s : state) : state :=
  let unbuilt := negb (cf_rulesonly cf)
                 && negb (forallb (fun n => is_built (bst s n)) (groots (gr s))) in
  let e1 := if unbuilt then errs s ++ [EUnbuilt] else errs s in
  let e2 := if expl s then e1 ++ [ECancelMsg] else e1 in
  say (EvFinish e2) (set_ctl CFinished (set_est Idle (set_errs e2 s))).

(** handleError, lines 795-804; afterwards the thread is back in the event loop. *)
Definition handle_error (cf : config) (e : error) (s : state) : state :=
  let s := set_errs (errs s ++ [e]) s in
  match procs s with
  | [] => finish cf s
  | _ :: _ => set_ctl CWait (cancel_jobs s)
  end.

(** updateLeaves(node, seenNodes), lines 354-382.  The recursion is bounded by the number of
    nodes, see the proof that the fuel given by [update_leaves] is enough. *)
Fixpoint update_leaf (fuel : nat) (n : nat) (seen : list nat) (s : state)
  : list nat * state :=
  match fuel with
  | O => (seen, s)
  | S fuel =>
      if mem n seen then (seen, s)
      else
        let s1 := if is_untouched (bst s n) then set_bst (upd (bst s) n Buildable) s else s in
        let step := fun (acc : list nat * state * bool) c =>
          let '(sn, st, leaf) := acc in
          if is_built (bst st c) then (sn, st, leaf)
          else let '(sn', st') := update_leaf fuel c sn st in (sn', st', false) in
        let '(sn, s2, leaf) := fold_left step (gchildren (gr s) n) (n :: seen, s1, true) in
        (sn, if leaf then set_leaves (n :: leaves s2) s2 else s2)
  end.

(** updateLeaves(nodes), lines 347-352. *)
Definition update_leaves (l : list nat) (s : state) : state :=
  snd (fold_left (fun acc n => update_leaf (S (length (gnodes (gr s)))) n (fst acc) (snd acc))
                 l ([], s)).

(** updateJobCounts, lines 754-758. *)
Definition add_counts (pools : list nat) (d : Z) (c : nat -> Z) : nat -> Z :=
  fold_left (fun c p => upd c p (c p + d)%Z) pools c.

(** runTransformer, lines 855-877 (creating the output directories is part of the
    decision input), and ExecutorJob::run, executorjob.cpp 94-111. *)
Definition run_transformer (cf : config) (t : nat) (s : state) : state :=
  match avail s with
  | [] => set_ctl CAssert s                       (* QBS_CHECK(!m_availableJobs.empty()) *)
  | j :: rest =>
      let s1 := set_bst (fun n => if mem n (outs (gr s) t) then Building else bst s n) s in
      let ph := match cf_ncmds cf t with O => Done true | S _ => Running 0 false end in
      let s2 := set_jobs rest ({| jid := j; jtr := t; jph := ph |} :: procs s1)
                         (add_counts (cf_pools cf t) 1 (cnt s1)) (say (EvRun t) s1) in
      match cf_ncmds cf t with O => s2 | S _ => say (EvCmd t 0) s2 end
  end.

(** schedulingBlockedByJobLimit, lines 425-465. *)
Definition limit_exceeded (cf : config) (prod pool : nat) (count : Z) : bool :=
  ((0 <? cf_limit cf prod pool) && (cf_limit cf prod pool <=? count))%Z.
Definition job_pools (cf : config) (j : job) : list nat :=   (* ExecutorJob::jobPools *)
  match jph j with Running _ _ => cf_pools cf (jtr j) | Done _ => [] end.
Definition blocked (cf : config) (s : state) (n : nat) : bool :=
  match gkind (gr s) n with
  | KGen t =>
      existsb (fun pool =>
        if (cnt s pool =? 0)%Z then false
        else limit_exceeded cf (cf_prod cf t) pool (cnt s pool)
             || existsb (fun j => mem pool (job_pools cf j)
                                  && negb (cf_prod cf (jtr j) =? cf_prod cf t)
                                  && limit_exceeded cf (cf_prod cf (jtr j)) pool (cnt s pool))
                        (procs s))
        (cf_pools cf t)
  | _ => false
  end.

(** Result of RuleNode::apply (rulenode.cpp 79-245): an exception, or a changed graph with
    the sets createdArtifacts and invalidatedArtifacts. *)
Inductive rule_result := RThrow | ROk (g : graph) (created invalidated : list nat).

(** What the environment decides when a node is visited. *)
Record choice := {
  c_throw : bool;             (* retrieving time stamps or creating directories throws *)
  c_skip : bool;              (* filtered out or up to date: lines 830-847 *)
  c_inst : nat -> bool;       (* installing throws *)
  c_rule : rule_result
}.

(** New nodes start Untouched (buildgraphnode.cpp: constructor). *)
Definition adopt (g : graph) (s : state) : state :=
  set_gr g (set_bst (fun n => if mem n (gnodes (gr s)) then bst s n else Untouched) s).

(** executeRuleNode, lines 569-596. *)
Definition execute_rule (cf : config) (r : nat) (c : choice) (s : state) : state :=
  if negb (in_build cf (gr s) r) then finish_node r s
  else
    match c_rule c with
    | RThrow => handle_error cf (EException r) (say (EvApply r) s)
    | ROk g created invalidated =>
        finish_node r (update_leaves invalidated (update_leaves created
          (adopt g (say (EvApply r) s))))
    end.

(** buildArtifact, lines 542-567, with potentiallyRunTransformer, lines 828-853. *)
Definition build_artifact (cf : config) (n : nat) (c : choice) (s : state) : state :=
  match gkind (gr s) n with
  | KGen t =>
      if negb (in_build cf (gr s) n) then finish_node n s
      else if c_throw c then handle_error cf (EException n) s
      else if c_skip c || cf_rulesonly cf then
        let '(s', thrown) := finish_transformer (c_inst c) t (say (EvSkip t) s) in
        if thrown then handle_error cf (EException n) s' else s'
      else run_transformer cf t s
  | _ => if c_throw c then handle_error cf (EException n) s else finish_node n s
  end.

Fixpoint remove_nth (i : nat) (l : list nat) : list nat :=
  match l, i with
  | [], _ => []
  | _ :: l, O => l
  | x :: l, S i => x :: remove_nth i l
  end.

Definition delay (n : nat) (s : state) : state :=
  match ctl s with
  | CSched d => set_ctl (CSched (n :: d)) s
  | _ => s
  end.

(** One round of the loop in scheduleJobs, lines 389-419, for node n. *)
Definition visit (cf : config) (n : nat) (c : choice) (s : state) : state :=
  match bst s n with
  | Untouched => set_ctl CAssert s                (* "untouched node in leaves list" *)
  | Building | Built => s
  | Buildable =>
      if blocked cf s n then delay n s
      else match gkind (gr s) n with
           | KRule => execute_rule cf n c s
           | _ => build_artifact cf n c s
           end
  end.

Fixpoint find_job (j : nat) (l : list job) : option job :=
  match l with
  | [] => None
  | x :: l => if jid x =? j then Some x else find_job j l
  end.
Definition drop_job (j : nat) (l : list job) : list job :=
  filter (fun x => negb (jid x =? j)) l.
Definition set_phase (j : nat) (p : phase) (l : list job) : list job :=
  map (fun x => if jid x =? j then {| jid := jid x; jtr := jtr x; jph := p |} else x) l.

(** Inputs.  [ILeaf i c]: the i-th leaf is on top of the queue.  [ISchedEnd]: the loop ends.
    [ICmd j ok]: the current command of job j ends; this may also happen synchronously while
    the loop runs.  [ISlot j cancel throw inst]: the finished signal of job j arrives; [cancel]:
    the progress observer is cancelled; [throw]: the check for missing outputs throws (lines
    616-631).  [ITick]: the cancellation timer finds the observer cancelled. *)
Inductive input :=
  | ILeaf (i : nat) (c : choice)
  | ISchedEnd
  | ICmd (j : nat) (ok : bool)
  | ISlot (j : nat) (cancel throw : bool) (inst : nat -> bool)
  | ITick.

(** End of scheduleJobs (420-422) and what its callers do with the result (328-331, 656-659).
    doBuild defers finish() by a zero timer; nothing else can happen in between. *)
Definition sched_end (cf : config) (delayed : list nat) (s : state) : state :=
  let s := set_leaves (delayed ++ leaves s) s in
  match leaves s, procs s with
  | [], [] => finish cf s
  | _, _ => set_ctl CWait s
  end.

(** ExecutorJob::onCommandFinished and runNextCommand, executorjob.cpp 121-156. *)
Definition cmd_finished (cf : config) (j : job) (i : nat) (canceled ok : bool) (s : state)
  : state :=
  if canceled then set_procs (set_phase (jid j) (Done false) (procs s)) s
  else if negb ok then set_procs (set_phase (jid j) (Done false) (procs s)) s
  else if S i <? cf_ncmds cf (jtr j) then
    say (EvCmd (jtr j) (S i)) (set_procs (set_phase (jid j) (Running (S i) false) (procs s)) s)
  else set_procs (set_phase (jid j) (Done true) (procs s)) s.

(** Executor::onJobFinished, lines 909-936, and finishJob, lines 598-660. *)
Definition job_slot (cf : config) (j : job) (ok cancel throw : bool) (inst : nat -> bool)
  (s : state) : state :=
  let t := jtr j in
  let s := if negb ok && negb (cf_keepgoing cf)
           then match errs s with [] => set_errs [ECommand t] s | _ => s end else s in
  let s := set_jobs (avail s ++ [jid j]) (drop_job (jid j) (procs s))
                    (add_counts (cf_pools cf t) (-1) (cnt s)) s in
  let s := say (if ok then EvSucceeded t else EvFailed t) s in
  let '(s, thrown) :=
    if ok then (if throw then (s, true) else finish_transformer inst t s) else (s, false) in
  if thrown then handle_error cf (EOutput t) s
  else
    let s := if negb ok && negb (cf_keepgoing cf) then cancel_jobs s else s in
    let s := match est s with
             | ERunning => if cancel then cancel_jobs (set_expl true s) else s
             | _ => s
             end in
    match est s with
    | ECanceling => match procs s with [] => finish cf s | _ :: _ => set_ctl CWait s end
    | _ => set_ctl (CSched []) s
    end.

(** One step; [None]: the input cannot occur in this state. *)
Definition step (cf : config) (s : state) (i : input) : option state :=
  match i, ctl s with
  | ILeaf k c, CSched d =>
      match nth_error (leaves s) k, avail s with
      | Some n, _ :: _ => Some (visit cf n c (set_leaves (remove_nth k (leaves s)) s))
      | _, _ => None
      end
  | ISchedEnd, CSched d =>
      match leaves s, avail s with
      | _ :: _, _ :: _ => None
      | _, _ => Some (sched_end cf d s)
      end
  | ICmd j ok, (CSched _ | CWait) =>
      match find_job j (procs s) with
      | Some jb => match jph jb with
                   | Running k canceled => Some (cmd_finished cf jb k canceled ok s)
                   | Done _ => None
                   end
      | None => None
      end
  | ISlot j cancel throw inst, CWait =>
      match find_job j (procs s) with
      | Some jb => match jph jb with
                   | Done ok => Some (job_slot cf jb ok cancel throw inst s)
                   | Running _ _ => None
                   end
      | None => None
      end
  | ITick, CWait =>
      match est s with ERunning => Some (cancel_jobs s) | _ => None end
  | _, _ => None
  end.

(** prepareReachableNodes_impl, lines 1150-1160 (the part about selected files is in the
    decision input). *)
Fixpoint mark (fuel : nat) (ch : nat -> list nat) (n : nat) (b : nat -> bstate)
  : nat -> bstate :=
  match fuel with
  | O => b
  | S fuel =>
      if is_untouched (b n)
      then fold_left (fun b c => mark fuel ch c b) (ch n) (upd b n Buildable)
      else b
  end.
Definition prepare_reachable (g : graph) : nat -> bstate :=
  fold_left (fun b n => mark (S (length (gnodes g))) (gchildren g) n b) (groots g)
            (fun _ => Untouched).

(** doBuild, lines 244-334: all nodes are Untouched (prepareAllNodes, 1054-1068), nodes
    reachable from the roots become Buildable, leaves are collected, the loop starts.
    Exceptions during the preparation are not modelled: nothing has been started then. *)
Definition init (cf : config) (g : graph) : state :=
  update_leaves (groots g)
    {| gr := g; bst := prepare_reachable g; leaves := []; avail := seq 0 (cf_maxjobs cf);
       procs := []; cnt := fun _ => 0%Z; est := ERunning; errs := []; expl := false;
       ctl := CSched []; log := [] |}.

(** A run of the executor. *)
Fixpoint run (cf : config) (s : state) (l : list input) : option state :=
  match l with
  | [] => Some s
  | i :: l => match step cf s i with Some s' => run cf s' l | None => None end
  end.
