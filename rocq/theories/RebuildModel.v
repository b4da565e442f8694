(** Model of the time stamp based part of the executor: FileTime (src/lib/corelib/tools/filetime.cpp), the
    decision whether the commands of a transformer have to run, and the bookkeeping that survives from one
    build to the next (src/lib/corelib/buildgraph/executor.cpp).  Scheduling is modelled in
    ExecutorModel.v; here a transformer may be considered as soon as all children of its outputs are
    done, jobs may overlap arbitrarily. *)
From Coq Require Import List Bool Arith ZArith.
Import ListNotations.

(** *** FileTime, Unix variant *)
Definition ftime := (Z * Z)%type.
(** filetime.cpp 158-161. *)
Definition no_time : ftime := (0, 0)%Z.
(** The constructor from a timespec, filetime.cpp 163-167. *)
Definition from_timespec (sec nsec : Z) : ftime := if (sec =? 0)%Z then (0, 0)%Z else (sec, nsec).
(** compare, filetime.cpp 169-180, and the operators, filetime.h 83-88. *)
Definition ft_compare (a b : ftime) : Z :=
  if (fst a <? fst b)%Z then -1
  else if (fst b <? fst a)%Z then 1
  else if (snd a <? snd b)%Z then -1
  else if (snd b <? snd a)%Z then 1
  else 0.
Definition ft_lt (a b : ftime) : bool := (ft_compare a b <? 0)%Z.
Definition ft_eq (a b : ftime) : bool := (ft_compare a b =? 0)%Z.
Definition ft_max (a b : ftime) : ftime := if ft_lt a b then b else a.      (* std::max *)
(** isValid, filetime.cpp 187-190. *)
Definition valid (t : ftime) : bool := negb (ft_eq t no_time).

(** *** recursiveFileTime, executor.cpp 110-130 *)
Inductive entry :=
| Missing
| File (modified status_changed : ftime)
| Dir (modified status_changed : ftime) (contents : list entry).
Fixpoint recursive_file_time (e : entry) : ftime :=
  match e with
  | Missing => no_time
  | File m c => ft_max m c
  | Dir m c es =>
      fold_left (fun newest e => let ft := recursive_file_time e in if ft_lt newest ft then ft else newest)
        es (ft_max m c)
  end.

(** *** Nodes, transformers, state *)
Inductive kind := Source | FileDep | Generated (t : nat).

(** What does not change: the kind of a node (for a generated artifact, its transformer), the flags
    [alwaysUpdated] and [alwaysRun], the file tags, the product of a transformer; the source artifacts of
    the products to build; and what the commands of a transformer write to an output, given its commands and
    configuration and the files the output depends on.  Contents and configurations are numbers. *)
Record cfg := {
  kd : nat -> kind;
  au : nat -> bool;
  always : nat -> bool;
  tags : nat -> list nat;
  tprod : nat -> nat;
  srcs : list nat;
  F : nat -> nat -> (nat -> option nat) -> nat -> nat
}.

(** BuildOptions, and what doBuild derives from it (executor.cpp 255-280). *)
Record opts := {
  force : bool;                     (* forceTimestampCheck *)
  rules_only : bool;                (* executeRulesOnly *)
  active_tags : list nat;           (* m_activeFileTags *)
  files : list nat;                 (* filesToConsider *)
  file_prods : list nat;            (* m_productsOfFilesToConsider *)
  needed_tags : list nat            (* m_tagsNeededForFilesToConsider *)
}.

Record state := {
  kids : nat -> list nat;           (* children that are artifacts *)
  fdeps : nat -> list nat;          (* fileDependencies *)
  outs : nat -> list nat;           (* transformer outputs *)
  ins : nat -> list nat;            (* transformer inputs *)
  ts : nat -> ftime;                (* FileResourceBase::m_timestamp *)
  marked : nat -> bool;             (* markedForRerun *)
  track : nat -> bool;              (* commandsNeedChangeTracking *)
  changed : nat -> bool;            (* would TrafoChangeTracker::commandsNeedRerun find a difference? *)
  conf : nat -> nat;                (* commands and everything they access besides their dependencies *)
  content : nat -> nat;             (* on disk *)
  mtime : nat -> ftime;             (* on disk; invalid: no such file *)
  now : ftime;                      (* the clock *)
  bopts : opts;
  active : bool;                    (* a build is running *)
  began : ftime;                    (* when the last build began *)
  done : list nat;                  (* transformers finished in this build *)
  running : list nat;
  started : list nat;               (* transformers whose commands were started in this build *)
  succeeded : list nat              (* those of them whose commands succeeded *)
}.

Definition mem (n : nat) (l : list nat) : bool := existsb (Nat.eqb n) l.
Definition upd {A} (f : nat -> A) (n : nat) (v : A) : nat -> A := fun m => if m =? n then v else f m.
Definition intersects (a b : list nat) : bool := existsb (fun x => mem x b) a.

(** Setters. *)
Definition set_ts (f : nat -> ftime) (s : state) : state :=
  {| kids := kids s; fdeps := fdeps s; outs := outs s; ins := ins s; ts := f; marked := marked s;
     track := track s; changed := changed s; conf := conf s; content := content s; mtime := mtime s;
     now := now s; bopts := bopts s; active := active s; began := began s; done := done s;
     running := running s; started := started s; succeeded := succeeded s |}.
Definition set_track (f : nat -> bool) (s : state) : state :=
  {| kids := kids s; fdeps := fdeps s; outs := outs s; ins := ins s; ts := ts s; marked := marked s;
     track := f; changed := changed s; conf := conf s; content := content s; mtime := mtime s;
     now := now s; bopts := bopts s; active := active s; began := began s; done := done s;
     running := running s; started := started s; succeeded := succeeded s |}.

(** *** isUpToDate, executor.cpp 467-508.  [None]: the QBS_CHECK in line 486 fails. *)
Fixpoint kids_ok (c : cfg) (f : nat -> ftime) (t : ftime) (l : list nat) : option bool :=
  match l with
  | [] => Some true
  | k :: l =>
      if au c k && negb (valid (f k)) then None
      else if ft_lt t (f k) then Some false
      else kids_ok c f t l
  end.
Fixpoint fdeps_ok (f : nat -> ftime) (t : ftime) (l : list nat) : bool :=
  match l with
  | [] => true
  | d :: l => if negb (valid (f d)) then false else if ft_lt t (f d) then false else fdeps_ok f t l
  end.
Definition is_up_to_date (c : cfg) (s : state) (o : nat) : option bool * state :=
  let s := if force (bopts s) then set_ts (upd (ts s) o (mtime s o)) s else s in
  (if negb (valid (ts s o)) then Some false
   else match kids_ok c (ts s) (ts s o) (kids s o) with
        | None => None
        | Some false => Some false
        | Some true => Some (fdeps_ok (ts s) (ts s o) (fdeps s o))
        end, s).

(** commandsNeedRerun, transformerchangetracking.cpp 350-359. *)
Definition commands_need_rerun (s : state) (t : nat) : bool * state :=
  if track s t then (changed s t, set_track (upd (track s) t false) s) else (false, s).

(** mustExecuteTransformer, executor.cpp 510-540; the loop over the outputs first. *)
Fixpoint outputs_loop (c : cfg) (s : state) (l : list nat) (has_au has_not_au : bool)
  : option (option (bool * bool)) * state :=      (* Some None: return true from within the loop *)
  match l with
  | [] => (Some (Some (has_au, has_not_au)), s)
  | o :: l =>
      let (r, s) := is_up_to_date c s o in
      match r with
      | None => (None, s)
      | Some true => if au c o then outputs_loop c s l true has_not_au else outputs_loop c s l has_au true
      | Some false => if au c o || force (bopts s) then (Some None, s) else outputs_loop c s l has_au has_not_au
      end
  end.
Definition must_execute (c : cfg) (s : state) (t : nat) : option bool * state :=
  if always c t then (Some true, s)
  else if marked s t then (Some true, s)
  else
    match outputs_loop c s (outs s t) false false with
    | (None, s) => (None, s)
    | (Some None, s) => (Some true, s)
    | (Some (Some (has_au, has_not_au)), s) =>
        let (r, s) := commands_need_rerun s t in
        if r then (Some true, s) else (Some (negb has_au && negb has_not_au), s)
    end.

(** transformerHasMatchingOutputTags and transformerHasMatchingInputFiles, executor.cpp 700-734. *)
Definition matching_tags (c : cfg) (s : state) (t : nat) : bool :=
  match active_tags (bopts s) with
  | [] => true
  | _ => existsb (fun o => intersects (active_tags (bopts s)) (tags c o)
                           || intersects (needed_tags (bopts s)) (tags c o)) (outs s t)
  end.
Definition matching_files (c : cfg) (s : state) (t : nat) : bool :=
  match files (bopts s) with
  | [] => true
  | fs => if negb (mem (tprod c t) (file_prods (bopts s))) then false
          else match ins s t with
               | [] => true
               | l => existsb (fun i => existsb (fun f => (i =? f) || intersects (tags c i) (needed_tags (bopts s))) fs) l
               end
  end.

(** finishTransformer, executor.cpp 879-894. *)
Definition finish (t : nat) (s : state) : state :=
  {| kids := kids s; fdeps := fdeps s; outs := outs s; ins := ins s; ts := ts s;
     marked := upd (marked s) t false;
     track := track s; changed := changed s; conf := conf s; content := content s; mtime := mtime s;
     now := now s; bopts := bopts s; active := active s; began := began s; done := t :: done s;
     running := running s; started := started s; succeeded := succeeded s |}.

(** runTransformer, executor.cpp 855-877, and ExecutorJob::run, executorjob.cpp 99-115: the accesses of the
    commands are recorded anew, so from now on they do not differ. *)
Definition run (t : nat) (s : state) : state :=
  {| kids := kids s; fdeps := fdeps s; outs := outs s; ins := ins s; ts := ts s; marked := marked s;
     track := track s; changed := upd (changed s) t false; conf := conf s; content := content s;
     mtime := mtime s; now := now s; bopts := bopts s; active := active s; began := began s; done := done s;
     running := t :: running s; started := t :: started s; succeeded := succeeded s |}.

(** The files an output depends on, as its commands see them. *)
Definition env (s : state) (o : nat) : nat -> option nat :=
  fun k => if mem k (kids s o) || mem k (fdeps s o) then Some (content s k) else None.

(** finishJob for a successful job, executor.cpp 608-636.  [touch o]: did the commands write the file, and
    which time does it have then?  The commands leave an output alone only if its content would be the
    same ([fair] in RebuildSpec.v). *)
Definition job_succeeded (c : cfg) (t : nat) (touch : nat -> option ftime) (time : ftime) (s : state) : state :=
  let mt := fun n => if mem n (outs s t) then match touch n with Some m => m | None => mtime s n end else mtime s n in
  finish t
  {| kids := kids s; fdeps := fdeps s; outs := outs s; ins := ins s;
     ts := fun n => if mem n (outs s t) then (if au c n then time else mt n) else ts s n;
     marked := fun t' => marked s t'
       || existsb (fun p => existsb (fun o => au c o && mem o (kids s p)) (outs s t)) (outs s t');
     track := track s; changed := changed s; conf := conf s;
     content := fun n => if mem n (outs s t) then F c t (conf s t) (env s n) n else content s n;
     mtime := mt; now := time; bopts := bopts s; active := active s; began := began s; done := done s;
     running := remove Nat.eq_dec t (running s); started := started s; succeeded := t :: succeeded s |}.

(** finishJob for a failed or cancelled job: nothing is recorded, but the commands may have written
    anything to the outputs. *)
Definition job_failed (t : nat) (touch : nat -> option (ftime * nat)) (time : ftime) (s : state) : state :=
  {| kids := kids s; fdeps := fdeps s; outs := outs s; ins := ins s; ts := ts s; marked := marked s;
     track := track s; changed := changed s; conf := conf s;
     content := fun n => if mem n (outs s t) then match touch n with Some (_, v) => v | None => content s n end else content s n;
     mtime := fun n => if mem n (outs s t) then match touch n with Some (m, _) => m | None => mtime s n end else mtime s n;
     now := time; bopts := bopts s; active := active s; began := began s; done := done s;
     running := remove Nat.eq_dec t (running s); started := started s; succeeded := succeeded s |}.

(** Beginning of a build: syncFileDependencies (1070-1106) reads the times of all file dependencies,
    prepareArtifact (1108-1116) and retrieveSourceFileTimestamp (132-144) those of the source files,
    [None]: a source file has disappeared. *)
Definition begin (c : cfg) (o : opts) (changed_files : list nat) (time : ftime) (s : state) : option state :=
  let f := fun n => match kd c n with
                    | Source => if mem n changed_files then time
                                else if (match changed_files with [] => true | _ => false end) || negb (valid (ts s n))
                                then mtime s n else ts s n
                    | FileDep => mtime s n
                    | Generated _ => ts s n
                    end in
  if forallb (fun n => valid (f n)) (srcs c) then
    Some {| kids := kids s; fdeps := fdeps s; outs := outs s; ins := ins s; ts := f; marked := marked s;
            track := track s; changed := changed s; conf := conf s; content := content s; mtime := mtime s;
            now := time; bopts := o; active := true; began := time; done := []; running := [];
            started := []; succeeded := [] |}
  else None.

(** Rule application with a result other than before (rulesapplicator.cpp 294-306), change of scanned file
    dependencies (inputartifactscanner.cpp 182-188), removal of an input (projectbuilddata.cpp 212-217):
    the outputs get new dependencies and lose their time stamp.  Transformers keep their identity. *)
Definition rewire (t : nat) (os is : list nat) (ks fs : nat -> list nat) (s : state) : state :=
  {| kids := fun n => if mem n os then ks n else kids s n;
     fdeps := fun n => if mem n os then fs n else fdeps s n;
     outs := upd (outs s) t os; ins := upd (ins s) t is;
     ts := fun n => if mem n os then no_time else ts s n;
     marked := marked s; track := track s; changed := changed s; conf := conf s; content := content s;
     mtime := mtime s; now := now s; bopts := bopts s; active := active s; began := began s; done := done s;
     running := running s; started := started s; succeeded := succeeded s |}.

Definition edit (n v : nat) (m : ftime) (s : state) : state :=
  {| kids := kids s; fdeps := fdeps s; outs := outs s; ins := ins s; ts := ts s; marked := marked s;
     track := track s; changed := changed s; conf := conf s; content := upd (content s) n v;
     mtime := upd (mtime s) n m; now := (if valid m then m else now s); bopts := bopts s; active := active s;
     began := began s; done := done s; running := running s; started := started s; succeeded := succeeded s |}.

(** Re-resolving: BuildGraphLoader::markTransformersForChangeTracking, buildgraphloader.cpp 666-681; what
    the commands of [t] access has changed. *)
Definition reconfigure (t v : nat) (s : state) : state :=
  {| kids := kids s; fdeps := fdeps s; outs := outs s; ins := ins s; ts := ts s; marked := marked s;
     track := upd (track s) t true; changed := upd (changed s) t true; conf := upd (conf s) t v;
     content := content s; mtime := mtime s; now := now s; bopts := bopts s; active := active s;
     began := began s; done := done s; running := running s; started := started s; succeeded := succeeded s |}.

(** Scanner invalidation: executor.cpp 1181-1188, buildgraphloader.cpp 854-863. *)
Definition mark (t : nat) (s : state) : state :=
  {| kids := kids s; fdeps := fdeps s; outs := outs s; ins := ins s; ts := ts s;
     marked := upd (marked s) t true; track := track s; changed := changed s; conf := conf s;
     content := content s; mtime := mtime s; now := now s; bopts := bopts s; active := active s;
     began := began s; done := done s; running := running s; started := started s; succeeded := succeeded s |}.

Definition set_active (b : bool) (s : state) : state :=
  {| kids := kids s; fdeps := fdeps s; outs := outs s; ins := ins s; ts := ts s; marked := marked s;
     track := track s; changed := changed s; conf := conf s; content := content s; mtime := mtime s;
     now := now s; bopts := bopts s; active := b; began := began s; done := done s;
     running := running s; started := started s; succeeded := succeeded s |}.

(** *** Steps *)
Inductive event :=
| Begin (o : opts) (changed_files : list nat) (time : ftime)
| Consider (t : nat)
| Succeed (t : nat) (touch : nat -> option ftime) (time : ftime)
| Fail (t : nat) (touch : nat -> option (ftime * nat)) (time : ftime)
| Rewire (t : nat) (os is : list nat) (ks fs : nat -> list nat)
| End
| Edit (n v : nat) (m : ftime)
| Reconfigure (t v : nat)
| Mark (t : nat).

Inductive result :=
| Next (s : state)
| CheckFailed        (* a QBS_CHECK *)
| Refused.           (* not possible in this state, or the build stops with an error *)

Definition built (c : cfg) (s : state) (k : nat) : bool :=
  match kd c k with Source | FileDep => true | Generated t => mem t (done s) end.
(** Neither finished nor started in this build. *)
Definition idle (s : state) (t : nat) : bool := negb (mem t (done s)) && negb (mem t (started s)).

(** potentiallyRunTransformer, executor.cpp 828-853. *)
Definition consider (c : cfg) (t : nat) (s : state) : result :=
  if negb (matching_tags c s t) then Next (finish t s)
  else if negb (matching_files c s t) then Next (finish t s)
  else match must_execute c s t with
       | (None, _) => CheckFailed
       | (Some false, s) => Next (finish t s)
       | (Some true, s) => if rules_only (bopts s) then Next (finish t s) else Next (run t s)
       end.

Definition step (c : cfg) (s : state) (e : event) : result :=
  match e with
  | Begin o cf time =>
      if active s then Refused else match begin c o cf time s with Some s => Next s | None => Refused end
  | Consider t =>
      if active s && idle s t && negb (match outs s t with [] => true | _ => false end)
         && forallb (fun o => forallb (built c s) (kids s o)) (outs s t)
      then consider c t s else Refused
  | Succeed t touch time => if active s && mem t (running s) then Next (job_succeeded c t touch time s) else Refused
  | Fail t touch time => if active s && mem t (running s) then Next (job_failed t touch time s) else Refused
  | Rewire t os is ks fs => if active s && negb (idle s t) then Refused else Next (rewire t os is ks fs s)
  | End => match running s with [] => Next (set_active false s) | _ => Refused end
  | Edit n v m => if active s then Refused else
                  match kd c n with Generated _ => Refused | _ => Next (edit n v m s) end
  | Reconfigure t v => if active s then Refused else Next (reconfigure t v s)
  | Mark t => if active s && negb (idle s t) then Refused else Next (mark t s)
  end.

Fixpoint exec (c : cfg) (s : state) (es : list event) : result :=
  match es with
  | [] => Next s
  | e :: es => match step c s e with Next s => exec c s es | r => r end
  end.
