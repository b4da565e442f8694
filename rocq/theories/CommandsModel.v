(** The running of the commands of one job: process commands and JavaScript
    commands, one after the other, for one list of commands (transformer) after
    the other.

    Code: src/lib/corelib/buildgraph/executorjob.cpp 91-179,
    src/lib/corelib/buildgraph/abstractcommandexecutor.cpp 53-108,
    src/lib/corelib/buildgraph/processcommandexecutor.cpp 123-211, 300-379,
    src/lib/corelib/buildgraph/jscommandexecutor.cpp 77-131, 160-180, 233-289,
    src/lib/corelib/tools/qbsprocess.cpp 64-182.

    The objects of a job live as long as the executor, so what they hold is
    carried over from one command to the next.

    Simplified: a JavaScript command starts at once in its thread; slots that
    are delayed while a rule is applied just come later; the next list of
    commands is given to the job by an event of its own, not from within the
    signal that the last one has finished; how the response file is made is in
    ResponseFileModel.v. Runs of commands are numbered, which the code does not
    do; the numbers only say which command something belongs to. *)

From Coq Require Import List Bool Arith ZArith.
Import ListNotations.

(** A process command. [p_skip]: dry run, and the command does not ignore that.
    [p_dir]: the working directory is valid. [p_response]: the response file,
    if any, can be made. *)
Record pcommand := PCommand {
  p_skip : bool; p_dir : bool; p_response : bool; p_max : Z; p_timeout : bool }.

Record jcommand := JCommand { j_skip : bool; j_timeout : bool }.

Inductive command := Process (p : pcommand) | Script (j : jcommand).

Inductive why :=
| BadDirectory | NoResponseFile | NotStarted | ProcessError | BadExit | ScriptError
| TimedOut (k : nat)   (* the message says that run k took too long *)
| Cancelled.

Inductive outcome := Success | Failure (w : why).

Inductive note :=
| Begun (k : nat) (c : command)                (* the job starts the command *)
| Launched (k : nat)                           (* the launcher is asked to start the process *)
| Evaluated (k : nat)                          (* the script is run *)
| Exited (k : nat) (code : Z) (crashed written : bool)
| Unstarted (k : nat)                          (* the process could not be started *)
| Thrown (k : nat)                             (* the script has thrown *)
| Late (k : nat)                               (* the time of the command is over *)
| Stopped (k : nat)                            (* the job is cancelled *)
| Reported (k : nat) (ok : bool)               (* the result of the process is reported *)
| Done (k : nat) (o : outcome)                 (* the command has finished *)
| JobDone (o : outcome).

Inductive pstate := NotRunning | Starting | Running.

Record state := State {
  ps : pstate;             (* QbsProcess::m_state *)
  perr : bool;             (* QbsProcess::m_error is not UnknownError *)
  ready : bool;            (* the socket is ready *)
  sockerr : bool;          (* QbsProcess::m_socketError *)
  reason : option nat;     (* ProcessCommandExecutor::m_cancelReason *)
  connected : bool;        (* reportProcessResult is connected *)
  pwatch : option nat;     (* the watchdog of the process executor *)
  jrun : bool;             (* JsCommandExecutor::m_running *)
  jcancelled : bool;       (* JsCommandExecutorThreadObject::m_cancelled *)
  jres : outcome;          (* JsCommandExecutorThreadObject::m_result *)
  jwatch : option nat;
  zero : bool;             (* the timer for skipped commands *)
  todo : list command;     (* ExecutorJob: commands behind the current one *)
  current : option (nat * command);
  joberr : bool;           (* ExecutorJob::m_error: cancelled *)
  count : nat;
  log : list note          (* the latest first *) }.

Definition set_process (p : pstate) (e : bool) (s : state) : state :=
  State p e (ready s) (sockerr s) (reason s) (connected s) (pwatch s) (jrun s) (jcancelled s)
        (jres s) (jwatch s) (zero s) (todo s) (current s) (joberr s) (count s) (log s).
Definition set_socket (r e : bool) (s : state) : state :=
  State (ps s) (perr s) r e (reason s) (connected s) (pwatch s) (jrun s) (jcancelled s)
        (jres s) (jwatch s) (zero s) (todo s) (current s) (joberr s) (count s) (log s).
Definition set_reason (r : option nat) (s : state) : state :=
  State (ps s) (perr s) (ready s) (sockerr s) r false (pwatch s) (jrun s) (jcancelled s)
        (jres s) (jwatch s) (zero s) (todo s) (current s) (joberr s) (count s) (log s).
Definition set_pwatch (w : option nat) (s : state) : state :=
  State (ps s) (perr s) (ready s) (sockerr s) (reason s) (connected s) w (jrun s) (jcancelled s)
        (jres s) (jwatch s) (zero s) (todo s) (current s) (joberr s) (count s) (log s).
Definition set_script (r c : bool) (o : outcome) (s : state) : state :=
  State (ps s) (perr s) (ready s) (sockerr s) (reason s) (connected s) (pwatch s) r c
        o (jwatch s) (zero s) (todo s) (current s) (joberr s) (count s) (log s).
Definition set_jwatch (w : option nat) (s : state) : state :=
  State (ps s) (perr s) (ready s) (sockerr s) (reason s) (connected s) (pwatch s) (jrun s) (jcancelled s)
        (jres s) w (zero s) (todo s) (current s) (joberr s) (count s) (log s).
Definition set_zero (z : bool) (s : state) : state :=
  State (ps s) (perr s) (ready s) (sockerr s) (reason s) (connected s) (pwatch s) (jrun s) (jcancelled s)
        (jres s) (jwatch s) z (todo s) (current s) (joberr s) (count s) (log s).
Definition set_job (t : list command) (c : option (nat * command)) (e : bool) (n : nat) (s : state) : state :=
  State (ps s) (perr s) (ready s) (sockerr s) (reason s) (connected s) (pwatch s) (jrun s) (jcancelled s)
        (jres s) (jwatch s) (zero s) t c e n (log s).
Definition tell (e : note) (s : state) : state :=
  State (ps s) (perr s) (ready s) (sockerr s) (reason s) (connected s) (pwatch s) (jrun s) (jcancelled s)
        (jres s) (jwatch s) (zero s) (todo s) (current s) (joberr s) (count s) (e :: log s).

Definition init : state :=
  State NotRunning false false false None true None false false Success None false [] None false 0 [].

(** executorjob.cpp 162-178, setFinished and reset. *)
Definition job_finished (o : outcome) (s : state) : state :=
  tell (JobDone o) (set_job [] None false (count s) s).

(** qbsprocess.cpp 78-87. *)
Definition launch (k : nat) (s : state) : state :=
  tell (Launched k) (set_process Running (perr s) s).

(** executorjob.cpp 149-160 for a failure: the watchdog of the command's
    executor is stopped, and the job ends. *)
Definition failed (k : nat) (w : why) (s : state) : state :=
  job_finished (Failure (if joberr s then Cancelled else w)) (tell (Done k (Failure w)) s).

(** processcommandexecutor.cpp 123-200 with qbsprocess.cpp 64-76, and
    abstractcommandexecutor.cpp 72-80 and 97-105: a process that cannot be
    started because of an error of the socket finishes from within the call,
    and the watchdog is started after that. *)
Definition start_process (k : nat) (p : pcommand) (s : state) : state :=
  if p_skip p then set_zero true s
  else if negb (p_dir p) then failed k BadDirectory (set_pwatch None s)
  else if negb (p_response p) then failed k NoResponseFile (set_pwatch None s)
  else
    let s :=
      if sockerr s
      then
        let s := tell (Unstarted k) (set_process (ps s) true s) in
        match reason s with
        | Some _ => s
        | None => failed k NotStarted (set_pwatch None s)
        end
      else if ready s then launch k (set_process Starting (perr s) s)
      else set_process Starting (perr s) s in
    if p_timeout p then set_pwatch (Some k) s else s.

(** jscommandexecutor.cpp 91-112 and 247-260. *)
Definition start_script (k : nat) (j : jcommand) (s : state) : state :=
  if j_skip j then set_zero true s
  else
    let s := if jcancelled s then set_script true (jcancelled s) (jres s) s
             else tell (Evaluated k) (set_script true (jcancelled s) Success s) in
    if j_timeout j then set_jwatch (Some k) s else s.

(** executorjob.cpp 124-147, runNextCommand. *)
Definition next (s : state) : state :=
  match todo s with
  | [] => job_finished Success s
  | c :: r =>
      let k := S (count s) in
      let s := tell (Begun k c) (set_job r (Some (k, c)) (joberr s) k s) in
      match c with
      | Process p => start_process k p s
      | Script j => start_script k j s
      end
  end.

(** executorjob.cpp 149-160, onCommandFinished; the watchdog was stopped by a
    connection made before. *)
Definition finished (k : nat) (o : outcome) (s : state) : state :=
  match o with
  | Failure w => failed k w s
  | Success =>
      if joberr s then job_finished (Failure Cancelled) (tell (Done k Success) s)
      else next (tell (Done k Success) s)
  end.

Definition p_finished (k : nat) (o : outcome) (s : state) : state := finished k o (set_pwatch None s).
Definition j_finished (k : nat) (o : outcome) (s : state) : state := finished k o (set_jwatch None s).

(** The number of the current command, for signals of the executors. *)
Definition run_of (s : state) : nat := match current s with Some (k, _) => k | None => 0 end.

(** processcommandexecutor.cpp 333-367, onProcessError for a process that could
    not be started. *)
Definition on_error (s : state) : state :=
  match reason s with
  | Some _ => s
  | None => p_finished (run_of s) (Failure NotStarted) s
  end.

Definition not_started (s : state) : state :=
  on_error (tell (Unstarted (run_of s)) (set_process NotRunning true s)).

(** processcommandexecutor.cpp 202-209 with qbsprocess.cpp 89-104. *)
Definition p_cancel (r : option nat) (s : state) : state :=
  let s := set_reason r s in
  match ps s with
  | Starting => not_started s
  | _ => s
  end.

(** jscommandexecutor.cpp 93-101 and 262-266. *)
Definition j_cancel (r : option nat) (s : state) : state :=
  if jrun s
  then set_script true true (match r with Some k => Failure (TimedOut k) | None => Success end) s
  else s.

Definition unsigned32 (z : Z) : Z := Z.modulo z 4294967296.

Definition max_of (s : state) : Z :=
  match current s with Some (_, Process p) => p_max p | _ => 0%Z end.

(** processcommandexecutor.cpp 300-331 with qbsprocess.cpp 173-182: the error
    and the exit status of the packet are not used. *)
Definition send_output (code : Z) (written : bool) (s : state) : state :=
  let k := run_of s in
  let error := perr s || negb written in
  let bad := (unsigned32 code >? unsigned32 (max_of s))%Z in
  let cancelled := match reason s with Some _ => true | None => false end in
  let s := if connected s
           then tell (Reported k (negb error && negb bad && negb cancelled)) s else s in
  p_finished k (match reason s with
                | Some r => Failure (TimedOut r)
                | None => if error then Failure ProcessError
                          else if bad then Failure BadExit else Success
                end) s.

(** What can happen. *)
Inductive event :=
| ERun (l : list command)                    (* the job gets a list of commands *)
| EReady | ESocketError                      (* of the socket to the launcher *)
| EFailed                                    (* the launcher could not start the process *)
| EExit (code : Z) (crashed written : bool)  (* the process has ended *)
| ELate                                      (* the watchdog of the process executor *)
| EScriptLate                                (* the watchdog of the script executor *)
| EScript (thrown : bool)                    (* the script has ended *)
| EZero                                      (* the timer for skipped commands *)
| ECancel.                                   (* ExecutorJob::cancel *)

Definition step (s : state) (e : event) : state :=
  match e with
  | ERun l =>
      match current s with
      | Some _ => s
      | None => next (set_job l None false (count s) s)
      end
  | EReady =>
      let s := set_socket true false s in
      match ps s with Starting => launch (run_of s) s | _ => s end
  | ESocketError =>
      let s := set_socket false true s in
      match ps s with NotRunning => s | _ => not_started s end
  | EFailed => match ps s with NotRunning => s | _ => not_started s end
  | EExit code crashed written =>
      match ps s with
      | Running =>
          send_output code written
            (tell (Exited (run_of s) code crashed written) (set_process NotRunning (perr s) s))
      | _ => s
      end
  | ELate =>
      match pwatch s with
      | Some k => p_cancel (Some k) (tell (Late k) (set_pwatch None s))
      | None => s
      end
  | EScriptLate =>
      match jwatch s with
      | Some k => j_cancel (Some k) (tell (Late k) (set_jwatch None s))
      | None => s
      end
  | EScript thrown =>
      if jrun s
      then
        let k := run_of s in
        let o := if thrown && negb (jcancelled s) then Failure ScriptError else jres s in
        let s := if thrown then tell (Thrown k) s else s in
        j_finished k o (set_script false (jcancelled s) o s)
      else s
  | EZero =>
      if zero s
      then match current s with
           | Some (k, Process _) => p_finished k Success (set_zero false s)
           | Some (k, Script _) => j_finished k Success (set_zero false s)
           | None => set_zero false s
           end
      else s
  | ECancel =>
      match current s with
      | None => s
      | Some (k, c) =>
          let s := tell (Stopped k) (set_job (todo s) (current s) true (count s) s) in
          match c with
          | Process _ => p_cancel None s
          | Script j => if j_skip j then s else j_cancel None s
          end
      end
  end.

Definition steps (l : list event) (s : state) : state := fold_left step l s.
