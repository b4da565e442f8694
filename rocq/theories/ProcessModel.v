(** Processes that commands are run in: QbsProcess on the client's side (tools/qbsprocess.cpp), LauncherSocket and LauncherInterface between
    (tools/launchersocket.cpp, tools/launcherinterface.cpp), and the process launcher (libexec/qbs_processlauncher/launchersockethandler.cpp).

    The clients, the connection and the launcher are separate threads and processes; each action below is one event that one of them handles.  Numbers of
    runs are ghosts: the code has none, no step looks at them, they only say which packet, process and report belongs to which call of start.
    The contents of packets are not modelled; their framing is in LauncherModel.v. *)
From Coq Require Import List Bool Arith NArith.
Import ListNotations.

Inductive cstate := NotRunning | Starting | Running.
Inductive kind := Failed | Finished.
Inductive item := Ready | SocketError | Packet (k : kind) (run : nat).
(** QbsProcess: m_state, m_socketError, and the signals queued for it.  [c_run]: how often start was called. *)
Record client := mkClient { c_state : cstate; c_error : bool; c_run : nat; c_inbox : list item }.
Inductive message := Start (run : nat) | Stop (run : nat).
Inductive stop_state := Inactive | Terminating | Killing.
(** launchersockethandler.cpp 52-98 Process. [p_active]: the state of QProcess is not NotRunning; [p_timer]: m_stopTimer is active. *)
Record proc := mkProc { p_active : bool; p_run : nat; p_stop : stop_state; p_timer : bool }.
Inductive phase := Connecting | Connected | Closed.

(** What can be observed, the latest first. *)
Inductive cause := Immediately | FromLauncher (k : kind) (run : nat).
Inductive event :=
| EStart (t : N) (run : nat)                     (* start is called *)
| ECancel (t : N) (run : nat)                    (* cancel is called while the process runs *)
| EReport (t : N) (run : nat) (c : cause)        (* errorOccurred or finished is emitted *)
| EAssert (t : N)                                (* an assertion fails *)
| ELaunch (t : N) (run : nat)                    (* the operating system is asked to start a process *)
| EFailed (t : N) (run : nat)                    (* it says it could not *)
| EExit (t : N) (run : nat)                      (* the process ends *)
| ETerminate (t : N) (run : nat) | EKill (t : N) (run : nat) (* signals are sent *)
| EGiveUp (t : N) (run : nat)                    (* the process is abandoned *)
| EShutdown.                                     (* the launcher ends, and terminates what still runs *)

Record state := mkState {
  s_phase : phase; s_clients : N -> client;
  s_down : list (option (N * message));  (* to the launcher; None: the packet that shuts it down *)
  s_up : list (N * (kind * nat));        (* from the launcher *)
  s_alive : bool; s_table : N -> option proc; s_orphans : list (N * proc);
  s_log : list event }.

Definition update {A} (f : N -> A) (t : N) (a : A) : N -> A := fun t' => if (t' =? t)%N then a else f t'.
Definition emit (e : event) (s : state) : state := mkState (s_phase s) (s_clients s) (s_down s) (s_up s) (s_alive s) (s_table s) (s_orphans s) (e :: s_log s).
Definition set_client (t : N) (c : client) (s : state) : state := mkState (s_phase s) (update (s_clients s) t c) (s_down s) (s_up s) (s_alive s) (s_table s) (s_orphans s) (s_log s).
Definition set_proc (t : N) (p : option proc) (s : state) : state := mkState (s_phase s) (s_clients s) (s_down s) (s_up s) (s_alive s) (update (s_table s) t p) (s_orphans s) (s_log s).
Definition set_down (d : list (option (N * message))) (s : state) : state := mkState (s_phase s) (s_clients s) d (s_up s) (s_alive s) (s_table s) (s_orphans s) (s_log s).
Definition set_up (u : list (N * (kind * nat))) (s : state) : state := mkState (s_phase s) (s_clients s) (s_down s) u (s_alive s) (s_table s) (s_orphans s) (s_log s).
Definition set_orphans (o : list (N * proc)) (s : state) : state := mkState (s_phase s) (s_clients s) (s_down s) (s_up s) (s_alive s) (s_table s) o (s_log s).
Definition is_ready (s : state) : bool := match s_phase s with Connected => true | _ => false end.

(** ** The client *)

(** launchersocket.cpp 59-67 sendData, 137-145 handleRequests: one queue for all clients.  It is not modelled that shutdown overtakes requests that are not written yet. *)
Definition send (t : N) (m : message) (s : state) : state := if is_ready s then set_down (s_down s ++ [Some (t, m)]) s else s.
Definition with_cstate (c : client) (st : cstate) : client := mkClient st (c_error c) (c_run c) (c_inbox c).
(** qbsprocess.cpp 78-87 doStart. *)
Definition do_start (t : N) (s : state) : state :=
  let c := s_clients s t in send t (Start (c_run c)) (set_client t (with_cstate c Running) s).
(** 64-76 start. *)
Definition start (t : N) (s : state) : state :=
  let c := s_clients s t in
  let run := S (c_run c) in
  let s := emit (EStart t run) (set_client t (mkClient (c_state c) (c_error c) run (c_inbox c)) s) in
  if c_error c then emit (EReport t run Immediately) s
  else
    let s := set_client t (mkClient Starting (c_error c) run (c_inbox c)) s in
    if is_ready s then do_start t s else s.
(** 89-104 cancel. *)
Definition cancel (t : N) (s : state) : state :=
  let c := s_clients s t in
  match c_state c with
  | NotRunning => s
  | Starting => emit (EReport t (c_run c) Immediately) (set_client t (with_cstate c NotRunning) s)
  | Running => send t (Stop (c_run c)) (emit (ECancel t (c_run c)) s)
  end.
(** 128-182 handlePacket, handleSocketReady, handleSocketError, handleErrorPacket, handleFinishedPacket. *)
Definition receive (t : N) (s : state) : state :=
  let c := s_clients s t in
  match c_inbox c with
  | [] => s
  | Ready :: rest =>
      let s := set_client t (mkClient (c_state c) false (c_run c) rest) s in
      match c_state c with Starting => do_start t s | _ => s end
  | SocketError :: rest =>
      let s := set_client t (mkClient NotRunning true (c_run c) rest) s in
      match c_state c with NotRunning => s | _ => emit (EReport t (c_run c) Immediately) s end
  | Packet k run :: rest =>
      let ok := match k, c_state c with Failed, NotRunning => false | Failed, _ => true | Finished, Running => true | Finished, _ => false end in
      if ok then emit (EReport t (c_run c) (FromLauncher k run)) (set_client t (mkClient NotRunning (c_error c) (c_run c) rest) s)
      else emit (EAssert t) (set_client t (mkClient (c_state c) (c_error c) (c_run c) rest) s)
  end.

(** ** The connection *)

Definition queue (i : item) (c : client) : client := mkClient (c_state c) (c_error c) (c_run c) (c_inbox c ++ [i]).
Definition queue_all (i : item) (s : state) : state := mkState (s_phase s) (fun t => queue i (s_clients s t)) (s_down s) (s_up s) (s_alive s) (s_table s) (s_orphans s) (s_log s).
(** launcherinterface.cpp 150-157 handleNewConnection, launchersocket.cpp 80-92 setSocket.  A launcher is not started again while there are clients. *)
Definition connect (s : state) : state :=
  match s_phase s with
  | Connecting => queue_all Ready (mkState Connected (s_clients s) (s_down s) (s_up s) true (s_table s) (s_orphans s) (s_log s))
  | _ => s
  end.
(** launchersocket.cpp 94-99, 124-135 handleSocketError, handleSocketDisconnected, handleError; launchersockethandler.cpp 157-176: the launcher ends. *)
Definition lose (s : state) : state :=
  match s_phase s with
  | Connected => queue_all SocketError (mkState Closed (s_clients s) [] [] false (fun _ => None) [] (EShutdown :: s_log s))
  | _ => s
  end.
(** launchersocket.cpp 69-78 shutdown. *)
Definition shutdown (s : state) : state :=
  match s_phase s with
  | Connected => mkState Closed (s_clients s) (s_down s ++ [None]) [] (s_alive s) (s_table s) (s_orphans s) (s_log s)
  | _ => s
  end.
(** launchersocket.cpp 101-122 handleSocketDataAvailable, qbsprocess.cpp 130-131: the others ignore the packet. *)
Definition forward (s : state) : state :=
  match s_up s with
  | [] => s
  | (t, (k, run)) :: up => set_client t (queue (Packet k run) (s_clients s t)) (set_up up s)
  end.

(** ** The launcher *)

(** launchersockethandler.cpp 267-270 sendPacket. *)
Definition answer (t : N) (k : kind) (run : nat) (s : state) : state := if is_ready s then set_up (s_up s ++ [(t, (k, run))]) s else s.
(** 63-81 Process::cancel for the process of a token, 204-218 handleStopFailure. *)
Definition stop_process (t : N) (p : proc) (s : state) : state :=
  match p_stop p with
  | Inactive => set_proc t (Some (mkProc (p_active p) (p_run p) Terminating true)) (emit (ETerminate t (p_run p)) s)
  | Terminating => set_proc t (Some (mkProc (p_active p) (p_run p) Killing true)) (emit (EKill t (p_run p)) s)
  | Killing =>
      answer t Finished (p_run p) (set_orphans ((t, mkProc (p_active p) (p_run p) Inactive (p_timer p)) :: s_orphans s) (set_proc t None (emit (EGiveUp t (p_run p)) s)))
  end.
(** 220-265 handleStartPacket, handleStopPacket, handleShutdownPacket. *)
Definition handle (s : state) : state :=
  if s_alive s then
    match s_down s with
    | [] => s
    | None :: _ => mkState (s_phase s) (s_clients s) [] (s_up s) false (fun _ => None) [] (EShutdown :: s_log s)
    | Some (t, Start run) :: down =>
        let s := set_down down s in
        let p := match s_table s t with Some p => p | None => mkProc false 0 Inactive false end in
        if p_active p then s else emit (ELaunch t run) (set_proc t (Some (mkProc true run (p_stop p) (p_timer p))) s)
    | Some (t, Stop run) :: down =>
        let s := set_down down s in
        match s_table s t with
        | None => s
        | Some p => if p_active p then stop_process t p s else s
        end
    end
  else s.
(** 178-202 handleProcessError, handleProcessFinished, with 83-87 stopStopProcedure. *)
Definition ended (t : N) (k : kind) (s : state) : state :=
  match s_table s t with
  | Some p =>
      if p_active p then
        let e := match k with Failed => EFailed t (p_run p) | Finished => EExit t (p_run p) end in
        answer t k (p_run p) (set_proc t (Some (mkProc false (p_run p) Inactive false)) (emit e s))
      else s
  | None => s
  end.
(** 56-61: the timer has expired. *)
Definition expire (t : N) (s : state) : state :=
  match s_table s t with
  | Some p => if p_timer p then stop_process t (mkProc (p_active p) (p_run p) (p_stop p) false) s else s
  | None => s
  end.
(** The same for an abandoned process, to which nothing is connected any more. *)
Definition orphan_expire (i : nat) (s : state) : state :=
  match nth_error (s_orphans s) i with
  | Some (t, p) =>
      if p_timer p then
        let put p s := set_orphans (firstn i (s_orphans s) ++ (t, p) :: skipn (S i) (s_orphans s)) s in
        match p_stop p with
        | Inactive => put (mkProc (p_active p) (p_run p) Terminating true) (emit (ETerminate t (p_run p)) s)
        | Terminating => put (mkProc (p_active p) (p_run p) Killing true) (emit (EKill t (p_run p)) s)
        | Killing => put (mkProc (p_active p) (p_run p) Inactive false) s
        end
      else s
  | None => s
  end.

(** ** Everything together *)

Inductive action := AStart (t : N) | ACancel (t : N) | AReceive (t : N) | AConnect | ALose | AShutdown | AForward | AHandle | AEnded (t : N) (k : kind) | AExpire (t : N) | AOrphan (i : nat).
Definition step (s : state) (a : action) : state :=
  match a with
  | AStart t => start t s | ACancel t => cancel t s | AReceive t => receive t s | AConnect => connect s | ALose => lose s | AShutdown => shutdown s
  | AForward => forward s | AHandle => handle s | AEnded t k => ended t k s | AExpire t => expire t s | AOrphan i => orphan_expire i s
  end.
Definition init : state := mkState Connecting (fun _ => mkClient NotRunning false 0 []) [] [] false (fun _ => None) [] [].
(** start is only called if the process is not running: processcommandexecutor.cpp 125 asserts it. *)
Definition allowed (s : state) (a : action) : Prop := match a with AStart t => c_state (s_clients s t) = NotRunning | _ => True end.
Inductive reachable : state -> Prop :=
| reach_init : reachable init
| reach_step s a : reachable s -> allowed s a -> reachable (step s a).
