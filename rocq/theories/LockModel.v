(** The lock of the build graph and the directories created for it: src/lib/corelib/tools/buildgraphlocker.cpp.

    QLockFile, the file system and the table of processes are modelled by what they are documented to do. *)
From Coq Require Import List Bool Arith NArith.
From Verif Require Import Str.
Import ListNotations.

(** A path, the innermost name first; the root directory is the empty list. *)
Definition place := list str.
(** A lock file says which process has created it. *)
Inductive entry := EDir | EFile | ELock (owner : nat).
Definition tree := list (place * entry).

Fixpoint place_eqb (a b : place) : bool :=
  match a, b with
  | [], [] => true
  | x :: a, y :: b => str_eqb x y && place_eqb a b
  | _, _ => false
  end.
Definition look (t : tree) (p : place) : option entry :=
  match p with
  | [] => Some EDir
  | _ => option_map snd (find (fun e => place_eqb (fst e) p) t)
  end.
Definition exists_at (t : tree) (p : place) : bool := match look t p with Some _ => true | None => false end.
Definition drop (t : tree) (p : place) : tree := filter (fun e => negb (place_eqb (fst e) p)) t.

(** QDir::mkpath. *)
Fixpoint mkpath (t : tree) (p : place) : option tree :=
  match p with
  | [] => Some t
  | _ :: q =>
      match mkpath t q with
      | None => None
      | Some t' => match look t' p with Some EDir => Some t' | Some _ => None | None => Some ((p, EDir) :: t') end
      end
  end.
(** The entries in a directory; QDir::rmdir works for empty directories. *)
Definition child_of (p : place) (e : place * entry) : bool := match fst e with [] => false | _ :: q => place_eqb q p end.
Definition rmdir (t : tree) (p : place) : option tree :=
  match p, look t p with
  | _ :: _, Some EDir => if existsb (child_of p) t then None else Some (drop t p)
  | _, _ => None
  end.
(** 84-86: the iterator does not show hidden files (no QDir::Hidden). *)
Definition hidden (n : str) : bool := match n with 46%N :: _ => true | _ => false end.
Definition shows_any (t : tree) (p : place) : bool :=
  existsb (fun e => child_of p e && match fst e with n :: _ => negb (hidden n) | [] => false end) t.

(** 69-76: rememberCreatedDirectories. *)
Fixpoint remember_dirs (t : tree) (p : place) : list place :=
  match p with
  | [] => []
  | _ :: q => if exists_at t p then [] else p :: remember_dirs t q
  end.
(** 78-93: removeEmptyCreatedDirectories, with the directories of the warnings. *)
Fixpoint remove_dirs (t : tree) (created : list place) : tree * list place :=
  match created with
  | [] => (t, [])
  | p :: rest =>
      if shows_any t p then (t, [])
      else match rmdir t p with
           | Some t' => remove_dirs t' rest
           | None => let (t', w) := remove_dirs t rest in (t', p :: w)
           end
  end.

(** ** Processes *)
Inductive failure := NoDirectory | AlreadyLocked (pid : N) | Unknown.
(** Where a process is in the constructor or destructor; the directories are those remembered (70-76), the number is
    attemptsToGetInfo.  After a failure the directory manager is destroyed, as after unlocking. *)
Inductive at_line :=
| Idle
| AtLoop (created : list place) (attempts : nat)         (* 118-120 *)
| AtTry (created : list place) (attempts : nat)          (* 122 *)
| AtInfo (created : list place) (attempts : nat)         (* 131 *)
| AtStale (created : list place) (attempts : nat)        (* 140 *)
| HasLock (created : list place)
| AtCleanup (created : list place) (f : option failure)
| Finished (f : option failure)
| Exited.
Record process := { pr_pid : N; pr_host : N; pr_app : str; pr_wait : bool; pr_at : at_line }.
Record machine := { m_tree : tree; m_procs : list process }.

Definition lock_name : str := [98; 103; 46; 108; 111; 99; 107]%N.

Definition is_alive (p : process) : bool := match pr_at p with Exited => false | _ => true end.
Definition has_lock (p : process) : bool := match pr_at p with HasLock _ => true | _ => false end.
(** processNameByPid on a host; there is none for a process that does not run. *)
Definition name_by_pid (ps : list process) (host pid : N) : option str :=
  option_map pr_app (find (fun p => is_alive p && N.eqb (pr_host p) host && N.eqb (pr_pid p) pid) ps).
Definition opt_str_eqb (a : str) (b : option str) : bool := match b with Some b => str_eqb a b | None => false end.

Fixpoint set_at (ps : list process) (i : nat) (l : at_line) : list process :=
  match ps, i with
  | [], _ => []
  | p :: r, O => {| pr_pid := pr_pid p; pr_host := pr_host p; pr_app := pr_app p; pr_wait := pr_wait p; pr_at := l |} :: r
  | p :: r, S k => p :: set_at r k l
  end.
(** 150: the end of the loop. *)
Definition next_attempt (p : process) (c : list place) (n : nat) : at_line :=
  if (S n <? 10)%nat || pr_wait p then AtLoop c (S n) else AtCleanup c (Some Unknown).

Section Locking.
  (** Whether locks of open files (flock) work between all processes that use the directory; and the directory. *)
  Variables (native : bool) (dir : place).
  Definition lock_path : place := lock_name :: dir.
  (** QLockFile never removes a file whose native lock is held. *)
  Definition removable (ps : list process) (o : nat) : bool :=
    negb (native && match nth_error ps o with Some q => has_lock q | None => false end).

  (** One step of process [i]: 108-156 and the destructors. *)
  Definition go (m : machine) (i : nat) : option machine :=
    match nth_error (m_procs m) i with
    | None => None
    | Some p =>
        let t := m_tree m in
        let ps := m_procs m in
        let put t l := Some {| m_tree := t; m_procs := set_at ps i l |} in
        match pr_at p with
        | Idle => put t (AtLoop (remember_dirs t dir) O)
        | AtLoop c n =>
            match mkpath t dir with Some t' => put t' (AtTry c n) | None => put t (AtCleanup c (Some NoDirectory)) end
        | AtTry c n =>
            let failed := if pr_wait p then next_attempt p c n else AtInfo c n in
            match look t lock_path with
            | None =>
                match look t dir with
                | Some EDir => put ((lock_path, ELock i) :: t) (HasLock c)
                | _ => put t (AtCleanup c (Some Unknown))
                end
            | Some (ELock o) =>
                match nth_error ps o with
                | Some q =>
                    (* QLockFile: the process of the same host is not running, or has another name *)
                    if N.eqb (pr_host q) (pr_host p) && negb (opt_str_eqb (pr_app q) (name_by_pid ps (pr_host p) (pr_pid q))) && removable ps o
                    then put ((lock_path, ELock i) :: drop t lock_path) (HasLock c)
                    else put t failed
                | None => put t failed
                end
            | Some _ => put t failed
            end
        | AtInfo c n =>
            match look t lock_path with
            | Some (ELock o) =>
                match nth_error ps o with
                | Some q =>
                    if opt_str_eqb (pr_app q) (name_by_pid ps (pr_host p) (pr_pid q))
                    then put t (AtCleanup c (Some (AlreadyLocked (pr_pid q))))
                    else put t (AtStale c n)
                | None => put t (next_attempt p c n)
                end
            | _ => put t (next_attempt p c n)
            end
        | AtStale c n =>
            match look t lock_path with
            | Some (ELock o) => if removable ps o then put (drop t lock_path) (next_attempt p c n) else put t (next_attempt p c n)
            | _ => put t (next_attempt p c n)
            end
        | HasLock c => put (drop t lock_path) (AtCleanup c None)
        | AtCleanup c f => put (fst (remove_dirs t c)) (Finished f)
        | Finished _ | Exited => None
        end
    end.

  Inductive action :=
  | Go (i : nat)
  | Cancel (i : nat)                  (* 119-120: leaves the loop *)
  | Crash (i : nat)                   (* the end of a process at any time *)
  | Start (p : process)               (* a new process, with a pid that is free on its host *)
  | Create (p : place) (e : entry)    (* files and directories by the build and others *)
  | Delete (p : place).

  Definition act (m : machine) (a : action) : option machine :=
    match a with
    | Go i => go m i
    | Cancel i =>
        match option_map pr_at (nth_error (m_procs m) i) with
        | Some (AtLoop c n) => Some {| m_tree := m_tree m; m_procs := set_at (m_procs m) i (AtCleanup c (Some Unknown)) |}
        | _ => None
        end
    | Crash i => Some {| m_tree := m_tree m; m_procs := set_at (m_procs m) i Exited |}
    | Start p =>
        match name_by_pid (m_procs m) (pr_host p) (pr_pid p), pr_at p with
        | None, Idle => Some {| m_tree := m_tree m; m_procs := m_procs m ++ [p] |}
        | _, _ => None
        end
    | Create p e =>
        match p, e, look (m_tree m) p, look (m_tree m) (tl p) with
        | _ :: _, EDir, None, Some EDir | _ :: _, EFile, None, Some EDir =>
            if place_eqb p lock_path then None else Some {| m_tree := (p, e) :: m_tree m; m_procs := m_procs m |}
        | _, _, _, _ => None
        end
    | Delete p =>
        if place_eqb p lock_path || existsb (child_of p) (m_tree m) then None
        else Some {| m_tree := drop (m_tree m) p; m_procs := m_procs m |}
    end.
  Fixpoint acts (m : machine) (l : list action) : option machine :=
    match l with [] => Some m | a :: r => match act m a with Some m' => acts m' r | None => None end end.
End Locking.
