(** Removing files and directories: cleaning a project (src/lib/corelib/buildgraph/artifactcleaner.cpp 67-229), removing directories that
    became empty during a build (emptydirectoriesremover.cpp 57-113), and removeFileRecursion (tools/fileinfo.cpp 426-456). *)
From Coq Require Import List Bool Arith NArith.
From Verif Require Import Str.
Import ListNotations.

(** ** A file system *)

(** Absolute paths as lists of names, the innermost first, so that the parent directory is the tail. *)
Definition path := list str.
Definition path_dec (a b : path) : {a = b} + {a <> b} := list_eq_dec str_dec a b.
Definition path_eqb (a b : path) : bool := if path_dec a b then true else false.
Definition in_paths (p : path) (l : list path) : bool := existsb (path_eqb p) l.

(** The path as it is written. *)
Fixpoint text (p : path) : str :=
  match p with
  | [] => []
  | c :: p => text p ++ 47%N :: c
  end.
Definition path_text (p : path) : str := match p with [] => [47%N] | _ => text p end.

(** What is at a path.  Links to directories are not followed: paths lead through real directories only. *)
Inductive entry := File | Directory | Special | BrokenLink | Link.
Definition is_dir (e : entry) : bool := match e with Directory => true | _ => false end.
(** QFileInfo::exists and stat, which follow links. *)
Definition stat_exists (e : option entry) : bool := match e with None | Some BrokenLink => false | Some _ => true end.

Definition fs := list (path * entry).
Definition get (f : fs) (p : path) : option entry := match find (fun e => path_eqb (fst e) p) f with Some e => Some (snd e) | None => None end.
Definition drop (f : fs) (p : path) : fs := filter (fun e => negb (path_eqb (fst e) p)) f.
Definition is_child (p q : path) : bool := match q with [] => false | _ :: r => path_eqb r p end.
Definition children (f : fs) (p : path) : fs := filter (fun e => is_child p (fst e)) f.

(** Names with a dot in front are hidden. *)
Definition hidden (p : path) : bool := match p with (46%N :: _) :: _ => true | _ => false end.

Section Files.
  (** Whether the operating system lets one remove the entry. *)
  Variable permitted : path -> bool.

  Definition rmdir (f : fs) (p : path) : option fs :=
    match get f p with
    | Some Directory => match children f p with [] => if permitted p then Some (drop f p) else None | _ => None end
    | _ => None
    end.

  (** tools/fileinfo.cpp 426-456 removeFileRecursion: what is left and whether it worked.  [None]: out of fuel. *)
  Fixpoint remove_rec (n : nat) (f : fs) (p : path) : option (fs * bool) :=
    match n with
    | O => None
    | S n =>
        match get f p with
        | None => Some (f, true)
        | Some Directory =>
            let r := (fix loop (f : fs) (l : list path) : option fs :=
                        match l with
                        | [] => Some f
                        | q :: l => match remove_rec n f q with Some (f, _) => loop f l | None => None end
                        end) f (map fst (children f p)) in
            match r with
            | None => None
            | Some f => match rmdir f p with Some f => Some (f, true) | None => Some (f, false) end
            end
        | Some _ => Some (if permitted p then (drop f p, true) else (f, false))
        end
    end.

  (** ** Cleaning *)

  (** Options: dry run and keep going (CleanOptions). *)
  Record options := { dry : bool; keep_going : bool }.

  (** An artifact of the nodes of a product. *)
  Record artifact := { a_id : nat; a_path : path; a_product : nat; a_generated : bool }.
  (** A product: its artifacts, and the files of artifacts of which only the rescuable data is left. *)
  Record product := { pr_id : nat; pr_artifacts : list artifact; pr_rescuable : list path }.

  Variable opts : options.
  (** Whether the user has canceled when it is this artifact's turn. *)
  Variable canceled : nat -> bool.

  Record cstate := mkS {
    s_fs : fs;
    s_cleared : list nat;       (* artifacts whose time stamp was cleared *)
    s_rescuable : list path;    (* rescuable data that was dropped *)
    s_dirs : list path;         (* m_directories *)
    s_error : bool;             (* m_hasError *)
  }.
  Inductive cres := Done (st : cstate) | Thrown (st : cstate) | Exhausted.

  Definition set_fs st f := mkS f (s_cleared st) (s_rescuable st) (s_dirs st) (s_error st).
  Definition set_error st := mkS (s_fs st) (s_cleared st) (s_rescuable st) (s_dirs st) true.

  (** artifactcleaner.cpp 75-98 invalidateArtifactTimestamp, removeArtifactFromDisk.  [id]: none for the temporary artifacts made
      for rescuable data, whose time stamp is of no consequence. *)
  Definition clear (st : cstate) (id : option nat) : cstate :=
    match id with
    | Some i => mkS (s_fs st) (i :: s_cleared st) (s_rescuable st) (s_dirs st) (s_error st)
    | None => st
    end.
  Definition remove_from_disk (n : nat) (st : cstate) (id : option nat) (p : path) : cres :=
    match get (s_fs st) p with
    | None => Done (if dry opts then st else clear st id)
    | Some _ =>
        if dry opts then Done st
        else
          let st := clear st id in
          match remove_rec n (s_fs st) p with
          | None => Exhausted
          | Some (f, true) => Done (set_fs st f)
          | Some (f, false) => Thrown (set_fs st f)
          end
    end.

  (** Strings are ordered by their characters (QString::operator<). *)
  Fixpoint str_ltb (a b : str) : bool :=
    match a, b with
    | _, [] => false
    | [], _ :: _ => true
    | x :: a, y :: b => if (x <? y)%N then true else if (y <? x)%N then false else str_ltb a b
    end.
  (** Set<QString>::operator<<. *)
  Fixpoint insert_dir (d : path) (l : list path) : list path :=
    match l with
    | [] => [d]
    | e :: l' => if path_eqb d e then l else if str_ltb (path_text d) (path_text e) then d :: l else e :: insert_dir d l'
    end.

  (** artifactcleaner.cpp 134-150 doVisit, for artifacts with the type Generated (artifactvisitor.cpp 72-78). *)
  Definition visit_artifact (n : nat) (pr : product) (st : cstate) (a : artifact) : cres :=
    if negb (a_generated a) then Done st
    else if canceled (a_id a) then Thrown st
    else if negb (a_product a =? pr_id pr) then Done st
    else
      let add_dir st := mkS (s_fs st) (s_cleared st) (s_rescuable st) (insert_dir (tl (a_path a)) (s_dirs st)) (s_error st) in
      match remove_from_disk n st (Some (a_id a)) (a_path a) with
      | Done st => Done (add_dir st)
      | Thrown st => if keep_going opts then Done (add_dir (set_error st)) else Thrown st
      | Exhausted => Exhausted
      end.
  Definition bind (r : cres) (k : cstate -> cres) : cres := match r with Done st => k st | r => r end.
  Fixpoint each {A} (f : cstate -> A -> cres) (l : list A) (st : cstate) : cres :=
    match l with
    | [] => Done st
    | x :: l => bind (f st x) (each f l)
    end.
  (** artifactcleaner.cpp 112-127 visitProduct. *)
  Definition visit_rescuable (n : nat) (st : cstate) (p : path) : cres :=
    bind (remove_from_disk n st None p) (fun st => Done (mkS (s_fs st) (s_cleared st) (p :: s_rescuable st) (s_dirs st) (s_error st))).
  Definition visit_product (n : nat) (st : cstate) (pr : product) : cres :=
    bind (each (visit_artifact n pr) (pr_artifacts pr) st) (each (visit_rescuable n) (pr_rescuable pr)).

  (** What QDirIterator shows with Files, Dirs and Hidden, but not System. *)
  Definition shown (e : entry) : bool := match e with File | Directory | Link => true | Special | BrokenLink => false end.

  (** artifactcleaner.cpp 204-229 removeEmptyDirectories; also tells whether the directory is gone. *)
  Fixpoint empty_dirs (n : nat) (st : cstate) (p : path) : cres * bool :=
    match n with
    | O => (Exhausted, false)
    | S n =>
        let r := (fix loop (st : cstate) (sub : bool) (l : fs) : cres * bool :=
                    match l with
                    | [] => (Done st, sub)
                    | (q, e) :: l =>
                        if is_dir e then
                          match empty_dirs n st q with
                          | (Done st, gone) => loop st (sub && gone) l
                          | r => r
                          end
                        else loop st false l
                    end) st true (filter (fun e => shown (snd e)) (children (s_fs st) p)) in
        match r with
        | (Done st, true) =>
            match rmdir (s_fs st) p with
            | Some f => (Done (set_fs st f), true)
            | None => if keep_going opts then (Done (set_error st), false) else (Thrown st, false)
            end
        | r => r
        end
    end.

  (** artifactcleaner.cpp 182-197, the loop over a list that grows.  [seen]: the entries before the current one, latest first. *)
  Fixpoint clean_dirs (k n : nat) (build : path) (st : cstate) (seen todo : list path) : cres :=
    match k with
    | O => Exhausted
    | S k =>
        match todo with
        | [] => Done st
        | d :: todo =>
            if negb (starts_with (path_text build) (path_text d)) then clean_dirs k n build st (d :: seen) todo
            else
              let r := if stat_exists (get (s_fs st) d) then fst (empty_dirs n st d) else Done st in
              bind r (fun st =>
                let add := negb (path_eqb d build) && negb (path_eqb (tl d) build) && negb (in_paths (tl d) (seen ++ d :: todo)) in
                clean_dirs k n build st (d :: seen) (if add then todo ++ [tl d] else todo))
        end
    end.

  (** artifactcleaner.cpp 165-202 cleanup. *)
  Definition unite (st : cstate) (dirs : list path) : cstate :=
    mkS (s_fs st) (s_cleared st) (s_rescuable st) (fold_left (fun l d => insert_dir d l) (s_dirs st) dirs) (s_error st).
  Definition clean_product (n : nat) (st : cstate) (pr : product) : cres :=
    let dirs := s_dirs st in
    bind (visit_product n (mkS (s_fs st) (s_cleared st) (s_rescuable st) [] (s_error st)) pr) (fun st => Done (unite st dirs)).
  Definition cleanup (k n : nat) (build : path) (products : list product) (f : fs) : cres :=
    bind (each (clean_product n) products (mkS f [] [] [] false)) (fun st =>
      bind (clean_dirs k n build st [] (s_dirs st)) (fun st =>
        if s_error st then Thrown st else Done st)).

  (** ** Removing directories that became empty during a build *)

  (** The number of slashes in the path. *)
  Definition slashes (p : path) : nat := match p with [] => 1 | _ => length p end.

  (** emptydirectoriesremover.cpp 78-89 insertSorted. *)
  Fixpoint insert_sorted (d : path) (l : list path) : list path :=
    match l with
    | [] => [d]
    | c :: l' => if path_eqb d c then l else if slashes c <? slashes d then d :: l else c :: insert_sorted d l'
    end.

  (** What QDir shows with AllEntries, but neither Hidden nor System. *)
  Definition counted (e : path * entry) : bool := shown (snd e) && negb (hidden (fst e)).

  (** emptydirectoriesremover.cpp 91-113 removeDirIfEmpty: the parent directory if the directory was removed. *)
  Definition remove_if_empty (build : path) (f : fs) (d : path) : fs * option path :=
    match get f d with
    | None | Some BrokenLink | Some Link => (f, None)
    | Some _ =>
        if negb (starts_with (path_text build) (path_text d)) || path_eqb d build then (f, None)
        else match filter counted (children f d) with
             | _ :: _ => (f, None)
             | [] => match rmdir f d with
                     | Some f => (f, Some (tl d))
                     | None => (f, None)
                     end
             end
    end.

  Fixpoint remove_loop (k : nat) (build : path) (f : fs) (handled todo : list path) : option fs :=
    match k with
    | O => None
    | S k =>
        match todo with
        | [] => Some f
        | d :: todo =>
            let handled := d :: handled in
            match remove_if_empty build f d with
            | (f, Some p) => remove_loop k build f handled (if in_paths p handled then todo else insert_sorted p todo)
            | (f, None) => remove_loop k build f handled todo
            end
        end
    end.
  (** emptydirectoriesremover.cpp 57-65 removeEmptyParentDirectories. *)
  Definition remove_empty_parents (k : nat) (build : path) (files : list path) (f : fs) : option fs :=
    remove_loop k build f [] (fold_left (fun l p => insert_sorted (tl p) l) files []).
End Files.
