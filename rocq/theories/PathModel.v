(** Paths: src/lib/corelib/tools/fileinfo.cpp, the FileInfo script extension, and the two functions that
    decide where files are written, RulesApplicator::resolveOutPath and ProductInstaller::targetFilePath.
    Strings are lists of UTF-16 code units. *)
From Coq Require Import List Bool Arith NArith.
From Verif Require Import Str.
Import ListNotations.
Local Open Scope N_scope.

Definition slash : N := 47.
Definition dot : str := [46].
Definition dotdot : str := [46; 46].

Inductive host := Unix | Windows.

(** QString::indexOf and QString::lastIndexOf for a character. *)
Fixpoint first_index (c : N) (s : str) : option nat :=
  match s with
  | [] => None
  | x :: r => if x =? c then Some O else option_map S (first_index c r)
  end.
Fixpoint last_index (c : N) (s : str) : option nat :=
  match s with
  | [] => None
  | x :: r => match last_index c r with
              | Some i => Some (S i)
              | None => if x =? c then Some O else None
              end
  end.

(** QDir::cleanPath, for a Unix host (Qt's qt_normalizePathSegments): the sections are gone through from the end; empty ones and
    single dots are dropped, a double dot makes the next section to its left disappear, and double dots
    for which there is none stay at the front.  Simplified in that Qt works in place on the characters. *)
Fixpoint sections (s : str) : list str :=
  match s with
  | [] => [[]]
  | c :: r =>
      if c =? slash then [] :: sections r
      else match sections r with h :: t => (c :: h) :: t | [] => [[c]] end
  end.
Fixpoint clean_sections (rsecs : list str) (up : nat) (out : list str) : list str :=
  match rsecs with
  | [] => repeat dotdot up ++ out
  | x :: rest =>
      if str_eqb x [] || str_eqb x dot then clean_sections rest up out
      else if str_eqb x dotdot then clean_sections rest (S up) out
      else match up with
           | S up => clean_sections rest up out
           | O => clean_sections rest O (x :: out)
           end
  end.
Fixpoint join_slash (l : list str) : str :=
  match l with
  | [] => []
  | [x] => x
  | x :: r => x ++ slash :: join_slash r
  end.
Definition begins_with_slash (p : str) : bool := match p with c :: _ => c =? slash | [] => false end.
Definition clean_path (p : str) : str :=
  match p with
  | [] => []
  | _ =>
      let secs := clean_sections (rev (sections p)) 0 [] in
      if begins_with_slash p then slash :: join_slash secs
      else match secs with [] => dot | _ => join_slash secs end
  end.

(** fileinfo.cpp 68-74, 76-83, 85-92, 94-101, 103-110 *)
Definition file_name (fp : str) : str :=
  match last_index slash fp with None => fp | Some last => skipn (S last) fp end.
Definition base_name (fp : str) : str :=
  let fn := file_name fp in match first_index 46 fn with None => fn | Some d => firstn d fn end.
Definition complete_base_name (fp : str) : str :=
  let fn := file_name fp in match last_index 46 fn with None => fn | Some d => firstn d fn end.
Definition suffix (fp : str) : str :=
  let fn := file_name fp in match last_index 46 fn with None => fn | Some d => skipn (S d) fn end.
Definition complete_suffix (fp : str) : str :=
  let fn := file_name fp in match first_index 46 fn with None => fn | Some d => skipn (S d) fn end.

(** QChar::isLetter, simplified to ASCII. *)
Definition is_letter (c : N) : bool := ((65 <=? c) && (c <=? 90)) || ((97 <=? c) && (c <=? 122)).
Definition is_drive (p : str) : bool := match p with [a; b] => is_letter a && (b =? 58) | _ => false end.

(** 112-127: path. *)
Definition path (o : host) (fp : str) : str :=
  match fp with
  | [] => []
  | _ =>
      match last_index slash fp with
      | None => dot
      | Some last =>
          let p := clean_path (firstn last fp) in
          match p with
          | [] => [slash]
          | _ => match o with
                 | Windows => if is_drive p then p ++ [slash] else p
                 | Unix => p
                 end
          end
      end
  end.

(** 129-139 (and 141-152): splitIntoDirectoryAndFileName. *)
Definition split_dir (fp : str) : str * str :=
  match last_index slash fp with
  | None => ([], fp)
  | Some idx => (firstn idx fp, skipn (S idx) fp)
  end.

(** 161-166: isCurrentDrivePath. *)
Definition is_current_drive (o : host) (p : str) : bool := match o with Windows => is_drive p | Unix => false end.

(** 169-187: isAbsolute. *)
Definition is_absolute (o : host) (p : str) : bool :=
  match p with
  | [] => false
  | a :: r =>
      (a =? slash)
      || match o with
         | Unix => false
         | Windows =>
             (a =? 92)
             || match r with
                | b :: c :: _ => (b =? 58) && is_letter a && ((c =? slash) || (c =? 92))
                | _ => false
                end
         end
  end.

Definition truncate_last (r : str) : str := match last_index slash r with Some i => firstn i r | None => r end.

(** 221-226: the loop over double dots at the beginning. *)
Fixpoint up_steps (r s : str) : str * str :=
  match s with
  | a :: b :: c :: s' =>
      if (a =? 46) && (b =? 46) && (c =? slash) then up_steps (truncate_last r) s' else (r, s)
  | _ => (r, s)
  end.

Definition ends_with_slash (p : str) : bool := match rev p with c :: _ => c =? slash | [] => false end.
Definition chop (p : str) : str := removelast p.

(** 204-239: resolvePath; [home] is QDir::homePath().  A failed assertion yields the empty string. *)
Definition resolve_path (o : host) (home base rel : str) : str :=
  if negb (is_absolute o base && negb (is_current_drive o rel)) then []
  else if is_absolute o rel then rel
  else if str_eqb rel dot then base
  else if str_eqb rel [126] then home
  else if starts_with [126; slash] rel then home ++ skipn 1 rel
  else
    let r := if ends_with_slash base then chop base else base in
    let (r, s) := up_steps r rel in
    let (r, s) := if str_eqb s dotdot then (truncate_last r, []) else (r, s) in
    if negb (str_eqb s []) || is_current_drive o r then r ++ slash :: s else r.

(** jsextensions/fileinfoextension.cpp 55-62: uniqueSeparators; [prev] is the last character kept. *)
Fixpoint unique_separators (prev : bool) (p : str) : str :=
  match p with
  | [] => []
  | c :: r =>
      if prev && (c =? slash) then unique_separators prev r
      else c :: unique_separators (c =? slash) r
  end.
(** 278-289: joinPaths. *)
Definition join_paths (ps : list str) : str :=
  unique_separators false (join_slash (filter (fun p => negb (str_eqb p [])) ps)).

(** buildgraph/rulesapplicator.cpp 669-680: resolveOutPath; None is the error. *)
Definition resolve_out (home build_dir p : str) : option str :=
  let result := clean_path (resolve_path Unix home build_dir p) in
  if starts_with (build_dir ++ [slash]) result then Some result else None.

(** rulesapplicator.cpp 405 and 638, 420: where the output of a rule goes. *)
Definition rule_output (home build_dir product_build_dir p : str) : option str :=
  resolve_out home build_dir (resolve_path Unix home product_build_dir p).

(** buildgraph/productinstaller.cpp 119-168: targetFilePath. *)
Record install_properties := {
  i_install : bool;
  i_dir : str;
  i_prefix : str;
  i_source_base : str;
  i_root : str
}.
Inductive target := NotInstalled | Outside | NotBelowBase | Target (p : str).
Definition target_file_path (home option_root effective_root source_dir file : str) (ps : install_properties) : target :=
  if negb (i_install ps) then NotInstalled
  else
    let root := match option_root with [] => effective_root | _ => option_root end in
    let dir := match root with [] => i_root ps | _ => root end in
    let dir := clean_path (dir ++ slash :: i_prefix ps ++ slash :: i_dir ps) in
    match i_source_base ps with
    | [] =>
        if starts_with root dir then Target (clean_path (dir ++ slash :: file_name file)) else Outside
    | base =>
        let local := resolve_path Unix home (clean_path source_dir) (clean_path base) in
        if starts_with local file then
          let rest := skipn (length local + (if ends_with_slash local then 0 else 1)) file in
          Target (clean_path (dir ++ slash :: rest))
        else NotBelowBase
    end.
