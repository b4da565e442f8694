(** The makefile generator on Unix: src/plugins/generator/makefilegenerator/makefilegenerator.cpp.

    Not modelled: Windows, the environment of commands (which the generator leaves out, 274), the warnings, and which
    artifacts, rules and products there are. *)
From Coq Require Import List Bool Arith NArith.
From Verif Require Import Str ShellModel.
Import ListNotations.
Local Open Scope N_scope.

(** QString::replace(before, after) for a text that is not empty: from left to right, without overlaps.  [skip] is the
    number of characters that are left of the last match. *)
Fixpoint replace_from (skip : nat) (before after s : str) : str :=
  match s with
  | [] => []
  | c :: r =>
      match skip with
      | S k => replace_from k before after r
      | O => if starts_with before s then after ++ replace_from (length before - 1) before after r
             else c :: replace_from O before after r
      end
  end.
Definition replace (before after s : str) : str := replace_from O before after s.

(** The names of the variables: SRCDIR, BUILD_ROOT, INSTALL_ROOT. *)
Definition n_src : str := [83; 82; 67; 68; 73; 82].
Definition n_build : str := [66; 85; 73; 76; 68; 95; 82; 79; 79; 84].
Definition n_install : str := [73; 78; 83; 84; 65; 76; 76; 95; 82; 79; 79; 84].
Definition reference (n : str) : str := [36; 40] ++ n ++ [41].

(** 68-76: quote. *)
Definition quote_make (s : str) : str :=
  let q := quote_unix s in
  let q := replace [36] [36; 36] q in
  let q := replace (36 :: reference n_src) (reference n_src) q in
  let q := replace (36 :: reference n_build) (reference n_build) q in
  replace (36 :: reference n_install) (reference n_install) q.

(** 84-86: the characters of the names of targets for products. *)
Definition name_kept (c : N) : bool :=
  (c =? 95) || (c =? 46) || ((48 <=? c) && (c <=? 57)) || ((65 <=? c) && (c <=? 90)) || ((97 <=? c) && (c <=? 122)).
(** 83-87, 99-105: makeValidTargetName for a product with a name and a multiplex configuration id. *)
Definition product_target (name id : str) : str :=
  let n := map (fun c => if name_kept c then c else 95) name in
  match id with [] => n | _ => n ++ 95 :: id end.

(** 89-95: makeValidTargetName for a path. *)
Definition path_target (p : str) : str := replace [32] [92; 32] p.

(** 108-120: replacePrefix. *)
Fixpoint replace_prefix (path : str) (candidates : list (str * str)) : str :=
  match candidates with
  | [] => path
  | (dir, n) :: rest =>
      if starts_with dir path
         && ((length path =? length dir)%nat || match skipn (length dir) path with c :: _ => c =? 47 | [] => false end)
      then reference n ++ skipn (length dir) path
      else replace_prefix path rest
  end.

(** The three directories of the makefile; the install root is empty if nothing is installed (191-200). *)
Record dirs := { src_dir : str; build_dir : str; install_root : str }.

(** 122-131: bruteForcePathReplace. *)
Definition brute_force (d : dirs) (v : str) : str :=
  let v := match install_root d with [] => v | _ => replace (install_root d) (reference n_install) v end in
  let v := replace (build_dir d) (reference n_build) v in
  replace (src_dir d) (reference n_src) v.

(** 140-155: the commands; the text is install -m 644 -p, install -m 755 -p, and rm -f. *)
Definition install_file_command : str := [105; 110; 115; 116; 97; 108; 108; 32; 45; 109; 32; 54; 52; 52; 32; 45; 112].
Definition install_program_command : str := [105; 110; 115; 116; 97; 108; 108; 32; 45; 109; 32; 55; 53; 53; 32; 45; 112].
Definition remove_command : str := [114; 109; 32; 45; 102].
Definition n_install_file : str := [73; 78; 83; 84; 65; 76; 76; 95; 70; 73; 76; 69].
Definition n_install_program : str := [73; 78; 83; 84; 65; 76; 76; 95; 80; 82; 79; 71; 82; 65; 77].
Definition n_rm : str := [82; 77].

(** 173-200: the definitions at the beginning, or an error for directories with spaces.  The comment in the first line
    and empty lines are left out. *)
Definition definition (n v : str) : str := n ++ [32; 61; 32] ++ v ++ [10].
Definition definitions (d : dirs) : option str :=
  if memN 32 (src_dir d) || memN 32 (build_dir d) || memN 32 (install_root d) then None
  else Some (definition n_install_file install_file_command ++ definition n_install_program install_program_command
             ++ definition n_rm remove_command
             ++ definition n_src (src_dir d) ++ definition n_build (build_dir d)
             ++ match install_root d with [] => [] | _ => definition n_install (install_root d) end).

(** 220-230 *)
Definition output_text (d : dirs) (p : str) : str := path_target (replace_prefix p [(build_dir d, n_build)]).
Definition input_text (d : dirs) (p : str) : str := path_target (replace_prefix p [(src_dir d, n_src)]).
Definition artifact_text (d : dirs) (generated : bool) (p : str) : str :=
  if generated then output_text d p else input_text d p.

(** 250-254: the line with the target and the inputs of a rule. *)
Definition rule_line (d : dirs) (first_output : str) (inputs : list (bool * str)) : str :=
  output_text d first_output ++ [58] ++ flat_map (fun i => 32 :: artifact_text d (fst i) (snd i)) inputs ++ [10].
(** 244-248: the line of a product. *)
Definition product_line (d : dirs) (name id : str) (artifacts : list str) : str :=
  product_target name id ++ [58] ++ flat_map (fun p => 32 :: output_text d p) artifacts ++ [10].

(** 272-281: the line for a command. *)
Definition command_line (d : dirs) (program : str) (args : list str) : str :=
  9 :: quote_make (brute_force d program)
  ++ flat_map (fun a => 32 :: quote_make (brute_force d a)) args ++ [10].

(** 133-138, 256-263, 305-307: the line that creates the directory of an output. *)
Definition mkdir_line (d : dirs) (dir : str) : str :=
  9 :: [109; 107; 100; 105; 114; 32; 45; 112; 32] ++ replace_prefix dir [(build_dir d, n_build)] ++ [10].

(** The directory and the name of a file (QFileInfo::path and fileName) are inputs here.
    321-331: the line that removes a file; RM is rm -f (152-155). *)
Definition clean_line (d : dirs) (dir file : str) : str :=
  9 :: reference n_rm ++ 32 :: replace_prefix dir [(build_dir d, n_build)] ++ 47 :: quote_make file ++ [10].

(** 295-319: the line that installs a file below a directory, unless the directory has spaces. *)
Definition install_line (d : dirs) (executable generated : bool) (dir file target_dir : str) : option str :=
  if memN 32 target_dir then None
  else Some (9 :: reference (if executable then n_install_program else n_install_file)
             ++ 32 :: replace_prefix dir [if generated then (build_dir d, n_build) else (src_dir d, n_src)]
             ++ 47 :: quote_make file
             ++ 32 :: match install_root d with [] => target_dir | _ => replace_prefix target_dir [(install_root d, n_install)] end
             ++ [10]).

(** 334-337: the lines of the targets for everything. *)
Definition all_line (targets : list str) : str := [97; 108; 108; 58] ++ flat_map (cons 32) targets ++ [10].
