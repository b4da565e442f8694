(** How a process command is run: its environment, its program file, and its
    arguments, which go to a response file if the command line is long.

    Code: src/lib/corelib/buildgraph/processcommandexecutor.cpp 82-200,
    src/lib/corelib/buildgraph/rulecommands.cpp 257-283,
    src/lib/corelib/tools/executablefinder.cpp 53-154,
    src/lib/corelib/language/language.cpp 487-497.

    Inputs: the files there are, their contents, and the name of the temporary
    file. Not modelled: texts are not converted to the local encoding; an index
    for the response file is not negative (a negative one is undefined behaviour
    in the code). *)

From Coq Require Import List Bool Arith NArith ZArith.
From Verif Require Import Str ShellModel.
Import ListNotations.

(** ** Environments *)

(** QProcessEnvironment: at most one entry for a name (Unix: case matters). *)
Definition environment := list (str * str).

Fixpoint value (e : environment) (n : str) : str :=
  match e with
  | [] => []
  | (m, v) :: r => if str_eqb m n then v else value r n
  end.

Fixpoint insert (n v : str) (e : environment) : environment :=
  match e with
  | [] => [(n, v)]
  | (m, w) :: r => if str_eqb m n then (n, v) :: r else (m, w) :: insert n v r
  end.

(** rulecommands.cpp 275-280: the name and the value of an entry. *)
Fixpoint cut_equals (s : str) : option (str * str) :=
  match s with
  | [] => None
  | c :: r =>
      if N.eqb c 61 then Some ([], r)
      else match cut_equals r with Some (a, b) => Some (c :: a, b) | None => None end
  end.

(** rulecommands.cpp 272-283: getEnvironmentFromList; entries without a name or
    without a value are left out. *)
Definition from_list (l : list str) : environment :=
  fold_left (fun e s =>
    match cut_equals s with
    | Some (n, v) => match n, v with [], _ | _, [] => e | _, _ => insert n v e end
    | None => e
    end) l [].

(** processcommandexecutor.cpp 87-92. *)
Definition path_variables : list str :=
  [ [80;65;84;72];
    [76;68;95;76;73;66;82;65;82;89;95;80;65;84;72];
    [68;89;76;68;95;76;73;66;82;65;82;89;95;80;65;84;72];
    [68;89;76;68;95;70;82;65;77;69;87;79;82;75;95;80;65;84;72] ]%N.

(** processcommandexecutor.cpp 82-104: mergeEnvironments; 58 is the separator
    of lists of paths on Unix. *)
Definition merge (base added : environment) : environment :=
  fold_left (fun e entry =>
    let '(n, v) := entry in
    let v := if existsb (str_eqb n) path_variables
             then match value base n with [] => v | old => v ++ 58%N :: old end
             else v in
    insert n v e) added base.

(** ** The program *)

(** executablefinder.cpp 53-63. *)
Definition suffixes (o : os) : list str :=
  match o with
  | Unix => [[]]
  | Windows => [[]; [46;99;111;109]; [46;101;120;101]; [46;98;97;116]; [46;99;109;100]]%N
  end.

Definition ends_in_slash (d : str) : bool :=
  match rev d with c :: _ => N.eqb c 47 || N.eqb c 92 | [] => false end.

(** executablefinder.cpp 98-111: candidateCheck. *)
Definition candidate (o : os) (executable : str -> bool) (dir program : str) : option str :=
  find executable (List.map (fun s => dir ++ program ++ s) (suffixes o)).

(** executablefinder.cpp 121-136: the directories of PATH, without empty ones. *)
Definition directory (wd d : str) : str :=
  let d := if str_eqb d [46%N] then wd else d in
  match d with [] => [] | _ => if ends_in_slash d then d else d ++ [47%N] end.

Fixpoint search (o : os) (executable : str -> bool) (wd : str) (dirs : list str) (program : str) : str :=
  match dirs with
  | [] => program
  | d :: r =>
      match candidate o executable (directory wd d) program with
      | Some f => f
      | None => search o executable wd r program
      end
  end.

(** Splitting at colons or semicolons, without empty parts. *)
Fixpoint split_path (sep : N) (cur : str) (s : str) : list str :=
  match s with
  | [] => match cur with [] => [] | _ => [rev cur] end
  | c :: r =>
      if N.eqb c sep then match cur with [] => split_path sep [] r | _ => rev cur :: split_path sep [] r end
      else split_path sep (c :: cur) r
  end.

Definition path_dirs (o : os) (path : str) : list str :=
  match o with
  | Unix => split_path 58 [] path
  | Windows => [46%N] :: split_path 59 [] path
  end.

(** executablefinder.cpp 113-140: findInPath, with the cache of the product.
    The result is not empty, as the program is not. *)
Definition find_in_path (o : os) (executable : str -> bool) (path : str) (cache : environment)
  (program wd : str) : str * environment :=
  match value cache program with
  | [] => let f := search o executable wd (path_dirs o path) program in (f, insert program f cache)
  | f => (f, cache)
  end.

(** ** The arguments *)

Record command := Command {
  c_program : str; c_args : list str;
  c_prefix : str; c_threshold : Z; c_index : nat; c_separator : str }.

Inductive start :=
| Plain (args : list str)
| Response (args : list str) (content : str)
| CannotOpen (file : str).

(** processcommandexecutor.cpp 167-182: the content, or the file that cannot be
    opened. [read]: what QFile reads. *)
Fixpoint content_of (o : os) (read : str -> option str) (prefix sep : str) (args : list str)
  : str + str :=
  match args with
  | [] => inl []
  | a :: r =>
      match (if starts_with prefix a
             then match read (skipn (length prefix) a) with
                  | Some t => inl t
                  | None => inr (skipn (length prefix) a)
                  end
             else inl (quote o a)) with
      | inr f => inr f
      | inl t =>
          match content_of o read prefix sep r with
          | inl rest => inl (t ++ sep ++ rest)
          | inr f => inr f
          end
      end
  end.

(** processcommandexecutor.cpp 117-120, 131 and 149-191. [temp]: the name of the
    temporary file. *)
Definition start_of (o : os) (read : str -> option str) (temp : str) (c : command) : start :=
  let line := quote_command o (native o (c_program c)) (c_args c) in
  match c_prefix c with
  | [] => Plain (c_args c)
  | _ =>
      if (0 <=? c_threshold c)%Z && (c_threshold c <? Z.of_nat (length line))%Z
      then
        match content_of o read (c_prefix c) (c_separator c) (skipn (c_index c) (c_args c)) with
        | inl content =>
            Response (firstn (c_index c) (c_args c) ++ [native o (c_prefix c ++ temp)]) content
        | inr f => CannotOpen f
        end
      else Plain (c_args c)
  end.
