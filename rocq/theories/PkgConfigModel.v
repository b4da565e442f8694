(** The parser for pkg-config files: src/lib/pkgconfig/pcparser.cpp, pcpackage.cpp, pkgconfig.cpp.

    Strings are lists of bytes.  The C++ code hands [char]s to isspace, which is undefined for negative ones; here no byte above 127 is a space, as it is
    with the usual libraries in the C locale. *)
From Coq Require Import List Bool Arith NArith String Ascii.
From Verif Require Import Str SettingsModel.
Import ListNotations.
Local Open Scope N_scope.

Definition lit (s : string) : str := map N_of_ascii (list_ascii_of_string s).
Definition is_space (c : N) : bool := (c =? 32) || ((9 <=? c) && (c <=? 13)).

(** ** Text *)

(** pcparser.cpp 68-128 readOneLine.  [read]: whether n_read is positive. *)
Fixpoint read_line (quoted comment read : bool) (line s : str) : bool * str * str :=
  match s with
  | [] => (read, if quoted then line ++ [92] else line, [])
  | c :: s =>
      if c =? 13 then read_line quoted comment read line s
      else if quoted then
        if c =? 35 then read_line false comment true (line ++ [35]) s
        else if c =? 10 then read_line false comment true line s
        else read_line false comment true (line ++ [92; c]) s
      else if c =? 35 then read_line false true true line s
      else if c =? 92 then read_line (negb comment) comment true line s
      else if c =? 10 then (true, line, s)
      else read_line false comment true (if comment then line else line ++ [c]) s
  end.
(** The loop of 408-410; [fuel] is enough if it is larger than the length of the text. *)
Fixpoint read_lines (fuel : nat) (s : str) : option (list str) :=
  match fuel with
  | O => None
  | S fuel =>
      match read_line false false false [] s with
      | (true, line, s) => match read_lines fuel s with Some l => Some (line :: l) | None => None end
      | (false, _, _) => Some []
      end
  end.
Definition file_lines (s : str) : option (list str) := read_lines (S (List.length s)) s.

(** 130-138 trimmed. *)
Fixpoint trim_left (s : str) : str := match s with c :: s' => if is_space c then trim_left s' else s | [] => [] end.
Definition trim (s : str) : str := rev (trim_left (rev (trim_left s))).

(** 141-188 splitCommand.  [quote] is 0 outside of quotes. *)
Fixpoint split_command (quote : N) (arg s : str) : option (list str) :=
  let more (w : str) (r : option (list str)) := match r with Some l => Some (match w with [] => l | _ => w :: l end) | None => None end in
  match s with
  | [] => Some (match arg with [] => [] | _ => [arg] end)
  | c :: s =>
      if quote =? c then split_command 0 arg s
      else if negb (quote =? 0) then
        if c =? 92 then
          match s with
          | [] => None
          | d :: s => split_command quote (arg ++ if d =? quote then [d] else [92; d]) s
          end
        else split_command quote (arg ++ [c]) s
      else if is_space c then more arg (split_command 0 [] s)
      else if (c =? 34) || (c =? 39) then split_command c arg s
      else if c =? 92 then match s with [] => None | d :: s => split_command 0 (arg ++ [d]) s end
      else split_command 0 (arg ++ [c]) s
  end.

(** ** Packages *)

Inductive flag_type := LibraryName | StaticLibraryName | LibraryPath | Framework | FrameworkPath | LinkerFlag | IncludePath | SystemIncludePath | DirAfterIncludePath | Define | CompilerFlag.
Record flag := mkFlag { f_type : flag_type; f_value : str }.
Inductive comparison := LessThan | GreaterThan | LessThanEqual | GreaterThanEqual | Equal | NotEqual | AlwaysMatch.
Record required := mkRequired { r_name : str; r_comparison : comparison; r_version : str }.
Record package := mkPackage {
  pc_path : str; pc_base : str; pc_name : str; pc_version : str; pc_description : str; pc_url : str;
  pc_libs : list flag; pc_libs_private : list flag; pc_cflags : list flag;
  pc_requires : list required; pc_requires_private : list required; pc_conflicts : list required;
  pc_old_prefix : option str; pc_variables : list (str * str) }.
Inductive error :=
| MissingBrace | UndefinedVariable (v : str) | DuplicateVariable (v : str) | DuplicateField (f : str) | UnknownComparison (name comp : str)
| EmptyName | NoVersion (name : str) | BadArguments (f : str).
Inductive result (A : Type) := Ok (a : A) | Err (e : error).
Arguments Ok {A} a. Arguments Err {A} e.
Definition bind {A B} (r : result A) (f : A -> result B) : result B := match r with Ok a => f a | Err e => Err e end.

(** The options that matter here. *)
Record options := mkOptions { o_define_prefix : bool; o_globals : list (str * str); o_system : list (str * str) }.
Definition lookup (m : list (str * str)) (k : str) : option str := match find (fun e => str_eqb (fst e) k) m with Some e => Some (snd e) | None => None end.
(** std::map::insert does nothing if the key is there. *)
Definition insert_new (m : list (str * str)) (k v : str) : option (list (str * str)) := match lookup m k with Some _ => None | None => Some (m ++ [(k, v)]) end.

(** pkgconfig.cpp 51-67 varToEnvVar, C locale. *)
Definition env_char (c : N) : N :=
  let c := if (97 <=? c) && (c <=? 122) then c - 32 else c in
  if ((48 <=? c) && (c <=? 57)) || ((65 <=? c) && (c <=? 90)) then c else 95.
Definition env_var (pkg var : str) : str := map env_char (lit "PKG_CONFIG_" ++ pkg ++ 95 :: var).
(** 150-178 packageGetVariable. *)
Definition get_variable (o : options) (p : package) (var : str) : option str :=
  match var with
  | [] => None
  | _ =>
      let global := lookup (o_globals o) var in
      let system := match pc_base p with [] => None | b => lookup (o_system o) (env_var b var) end in
      match (match system with Some v => Some v | None => global end) with
      | Some v => Some v
      | None => lookup (pc_variables p) var
      end
  end.

(** pcparser.cpp 415-453 trimAndSubstitute, the loop; [fuel] is enough if it is at least the length. *)
Fixpoint substitute (get : str -> option str) (fuel : nat) (s : str) : option (result str) :=
  match s, fuel with
  | [], _ => Some (Ok [])
  | _, O => None
  | c :: s', S fuel =>
      let put (w : str) (r : option (result str)) := match r with Some (Ok t) => Some (Ok (w ++ t)) | _ => r end in
      if starts_with [36; 36] s then put [36] (substitute get fuel (skipn 2 s))
      else if starts_with [36; 123] s then
        let (name, rest) := span (fun c => negb (c =? 125)) (skipn 2 s) in
        match rest with
        | [] => Some (Err MissingBrace)
        | _ :: rest => match get name with None => Some (Err (UndefinedVariable name)) | Some v => put v (substitute get fuel rest) end
        end
      else put [c] (substitute get fuel s')
  end.
Definition trim_and_substitute (o : options) (p : package) (s : str) : result str :=
  match substitute (get_variable o p) (List.length (trim s)) (trim s) with Some r => r | None => Err MissingBrace end.

(** pcpackage.cpp 190-236, other systems than Windows. *)
Fixpoint last_index (c : N) (s : str) (i : nat) (found : option nat) : option nat :=
  match s with [] => found | d :: s => last_index c s (S i) (if d =? c then Some i else found) end.
Definition file_name (s : str) : str := match last_index 47 s 0 None with Some i => skipn (S i) s | None => s end.
Definition complete_base_name (s : str) : str := let n := file_name s in match last_index 46 n 0 None with Some i => firstn i n | None => n end.
Definition parent_path (s : str) : str :=
  match s with
  | [] => []
  | _ => match last_index 47 s 0 None with Some O => [47] | Some i => firstn i s | None => [46] end
  end.

Definition with_old_prefix (p : package) (old : str) : package :=
  mkPackage (pc_path p) (pc_base p) (pc_name p) (pc_version p) (pc_description p) (pc_url p) (pc_libs p) (pc_libs_private p) (pc_cflags p)
    (pc_requires p) (pc_requires_private p) (pc_conflicts p) (Some old) (pc_variables p).
Definition with_variables (p : package) (v : list (str * str)) : package :=
  mkPackage (pc_path p) (pc_base p) (pc_name p) (pc_version p) (pc_description p) (pc_url p) (pc_libs p) (pc_libs_private p) (pc_cflags p)
    (pc_requires p) (pc_requires_private p) (pc_conflicts p) (pc_old_prefix p) v.
Definition with_strings (p : package) (name version description url : str) : package :=
  mkPackage (pc_path p) (pc_base p) name version description url (pc_libs p) (pc_libs_private p) (pc_cflags p)
    (pc_requires p) (pc_requires_private p) (pc_conflicts p) (pc_old_prefix p) (pc_variables p).
Definition with_flags (p : package) (libs private cflags : list flag) : package :=
  mkPackage (pc_path p) (pc_base p) (pc_name p) (pc_version p) (pc_description p) (pc_url p) libs private cflags
    (pc_requires p) (pc_requires_private p) (pc_conflicts p) (pc_old_prefix p) (pc_variables p).
Definition with_modules (p : package) (requires private conflicts : list required) : package :=
  mkPackage (pc_path p) (pc_base p) (pc_name p) (pc_version p) (pc_description p) (pc_url p) (pc_libs p) (pc_libs_private p) (pc_cflags p)
    requires private conflicts (pc_old_prefix p) (pc_variables p).

(** 455-482 evaluateVariable: the package, since oldPrefix may be set, and the value. *)
Definition evaluate_variable (o : options) (p : package) (tag s : str) : package * result str :=
  if o_define_prefix o then
    if str_eqb tag (lit "prefix") then
      let dir := parent_path (pc_path p) in
      let prefix := if str_eqb (complete_base_name dir) (lit "pkgconfig") then parent_path (parent_path dir) else dir in
      (with_old_prefix p s, Ok (match prefix with [] => s | _ => prefix end))
    else
      match pc_old_prefix p with
      | Some old =>
          if starts_with (old ++ [47]) s
          then (p, trim_and_substitute o p (match lookup (pc_variables p) (lit "prefix") with Some v => v | None => [] end ++ skipn (List.length old) s))
          else (p, trim_and_substitute o p s)
      | None => (p, trim_and_substitute o p s)
      end
  else (p, trim_and_substitute o p s).

(** ** Flags *)

Definition ends_with (e s : str) : bool := starts_with (rev e) (rev s).
(** 518-569 doParseLibs. *)
Fixpoint parse_libs (argv : list str) : list flag :=
  match argv with
  | [] => []
  | a :: argv' =>
      let arg := trim a in
      if starts_with (lit "-l") arg && negb (starts_with (lit "-lib:") arg) then mkFlag LibraryName (trim (skipn 2 arg)) :: parse_libs argv'
      else if starts_with (lit "-L") arg then mkFlag LibraryPath (trim (skipn 2 arg)) :: parse_libs argv'
      else
        let other :=
          if starts_with (lit "-F") arg then mkFlag FrameworkPath (trim (skipn 2 arg)) :: parse_libs argv'
          else if negb (starts_with (lit "-") arg) && (ends_with (lit ".a") arg || ends_with (lit ".lib") arg) then mkFlag StaticLibraryName arg :: parse_libs argv'
          else match arg with [] => parse_libs argv' | _ => mkFlag LinkerFlag arg :: parse_libs argv' end in
        match argv' with
        | next :: argv'' => if str_eqb arg (lit "-framework") then mkFlag Framework (trim next) :: parse_libs argv'' else other
        | [] => other
        end
  end.
(** 571-623, the loop of parseCFlags. *)
Fixpoint parse_cflags (argv : list str) : list flag :=
  match argv with
  | [] => []
  | a :: argv' =>
      let arg := trim a in
      if starts_with (lit "-I") arg then mkFlag IncludePath (trim (skipn 2 arg)) :: parse_cflags argv'
      else if starts_with (lit "-D") arg then mkFlag Define (trim (skipn 2 arg)) :: parse_cflags argv'
      else
        let other := match arg with [] => parse_cflags argv' | _ => mkFlag CompilerFlag arg :: parse_cflags argv' end in
        match argv' with
        | next :: argv'' =>
            if str_eqb arg (lit "-isystem") then mkFlag SystemIncludePath (trim next) :: parse_cflags argv''
            else if str_eqb arg (lit "-idirafter") then mkFlag DirAfterIncludePath (trim next) :: parse_cflags argv''
            else other
        | [] => other
        end
  end.
(** 497-516 parseLibs, 571-583 parseCFlags: up to the loops. *)
Definition flags_of (o : options) (p : package) (old : list flag) (field : str) (loop : list str -> list flag) (s : str) : result (list flag) :=
  match old with
  | _ :: _ => Err (DuplicateField field)
  | [] =>
      bind (trim_and_substitute o p s) (fun t =>
        match t with
        | [] => Ok []
        | _ => match split_command 0 [] t with Some argv => Ok (loop argv) | None => Err (BadArguments field) end
        end)
  end.

(** ** Required modules *)

Definition is_separator (c : N) : bool := (c =? 44) || is_space c.
Definition is_operator (c : N) : bool := (c =? 60) || (c =? 62) || (c =? 33) || (c =? 61).
Inductive mstate := OutsideModule | InModuleName | BeforeOperator | InOperator | AfterOperator | InModuleVersion.
Definition outside (s : mstate) : bool := match s with OutsideModule => true | _ => false end.
Fixpoint skip_separators (s : str) : str := match s with c :: s' => if is_separator c then skip_separators s' else s | [] => [] end.
(** 280-325, the switch; [s]: the text from the current character on. *)
Definition mstep (state : mstate) (c : N) (s : str) : mstate :=
  match state with
  | OutsideModule => if is_separator c then OutsideModule else InModuleName
  | InModuleName =>
      if is_space c then match trim_left s with d :: _ => if is_operator d then BeforeOperator else OutsideModule | [] => OutsideModule end
      else if is_separator c then OutsideModule else InModuleName
  | BeforeOperator => if is_space c then BeforeOperator else if is_operator c then InOperator else BeforeOperator
  | InOperator => if is_operator c then InOperator else AfterOperator
  | AfterOperator => if is_space c then AfterOperator else InModuleVersion
  | InModuleVersion => if is_separator c then OutsideModule else InModuleVersion
  end.
(** 261-357 splitModuleList; [current]: the text from start to the current position. *)
Fixpoint split_modules (state : mstate) (current s : str) : list str :=
  match s with
  | [] => match current with [] => [] | _ => [skip_separators current] end
  | c :: s' =>
      let next := mstep state c s in
      if outside next && negb (outside state) then skip_separators current :: split_modules next [c] s'
      else split_modules next (current ++ [c]) s'
  end.
(** 359-380 comparisonFromString. *)
Definition comparison_of (name comp : str) : result comparison :=
  if str_eqb comp [] then Ok AlwaysMatch
  else if str_eqb comp (lit "=") then Ok Equal
  else if str_eqb comp (lit ">=") then Ok GreaterThanEqual
  else if str_eqb comp (lit "<=") then Ok LessThanEqual
  else if str_eqb comp (lit ">") then Ok GreaterThan
  else if str_eqb comp (lit "<") then Ok LessThan
  else if str_eqb comp (lit "!=") then Ok NotEqual
  else Err (UnknownComparison name comp).
(** 625-685 parseModuleList. *)
Definition not_space (c : N) : bool := negb (is_space c).
Definition parse_module (m : str) : result required :=
  let (name, m) := span not_space m in
  match name with
  | [] => Err EmptyName
  | _ =>
      let (comp, m) := span not_space (trim_left m) in
      bind (comparison_of name comp) (fun cmp =>
        let (version, _) := span not_space (trim_left m) in
        match cmp, version with
        | AlwaysMatch, _ => Ok (mkRequired name cmp version)
        | _, [] => Err (NoVersion name)
        | _, _ => Ok (mkRequired name cmp version)
        end)
  end.
Fixpoint all_ok {A B} (f : A -> result B) (l : list A) : result (list B) :=
  match l with [] => Ok [] | a :: l => bind (f a) (fun b => bind (all_ok f l) (fun bs => Ok (b :: bs))) end.
Definition parse_module_list (s : str) : result (list required) := all_ok parse_module (split_modules OutsideModule [] s).
(** 687-698 parseVersionsField; the text goes through c_str. *)
Definition modules_of (o : options) (p : package) (old : list required) (field s : str) : result (list required) :=
  match old with
  | _ :: _ => Err (DuplicateField field)
  | [] => bind (trim_and_substitute o p s) (fun t => parse_module_list (fst (span (fun c => negb (c =? 0)) t)))
  end.
(** 484-495 parseStringField. *)
Definition string_of (o : options) (p : package) (old field s : str) : result str :=
  match old with _ :: _ => Err (DuplicateField field) | [] => trim_and_substitute o p s end.

(** ** Lines and files *)

Definition is_tag (c : N) : bool := ((65 <=? c) && (c <=? 90)) || ((97 <=? c) && (c <=? 122)) || is_digit c || (c =? 95) || (c =? 46).
Definition keyword (o : options) (p : package) (tag s : str) : result package :=
  let set_string name version description url := Ok (with_strings p name version description url) in
  if str_eqb tag (lit "Name") then bind (string_of o p (pc_name p) tag s) (fun v => set_string v (pc_version p) (pc_description p) (pc_url p))
  else if str_eqb tag (lit "Description") then bind (string_of o p (pc_description p) tag s) (fun v => set_string (pc_name p) (pc_version p) v (pc_url p))
  else if str_eqb tag (lit "Version") then bind (string_of o p (pc_version p) tag s) (fun v => set_string (pc_name p) v (pc_description p) (pc_url p))
  else if str_eqb tag (lit "Requires.private") then bind (modules_of o p (pc_requires_private p) tag s) (fun v => Ok (with_modules p (pc_requires p) v (pc_conflicts p)))
  else if str_eqb tag (lit "Requires") then bind (modules_of o p (pc_requires p) tag s) (fun v => Ok (with_modules p v (pc_requires_private p) (pc_conflicts p)))
  else if str_eqb tag (lit "Libs.private") then bind (flags_of o p (pc_libs_private p) (lit "Libs.private") parse_libs s) (fun v => Ok (with_flags p (pc_libs p) v (pc_cflags p)))
  else if str_eqb tag (lit "Libs") then bind (flags_of o p (pc_libs p) (lit "Libs") parse_libs s) (fun v => Ok (with_flags p v (pc_libs_private p) (pc_cflags p)))
  else if str_eqb tag (lit "Cflags") || str_eqb tag (lit "CFlags") then bind (flags_of o p (pc_cflags p) (lit "Cflags") parse_cflags s) (fun v => Ok (with_flags p (pc_libs p) (pc_libs_private p) v))
  else if str_eqb tag (lit "Conflicts") then bind (modules_of o p (pc_conflicts p) tag s) (fun v => Ok (with_modules p (pc_requires p) (pc_requires_private p) v))
  else if str_eqb tag (lit "URL") then bind (string_of o p (pc_url p) tag s) (fun v => set_string (pc_name p) (pc_version p) (pc_description p) v)
  else Ok p.
Definition variable (o : options) (p : package) (tag s : str) : result package :=
  let (p, r) := evaluate_variable o p tag s in
  bind r (fun v => match insert_new (pc_variables p) tag v with Some m => Ok (with_variables p m) | None => Err (DuplicateVariable tag) end).
(** 700-767 parseLine. *)
Definition parse_line (o : options) (p : package) (s : str) : result package :=
  let (tag, rest) := span is_tag (trim s) in
  match trim rest with
  | [] => Ok p
  | c :: s => if c =? 58 then keyword o p tag (trim s) else if c =? 61 then variable o p tag (trim s) else Ok p
  end.
Fixpoint parse_lines (o : options) (p : package) (l : list str) : result package :=
  match l with [] => Ok p | s :: l => bind (parse_line o p s) (fun p => parse_lines o p l) end.
(** 391-413 parsePackageFile.  [path]: with slashes; [dir]: its parent path. *)
Definition empty_package (path dir : str) : package :=
  mkPackage path (complete_base_name path) [] [] [] [] [] [] [] [] [] [] None [(lit "pcfiledir", dir)].
Definition parse_file (o : options) (path dir contents : str) : result package :=
  match file_lines contents with Some l => parse_lines o (empty_package path dir) l | None => Err MissingBrace end.

(** ** After parsing *)

(** pcpackage.cpp 127-143 shouldRewriteSysroot. *)
Definition should_rewrite (sysroot value : str) : bool :=
  match sysroot, value with
  | [], _ | _, [] => false
  | _, c :: _ => (c =? 47) && negb (str_eqb sysroot [47]) && negb (starts_with sysroot value)
  end.
(** 147-173 prependSysroot. *)
Definition is_path (t : flag_type) : bool := match t with IncludePath | SystemIncludePath | DirAfterIncludePath | LibraryPath => true | _ => false end.
Definition prepend_flag (sysroot : str) (f : flag) : flag :=
  if should_rewrite sysroot (f_value f) && is_path (f_type f) then mkFlag (f_type f) (sysroot ++ f_value f) else f.
Definition prepend_sysroot (sysroot : str) (p : package) : package :=
  match sysroot with
  | [] => p
  | _ => with_flags p (map (prepend_flag sysroot) (pc_libs p)) (map (prepend_flag sysroot) (pc_libs_private p)) (map (prepend_flag sysroot) (pc_cflags p))
  end.
(** 175-195 removeSystemLibraryPaths. *)
Definition is_system (paths : list str) (f : flag) : bool := match f_type f with LibraryPath => mem_str (f_value f) paths | _ => false end.
Definition remove_system_paths (paths : list str) (p : package) : package :=
  let rm := filter (fun f => negb (is_system paths f)) in with_flags p (rm (pc_libs p)) (rm (pc_libs_private p)) (pc_cflags p).
Definition finish (paths : list str) (sysroot : str) (p : package) : package := prepend_sysroot sysroot (remove_system_paths paths p).

(** pkgconfig.cpp 128-148 getPackage: std::lower_bound in the vector that std::sort has sorted by base names.  Packages are represented by base name and whatever else. *)
Fixpoint lower_bound {A} (name : str) (l : list (str * A)) : option (str * A) :=
  match l with [] => None | e :: l => if str_leb name (fst e) then Some e else lower_bound name l end.
Definition get_package {A} (name : str) (l : list (str * A)) : option (str * A) :=
  match lower_bound name l with Some e => if str_eqb (fst e) name then Some e else None | None => None end.
