(** Model of the decision whether a stored project is used as it is or resolved again (src/lib/corelib/buildgraph/buildgraphloader.cpp
    108-151, 301-373, 473-660, 911-973), and of what the resolver records for it (language/scriptengine.cpp 780-809, 953-957;
    jsextensions/file.cpp 156-209, 262-269; loader/loaderutils.cpp 554-564, 858-868; loader/productresolver.cpp 895-905;
    loader/productscollector.cpp 321-341; language/language.cpp 509-522, 732-837; loader/projectresolver.cpp 222-304).

    The resolver itself is any program that asks for what it needs, and goes on in a way that depends on the answers, see [prog].

    Simplified: file contents, file names and property values are strings; times are numbers, 0 for a file that does not exist.  The
    world does not change while a project is resolved.  Expanding wildcards is a question to the world.  The environment is the adjusted
    one.  Maps are lists of pairs, of which the first with a key counts. *)
From Coq Require Import List Bool NArith.
From Verif Require Import Str.
Import ListNotations.
Open Scope N_scope.

Definition path := str.
Definition map := list (str * str).
Record info := { mtime : N; data : str }.
(** What the resolver and the loader see: files, sorted lists of directory entries by filter, paths without links, what is found for the
    wildcards of a group and the directories whose times are kept, and the flat configuration of a profile. *)
Record world := {
  file : path -> option info; entries : path -> N -> list str; canonical : path -> path;
  found : str -> list path; found_in : str -> list path; profile : str -> map }.
Record params := {
  env : map; overridden : map; top_profile : str; override : bool;
  only_restore : bool; force_resolve : bool; force_probes : bool }.

Inductive query :=
| Read (p : path)                  (** a qbs file or an imported JavaScript file *)
| Config (key : str)               (** a value of the build configuration *)
| ProfileConfig (name key : str)   (** the same, for the profile of a product *)
| Env (var : str)
| Exists (p : path) | Entries (p : path) (filter : N) | Modified (p : path)
| Canonical (p : path)             (** File.canonicalFilePath() *)
| Source (product : str) (p : path)       (** is there this source file? *)
| Wildcards (product spec : str)
| Content (p : path).              (** a file opened with TextFile, BinaryFile or the like *)
Inductive answer := Flag (b : bool) | Data (d : option str) | Names (l : list str) | Time (t : N).
Record product := { p_name : str; p_file : path }.
(** The resolver: in the end there are products, the directories into which module providers wrote, whether there are probes, and all the rest. *)
Inductive prog :=
| Ret (products : list product) (providers : list path) (probes : bool) (rest : str)
| Ask (q : query) (k : answer -> prog).

Fixpoint lookup {A} (k : str) (m : list (str * A)) : option A :=
  match m with [] => None | (k', v) :: m => if str_eqb k k' then Some v else lookup k m end.
Fixpoint put {A} (k : str) (v : A) (m : list (str * A)) : list (str * A) :=
  match m with [] => [(k, v)] | (k', v') :: m => if str_eqb k k' then (k, v) :: m else (k', v') :: put k v m end.
Definition is_none {A} (o : option A) : bool := match o with None => true | _ => false end.
Definition opt_eqb (a b : option str) : bool :=
  match a, b with None, None => true | Some x, Some y => str_eqb x y | _, _ => false end.
(** qVariantMapsEqual, and comparing two environments. *)
Definition map_eqb (a b : map) : bool := forallb (fun k => opt_eqb (lookup k a) (lookup k b)) (List.map fst a ++ List.map fst b).
Fixpoint list_eqb (a b : list str) : bool :=
  match a, b with [], [] => true | x :: a, y :: b => str_eqb x y && list_eqb a b | _, _ => false end.
Definition mem (x : str) (l : list str) : bool := existsb (str_eqb x) l.
(** setupprojectparameters.cpp 528-540. *)
Definition final (flat over : map) : map := over ++ flat.
Definition exists_now (w : world) (p : path) : bool := negb (is_none (file w p)).
Definition last_modified (w : world) (p : path) : N := match file w p with Some i => mtime i | None => 0 end.

Definition ask (w : world) (pa : params) (q : query) : answer :=
  match q with
  | Read p | Content p => Data (option_map data (file w p))
  | Config k => Data (lookup k (final (profile w (top_profile pa)) (overridden pa)))
  | ProfileConfig n k => Data (lookup k (final (profile w n) (overridden pa)))
  | Env v => Data (lookup v (env pa))
  | Exists p | Source _ p => Flag (exists_now w p)
  | Entries p f => Names (entries w p f)
  | Modified p => Time (last_modified w p)
  | Canonical p => Names [canonical w p]
  | Wildcards _ s => Names (found w s)
  end.

Record wildcards := { w_spec : str; w_found : list path; w_dirs : list (path * N) }.
Record record := {
  r_files : list path; r_exists : list (path * bool); r_entries : list (path * N * list str); r_modified : list (path * N);
  r_canonical : list (path * path); r_profiles : list (str * map);
  r_missing : list (str * path); r_wildcards : list (str * wildcards) }.
Definition empty : record :=
  {| r_files := []; r_exists := []; r_entries := []; r_modified := []; r_canonical := []; r_profiles := []; r_missing := []; r_wildcards := [] |}.
Fixpoint put_entries (p : path) (f : N) (l : list str) (m : list (path * N * list str)) : list (path * N * list str) :=
  match m with
  | [] => [(p, f, l)]
  | (p', f', l') :: m => if str_eqb p p' && (f =? f') then (p, f, l) :: m else (p', f', l') :: put_entries p f l m
  end.
(** What is kept of an answer.  Nothing calls addCanonicalFilePathResult: [r_canonical] stays empty. *)
Definition note (w : world) (q : query) (r : record) : record :=
  let with_files v := {| r_files := v; r_exists := r_exists r; r_entries := r_entries r; r_modified := r_modified r; r_canonical := r_canonical r;
                         r_profiles := r_profiles r; r_missing := r_missing r; r_wildcards := r_wildcards r |} in
  let with_exists v := {| r_files := r_files r; r_exists := v; r_entries := r_entries r; r_modified := r_modified r; r_canonical := r_canonical r;
                          r_profiles := r_profiles r; r_missing := r_missing r; r_wildcards := r_wildcards r |} in
  let with_entries v := {| r_files := r_files r; r_exists := r_exists r; r_entries := v; r_modified := r_modified r; r_canonical := r_canonical r;
                           r_profiles := r_profiles r; r_missing := r_missing r; r_wildcards := r_wildcards r |} in
  let with_modified v := {| r_files := r_files r; r_exists := r_exists r; r_entries := r_entries r; r_modified := v; r_canonical := r_canonical r;
                            r_profiles := r_profiles r; r_missing := r_missing r; r_wildcards := r_wildcards r |} in
  let with_profiles v := {| r_files := r_files r; r_exists := r_exists r; r_entries := r_entries r; r_modified := r_modified r; r_canonical := r_canonical r;
                            r_profiles := v; r_missing := r_missing r; r_wildcards := r_wildcards r |} in
  let with_missing v := {| r_files := r_files r; r_exists := r_exists r; r_entries := r_entries r; r_modified := r_modified r; r_canonical := r_canonical r;
                           r_profiles := r_profiles r; r_missing := v; r_wildcards := r_wildcards r |} in
  let with_wildcards v := {| r_files := r_files r; r_exists := r_exists r; r_entries := r_entries r; r_modified := r_modified r; r_canonical := r_canonical r;
                             r_profiles := r_profiles r; r_missing := r_missing r; r_wildcards := v |} in
  match q with
  | Read p => with_files (if mem p (r_files r) then r_files r else r_files r ++ [p])
  | ProfileConfig n _ => with_profiles (put n (profile w n) (r_profiles r))
  | Exists p => with_exists (put p (exists_now w p) (r_exists r))
  | Entries p f => with_entries (put_entries p f (entries w p f) (r_entries r))
  | Modified p => with_modified (put p (last_modified w p) (r_modified r))
  | Source pr p => if exists_now w p then r else with_missing (r_missing r ++ [(pr, p)])
  | Wildcards pr s =>
      with_wildcards (r_wildcards r
        ++ [(pr, {| w_spec := s; w_found := found w s; w_dirs := List.map (fun d => (d, last_modified w d)) (found_in w s) |})])
  | Config _ | Env _ | Canonical _ | Content _ => r
  end.

Record stored := {
  s_products : list product; s_providers : list path; s_probes : bool; s_rest : str; s_record : record;
  s_start : N; s_end : N; s_env : map; s_overridden : map; s_profile : str; s_config : map }.
Fixpoint run (w : world) (pa : params) (p : prog) (r : record) : list product * list path * bool * str * record :=
  match p with
  | Ret ps pv pb rest => (ps, pv, pb, rest, r)
  | Ask q k => run w pa (k (ask w pa q)) (note w q r)
  end.
(** ProjectResolver::resolve, from the times [start] to [stop]. *)
Definition resolve (w : world) (pa : params) (p : prog) (start stop : N) : stored :=
  let '(ps, pv, pb, rest, r) := run w pa p empty in
  {| s_products := ps; s_providers := pv; s_probes := pb; s_rest := rest; s_record := r; s_start := start; s_end := stop;
     s_env := env pa; s_overridden := overridden pa; s_profile := top_profile pa;
     s_config := final (profile w (top_profile pa)) (overridden pa) |}.

(** 588-634: hasProductFileChanged, for one product; language.cpp 828-837. *)
Definition wildcards_changed (w : world) (g : wildcards) : bool :=
  existsb (fun e : path * N => snd e <? last_modified w (fst e)) (w_dirs g) || negb (list_eqb (w_found g) (found w (w_spec g))).
Definition product_changed (st : stored) (w : world) (p : product) : bool :=
  match file w (p_file p) with
  | None => true
  | Some i =>
      (s_start st <? mtime i)
      || existsb (fun e : str * path => str_eqb (fst e) (p_name p) && exists_now w (snd e)) (r_missing (s_record st))
      || existsb (fun e : str * wildcards => str_eqb (fst e) (p_name p) && wildcards_changed w (snd e)) (r_wildcards (s_record st))
  end.
(** 636-660: hasBuildSystemFileChanged. *)
Definition file_changed (st : stored) (w : world) (p : path) : bool :=
  match file w p with
  | None => true
  | Some i => (if existsb (fun d => starts_with d p) (s_providers st) then s_end st else s_start st) <? mtime i
  end.
(** LD_PRELOAD *)
Definition ld_preload : str := [76; 68; 95; 80; 82; 69; 76; 79; 65; 68].
Definition without (k : str) (m : map) : map := filter (fun e => negb (str_eqb k (fst e))) m.
(** 511-533. *)
Definition env_changed (st : stored) (pa : params) : bool :=
  override pa && negb (map_eqb (without ld_preload (s_env st)) (without ld_preload (env pa))).
(** 911-973: checkConfigCompatibility, [None] is an error. *)
Definition given_profile (st : stored) (pa : params) : str := match top_profile pa with [] => s_profile st | p => p end.
Definition config_same (st : stored) (pa : params) (w : world) : option bool :=
  if override pa then
    Some (map_eqb (final (profile w (given_profile st pa)) (overridden pa)) (s_config st)
          && forallb (fun e : str * map => map_eqb (final (profile w (fst e)) (overridden pa)) (final (snd e) (s_overridden st)))
               (r_profiles (s_record st)))
  else if (match overridden pa with [] => false | _ => true end) && negb (map_eqb (overridden pa) (s_overridden st)) then None
  else if negb (str_eqb (given_profile st pa) (s_profile st)) then None
  else Some true.
Inductive outcome := Rejected | Keep | ReResolve.
(** 108-151 and 301-349. *)
Definition track (st : stored) (pa : params) (w : world) : outcome :=
  if only_restore pa then Keep
  else
    match config_same st pa w with
    | None => Rejected
    | Some same =>
        let remaining := filter (fun f => negb (mem f (List.map p_file (s_products st)))) (r_files (s_record st)) in
        if negb same
           || existsb (product_changed st w) (s_products st)
           || (force_probes pa && s_probes st)
           || existsb (file_changed st w) remaining
           || env_changed st pa
           || existsb (fun e : path * path => negb (str_eqb (canonical w (fst e)) (snd e))) (r_canonical (s_record st))
           || existsb (fun e : path * bool => negb (Bool.eqb (exists_now w (fst e)) (snd e))) (r_exists (s_record st))
           || existsb (fun e : path * N * list str => negb (list_eqb (entries w (fst (fst e)) (snd (fst e))) (snd e))) (r_entries (s_record st))
           || existsb (fun e : path * N => negb (last_modified w (fst e) =? snd e)) (r_modified (s_record st))
           || force_resolve pa
        then ReResolve else Keep
    end.
