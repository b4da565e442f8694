(** Module providers: finding the file of a provider, running it, the cache of
    results within a run and over runs, and the removal of the output of dry
    runs.

    Code: src/lib/corelib/loader/moduleproviderloader.cpp,
    src/lib/corelib/language/moduleproviderinfo.h,
    src/lib/corelib/language/language.cpp,
    src/lib/corelib/buildgraph/buildgraphloader.cpp.

    Simplified: a configuration is a text, and so are the values of the qbs
    module that providers see; the hash of both that names the output directory
    is taken to be injective, so that the directory is known by the provider's
    name and the two texts. Errors in provider files are not modelled. The lock
    around the cache is held while a provider runs, so requests come one after
    the other. *)

From Coq Require Import List Bool NArith.
From Verif Require Import Str.
Import ListNotations.
Open Scope list_scope.

(** A qualified name, from the outer to the inner part. *)
Definition qname := list str.

Inductive lookup_type := Named | Scoped.

(** The two places for a provider under a search path
    (moduleproviderloader.cpp 266-281). *)
Inductive place := NamedFile (sp : str) (n : qname) | ScopedFile (sp : str) (n : qname).

(** A provider file: whether it is eager and what it gives, for a
    configuration and the values of the qbs module, and if it is not eager for
    the name of a module. The result is a list of relative search paths, empty
    if the condition is false. *)
Record provider := Provider {
  eager : str -> str -> bool;
  gives : str -> str -> option qname -> list str }.

(** The file system, as far as provider files are concerned. *)
Definition world := place -> option provider.

Record request := Request {
  paths : list str;       (* the search paths at the time of the request *)
  pname : qname;          (* the name of the provider *)
  wanted : qname;         (* the name of the module *)
  config : str;
  qbs : str;
  how : lookup_type }.

Definition is_there (w : world) (p : place) : bool :=
  match w p with Some _ => true | None => false end.

(** moduleproviderloader.cpp 261-289, findModuleProviderFile. *)
Fixpoint find_file (w : world) (sps : list str) (n : qname) (l : lookup_type)
  : option place :=
  match sps with
  | [] => None
  | sp :: r =>
      let p := match l with
               | Named => if is_there w (NamedFile sp n) then NamedFile sp n
                          else ScopedFile sp n
               | Scoped => ScopedFile sp n
               end in
      if is_there w p then Some p else find_file w r n l
  end.

(** moduleproviderinfo.h 93-100: the key of the cache; no module name stands for
    the empty one of an eager provider. *)
Record key := Key {
  k_name : qname; k_module : option qname; k_config : str; k_qbs : str; k_how : lookup_type }.

Definition dir := (qname * str * str)%type.

(** moduleproviderinfo.h 55-91: the file, the search paths as output directory
    and relative path, whether the output is transient. *)
Record info := Info {
  i_file : option place;
  i_paths : list (dir * str);
  i_transient : bool }.

Fixpoint name_eqb (a b : qname) : bool :=
  match a, b with
  | [], [] => true
  | x :: a, y :: b => str_eqb x y && name_eqb a b
  | _, _ => false
  end.

Definition module_eqb (a b : option qname) : bool :=
  match a, b with
  | None, None => true
  | Some a, Some b => name_eqb a b
  | _, _ => false
  end.

Definition how_eqb (a b : lookup_type) : bool :=
  match a, b with Named, Named | Scoped, Scoped => true | _, _ => false end.

Definition key_eqb (a b : key) : bool :=
  name_eqb (k_name a) (k_name b) && module_eqb (k_module a) (k_module b)
  && str_eqb (k_config a) (k_config b) && str_eqb (k_qbs a) (k_qbs b)
  && how_eqb (k_how a) (k_how b).

Definition cache := list (key * info).

Fixpoint find_info (c : cache) (k : key) : option info :=
  match c with
  | [] => None
  | (k', i) :: r => if key_eqb k k' then Some i else find_info r k
  end.

Definition key_of (r : request) (m : option qname) : key :=
  Key (pname r) m (config r) (qbs r) (how r).

Definition dir_of (r : request) : dir := (pname r, config r, qbs r).

(** The state of a run: the cache, the output directories on disk, the
    providers that were run (their files are the ones read). *)
Record state := State { infos : cache; dirs : list dir; ran : list (key * place) }.

(** moduleproviderloader.cpp 152-189, findOrCreateProviderInfo, with 337-404,
    evaluateModuleProvider. A provider is taken to create its output directory
    if it gives a search path. *)
Definition ask (w : world) (dry : bool) (r : request) (s : state) : info * state :=
  match find_info (infos s) (key_of r None) with
  | Some i => (i, s)
  | None =>
      match find_info (infos s) (key_of r (Some (wanted r))) with
      | Some i => (i, s)
      | None =>
          match find_file w (paths r) (pname r) (how r) with
          | None =>
              let i := Info None [] false in
              (i, State ((key_of r (Some (wanted r)), i) :: infos s) (dirs s) (ran s))
          | Some p =>
              match w p with
              | None =>
                  let i := Info None [] false in
                  (i, State ((key_of r (Some (wanted r)), i) :: infos s) (dirs s) (ran s))
              | Some pr =>
                  let e := eager pr (config r) (qbs r) in
                  let m := if e then None else Some (wanted r) in
                  let ps := gives pr (config r) (qbs r) m in
                  let i := Info (Some p) (map (fun x => (dir_of r, x)) ps) dry in
                  (i, State ((key_of r m, i) :: infos s)
                            (match ps with [] => dirs s | _ => dir_of r :: dirs s end)
                            ((key_of r m, p) :: ran s))
              end
          end
      end
  end.

Fixpoint ask_all (w : world) (dry : bool) (rs : list request) (s : state)
  : list info * state :=
  match rs with
  | [] => ([], s)
  | r :: rest =>
      let '(i, s1) := ask w dry r s in
      let '(l, s2) := ask_all w dry rest s1 in
      (i :: l, s2)
  end.

(** buildgraphloader.cpp 364-365: the stored infos are used unless the running
    of probes is forced; transient is not stored
    (moduleproviderinfo.h 78-90). *)
Definition restored (force : bool) (stored : cache) : cache :=
  if force then []
  else map (fun e => (fst e, Info (i_file (snd e)) (i_paths (snd e)) false)) stored.

Definition start (force : bool) (stored : cache) (ds : list dir) : state :=
  State (restored force stored) ds [].

(** language.cpp 685-694, cleanupModuleProviderOutput: the directory of the
    provider's name is removed, with the output for all configurations. *)
Definition cleanup (c : cache) (ds : list dir) : list dir :=
  filter (fun d =>
    negb (existsb (fun e => i_transient (snd e) && name_eqb (fst (fst d)) (k_name (fst e))) c)) ds.

(** The disk between runs: what is stored and the output directories. *)
Record disk := Disk { stored : cache; present : list dir }.

(** A run that resolves the project. A dry run stores nothing
    (language.cpp 647-670 is not reached) and its output is removed. *)
Definition resolve (w : world) (dry force : bool) (rs : list request) (d : disk)
  : list info * list (key * place) * disk :=
  let '(l, s) := ask_all w dry rs (start force (stored d) (present d)) in
  (l, ran s,
   if dry then Disk (stored d) (cleanup (infos s) (dirs s))
   else Disk (infos s) (dirs s)).

(** ** The providers to run for a module *)

(** All prefixes, the longest first. *)
Fixpoint up_to (n : nat) (m : qname) : list qname :=
  match n with
  | O => []
  | S k => firstn n m :: up_to k m
  end.

(** moduleproviderloader.cpp 85-97. *)
Definition to_run (named : option (list qname)) (m : qname) : list (qname * lookup_type) :=
  match named with
  | Some l => map (fun n => (n, Named)) l
  | None => map (fun n => (n, Scoped)) (up_to (length m) m)
  end.

Inductive outcome := Unknown (n : qname) | Paths (found : bool) (l : list (dir * str)).

(** moduleproviderloader.cpp 110-150, executeModuleProvidersHelper. *)
Fixpoint execute (w : world) (dry : bool) (sps : list str) (m : qname)
  (conf : qname -> str) (q : str) (ps : list (qname * lookup_type)) (s : state)
  : outcome * state :=
  match ps with
  | [] => (Paths false [], s)
  | (n, h) :: r =>
      let '(i, s1) := ask w dry (Request sps n m (conf n) q h) s in
      match i_file i, h with
      | None, Named => (Unknown n, s1)
      | None, Scoped => execute w dry sps m conf q r s1
      | Some _, _ =>
          let '(o, s2) := execute w dry sps m conf q r s1 in
          (match o with
           | Unknown n' => Unknown n'
           | Paths _ l => Paths true (i_paths i ++ l)
           end, s2)
      end
  end.
