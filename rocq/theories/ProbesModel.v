(** Model of probes and of the re-use of their results (src/lib/corelib/loader/probesresolver.cpp 66-301, loader/loaderutils.cpp 502-553,
    language/language.cpp 110-117, language/scriptengine.cpp 380-404, loader/productresolver.cpp 631, buildgraph/buildgraphloader.cpp 361-370).

    A configure script is a program that may use imported files and look at anything else in the file system; which one is given by its text
    and the values of the properties of the probe, see [prog].

    Simplified: values are strings, and conversion to the type of a property is part of the program.  Names of properties come with their
    values in one list that is sorted, without condition and configure.  An import that is used gives the contents of its files.  The world
    does not change during a run, and the time of a run is one number.  Probes are looked at one after the other, in any given order. *)
From Coq Require Import List Bool NArith.
From Verif Require Import Str.
Import ListNotations.
Open Scope N_scope.

Definition path := str.
Definition props := list (str * str).
Record info := { mtime : N; data : str }.
Definition world := path -> option info.
Definition content (w : world) (p : path) : option str := option_map data (w p).
(** What the names of imports stand for in a file. *)
Definition scope := list (str * list path).
Inductive prog :=
| Done (values : str -> str)
| Import (name : str) (k : list (option str) -> prog)
| Look (p : path) (k : option str -> prog).

Fixpoint lookup {A} (k : str) (m : list (str * A)) : option A :=
  match m with [] => None | (k', v) :: m => if str_eqb k k' then Some v else lookup k m end.
Definition bound (s : scope) (n : str) : list path := match lookup n s with Some l => l | None => [] end.

(** A Probe item: the unique name of its product, or none if it belongs to a project or a module provider; global id; location; values. *)
Record item := {
  i_product : option str; i_id : str; i_loc : str; i_cond : bool; i_init : props; i_script : str; i_scope : scope }.
Record probe := {
  p_id : str; p_loc : str; p_cond : bool; p_script : str; p_init : props; p_values : props; p_imports : list (path * N) }.

(** scriptengine.cpp 380-404: the files of imports, each once, with the present time. *)
Definition add_file (now : N) (acc : list (path * N)) (p : path) : list (path * N) :=
  if existsb (fun e : path * N => str_eqb (fst e) p) acc then acc else acc ++ [(p, now)].
Fixpoint exec (w : world) (s : scope) (now : N) (p : prog) (used : list (path * N)) : (str -> str) * list (path * N) :=
  match p with
  | Done v => (v, used)
  | Import n k => exec w s now (k (map (content w) (bound s n))) (fold_left (add_file now) (bound s n) used)
  | Look f k => exec w s now (k (content w f)) used
  end.

Fixpoint props_eqb (a b : props) : bool :=
  match a, b with
  | [], [] => true
  | (k, v) :: a, (k', v') :: b => str_eqb k k' && str_eqb v v' && props_eqb a b
  | _, _ => false
  end.
(** language.cpp 110-117. *)
Definition needs_reconfigure (w : world) (p : probe) : bool :=
  existsb (fun e : path * N => match w (fst e) with None => true | Some i => snd e <? mtime i end) (p_imports p).
(** 291-301. *)
Definition probe_matches (w : world) (compare_script : bool) (i : item) (p : probe) : bool :=
  Bool.eqb (p_cond p) (i_cond i) && props_eqb (p_init p) (i_init i)
  && (negb compare_script || (str_eqb (p_script p) (i_script i) && negb (needs_reconfigure w p))).

(** What is stored with a project: probes of projects, and those of each product. *)
Record store := { in_project : list probe; in_product : list (str * list probe) }.
(** 251-277. *)
Definition find_old (w : world) (force : bool) (old : store) (i : item) : option probe :=
  if force then None
  else match i_product i with
       | None => find (fun p => str_eqb (p_id p) (i_id i) && probe_matches w true i p) (in_project old)
       | Some n => match lookup n (in_product old) with Some l => find (probe_matches w true i) l | None => None end
       end.
(** 279-289. *)
Definition find_current (w : world) (cur : list probe) (i : item) : option probe :=
  find (fun p => str_eqb (p_loc p) (i_loc i) && probe_matches w false i p) cur.

Section Resolve.
  Context (meaning : str -> props -> prog).
  Definition run_probe (w : world) (now : N) (i : item) : probe :=
    let '(values, used) :=
      if i_cond i then
        let '(f, used) := exec w (i_scope i) now (meaning (i_script i) (i_init i)) [] in
        (map (fun e : str * str => (fst e, f (fst e))) (i_init i), used)
      else (i_init i, []) in
    {| p_id := i_id i; p_loc := i_loc i; p_cond := i_cond i; p_script := i_script i; p_init := i_init i; p_values := values; p_imports := used |}.
  (** 101-249: the probe that the item gets its values from, probes resolved in this run, and whether the script was run. *)
  Definition resolve_probe (w : world) (now : N) (force : bool) (old : store) (cur : list probe) (i : item) : probe * list probe * bool :=
    match find_old w force old i with
    | Some p => (p, cur, false)
    | None =>
        match find_current w cur i with
        | Some p => (p, cur, false)
        | None => let p := run_probe w now i in (p, cur ++ [p], i_cond i)
        end
    end.
  Record result := { of : item; from : probe; ran : bool }.
  Fixpoint resolve_all (w : world) (now : N) (force : bool) (old : store) (cur : list probe) (items : list item) : list result :=
    match items with
    | [] => []
    | i :: items =>
        let '(p, cur, r) := resolve_probe w now force old cur i in
        {| of := i; from := p; ran := r |} :: resolve_all w now force old cur items
    end.
  (** 199-234: the values of the properties afterwards. *)
  Definition effective (r : result) : props :=
    map (fun e : str * str => (fst e, match lookup (fst e) (p_values (from r)) with Some v => v | None => snd e end)) (i_init (of r)).
  (** 244-247. *)
  Definition add_result (st : store) (r : result) : store :=
    match i_product (of r) with
    | None => {| in_project := in_project st ++ [from r]; in_product := in_product st |}
    | Some n =>
        {| in_project := in_project st;
           in_product := match lookup n (in_product st) with
                         | None => in_product st ++ [(n, [from r])]
                         | Some _ => map (fun e => if str_eqb (fst e) n then (n, snd e ++ [from r]) else e) (in_product st)
                         end |}
    end.
  Definition store_of (rs : list result) : store := fold_left add_result rs {| in_project := []; in_product := [] |}.

  (** A project that is resolved again and again. *)
  Record generation := { g_world : world; g_now : N; g_force : bool; g_items : list item }.
  Definition resolve_gen (old : store) (g : generation) : list result :=
    resolve_all (g_world g) (g_now g) (g_force g) old [] (g_items g).
  Fixpoint generations (old : store) (gs : list generation) : list (generation * list result) :=
    match gs with [] => [] | g :: gs => let rs := resolve_gen old g in (g, rs) :: generations (store_of rs) gs end.
End Resolve.
