(** The parameters of dependencies: merging those from all the places where a
    product, or a module of it, depends on a module.

    Code: src/lib/corelib/loader/loaderutils.cpp 892-970,
    src/lib/corelib/loader/productresolver.cpp 424-462,
    src/lib/corelib/loader/dependenciesresolver.cpp 407-434.

    A parameter map is a tree, as the keys of the outer levels are the parts of
    module names. Values other than maps are leaves: numbers stand for them, and
    [None] for undefined. Not modelled: the evaluating of parameters, and the
    text of the message about conflicts (but its paths and values). *)

From Coq Require Import List Bool ZArith NArith.
From Verif Require Import Str.
Import ListNotations.

Inductive value :=
| Leaf (v : option N)
| Node (m : list (str * value)).

Definition tree := list (str * value).
Definition path := list str.

Fixpoint lookup (k : str) (m : tree) : option value :=
  match m with
  | [] => None
  | (k', v) :: r => if str_eqb k' k then Some v else lookup k r
  end.

Fixpoint store (k : str) (v : value) (m : tree) : tree :=
  match m with
  | [] => [(k, v)]
  | (k', w) :: r => if str_eqb k' k then (k, v) :: r else (k', w) :: store k v r
  end.

(** QVariant::toMap: a value that is not a map gives the empty one. *)
Definition to_map (v : option value) : tree :=
  match v with Some (Node m) => m | _ => [] end.

(** loaderutils.cpp 905-912: the path, the old value, and the new one. *)
Definition conflict := (path * option value * option N)%type.

Definition path_eqb : path -> path -> bool :=
  fix eqb a b :=
    match a, b with
    | [], [] => true
    | x :: a, y :: b => str_eqb x y && eqb a b
    | _, _ => false
    end.

(** qttools.h 231-242 for two values one of which is not a map. *)
Definition same_value (old : value) (new : option N) : bool :=
  match old, new with
  | Leaf (Some a), Some b => N.eqb a b
  | Leaf None, None => true
  | _, _ => false
  end.

(** loaderutils.cpp 960: the old value is valid. *)
Definition valid (old : option value) : bool :=
  match old with None | Some (Leaf None) => false | _ => true end.

(** loaderutils.cpp 947-970: merge, for one value. [same]: the priority is that
    of the candidate before. [at_path]: m_path. *)
Fixpoint merge_value (same : bool) (at_path : path) (old : option value) (new : value)
  (conflicts : list conflict) : value * list conflict :=
  match new with
  | Node m =>
      let '(r, conflicts) :=
        (fix go (m : tree) (current : tree) (conflicts : list conflict) : tree * list conflict :=
           match m with
           | [] => (current, conflicts)
           | (k, v) :: r =>
               let '(w, conflicts) := merge_value same (at_path ++ [k]) (lookup k current) v conflicts in
               go r (store k w current) conflicts
           end) m (to_map old) conflicts in
      (Node r, conflicts)
  | Leaf v =>
      (Leaf v,
       if same
       then match old with
            | Some o =>
                if valid old && negb (same_value o v)
                then conflicts ++ [(at_path, old, v)] else conflicts
            | None => conflicts
            end
       else filter (fun c => negb (path_eqb at_path (fst (fst c)))) conflicts)
  end.

Record state := State { s_value : tree; s_prio : Z; s_conflicts : list conflict }.

Definition candidate := (tree * Z)%type.

Definition int_min : Z := -2147483648.
Definition int_max : Z := 2147483647.

(** loaderutils.cpp 928-931. *)
Definition step (s : state) (c : candidate) : state :=
  let '(v, conflicts) :=
    merge_value (Z.eqb (s_prio s) (snd c)) [] (Some (Node (s_value s))) (Node (fst c)) (s_conflicts s) in
  State (to_map (Some v)) (snd c) conflicts.

(** loaderutils.cpp 926-945: merge; the list of conflicts is an exception if it
    is not empty. *)
Definition merge (candidates : list candidate) : tree + list conflict :=
  let s := fold_left step candidates (State [] int_min []) in
  match s_conflicts s with [] => inl (s_value s) | l => inr l end.

(** loaderutils.cpp 921-924: for two maps of the same place. *)
Definition merge_two (a b : tree) : tree + list conflict := merge [(a, 0%Z); (b, 0%Z)].

(** productresolver.cpp 454-457: std::lower_bound and insert. *)
Fixpoint insert_sorted (c : candidate) (l : list candidate) : list candidate :=
  match l with
  | [] => [c]
  | d :: r => if Z.ltb (snd d) (snd c) then d :: insert_sorted c r else c :: l
  end.

(** A place that depends on the module: its parameters, the length of the chain
    of dependencies up to it, and whether it is active (the product, or a module
    that is present). *)
Record place := Place { p_parameters : tree; p_depth : Z; p_active : bool }.

(** productresolver.cpp 436-457, with dependenciesresolver.cpp 407-411 for the
    priority. *)
Definition candidates (defaults : tree) (places : list place) : list candidate :=
  fold_left (fun l p =>
    match p_parameters p with
    | [] => l
    | _ => if p_active p then insert_sorted (p_parameters p, int_max - p_depth p)%Z l else l
    end) places [(defaults, int_min)].

(** productresolver.cpp 424-462 for one module. *)
Definition parameters_of (defaults : tree) (places : list place) : tree + list conflict :=
  merge (candidates defaults places).
