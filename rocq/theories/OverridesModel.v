(** Property values on the command line: tools/setupprojectparameters.cpp (the tree of
    overridden values, and the caches of trees), language/item.cpp (overriding the
    properties of an item), loader/projectresolver.cpp (checking the keys),
    loader/productscollector.cpp and loader/moduleinstantiator.cpp (which items get which
    values).

    Values are texts. Not modelled: properties that sub-projects take over from their
    parents (the items are those after that), disabled projects and products, module
    providers, the multiplexing of products, and the first overriding of the
    properties of modules while they are loaded (moduleloader.cpp 333-339: the same
    values under the key for all products). *)

From Coq Require Import List Bool Arith NArith.
From Verif Require Import Str.
Import ListNotations.
Local Open Scope N_scope.

Notation value := str (only parsing).

(** QMap: [get] is value(), [put] is insert(). *)
Fixpoint get {V : Type} (k : str) (m : list (str * V)) : option V :=
  match m with
  | [] => None
  | (k', v) :: r => if str_eqb k' k then Some v else get k r
  end.

Fixpoint put {V : Type} (k : str) (v : V) (m : list (str * V)) : list (str * V) :=
  match m with
  | [] => [(k, v)]
  | (k', v') :: r => if str_eqb k' k then (k, v) :: r else (k', v') :: put k v r
  end.

(** * Trees of values *)

(** QString::lastIndexOf with left() and mid(): what is before and after the last dot. *)
Fixpoint split_last (s : str) : option (str * str) :=
  match s with
  | [] => None
  | c :: r =>
      match split_last r with
      | Some (a, b) => Some (c :: a, b)
      | None => if c =? 46 then Some ([], r) else None
      end
  end.

Inductive entry := Plain (v : value) | Sub (m : list (str * value)).
Definition tree := list (str * entry).

(** scripttools.cpp 53-64 with setupprojectparameters.cpp 428-434 *)
Definition set_property (t : tree) (name : str) (v : value) : tree :=
  match split_last name with
  | None => put name (Plain v) t
  | Some (a, b) => put a (Sub (put b v (match get a t with Some (Sub m) => m | _ => [] end))) t
  end.

(** setupprojectparameters.cpp 421-435 *)
Definition values_tree (values : list (str * value)) : tree :=
  fold_left (fun t p => set_property t (fst p) (snd p)) values [].

(** * Parameters and their caches *)

(** setupprojectparameters.cpp 82-108: the values and the trees that were computed
    from them; an empty tree is not computed yet. *)
Record params := Params {
  p_overridden : list (str * value);
  p_config : list (str * value);
  p_config_tree : tree;
  p_overridden_tree : tree;
  p_final_tree : tree
}.

(** 421-425 *)
Definition provide (values : list (str * value)) (t : tree) : tree :=
  match t with [] => values_tree values | _ => t end.

(** 528-540: the values of the configuration with the overridden ones put into it. *)
Definition final_values (config overridden : list (str * value)) : list (str * value) :=
  fold_left (fun c p => put (fst p) (snd p) c) overridden config.

Inductive operation :=
| SetOverridden (values : list (str * value))
| SetProfile                                       (* setTopLevelProfile, setConfigurationName *)
| Expand (config : list (str * value))             (* expandBuildConfiguration, with what it finds *)
| ReadConfig
| ReadOverridden
| ReadFinal.

Definition value_eqb (a b : str * value) : bool := str_eqb (fst a) (fst b) && str_eqb (snd a) (snd b).
Fixpoint values_eqb (a b : list (str * value)) : bool :=
  match a, b with
  | [], [] => true
  | x :: a, y :: b => value_eqb x y && values_eqb a b
  | _, _ => false
  end.

(** 193-215, 406-461, 513-526, 545-552. The result of reading. *)
Definition perform (o : operation) (s : params) : params * option tree :=
  match o with
  | SetOverridden values => (Params values (p_config s) (p_config_tree s) [] [], None)
  | SetProfile => (Params (p_overridden s) (p_config s) [] (p_overridden_tree s) [], None)
  | Expand config =>
      (if values_eqb (p_config s) config then s
       else Params (p_overridden s) config [] (p_overridden_tree s) (p_final_tree s), None)
  | ReadConfig =>
      let t := provide (p_config s) (p_config_tree s) in
      (Params (p_overridden s) (p_config s) t (p_overridden_tree s) (p_final_tree s), Some t)
  | ReadOverridden =>
      let t := provide (p_overridden s) (p_overridden_tree s) in
      (Params (p_overridden s) (p_config s) (p_config_tree s) t (p_final_tree s), Some t)
  | ReadFinal =>
      let t := provide (final_values (p_config s) (p_overridden s)) (p_final_tree s) in
      (Params (p_overridden s) (p_config s) (p_config_tree s) (p_overridden_tree s) t, Some t)
  end.

(** * Items *)

(** The declared properties with their types, and the values. *)
Record item := Item { i_decls : list (str * N); i_props : list (str * value) }.

Inductive error :=
| UnknownKey (key : str)
| UnknownProject (name : str)
| UnknownProduct (name : str)
| UnknownProperty (prefix name : str).

Section Convert.

(** propertydeclaration.cpp 301-324, from the type and the text. [None]: an error. *)
Variable convert : N -> value -> option value.

(** item.cpp 515-540. [None]: a value cannot be converted. Errors are collected here;
    in strict mode, the first one ends everything. *)
Fixpoint override_all (prefix : str) (l : list (str * value)) (i : item) : option (item * list error) :=
  match l with
  | [] => Some (i, [])
  | (x, v) :: r =>
      match get x (i_decls i) with
      | None => option_map (fun p => (fst p, UnknownProperty prefix x :: snd p)) (override_all prefix r i)
      | Some ty =>
          match convert ty v with
          | None => None
          | Some v => override_all prefix r (Item (i_decls i) (put x v (i_props i)))
          end
      end
  end.

(** item.cpp 373-384 *)
Definition override (t : tree) (key : str) (i : item) : option (item * list error) :=
  match get key t with
  | None => Some (i, [])
  | Some (Plain _) => Some (i, [])
  | Some (Sub m) => override_all key m i
  end.

Definition bind {X Y : Type} (x : option (X * list error)) (f : X -> option (Y * list error)) : option (Y * list error) :=
  match x with
  | None => None
  | Some (x, e) => option_map (fun p => (fst p, e ++ snd p)) (f x)
  end.

Fixpoint each {X Y : Type} (f : X -> option (Y * list error)) (l : list X) : option (list Y * list error) :=
  match l with
  | [] => Some ([], [])
  | x :: r => bind (f x) (fun y => bind (each f r) (fun ys => Some (y :: ys, [])))
  end.

Definition name_key : str := [110; 97; 109; 101].
Definition project_key : str := [112; 114; 111; 106; 101; 99; 116].
Definition projects_prefix : str := [112; 114; 111; 106; 101; 99; 116; 115; 46].
Definition products_prefix : str := [112; 114; 111; 100; 117; 99; 116; 115; 46].
Definition modules_prefix : str := [109; 111; 100; 117; 108; 101; 115; 46].
Definition qbs_key : str := [113; 98; 115].
Definition providers_key : str :=
  [109; 111; 100; 117; 108; 101; 80; 114; 111; 118; 105; 100; 101; 114; 115].

Definition name_of (i : item) : str := match get name_key (i_props i) with Some n => n | None => [] end.

(** productscollector.cpp 162-167, 270-274: the name, by default that of the file. *)
Definition with_name (file : str) (i : item) : item :=
  match name_of i with
  | [] => Item (i_decls i) (put name_key file (i_props i))
  | _ => i
  end.

(** A project or product: the base name of its file, its item, and the items of the
    modules it depends on. *)
Record part := Part { u_file : str; u_item : item; u_modules : list (str * item) }.

(** productscollector.cpp 160-173: the name of the project, and its item. *)
Definition override_project (t : tree) (u : part) : option ((str * item) * list error) :=
  bind (override t project_key (u_item u)) (fun i =>
  let i := with_name (u_file u) i in
  bind (override t (projects_prefix ++ name_of i) i) (fun j => Some ((name_of i, j), []))).

(** moduleinstantiator.cpp 206-229 *)
Definition override_module (t : tree) (product : str) (m : str * item) : option ((str * item) * list error) :=
  let '(name, i) := m in
  bind (override t (modules_prefix ++ name) i) (fun i =>
  bind (if str_eqb name qbs_key then override t name i else Some (i, [])) (fun i =>
  bind (override t (products_prefix ++ product ++ [46] ++ name) i) (fun i => Some ((name, i), [])))).

(** productscollector.cpp 269-277 and 305 *)
Definition override_product (t : tree) (u : part) : option ((str * item * list (str * item)) * list error) :=
  let i := with_name (u_file u) (u_item u) in
  bind (override t (products_prefix ++ name_of i) i) (fun i =>
  bind (each (override_module t (name_of i)) (u_modules u)) (fun ms => Some ((name_of i, i, ms), []))).

(** * Checking the keys *)

(** projectresolver.cpp 420-428 *)
Definition known_key (k : str) : bool :=
  existsb (fun p => starts_with (p ++ [46]) k)
    [project_key; removelast projects_prefix; removelast products_prefix; removelast modules_prefix;
     providers_key; qbs_key].

(** projectresolver.cpp 450-458, QString::mid: with a negative length, all the rest.
    The prefix ends with a dot. *)
Definition extract (prefix k : str) : str :=
  if starts_with prefix k then
    match split_last k with
    | None => []
    | Some (a, _) => if Nat.ltb (length a) (length prefix) then skipn (length prefix) k
                     else skipn (length prefix) a
    end
  else [].

Fixpoint before_dot (s : str) : str :=
  match s with
  | [] => []
  | c :: r => if c =? 46 then [] else c :: before_dot r
  end.

(** projectresolver.cpp 459-470 *)
Definition project_name (k : str) : str := extract projects_prefix k.
Definition product_name (k : str) : str :=
  match project_name k with
  | [] => before_dot (extract products_prefix k)
  | _ => []
  end.

Definition key_errors (values : list (str * value)) : list error :=
  flat_map (fun p => if known_key (fst p) then [] else [UnknownKey (fst p)]) values.

(** projectresolver.cpp 430-433, productscollector.cpp 694-708 *)
Definition project_errors (values : list (str * value)) (names : list str) : list error :=
  flat_map (fun p =>
    match project_name (fst p) with
    | [] => []
    | n => if known_key (fst p) && negb (existsb (str_eqb n) names) then [UnknownProject n] else []
    end) values.

(** productscollector.cpp 719-735, loaderutils.cpp 261-271: only products of this very
    name are looked at. *)
Definition product_errors (values : list (str * value)) (names : list str) : list error :=
  flat_map (fun p =>
    match extract products_prefix (fst p), project_name (fst p) with
    | _ :: _, [] =>
        let n := product_name (fst p) in
        if known_key (fst p) && negb (existsb (fun m => str_eqb m n && (str_eqb m n || starts_with (n ++ [46]) m)) names)
        then [UnknownProduct n] else []
    | _, _ => []
    end) values.

(** projectresolver.cpp 225-240 with productscollector.cpp 125-133. *)
Definition resolve (values : list (str * value)) (projects products : list part)
  : option ((list (str * item) * list (str * item * list (str * item))) * list error) :=
  let t := values_tree values in
  bind (Some (tt, key_errors values)) (fun _ =>
  bind (each (override_project t) projects) (fun js =>
  bind (each (override_product t) products) (fun ds =>
  Some ((js, ds), project_errors values (map fst js) ++ product_errors values (map (fun d => fst (fst d)) ds))))).

End Convert.
