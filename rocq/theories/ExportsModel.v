(** The mapping of prefixes in exported property values: ExportsResolver::adaptExportedPropertyValues,
    src/lib/corelib/loader/productresolver.cpp 1510-1580. *)
From Coq Require Import List Bool Arith NArith.
From Verif Require Import Str.
Import ListNotations.

(** QString operator<: by code units. *)
Fixpoint before (a b : str) : bool :=
  match a, b with
  | [], _ :: _ => true
  | _, [] => false
  | x :: a, y :: b => N.ltb x y || (N.eqb x y && before a b)
  end.
(** QVariantMap::insert. *)
Fixpoint put_key {A} (k : str) (v : A) (m : list (str * A)) : list (str * A) :=
  match m with
  | [] => [(k, v)]
  | (k', v') :: r => if str_eqb k k' then (k, v) :: r else if before k k' then (k, v) :: m else (k', v') :: put_key k v r
  end.
(** 1514-1526: the elements of prefixMapping, each with prefix and replacement. *)
Definition prefix_map (l : list (str * str)) : list (str * str) := fold_left (fun m e => put_key (fst e) (snd e) m) l [].

(** QString::contains. *)
Fixpoint contains (s w : str) : bool :=
  starts_with w s || match s with [] => false | _ :: r => contains r w end.

(** Values; those that are neither texts, lists of texts nor maps are not looked into. *)
Inductive exported :=
| XText (s : str)
| XTexts (l : list str)
| XMap (m : list (str * exported))
| XList (l : list exported)
| XOther (x : N).

Section Adapt.
  (** QString::toLower; name and build directory of the product made to find out what is exported. *)
  Variable lower : str -> str.
  Variables (shadow_name shadow_dir : str).

  (** 1527-1531: valueRefersToImportingProduct. *)
  Definition refers (s : str) : bool := contains (lower s) (lower shadow_name) || contains s shadow_dir.
  (** 1532-1539: stringMapper. *)
  Fixpoint map_text (m : list (str * str)) (s : str) : str :=
    match m with
    | [] => s
    | (p, r) :: rest => if starts_with p s then r ++ skipn (length p) s else map_text rest s
    end.
  (** 1540-1549: stringListMapper. *)
  Definition map_texts (m : list (str * str)) (l : list str) : list str :=
    flat_map (fun s => if refers s then [] else [map_text m s]) l.
  (** 1550-1567: mapper. *)
  Fixpoint map_value (m : list (str * str)) (v : exported) : exported :=
    match v with
    | XText s => XText (map_text m s)
    | XTexts l => XTexts (map_texts m l)
    | XMap e => XMap (map (fun kv => (fst kv, map_value m (snd kv))) e)
    | XList l => XList l
    | XOther x => XOther x
    end.
  (** 1568-1576, for one of the maps; the property prefixMapping itself has been taken out. *)
  Definition adapt (mapping : list (str * str)) (props : list (str * exported)) : list (str * exported) :=
    map (fun kv => (fst kv, map_value (prefix_map mapping) (snd kv))) props.
End Adapt.
