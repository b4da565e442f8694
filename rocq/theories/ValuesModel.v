(** Values of properties: the conversion to the declared type, the way into the
    configuration of the product as a variant, the way back into JavaScript where rules and
    commands see them, and the check for allowed values.

    Modelled: tools/scripttools.cpp 260-315, language/scriptengine.cpp 523-593 and 600-628,
    language/evaluator.cpp 330-467 and 487-508, loader/productresolver.cpp 1655-1718,
    language/propertydeclaration.cpp 343-383.

    Simplified: values are finite trees (a value that contains itself is cut off there by
    scripttools.cpp 274 and 295; functions are stored as their source code by the resolver).
    Dates are those of the years 0 to 9999. Texts have no unpaired surrogates, which are not
    kept by the conversion to UTF-8. A variant is null where it is invalid or has been made
    as a typed null (Qt 6). *)

From Coq Require Import List Bool Arith NArith ZArith.
From Verif Require Import Str.
Import ListNotations.
Local Open Scope N_scope.

(** Values of JavaScript. Numbers are those of QuickJS: integers of 32 bits, or floating
    point numbers (any others), which are opaque. The properties of an object are in the
    order in which JavaScript lists them. *)
Inductive value : Type :=
| Undef
| Null
| Bool (b : bool)
| Int (z : Z)
| Float (f : N)
| Text (s : str)
| Date (ms : Z)
| Buffer (b : list N)
| Arr (l : list value)
| Obj (props : list (str * value)).

(** Variants. [VNull] stands for the invalid variant and the typed nulls. *)
Inductive variant : Type :=
| VNull
| VBool (b : bool)
| VInt (z : Z)
| VLong (z : Z)
| VDouble (f : N)
| VText (s : str)
| VTexts (l : list str)
| VDate (ms : Z)
| VBytes (b : list N)
| VList (l : list variant)
| VMap (m : list (str * variant)).

(** The order of QString: by code units. *)
Fixpoint str_ltb (a b : str) : bool :=
  match a, b with
  | _, [] => false
  | [], _ :: _ => true
  | x :: a', y :: b' => (x <? y) || ((x =? y) && str_ltb a' b')
  end.

(** QMap::insert. *)
Fixpoint map_insert {A} (k : str) (v : A) (m : list (str * A)) : list (str * A) :=
  match m with
  | [] => [(k, v)]
  | (k', v') :: r =>
      if str_eqb k k' then (k, v) :: r
      else if str_ltb k k' then (k, v) :: m
      else (k', v') :: map_insert k v r
  end.

(** scripttools.cpp 260-310, getJsVariantImpl. *)
Fixpoint to_variant (v : value) : variant :=
  match v with
  | Text s => VText s
  | Bool b => VBool b
  | Buffer b => VBytes b
  | Arr l => VList (map to_variant l)
  | Date ms => VDate ms
  | Obj props =>
      VMap ((fix go (ps : list (str * value)) (m : list (str * variant)) :=
               match ps with
               | [] => m
               | (k, x) :: r => go r (map_insert k (to_variant x) m)
               end) props [])
  | Int z => VInt z
  | Float f => VDouble f
  | Null => VNull
  | Undef => VNull
  end.

(** The text up to the first null character: the functions of QuickJS get it without its
    length (scriptengine.cpp 566, scripttools.h 161-163). *)
Fixpoint c_string (s : str) : str :=
  match s with
  | [] => []
  | c :: r => if c =? 0 then [] else c :: c_string r
  end.

(** JS_SetProperty: replaces the value of a property, or appends the property. *)
Fixpoint set_prop {A} (k : str) (v : A) (m : list (str * A)) : list (str * A) :=
  match m with
  | [] => [(k, v)]
  | (k', v') :: r => if str_eqb k k' then (k, v) :: r else (k', v') :: set_prop k v r
  end.

(** The conversion of an integer of 64 bits to one of 32 bits (QVariant::toInt). *)
Definition wrap32 (z : Z) : Z := ((z + 2147483648) mod 4294967296 - 2147483648)%Z.

(** scriptengine.cpp 523-553, 556-593 and 600-628, asJsValue. The cache for the values of
    a configuration and freezing have no effect on what a value is. *)
Fixpoint of_variant (v : variant) : value :=
  match v with
  | VNull => Undef
  | VBytes b => Buffer b
  | VText s => Text (c_string s)
  | VTexts l => Arr (map (fun s => Text (c_string s)) l)
  | VList l => Arr (map of_variant l)
  | VInt z => Int z
  | VLong z => Int (wrap32 z)
  | VBool b => Bool b
  | VDate ms => Date ms
  | VMap m =>
      Obj ((fix go (ps : list (str * variant)) (o : list (str * value)) :=
              match ps with
              | [] => o
              | (k, x) :: r => go r (set_prop (c_string k) (of_variant x) o)
              end) m [])
  | VDouble _ => Undef
  end.

(** PropertyDeclaration::Type. *)
Inductive ptype := TUnknown | TBool | TInt | TPath | TPaths | TText | TTexts | TAny | TAnys.

(** PropertyDeclaration::isScalar. *)
Definition scalar (t : ptype) : bool :=
  match t with TPaths | TTexts | TAnys => false | _ => true end.

(** The outcome of a conversion: the errors of evaluator.cpp 335-341 and 420-440. *)
Inductive complaint := WrongType | ElementUndefined (i : nat) | ElementNull (i : nat)
  | ElementNotText (i : nat).
Inductive converted := Value_ (v : value) | Error_ (e : complaint).

Section Convert.

(** QDir::cleanPath(FileInfo::resolvePath(base, path)). *)
Variable resolve : str -> str -> str.
(** JS_ToBool for a floating point number: false for zeros and NaN. *)
Variable float_true : N -> bool.

(** evaluator.cpp 376-388: the directory for relative paths. The item is that of the scope
    of the value, if it has one, or the one with the property; given here is the source
    directory if it is a product. *)
Definition base_dir (path_properties_base_dir : str) (product_dir : option str) : str :=
  match path_properties_base_dir, product_dir with
  | [], Some d => d
  | b, _ => b
  end.

(** JS_ToBool. *)
Definition to_bool (v : value) : bool :=
  match v with
  | Undef | Null => false
  | Bool b => b
  | Int z => negb (z =? 0)%Z
  | Float f => float_true f
  | Text s => match s with [] => false | _ => true end
  | _ => true
  end.

(** evaluator.cpp 403-408 and 443-449: only paths are resolved, and only if there is a base
    directory. *)
Definition resolved (base s : str) : str := match base with [] => s | _ => resolve base s end.

(** evaluator.cpp 419-450: the loop over the elements, with the elements done so far. *)
Fixpoint elements (base : str) (i : nat) (l : list value) : converted :=
  match l with
  | [] => Value_ (Arr [])
  | x :: r =>
      match x with
      | Undef => Error_ (ElementUndefined i)
      | Null => Error_ (ElementNull i)
      | Text s =>
          match elements base (S i) r with
          | Value_ (Arr r') => Value_ (Arr (Text (resolved base s) :: r'))
          | e => e
          end
      | _ => Error_ (ElementNotText i)
      end
  end.

Definition as_list (v : value) : list value := match v with Arr l => l | _ => [v] end.

(** evaluator.cpp 389-465, the switch. *)
Definition convert_switch (base : str) (t : ptype) (v : value) : converted :=
  match t with
  | TUnknown | TAny => Value_ v
  | TBool => Value_ (Bool (to_bool v))
  | TInt => match v with Int _ | Float _ => Value_ v | _ => Error_ WrongType end
  | TPath => match v with Text s => Value_ (Text (resolved base s)) | _ => Error_ WrongType end
  | TText => match v with Text _ => Value_ v | _ => Error_ WrongType end
  | TPaths => elements base 0 (as_list v)
  | TTexts => elements [] 0 (as_list v)
  | TAnys => Value_ (Arr (as_list v))
  end.

(** evaluator.cpp 343-467 for ConversionType::Full. *)
Definition convert (base : str) (t : ptype) (v : value) : converted :=
  match v with
  | Undef => Value_ Undef
  | _ => convert_switch base t v
  end.

(** evaluator.cpp 359-370. *)
Definition element_type (t : ptype) : ptype :=
  match t with TTexts => TText | TPaths => TPath | TAnys => TAny | _ => t end.

(** evaluator.cpp 357-375 for ConversionType::ElementsOnly: a single value is converted to
    the type of an element first; then all goes on as in the other case. After an error the
    value is uninitialized, which then is an element that is not a text; for a list of any
    values there are no errors. *)
Definition convert_elements (base : str) (t : ptype) (v : value) : converted :=
  match v with
  | Undef => Value_ Undef
  | Arr _ => convert_switch base t v
  | _ => if scalar t then convert_switch base t v
         else match convert_switch base (element_type t) v with
              | Value_ w => convert_switch base t w
              | Error_ _ => Error_ (ElementNotText 0)
              end
  end.

(** evaluator.cpp 487-508: an undefined variant is an empty list (QTBUG-51237). *)
Definition convert_variant_value (base : str) (t : ptype) (v : value) : converted :=
  match v with
  | Undef => if scalar t then convert base t v else Value_ (Arr [])
  | _ => convert base t v
  end.

End Convert.

(** QVariant::toString and toStringList for the variants that occur here: after the
    conversion to the type, lists have texts only. *)
Definition to_text (v : variant) : str := match v with VText s => s | _ => [] end.
Definition to_texts (v : variant) : list str :=
  match v with VList l => map to_text l | VTexts l => l | VText s => [s] | _ => [] end.
Definition to_list (v : variant) : list variant := match v with VList l => l | _ => [] end.

(** productresolver.cpp 1664-1699: what is stored for a property with a source code. *)
Definition stored (t : ptype) (v : value) : variant :=
  let x := to_variant v in
  match t with
  | TPath => match x with VNull => VNull | _ => VText (to_text x) end
  | TPaths | TTexts => VTexts (to_texts x)
  | TAnys => VList (to_list x)
  | _ => x
  end.

(** What a rule or command sees (jsextensions/moduleproperties.cpp 97 and others). *)
Definition seen (t : ptype) (v : value) : value := of_variant (stored t v).

(** propertydeclaration.cpp 343-348. *)
Definition should_check (t : ptype) (allowed : list str) : bool :=
  match t with
  | TText | TTexts => match allowed with [] => false | _ => true end
  | _ => false
  end.

(** propertydeclaration.cpp 350-383: the values that are complained about, in order. *)
Definition rejected (t : ptype) (allowed : list str) (v : variant) : list str :=
  if should_check t allowed then
    match v with
    | VNull => []
    | _ => filter (fun s => negb (existsb (str_eqb s) allowed))
             (match t with TTexts => to_texts v | _ => [to_text v] end)
    end
  else [].
