(** Multiplexing: src/lib/corelib/loader/productitemmultiplexer.cpp, and the choice among the instances of a multiplexed dependency,
    src/lib/corelib/loader/dependenciesresolver.cpp 702-818.

    Strings are lists of Unicode code points here.  Values are those that JSON can have, with integers for numbers. *)
From Coq Require Import List Bool Arith NArith ZArith.
From Verif Require Import Str SettingsModel.
Import ListNotations.
Local Open Scope N_scope.

Inductive jv :=
| JNull
| JBool (b : bool)
| JNum (z : Z)
| JStr (s : str)
| JArr (l : list jv)
| JObj (l : list (str * jv)).

(** ** Configuration ids *)

(** QJsonDocument::toJson(Compact).  Strings: quotation marks, backslashes and control characters are escaped. *)
Definition hex (n : N) : N := if n <? 10 then 48 + n else 87 + n.
Definition json_char (c : N) : str :=
  if c =? 34 then [92; 34] else if c =? 92 then [92; 92]
  else if c =? 8 then [92; 98] else if c =? 12 then [92; 102] else if c =? 10 then [92; 110] else if c =? 13 then [92; 114] else if c =? 9 then [92; 116]
  else if c <? 32 then [92; 117; 48; 48; hex (c / 16); hex (c mod 16)]
  else [c].
Definition json_str (s : str) : str := 34 :: flat_map json_char s ++ [34].
Fixpoint json (v : jv) : str :=
  match v with
  | JNull => [110; 117; 108; 108]
  | JBool true => [116; 114; 117; 101]
  | JBool false => [102; 97; 108; 115; 101]
  | JNum z => dec_z z
  | JStr s => json_str s
  | JArr l => 91 :: (fix all (first : bool) (l : list jv) : str :=
                       match l with [] => [] | v :: l => (if first then [] else [44]) ++ json v ++ all false l end) true l ++ [93]
  | JObj l => 123 :: (fix all (first : bool) (l : list (str * jv)) : str :=
                        match l with [] => [] | (k, v) :: l => (if first then [] else [44]) ++ json_str k ++ [58] ++ json v ++ all false l end) true l ++ [125]
  end.

(** UTF-8. *)
Definition utf8_char (c : N) : list N :=
  if c <? 128 then [c]
  else if c <? 2048 then [192 + c / 64; 128 + c mod 64]
  else if c <? 65536 then [224 + c / 4096; 128 + (c / 64) mod 64; 128 + c mod 64]
  else [240 + c / 262144; 128 + (c / 4096) mod 64; 128 + (c / 64) mod 64; 128 + c mod 64].
Definition utf8 (s : str) : list N := flat_map utf8_char s.

(** QByteArray::toBase64. *)
Definition sextet (n : N) : N :=
  if n <? 26 then 65 + n else if n <? 52 then 71 + n else if n <? 62 then n - 4 else if n =? 62 then 43 else 47.
Fixpoint base64 (s : list N) : str :=
  match s with
  | [] => []
  | [a] => [sextet (a / 4); sextet (a mod 4 * 16); 61; 61]
  | [a; b] => [sextet (a / 4); sextet (a mod 4 * 16 + b / 16); sextet (b mod 16 * 4); 61]
  | a :: b :: c :: s => sextet (a / 4) :: sextet (a mod 4 * 16 + b / 16) :: sextet (b mod 16 * 4 + c / 64) :: sextet (c mod 64) :: base64 s
  end.

(** QVariantMap::insert: entries in the order of the keys. *)
Definition config := list (str * jv).
Fixpoint config_insert (m : config) (k : str) (v : jv) : config :=
  match m with
  | [] => [(k, v)]
  | (k', v') :: m' =>
      if str_eqb k' k then (k, v) :: m'
      else if str_leb k k' then (k, v) :: m
      else (k', v') :: config_insert m' k v
  end.
(** productitemmultiplexer.cpp 240-259 toIdString, with the configuration it stores. *)
Fixpoint row_config (m : config) (props : list str) (row : list jv) : config :=
  match props, row with
  | p :: props, v :: row => row_config (config_insert m p v) props row
  | _, _ => m
  end.
Definition id_of (c : config) : str := base64 (utf8 (json (JObj c))).
Definition row_id (props : list str) (row : list jv) : str := id_of (row_config [] props row).

(** ** The table *)

(** The value of a qbs property that is multiplexed by. *)
Inductive axis := Undefined | NotAnArray | Values (l : list jv).

(** 214-238 combine. *)
Definition combine (table : list (list jv)) (values : list jv) : list (list jv) :=
  match table with
  | [] => map (fun v => [v]) values
  | _ => flat_map (fun row => map (fun v => row ++ [v]) values) table
  end.

Inductive extracted := NoEntry (key : str) | MustBeArray (key : str) | Info (props : list str) (table : list (list jv)).

(** 193-206: values that are equal to an earlier one are left out.  [eqv]: the comparison of QVariant. *)
Fixpoint unique_values (eqv : jv -> jv -> bool) (seen l : list jv) : list jv :=
  match l with
  | [] => []
  | v :: l => if existsb (fun w => eqv w v) seen then unique_values eqv seen l else v :: unique_values eqv (seen ++ [v]) l
  end.

(** 176-211, the loop of extractMultiplexInfo.  [mapped]: the entry in the map of properties, empty if there is none; [axes]: values
    of the qbs properties. *)
Fixpoint extract (eqv : jv -> jv -> bool) (mapped : str -> str) (axes : str -> axis) (keys : list str) (used props : list str) (table : list (list jv)) : extracted :=
  match keys with
  | [] => Info props table
  | key :: keys =>
      match mapped key with
      | [] => NoEntry key
      | p =>
          if mem_str p used then extract eqv mapped axes keys used props table
          else match axes key with
               | Undefined => extract eqv mapped axes keys (p :: used) props table
               | NotAnArray => MustBeArray key
               | Values [] => extract eqv mapped axes keys (p :: used) props table
               | Values l => extract eqv mapped axes keys (p :: used) (props ++ [p]) (combine table (unique_values eqv [] l))
               end
      end
  end.

(** ** Instances *)

(** An instance: whether an id is set and which one, the values of the qbs module that are set, and, for the aggregator, the ids of the instances that it
    depends on. *)
Record instance := mkInstance { i_id : option str; i_values : list (str * jv); i_depends : list str }.

(** 97-153 multiplex: all instances, the first of which is the original item, which exists in any case. *)
Definition row_instance (many : bool) (props : list str) (row : list jv) : instance :=
  mkInstance (if many then Some (row_id props row) else None) (List.combine props row) [].
Definition multiplex (aggregate : bool) (props : list str) (table : list (list jv)) : list instance :=
  let many := (match table with _ :: _ :: _ => true | _ => false end) || aggregate in
  (match table with [] => [mkInstance None [] []] | _ => map (row_instance many props) table end)
  ++ (if aggregate then [mkInstance None [] (if many then map (row_id props) table else [])] else []).

(** ** Dependencies on multiplexed products *)

(** A product: the id, empty if it is not multiplexed, the configuration stored for the id, and the name of the profile. *)
Record product := mkProduct { p_id : str; p_config : config; p_profile : str }.

(** dependenciesresolver.cpp 755-765.  [eqv]: qVariantsEqual. *)
Definition find_config (m : config) (k : str) : option jv := match find (fun e => str_eqb (fst e) k) m with Some e => Some (snd e) | None => None end.
Definition intersects (eqv : jv -> jv -> bool) (l r : config) : bool :=
  forallb (fun e => match find_config r (fst e) with Some v => eqv (snd e) v | None => true end) l.

Inductive adjusted := Unchanged | Ids (l : list str) | NoCandidate | Ambiguous (l : list str).

(** 767-794, the loop. *)
Fixpoint candidates (eqv : jv -> jv -> bool) (best : bool) (p : product) (profiles : option (list str)) (deps : list product) (ids : list str) : adjusted + list str :=
  match deps with
  | [] => inr ids
  | d :: deps =>
      if best then
        if str_eqb (p_id d) (p_id p) then inl (Ids [p_id p])
        else candidates eqv best p profiles deps (if intersects eqv (p_config d) (p_config p) then ids ++ [p_id d] else ids)
      else
        candidates eqv best p profiles deps
          (if match profiles with None | Some [] => true | Some l => mem_str (p_profile d) l end then ids ++ [p_id d] else ids)
  end.
(** 702-818 adjustDependsItemForMultiplexing, for a product that is not an aggregator depending on its instances.  [named]: the products with the name
    that the Depends item has.  [profiles]: None if the property is not set. *)
Definition adjust (eqv : jv -> jv -> bool) (p : product) (named : list product) (profiles : option (list str)) : adjusted :=
  let multiplexed := negb (str_eqb (p_id p) []) in
  let deps := filter (fun d => negb (str_eqb (p_id d) [])) named in
  let has_plain := existsb (fun d => str_eqb (p_id d) []) named in
  let set := match profiles with Some _ => true | None => false end in
  match deps with
  | [] => Unchanged
  | _ =>
      if negb multiplexed && has_plain && negb set then Unchanged
      else
        match candidates eqv (multiplexed && negb set) p profiles deps [] with
        | inl r => r
        | inr [] => NoCandidate
        | inr ids => if multiplexed && negb set && (2 <=? length ids)%nat then Ambiguous ids else Ids ids
        end
  end.
