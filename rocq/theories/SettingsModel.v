(** Settings, profiles and preferences: src/lib/corelib/tools/settings.cpp 105-265, profile.cpp 65-258, preferences.cpp 131-206,
    settingsrepresentation.cpp 72-120, and the configuration that a profile stands for (setupprojectparameters.cpp 462-490). *)
From Coq Require Import List Bool Arith NArith ZArith.
From Verif Require Import Str JobLimitsModel.
Import ListNotations.
Local Open Scope N_scope.

(** ** Values *)

(** QVariant, as far as settings have them.  [VHash]: QVariantHash. *)
Inductive value :=
| VStr (s : str)
| VStrs (l : list str)
| VList (l : list value)
| VNum (z : Z)
| VBool (b : bool)
| VHash (l : list (str * value)).

(** Decimal numbers, with a sign. *)
Definition dec_z (z : Z) : str := match z with Z.neg p => 45 :: dec (Npos p) | _ => dec (Z.to_N z) end.
Definition all_digits (s : str) : bool := match s with [] => false | _ => forallb is_digit s end.

(** QVariant::toString; lists with one element are converted like it, other lists and hashes are not. *)
Definition to_str (v : value) : str :=
  match v with
  | VStr s => s
  | VStrs [s] => s
  | VNum z => dec_z z
  | VBool true => [116; 114; 117; 101]
  | VBool false => [102; 97; 108; 115; 101]
  | _ => []
  end.
(** QVariant::toStringList, toList, toInt. *)
Definition to_strs (v : value) : list str :=
  match v with
  | VStr s => [s]
  | VStrs l => l
  | VList l => map to_str l
  | _ => []
  end.
Definition to_list (v : value) : list value :=
  match v with
  | VStrs l => map VStr l
  | VList l => l
  | _ => []
  end.
Definition to_int (v : value) : Z :=
  match v with
  | VNum z => z
  | VBool b => if b then 1 else 0
  | VStr (45%N :: s) => if all_digits s then - Z.of_N (undec s) else 0
  | VStr s => if all_digits s then Z.of_N (undec s) else 0
  | _ => 0
  end%Z.
(** An invalid QVariant is converted to an empty list and zero. *)
Definition opt_strs (v : option value) : list str := match v with Some v => to_strs v | None => [] end.
Definition opt_int (v : option value) : Z := match v with Some v => to_int v | None => 0%Z end.
Definition opt_str (v : option value) : str := match v with Some v => to_str v | None => [] end.

(** settingsrepresentation.cpp 72-91 representationToSettingsValue: how the value of the expression is stored; 111-120 settingsValueToVariant. *)
Definition to_settings (v : value) : value := match v with VNum _ | VBool _ => VHash [([], v)] | _ => v end.
Definition from_settings (v : value) : value := match v with VHash [([], w)] => w | _ => v end.

(** ** Stored settings *)

(** One of the two QSettings objects: keys, in which slashes separate groups, and values.  Keys have no slashes at the ends and no
    two slashes in a row. *)
Definition store := list (str * value).
Definition find_value (f : store) (k : str) : option value := match find (fun e => str_eqb (fst e) k) f with Some e => Some (snd e) | None => None end.
(** QSettings::setValue. *)
Fixpoint put (f : store) (k : str) (v : value) : store :=
  match f with
  | [] => [(k, v)]
  | e :: f' => if str_eqb (fst e) k then (k, v) :: f' else e :: put f' k v
  end.
(** QSettings::remove removes a key together with the group of that name. *)
Definition take_away (f : store) (k : str) : store := filter (fun e => negb (str_eqb (fst e) k || starts_with (k ++ [47]) (fst e))) f.
(** QSettings::allKeys, after QSettings::beginGroup. *)
Fixpoint strip (p s : str) : option str :=
  match p, s with
  | [], _ => Some s
  | x :: p, y :: s => if x =? y then strip p s else None
  | _ :: _, [] => None
  end.
Fixpoint strip_all (p : str) (l : list str) : list str :=
  match l with
  | [] => []
  | s :: l => match strip p s with Some r => r :: strip_all p l | None => strip_all p l end
  end.
Definition group_keys (f : store) (g : str) : list str := strip_all (g ++ [47]) (map fst f).
(** QSettings::childGroups: the part before the first slash. *)
Fixpoint group_of (s : str) : option str :=
  match s with
  | [] => None
  | c :: s => if c =? 47 then Some [] else match group_of s with Some g => Some (c :: g) | None => None end
  end.
Fixpoint child_groups (l : list str) : list str :=
  match l with
  | [] => []
  | s :: l => match group_of s with Some g => g :: child_groups l | None => child_groups l end
  end.

(** settings.cpp 223-232 internalRepresentation, externalRepresentation. *)
Definition replace_char (a b : N) (s : str) : str := map (fun c => if c =? a then b else c) s.
Definition internal := replace_char 46 47.
Definition external := replace_char 47 46.

(** QStringList::sort, by code units, and removeDuplicates, which keeps the first of equal strings. *)
Fixpoint str_leb (a b : str) : bool :=
  match a, b with
  | [], _ => true
  | _ :: _, [] => false
  | x :: a, y :: b => if x <? y then true else if y <? x then false else str_leb a b
  end.
Fixpoint insert_str (s : str) (l : list str) : list str :=
  match l with
  | [] => [s]
  | x :: l' => if str_leb s x then s :: l else x :: insert_str s l'
  end.
Definition sort_strs (l : list str) : list str := fold_right insert_str [] l.
Definition mem_str (s : str) (l : list str) : bool := existsb (str_eqb s) l.
Fixpoint dedup_from (seen l : list str) : list str :=
  match l with
  | [] => []
  | x :: l => if mem_str x seen then dedup_from seen l else x :: dedup_from (x :: seen) l
  end.
Definition dedup := dedup_from [].
(** removeOne. *)
Fixpoint remove_one (s : str) (l : list str) : list str :=
  match l with
  | [] => []
  | x :: l' => if str_eqb x s then l' else x :: remove_one s l'
  end.
(** settings.cpp 234-240 fixupKeys. *)
Definition fixup (l : list str) : list str := map external (dedup (sort_strs l)).

(** Settings: the two files, and where changes go. *)
Record settings := mkSettings { user : store; system : store; write_user : bool }.
Record scopes := { in_user : bool; in_system : bool }.
Definition all_scopes := {| in_user := true; in_system := true |}.
Definition user_scope := {| in_user := true; in_system := false |}.

(** settings.cpp 105-126 value.  [None]: an invalid value. *)
Definition get_value (s : settings) (k : str) (sc : scopes) (def : option value) : option value :=
  let uv := if in_user sc then find_value (user s) (internal k) else None in
  let sv := if in_system sc then find_value (system s) (internal k) else None in
  match uv, sv with
  | None, None => def
  | None, Some v => Some v
  | Some v, None => Some v
  | Some (VStrs l), Some v => Some (VStrs (l ++ to_strs v))
  | Some (VList l), Some v => Some (VList (l ++ to_list v))
  | Some u, Some _ => Some u
  end.
(** settings.cpp 128-137 allKeys; 158-173 allKeysWithPrefix. *)
Definition all_keys (s : settings) (sc : scopes) : list str :=
  fixup ((if in_user sc then map fst (user s) else []) ++ (if in_system sc then map fst (system s) else [])).
Definition keys_with_prefix (s : settings) (g : str) (sc : scopes) : list str :=
  fixup ((if in_user sc then group_keys (user s) (internal g) else []) ++ (if in_system sc then group_keys (system s) (internal g) else [])).

(** profiles., and the name of the profile that always exists. *)
Definition profiles_word : str := [112; 114; 111; 102; 105; 108; 101; 115].
Definition profiles_prefix : str := profiles_word ++ [46].
Definition none_name : str := [110; 111; 110; 101].
Definition base_key : str := [98; 97; 115; 101; 80; 114; 111; 102; 105; 108; 101].

Definition on_target (s : settings) (f : store -> store) : settings :=
  if write_user s then mkSettings (f (user s)) (system s) (write_user s) else mkSettings (user s) (f (system s)) (write_user s).
(** settings.cpp 175-183 setValue: [None] if the name is refused; 185-189 remove.  Failures to write are not modelled. *)
Definition set_value (s : settings) (k : str) (v : value) : option settings :=
  if starts_with (profiles_prefix ++ none_name) k then None else Some (on_target s (fun f => put f (internal k) v)).
Definition remove_key (s : settings) (k : str) : settings := on_target s (fun f => take_away f (internal k)).
(** settings.cpp 207-219 profiles. *)
Definition profile_names (s : settings) : list str :=
  dedup ((if write_user s then child_groups (group_keys (user s) profiles_word) else []) ++ child_groups (group_keys (system s) profiles_word)).

(** ** Profiles *)

(** Values from the project, by name of the profile (m_profiles). *)
Definition locals := list (str * store).
Record env := { e_settings : settings; e_locals : locals }.

Definition local_values (e : env) (name : str) : store := match find (fun p => str_eqb (fst p) name) (e_locals e) with Some p => snd p | None => [] end.
Definition profile_key (name : str) : str := profiles_prefix ++ name.
(** profile.cpp 76-80 exists. *)
Definition profile_exists (e : env) (name : str) : bool :=
  str_eqb name none_name
  || match local_values e name with [] => false | _ => true end
  || match keys_with_prefix (e_settings e) (profile_key name) all_scopes with [] => false | _ => true end.
(** profile.cpp 200-213 localValue, fullyQualifiedKey; 138-141 baseProfile. *)
Definition local_value (e : env) (name key : str) : option value :=
  match find_value (local_values e name) key with
  | Some v => Some v
  | None => option_map from_settings (get_value (e_settings e) (profile_key name ++ 46 :: key) all_scopes None)
  end.
Definition base_profile (e : env) (name : str) : str := opt_str (local_value e name base_key).

(** The outcomes: errors for circular inheritance and for a base profile that does not exist. *)
Inductive presult A := Found (a : A) | Circular (chain : list str) | Dangling (name base : str) | TooDeep.
Arguments Found {A}. Arguments Circular {A}. Arguments Dangling {A}. Arguments TooDeep {A}.

(** profile.cpp 215-228 possiblyInheritedValue, 250-257 extendAndCheckProfileChain. *)
Fixpoint inherited (fuel : nat) (e : env) (name key : str) (def : option value) (chain : list str) : presult (option value) :=
  match fuel with
  | O => TooDeep
  | S fuel =>
      let chain' := chain ++ [name] in
      if mem_str name chain then Circular chain'
      else match local_value e name key with
           | Some v => Found (Some v)
           | None =>
               let base := base_profile e name in
               match base with
               | [] => Found def
               | _ => if profile_exists e base then inherited fuel e base key def chain' else Dangling name base
               end
           end
  end.
Definition profile_value (fuel : nat) (e : env) (name key : str) (def : option value) := inherited fuel e name key def [].

(** profile.cpp 230-248 allKeysInternal. *)
Definition own_keys (e : env) (name : str) : list str :=
  match map fst (local_values e name) with
  | [] => keys_with_prefix (e_settings e) (profile_key name) all_scopes
  | l => l
  end.
Fixpoint keys_of (fuel : nat) (e : env) (name : str) (chain : list str) : presult (list str) :=
  match fuel with
  | O => TooDeep
  | S fuel =>
      let chain' := chain ++ [name] in
      if mem_str name chain then Circular chain'
      else
        let base := base_profile e name in
        match base with
        | [] => Found (own_keys e name)
        | _ =>
            if profile_exists e base then
              match keys_of fuel e base chain' with
              | Found l => Found (sort_strs (remove_one base_key (dedup (own_keys e name ++ l))))
              | r => r
              end
            else Dangling name base
        end
  end.
Definition profile_keys (fuel : nat) (e : env) (name : str) := keys_of fuel e name [].

(** setupprojectparameters.cpp 462-490 expandedBuildConfiguration.  [None]: an error.  Later entries replace earlier ones. *)
Definition config_name_key : str := [113; 98; 115; 46; 99; 111; 110; 102; 105; 103; 117; 114; 97; 116; 105; 111; 110; 78; 97; 109; 101].
Fixpoint profile_config (fuel : nat) (e : env) (name : str) (keys : list str) (conf : list (str * option value)) : option (list (str * option value)) :=
  match keys with
  | [] => Some conf
  | k :: keys =>
      match profile_value fuel e name k None with
      | Found v => profile_config fuel e name keys ((k, v) :: conf)
      | _ => None
      end
  end.
Definition expanded (fuel : nat) (e : env) (name config : str) : option (list (str * option value)) :=
  match (if profile_exists e name && negb (str_eqb name none_name)
         then match profile_keys fuel e name with
              | Found [] => None
              | Found keys => profile_config fuel e name keys []
              | _ => None
              end
         else Some []) with
  | None => None
  | Some conf => match config with [] => None | _ => Some ((config_name_key, Some (VStr config)) :: conf) end
  end.

(** ** Preferences *)

Definition preferences_word : str := [112; 114; 101; 102; 101; 114; 101; 110; 99; 101; 115].
Definition search_paths_word : str := [113; 98; 115; 83; 101; 97; 114; 99; 104; 80; 97; 116; 104; 115].
Definition job_limit_prefix : str := preferences_word ++ 46 :: [106; 111; 98; 76; 105; 109; 105; 116].
Definition ignore_word : str := [105; 103; 110; 111; 114; 101; 83; 121; 115; 116; 101; 109; 83; 101; 97; 114; 99; 104; 80; 97; 116; 104; 115].

(** Profile::value swallows errors when nobody asks for them. *)
Definition quiet {A} (r : presult (option A)) : option A := match r with Found v => v | _ => None end.
(** QVariant::toBool. *)
Definition to_bool (v : option value) : bool :=
  match v with
  | Some (VBool b) => b
  | Some (VNum z) => negb (Z.eqb z 0)
  | Some (VStr s) => negb (str_eqb s [] || str_eqb s [48] || str_eqb s [102; 97; 108; 115; 101])
  | _ => false
  end.

(** Preferences objects: for a profile (its name may be empty), or with the contents of one (the values for the group preferences). *)
Record prefs := { p_env : env; p_profile : str; p_contents : store }.

(** preferences.cpp 157-190 getPreference, 199-206.  [ignored]: whether the system's search paths are to be ignored, which is itself a preference. *)
Definition preference_in (fuel : nat) (p : prefs) (ignored : bool) (key : str) (def : option value) : option value :=
  let full := preferences_word ++ 46 :: key in
  let st := e_settings (p_env p) in
  let search := str_eqb key search_paths_word in
  let sc := if search && ignored then user_scope else all_scopes in
  let merged v := if search then VStrs (to_strs v ++ opt_strs (get_value st full sc None)) else v in
  match (match p_profile p with
         | [] => None
         | name => quiet (profile_value fuel {| e_settings := st; e_locals := [] |} name full None)
         end) with
  | Some v => Some (merged v)
  | None =>
      match find_value (p_contents p) key with
      | Some v => Some (merged v)
      | None => get_value st full sc def
      end
  end.
Definition ignore_system (fuel : nat) (p : prefs) : bool := to_bool (preference_in fuel p false ignore_word None).
Definition preference (fuel : nat) (p : prefs) (key : str) (def : option value) : option value := preference_in fuel p (ignore_system fuel p) key def.
(** preferences.cpp 192-197 pathList. *)
Definition path_list (fuel : nat) (p : prefs) (key def : str) : list str := opt_strs (preference fuel p key None) ++ [def].

(** preferences.cpp 131-155 jobLimits. *)
Definition general_limits (st : settings) : limits :=
  fold_left (fun ls k => set_limit ls (job_limit k (opt_int (get_value st (job_limit_prefix ++ 46 :: k) all_scopes None))))
            (keys_with_prefix st job_limit_prefix all_scopes) [].
Definition pref_limits (fuel : nat) (p : prefs) : limits :=
  let e := p_env p in
  match p_profile p with
  | [] => general_limits (e_settings e)
  | name =>
      fold_left (fun ls k => match strip (job_limit_prefix ++ [46]) k with
                             | None => ls
                             | Some pool => let l := opt_int (quiet (profile_value fuel e name k None)) in
                                            if (0 <=? l)%Z then set_limit ls (job_limit pool l) else ls
                             end)
                (match profile_keys fuel e name with Found l => l | _ => [] end) (general_limits (e_settings e))
  end.
