(** Exporting and importing settings: src/app/config/configcommandexecutor.cpp 59-96, 176-228, with the conversion of values to and from text
    in src/lib/corelib/tools/settingsrepresentation.cpp 49-120. *)
From Coq Require Import List Bool Arith NArith ZArith.
From Verif Require Import Str JobLimitsModel SettingsModel JsLiteralModel JsSpec.
Import ListNotations.
Local Open Scope N_scope.

(** ** Values as text *)

Definition hash_type : str := [81; 86; 97; 114; 105; 97; 110; 116; 72; 97; 115; 104].
Fixpoint to_variant (v : value) : variant :=
  match v with
  | VStr s => QStr s
  | VStrs l => QList (map QStr l)
  | VList l => QList (map to_variant l)
  | VNum z => QInt z
  | VBool b => QBool b
  | VHash _ => QOther hash_type
  end.
(** settingsrepresentation.cpp 49-52 settingsValueToRepresentation.  An invalid value: [None]. *)
Definition representation (v : option value) : str :=
  js_literal (match v with Some v => to_variant (from_settings v) | None => QInvalid end).

(** scripttools.cpp 260-310 getJsVariant, for those results that are values of settings in this model. *)
Fixpoint of_js (j : js) : option value :=
  match j with
  | JBool b => Some (VBool b)
  | JInt z => Some (VNum z)
  | JStr s => Some (VStr s)
  | JArr l =>
      option_map VList ((fix all (l : list js) : option (list value) :=
        match l with
        | [] => Some []
        | x :: l => match of_js x, all l with Some v, Some vs => Some (v :: vs) | _, _ => None end
        end) l)
  | JUndefined | JFloat _ | JObj _ => None
  end.
(** settingsrepresentation.cpp 93-109 representationToVariant: text that is not JavaScript is taken as a string; numbers that are no
    integers of 32 bits are read again as a string.  What the engine makes of the text is [js_eval]; [None]: a text or a value outside the
    model. *)
Definition to_value (s : str) : option value :=
  match js_eval s with
  | Ok (JFloat _) =>
      match js_eval (34 :: s ++ [34]) with
      | Ok j => of_js j
      | SyntaxError => Some (VStr s)
      | Outside => None
      end
  | Ok j => of_js j
  | SyntaxError => Some (VStr s)
  | Outside => None
  end.
(** 72-91 representationToSettingsValue. *)
Definition to_settings_value (s : str) : option value := option_map to_settings (to_value s).

(** ** Text files *)

(** QChar::isSpace. *)
Definition char_space (c : N) : bool :=
  ((9 <=? c) && (c <=? 13)) || (c =? 32) || (c =? 133) || (c =? 160) || (c =? 5760) || ((8192 <=? c) && (c <=? 8202)) || (c =? 8232) || (c =? 8233)
  || (c =? 8239) || (c =? 8287) || (c =? 12288).
Fixpoint drop_spaces (s : str) : str :=
  match s with
  | c :: s' => if char_space c then drop_spaces s' else s
  | [] => []
  end.
(** QString::trimmed. *)
Definition trimmed (s : str) : str := rev (drop_spaces (rev (drop_spaces s))).
(** QTextStream::readLine until the end: lines end with a line feed or a carriage return and a line feed. *)
Definition strip_cr (s : str) : str := match rev s with 13 :: r => rev r | _ => s end.
Fixpoint lines_from (cur s : str) : list str :=
  match s with
  | [] => match cur with [] => [] | _ => [strip_cr cur] end
  | c :: s => if c =? 10 then strip_cr cur :: lines_from [] s else lines_from (cur ++ [c]) s
  end.
Definition lines (s : str) : list str := lines_from [] s.
(** QString::indexOf, left and mid: the parts before and after the first colon. *)
Fixpoint split_colon (s : str) : option (str * str) :=
  match s with
  | [] => None
  | c :: s => if c =? 58 then Some ([], s) else match split_colon s with Some (a, b) => Some (c :: a, b) | None => None end
  end.

(** 188-195. *)
Definition export_line (s : settings) (sc : scopes) (k : str) : str := k ++ [58; 32] ++ representation (get_value s k sc None) ++ [10].
Definition export_text (s : settings) (sc : scopes) : str := flat_map (export_line s sc) (all_keys s sc).

(** 206-226.  [None]: an error, or something outside the model. *)
Definition import_line (s : option settings) (line : str) : option settings :=
  match s, split_colon line with
  | Some s, Some (k, v) =>
      if starts_with [35] line then Some s
      else match to_settings_value (trimmed v) with Some v => set_value s (trimmed k) v | None => None end
  | s, _ => s
  end.
Definition without_keys (s : settings) (sc : scopes) : settings := fold_left remove_key (all_keys s sc) s.
Definition import_text (s : settings) (sc : scopes) (text : str) : option settings :=
  fold_left import_line (lines text) (Some (without_keys s sc)).

(** ** JSON files *)

(** What is in the file: objects, which have every key once, and other values. *)
Inductive json := JLeaf (v : value) | JNode (l : list (str * json)).

(** settings.cpp 139-156 directChildren: the groups and keys of a group, without duplicates. *)
Definition below (f : store) (g : str) : list str := match g with [] => map fst f | _ => group_keys f (internal g) end.
Definition first_part (s : str) : str := match group_of s with Some g => g | None => s end.
Definition direct_children (s : settings) (g : str) (sc : scopes) : list str :=
  fixup ((if in_user sc then map first_part (below (user s) g) else []) ++ (if in_system sc then map first_part (below (system s) g) else [])).
Definition sub_key (g k : str) : str := match g with [] => k | _ => g ++ 46 :: k end.
(** QJsonValue::fromVariant: a hash is an object. *)
Definition json_value (v : value) : json := match v with VHash [(k, w)] => JNode [(k, JLeaf w)] | v => JLeaf v end.
(** 59-78 settingsToJSONObject; [fuel] bounds the depth of groups. *)
Fixpoint to_json (fuel : nat) (s : settings) (sc : scopes) (g : str) : list (str * json) :=
  match fuel with
  | O => []
  | S fuel =>
      map (fun k => (k, match get_value s (sub_key g k) sc None with
                        | Some v => json_value v
                        | None => JNode (to_json fuel s sc (sub_key g k))
                        end)) (direct_children s g sc)
  end.
(** QSettings::setValue removes slashes at the end of a key. *)
Definition without_last_dot (k : str) : str := match rev k with 46 :: r => rev r | _ => k end.
(** 80-95 settingsFromJSONObject. *)
Fixpoint from_json (s : option settings) (g : str) (j : json) {struct j} : option settings :=
  match j with
  | JLeaf v => match s with Some s => set_value s (without_last_dot g) v | None => None end
  | JNode l => (fix all (s : option settings) (l : list (str * json)) : option settings :=
                  match l with [] => s | (k, j) :: l => all (from_json s (sub_key g k) j) l end) s l
  end.
Definition import_json (s : settings) (sc : scopes) (l : list (str * json)) : option settings := from_json (Some (without_keys s sc)) [] (JNode l).
