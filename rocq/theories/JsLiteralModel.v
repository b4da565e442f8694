(** Values written as JavaScript source text: src/lib/corelib/tools/jsliterals.cpp. *)
From Coq Require Import List Bool Arith NArith ZArith.
From Verif Require Import Str.
Import ListNotations.
Local Open Scope N_scope.

(** QVariant.  [QInt]: Char, Int, Long and LongLong; [QUInt]: the unsigned types; [QList]: QVariantList, and QStringList, whose toList() has
    the strings as elements; [QMap]: QVariantMap, with the entries in the order of the keys; [QText]: any other type with a conversion to
    a string (double, QByteArray, QDateTime, ...), with the converted string; [QOther]: any other type, with its name. *)
Inductive variant :=
| QInvalid
| QBool (b : bool)
| QInt (z : Z)
| QUInt (n : N)
| QStr (s : str)
| QList (l : list variant)
| QMap (l : list (str * variant))
| QText (s : str)
| QOther (type_name : str).

Definition true_word : str := [116; 114; 117; 101].
Definition false_word : str := [102; 97; 108; 115; 101].
Definition undefined_word : str := [117; 110; 100; 101; 102; 105; 110; 101; 100].
(** The text Unconvertible type, with a space at the end. *)
Definition unconvertible : str := [85; 110; 99; 111; 110; 118; 101; 114; 116; 105; 98; 108; 101; 32; 116; 121; 112; 101; 32].

(** 49-52. *)
Definition js_bool (b : bool) : str := if b then true_word else false_word.
(** 54-62, QString::number. *)
Definition js_uint (n : N) : str := dec n.
Definition js_int (z : Z) : str := match z with Z.neg p => 45 :: dec (Npos p) | _ => dec (Z.to_N z) end.

(** 64-71: backslashes and double quotes get a backslash in front.  In the replacement text, the first of two backslashes stands for
    itself, since the character after it is not a digit; the second one with the digit is what was captured. *)
Fixpoint escaped (s : str) : str :=
  match s with
  | [] => []
  | c :: s => if (c =? 92) || (c =? 34) then 92 :: c :: escaped s else c :: escaped s
  end.
Definition js_str (s : str) : str := 34 :: escaped s ++ [34].

(** 73-83: the string list overload, by index. *)
Fixpoint strs_tail (l : list str) : str :=
  match l with
  | [] => []
  | s :: l => 44 :: 32 :: js_str s ++ strs_tail l
  end.
Definition js_strs (l : list str) : str :=
  91 :: match l with [] => [] | s :: l => js_str s ++ strs_tail l end ++ [93].

(** 85-132.  In a list, the comma is added when the text so far is not empty; in a map, when the entry is not the first one. *)
Fixpoint js_literal (v : variant) : str :=
  match v with
  | QInvalid => undefined_word
  | QList l => 91 :: fold_left (fun res child => (match res with [] => [] | _ => res ++ [44; 32] end) ++ js_literal child) l [] ++ [93]
  | QMap l =>
      123 :: (fix entries (first : bool) (l : list (str * variant)) : str :=
                match l with
                | [] => []
                | (k, w) :: l => (if first then [] else [44]) ++ js_str k ++ [58] ++ js_literal w ++ entries false l
                end) true l ++ [125]
  | QBool b => js_bool b
  | QInt z => js_int z
  | QUInt n => js_uint n
  | QStr s | QText s => js_str s
  | QOther name => unconvertible ++ name
  end.
