(** Quoting of strings for C and C++ (Utilities.cStringQuote), hashes for names of
    directories (Utilities.getHash), and the two places which rely on them: the combined
    source file of cpp.combine*Sources, and the file names of object files.

    Modelled: jsextensions/utilitiesextension.cpp 244-248, 262-396;
    share/qbs/imports/qbs/ModUtils/utils.js 39-48; share/qbs/modules/cpp/cpp.js 144-160.

    Strings are lists of UTF-16 code units. *)

From Coq Require Import List Bool Arith NArith.
From Verif Require Import Str.
Import ListNotations.
Local Open Scope N_scope.

(** utilitiesextension.cpp 245-248, toHexUpper: the last four bits of the value. *)
Definition hex_upper (v : N) : N :=
  let d := v mod 16 in if d <? 10 then 48 + d else 55 + d.

(** QChar::isHighSurrogate and QChar::isLowSurrogate. *)
Definition is_high (c : N) : bool := (55296 <=? c) && (c <? 56320).
Definition is_low (c : N) : bool := (56320 <=? c) && (c <? 57344).

(** QChar::surrogateToUcs4: (high << 10) + low - 0x35fdc00. *)
Definition to_ucs4 (h l : N) : N := h * 1024 + l - 56613888.

(** utilitiesextension.cpp 303-322: the letter after the backslash. *)
Definition letter (c : N) : option N :=
  match c with
  | 34 => Some 34
  | 92 => Some 92
  | 8 => Some 98
  | 12 => Some 102
  | 10 => Some 110
  | 13 => Some 114
  | 9 => Some 116
  | _ => None
  end.

(** utilitiesextension.cpp 356-361. *)
Definition escape4 (c : N) : str :=
  [92; 117; hex_upper (c / 4096); hex_upper (c / 256); hex_upper (c / 16); hex_upper c].

(** utilitiesextension.cpp 341-350. *)
Definition escape8 (u : N) : str :=
  [92; 85; 48; 48; hex_upper (u / 1048576); hex_upper (u / 65536); hex_upper (u / 4096);
   hex_upper (u / 256); hex_upper (u / 16); hex_upper u].

Section Quote.

(** QChar::isPrint: for single units and for code points; depends on the Unicode tables
    of Qt. *)
Variable print : N -> bool.

(** utilitiesextension.cpp 281-294: the units which are copied. *)
Definition copied (c : N) : bool := print c && negb (c =? 92) && negb (c =? 34).

(** utilitiesextension.cpp 270-364, the loop. Simplified: a run of copied units is copied
    one by one; lastWasHexEscape stays false, as isUnicode is true for every caller
    (line 378). *)
Fixpoint quote_units (s : str) : str :=
  match s with
  | [] => []
  | c :: r =>
      if copied c then c :: quote_units r
      else match letter c with
           | Some e => 92 :: e :: quote_units r
           | None =>
               if is_high c then
                 match r with
                 | l :: r' =>
                     if is_low l
                     then (if print (to_ucs4 c l) then [c; l] else escape8 (to_ucs4 c l))
                            ++ quote_units r'
                     else escape4 c ++ quote_units r
                 | [] => escape4 c
                 end
               else escape4 c ++ quote_units r
           end
  end.

(** utilitiesextension.cpp 262-269, 366-368 and 373-383. *)
Definition c_quote (s : str) : str := 34 :: quote_units s ++ [34].

(** utils.js 39-48, mergeCFiles: the text of the combined file, where all the lines end
    in a line feed (on Unix). *)
Definition include_word : str := [35; 105; 110; 99; 108; 117; 100; 101; 32].
Definition combined (inputs : list str) : str :=
  concat (map (fun f => include_word ++ c_quote f ++ [10]) inputs).

End Quote.

(** QString::toLatin1: a unit outside Latin-1 becomes a question mark. *)
Definition latin1 (c : N) : N := if c <? 256 then c else 63.

(** QByteArray::toHex. *)
Definition hex_lower (v : N) : N :=
  let d := v mod 16 in if d <? 10 then 48 + d else 87 + d.
Definition to_hex (b : list N) : str :=
  concat (map (fun x => [hex_lower (x / 16); hex_lower x]) b).

(** utilitiesextension.cpp 385-396, with the hash function of Qt as an input. *)
Definition get_hash (sha1 : list N -> list N) (s : str) : str :=
  firstn 16 (to_hex (sha1 (map latin1 s))).

(** cpp.js 144-149 (and the same in 195, 233): the file path of the object file for an
    input, relative to the build directory of the product. Simplified: joinPaths is the
    concatenation with a slash (the hash is not empty, the name of the file has no
    slash). *)
Definition object_path (sha1 : list N -> list N) (base_dir file_name suffix : str) : str :=
  get_hash sha1 base_dir ++ 47 :: file_name ++ suffix.
