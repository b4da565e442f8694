(** Canonical lists of toolchains.

    Code: src/lib/corelib/tools/toolchains.cpp 46-140, with
    jsextensions/utilitiesextension.cpp 231-239 for how scripts get there.

    Simplified: names are lists of characters, and only those of ASCII have
    lower case variants. *)

From Coq Require Import List Bool Arith NArith.
From Verif Require Import Str.
Import ListNotations.

Definition lower_char (c : N) : N := if N.leb 65 c && N.leb c 90 then N.add c 32 else c.
Definition lower (s : str) : str := List.map lower_char s.

Definition xcode : str := [120; 99; 111; 100; 101]%N.
Definition clang : str := [99; 108; 97; 110; 103]%N.
Definition clang_cl : str := [99; 108; 97; 110; 103; 45; 99; 108]%N.
Definition gcc : str := [103; 99; 99]%N.
Definition llvm : str := [108; 108; 118; 109]%N.
Definition mingw : str := [109; 105; 110; 103; 119]%N.
Definition msvc : str := [109; 115; 118; 99]%N.
Definition emscripten : str := [101; 109; 115; 99; 114; 105; 112; 116; 101; 110]%N.

(** toolchains.cpp 81-89 *)
Definition known : list str := [xcode; clang; llvm; mingw; gcc; clang_cl; msvc; emscripten].

(** toolchains.cpp 124-140. The recursion ends after at most four calls; the
    number is more than enough. *)
Fixpoint canonical_name (fuel : nat) (name : str) : list str :=
  let n := lower name in
  n :: match fuel with
       | 0 => []
       | S f =>
           if str_eqb n xcode then canonical_name f clang
           else if str_eqb n clang then canonical_name f llvm
           else if str_eqb n llvm || str_eqb n mingw || str_eqb n emscripten then canonical_name f gcc
           else if str_eqb n clang_cl then canonical_name f msvc
           else []
       end.

Definition contains (l : list str) (s : str) : bool := existsb (str_eqb s) l.

(** QStringList::removeDuplicates: the first one of equal elements stays. *)
Fixpoint remove_duplicates (seen : list str) (l : list str) : list str :=
  match l with
  | [] => []
  | s :: r => if contains seen s then remove_duplicates seen r else s :: remove_duplicates (s :: seen) r
  end.

(** QList::indexOf in the list of known ones; behind the end if it is not there,
    which does not happen. *)
Fixpoint index_of (l : list str) (s : str) : nat :=
  match l with
  | [] => 0
  | t :: r => if str_eqb t s then 0 else S (index_of r s)
  end.

(** toolchains.cpp 108-113: std::sort. *)
Fixpoint insert_by_index (s : str) (l : list str) : list str :=
  match l with
  | [] => [s]
  | t :: r => if index_of known s <=? index_of known t then s :: l else t :: insert_by_index s r
  end.
Definition sort_known (l : list str) : list str := fold_right insert_by_index [] l.

(** toolchains.cpp 79-122 *)
Definition canonical (names : list str) : list str :=
  let all := remove_duplicates [] (flat_map (canonical_name 8) names) in
  filter (fun s => negb (contains known s)) all ++ sort_known (filter (contains known) all).
