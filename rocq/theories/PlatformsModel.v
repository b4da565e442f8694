(** Names of architectures, operating systems and identifiers, and the choice of
    installed MSVC compilers.

    Modelled: tools/architectures.cpp 52-155, tools/hostosinfo.h 223-244 and 270-285,
    tools/msvcinfo.cpp 540-560 and 612-628, jsextensions/utilitiesextension.cpp 647-668.

    Simplified: toLower() is the one for ASCII letters. No other character becomes a
    character of the names in the table below by it (the only non-ASCII character with an
    ASCII lower case is the Kelvin sign, and none of the names has a k). *)

From Coq Require Import List Bool Arith NArith.
From Verif Require Import Str.
Import ListNotations.
Local Open Scope N_scope.

Definition lower_char (c : N) : N := if (65 <=? c) && (c <=? 90) then c + 32 else c.
Definition lower (s : str) : str := map lower_char s.

Definition x86 : str := [120; 56; 54].
Definition x86_64 : str := [120; 56; 54; 95; 54; 52].
Definition arm64 : str := [97; 114; 109; 54; 52].
Definition ia64 : str := [105; 97; 54; 52].
Definition ppc : str := [112; 112; 99].
Definition ppc64 : str := [112; 112; 99; 54; 52].
Definition mips : str := [109; 105; 112; 115].
Definition mips64 : str := [109; 105; 112; 115; 54; 52].
Definition i386 : str := [105; 51; 56; 54].
Definition i586 : str := [105; 53; 56; 54].
Definition aarch64 : str := [97; 97; 114; 99; 104; 54; 52].
Definition powerpc : str := [112; 111; 119; 101; 114; 112; 99].
Definition arm : str := [97; 114; 109].
Definition armv7 : str := [97; 114; 109; 118; 55].
Definition armv7a : str := [97; 114; 109; 118; 55; 97].

(** architectures.cpp 101-147, in the order of the keys of the map. *)
Definition arch_table : list (str * list str) :=
  [ (arm64, [aarch64]);
    (ia64, [[105; 97; 45; 54; 52]; [105; 116; 97; 110; 105; 117; 109]]);
    (mips, [mips ++ [101; 98]; mips ++ [101; 108]]);
    (mips64, [mips64 ++ [101; 98]; mips64 ++ [101; 108]]);
    (ppc, [powerpc]);
    (ppc64, [ppc64 ++ [108; 101]; powerpc ++ [54; 52]; powerpc ++ [54; 52; 108; 101]]);
    (x86, [i386; [105; 52; 56; 54]; i586; [105; 54; 56; 54]; [105; 97; 51; 50]; [105; 97; 45; 51; 50];
           [120; 56; 54; 95; 51; 50]; [120; 56; 54; 45; 51; 50]; [105; 110; 116; 101; 108; 51; 50];
           [109; 105; 110; 103; 119; 51; 50]]);
    (x86_64, [[120; 56; 54; 45; 54; 52]; [120; 54; 52]; [97; 109; 100; 54; 52]; [105; 97; 51; 50; 101];
              [101; 109; 54; 52; 116]; [105; 110; 116; 101; 108; 54; 52]; [109; 105; 110; 103; 119; 54; 52]]) ].

(** architectures.cpp 149-155 *)
Fixpoint find_arch (table : list (str * list str)) (s : str) : option str :=
  match table with
  | [] => None
  | (key, aliases) :: r => if existsb (str_eqb (lower s)) aliases then Some key else find_arch r s
  end.
Definition canonical (s : str) : str := match find_arch arch_table s with Some k => k | None => s end.

Definition apple : str := [97; 112; 112; 108; 101].
Definition darwin : str := [100; 97; 114; 119; 105; 110].
Definition macosx : str := [109; 97; 99; 111; 115; 120].
Definition ios : str := [105; 111; 115].
Definition tvos : str := [116; 118; 111; 115].
Definition watchos : str := [119; 97; 116; 99; 104; 111; 115].
Definition macho : str := [109; 97; 99; 104; 111].
Definition nto : str := [110; 116; 111].
Definition qnx : str := [113; 110; 120].
Definition big : str := [98; 105; 103].
Definition little : str := [108; 105; 116; 116; 108; 101].

(** architectures.cpp 52-97 *)
Definition target_name (architecture endianness vendor system abi : str) : str :=
  let arch := canonical architecture in
  let is_apple := str_eqb vendor apple || str_eqb system darwin || str_eqb system macosx || str_eqb system ios
                  || str_eqb system tvos || str_eqb system watchos || str_eqb abi macho in
  let is_qnx := str_eqb system nto || starts_with qnx abi in
  if str_eqb arch armv7a && is_apple then armv7
  else if str_eqb arch armv7a && is_qnx then arm
  else if str_eqb arch arm64 && is_qnx then aarch64
  else if str_eqb arch x86 then (if is_qnx then i586 else i386)
  else if (str_eqb arch mips || str_eqb arch mips64) && str_eqb endianness big then arch ++ [101; 98]
  else if (str_eqb arch mips || str_eqb arch mips64) && str_eqb endianness little then arch ++ [101; 108]
  else if str_eqb arch ppc then powerpc
  else if str_eqb arch ppc64 && str_eqb endianness little then arch ++ [108; 101]
  else arch.

(** * Operating systems *)

Definition simulator : str := [45; 115; 105; 109; 117; 108; 97; 116; 111; 114].
Definition macos : str := [109; 97; 99; 111; 115].
Definition bsd : str := [98; 115; 100].
Definition android : str := [97; 110; 100; 114; 111; 105; 100].
Definition linux : str := [108; 105; 110; 117; 120].
Definition unix : str := [117; 110; 105; 120].

(** hostosinfo.h 226-241: the names whose identifiers are appended. *)
Definition os_parents (name : str) : list str :=
  let is l := existsb (str_eqb name) l in
  (if is [ios ++ simulator] then [ios] else [])
  ++ (if is [tvos ++ simulator] then [tvos] else [])
  ++ (if is [watchos ++ simulator] then [watchos] else [])
  ++ (if is [macos; ios; tvos; watchos] then [darwin] else [])
  ++ (if is [darwin; [102; 114; 101; 101] ++ bsd; [110; 101; 116] ++ bsd; [111; 112; 101; 110] ++ bsd] then [bsd] else [])
  ++ (if is [android] then [linux] else [])
  ++ (if is [bsd; [97; 105; 120]; [104; 112; 117; 120]; [115; 111; 108; 97; 114; 105; 115]; linux; [104; 117; 114; 100];
             qnx; [105; 110; 116; 101; 103; 114; 105; 116; 121]] then [unix] else []).

(** hostosinfo.h 223-244. [None]: the depth is not enough. *)
Fixpoint os_identifiers (depth : nat) (name : str) : option (list str) :=
  match depth with
  | O => None
  | S d =>
      option_map (cons name)
        (fold_right (fun p r => match os_identifiers d p, r with Some a, Some b => Some (a ++ b) | _, _ => None end)
           (Some []) (os_parents name))
  end.

(** * Identifiers *)

(** hostosinfo.h 270-285. [toLatin1] gives 0 for characters above 255, and the ones from
    128 on are negative or not in the ranges. *)
Definition ok_char (c : N) : bool :=
  ((48 <=? c) && (c <=? 57)) || ((65 <=? c) && (c <=? 90)) || ((97 <=? c) && (c <=? 122)) || (c =? 45) || (c =? 46).
Definition identifier (s : str) : str := map (fun c => if ok_char c then c else 45) s.

(** * MSVC *)

(** msvcinfo.cpp 540-545 *)
Definition msvc_canonical (s : str) : str :=
  if str_eqb s [120; 54; 52] || str_eqb s [97; 109; 100; 54; 52] then x86_64 else s.

(** QString::indexOf with mid(0, index) and mid(index). *)
Fixpoint split_first (c : N) (s : str) : option (str * str) :=
  match s with
  | [] => None
  | x :: r => if x =? c then Some ([], s)
              else option_map (fun p => (x :: fst p, snd p)) (split_first c r)
  end.

(** msvcinfo.cpp 547-560 *)
Definition arch_pair (arch : str) : str * str :=
  match split_first 95 arch with
  | Some (a, b) => (msvc_canonical a, msvc_canonical b)
  | None => (msvc_canonical arch, msvc_canonical arch)
  end.

(** A compiler: the name of the directory for its host (Hostx64), and the one in it for its
    target (x86). *)
Record compiler := Compiler { c_host : str; c_target : str }.

(** msvcinfo.cpp 612-628 *)
Definition compiler_arch (c : compiler) : str :=
  let short := lower (skipn 4 (c_host c)) in
  if str_eqb short (c_target c) then c_target c else short ++ [95] ++ c_target c.

(** utilitiesextension.cpp 647-668 *)
Definition installed (host preferred : str) (l : list compiler) : list compiler :=
  let preferred := match preferred with [] => host | _ => preferred end in
  filter (fun c => let p := arch_pair (compiler_arch c) in
                   negb (negb (str_eqb (fst p) host) || negb (str_eqb preferred (snd p)))) l.
