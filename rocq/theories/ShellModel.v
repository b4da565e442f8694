(** Quoting of command lines: src/lib/corelib/tools/shellutils.cpp.  Strings are lists of UTF-16 code units. *)
From Coq Require Import List Bool Arith NArith.
From Verif Require Import Str.
Import ListNotations.
Local Open Scope N_scope.

(** shellutils.cpp 69-72: isSpecialChar; the table has one bit per ASCII character. *)
Definition is_special (tab : list N) (c : N) : bool :=
  (c <? N.of_nat (length tab) * 8) && N.testbit (nth (N.to_nat (c / 8)) tab 0) (c mod 8).

(** 74-81: hasSpecialChars. *)
Definition has_special (tab : list N) (arg : str) : bool := existsb (is_special tab) (rev arg).

(** 86-89 *)
Definition unix_quoted_chars : list N := [255; 255; 255; 255; 223; 7; 0; 216; 0; 0; 0; 56; 1; 0; 0; 120].

(** 94-99: every single quote is replaced by a closing quote, an escaped quote and an opening quote. *)
Definition escape_single (s : str) : str := flat_map (fun c => if c =? 39 then [39; 92; 39; 39] else [c]) s.

(** 83-101: shellQuoteUnix. *)
Definition quote_unix (arg : str) : str :=
  match arg with
  | [] => [39; 39]
  | _ => if has_special unix_quoted_chars arg then 39 :: escape_single arg ++ [39] else arg
  end.

(** 109-117 *)
Definition win_quoted_chars : list N := [255; 255; 255; 255; 69; 19; 0; 120; 0; 0; 0; 64; 0; 0; 0; 16].
Definition win_meta_chars : list N := [0; 0; 0; 0; 64; 3; 0; 80; 0; 0; 0; 64; 0; 0; 0; 16].

Definition backslashes (n : nat) : str := repeat 92 n.

(** 126: replacing every run of backslashes before a quote, and the quote, by twice the run, a backslash and the
    quote.  [n] is the number of backslashes just read: a match starts at the first backslash of a maximal run. *)
Fixpoint double_before_quotes (n : nat) (s : str) : str :=
  match s with
  | [] => backslashes n
  | c :: r =>
      if c =? 92 then double_before_quotes (S n) r
      else if c =? 34 then backslashes n ++ backslashes n ++ [92; 34] ++ double_before_quotes 0 r
      else backslashes n ++ c :: double_before_quotes 0 r
  end.

(** The backslashes at the beginning of a string, and the rest. *)
Fixpoint leading_backslashes (s : str) : nat * str :=
  match s with
  | c :: r => if c =? 92 then let (n, t) := leading_backslashes r in (S n, t) else (O, s)
  | [] => (O, [])
  end.
(** 128: replacing backslashes at the end by twice as many.  The dollar sign also matches before a newline at the end. *)
Definition double_at_end (s : str) : str :=
  match rev s with
  | c :: r =>
      if c =? 10 then let (n, t) := leading_backslashes r in rev (c :: backslashes (n + n) ++ t)
      else let (n, t) := leading_backslashes (c :: r) in rev (backslashes (n + n) ++ t)
  | [] => []
  end.

(** 133-140: the circumflexes for the shell; the second component is the value of [quoted] at the end. *)
Fixpoint add_carets (quoted : bool) (s : str) : str * bool :=
  match s with
  | [] => ([], quoted)
  | c :: r =>
      if c =? 34 then let (t, q) := add_carets (negb quoted) r in (c :: t, q)
      else let (t, q) := add_carets quoted r in
           (if negb quoted && is_special win_meta_chars c then 94 :: c :: t else c :: t, q)
  end.

(** 103-147: shellQuoteWin. *)
Definition quote_win (arg : str) : str :=
  match arg with
  | [] => [34; 34]
  | _ =>
      if has_special win_quoted_chars arg then
        let (t, q) := add_carets true (double_at_end (double_before_quotes 0 arg)) in
        34 :: t ++ (if q then [] else [94]) ++ [34]
      else arg
  end.

Inductive os := Unix | Windows.

(** 149-152: shellQuote for one argument. *)
Definition quote (o : os) (arg : str) : str := match o with Windows => quote_win arg | Unix => quote_unix arg end.

(** 159-168, 170-183: shellQuote for a list (the overload for std::string is the same). *)
Definition quote_list (o : os) (args : list str) : str :=
  match args with
  | [] => []
  | a :: rest => fold_left (fun result b => result ++ 32 :: quote o b) rest (quote o a)
  end.

(** 185-191: shellQuote for a program and its arguments. *)
Definition quote_command (o : os) (program : str) (args : list str) : str :=
  match args with
  | [] => quote o program
  | _ => quote o program ++ 32 :: quote_list o args
  end.

(** shellutils.h 84-90: CommandLine::Argument. *)
Record argument := { a_value : str; a_is_path : bool; a_quote : bool }.

(** pathutils.h 52-59: toNativeSeparators. *)
Definition native (o : os) (s : str) : str :=
  match o with Windows => map (fun c => if c =? 47 then 92 else c) s | Unix => s end.

(** shellutils.cpp 245-257: CommandLine::toCommandLine. *)
Definition command_line (o : os) (program : str) (raw_program : bool) (args : list argument) : str :=
  let p := native o program in
  fold_left
    (fun result a =>
       let v := if a_is_path a then native o (a_value a) else a_value a in
       result ++ 32 :: (if a_quote a then quote o v else v))
    args
    (if raw_program then p else quote o p).
