(** Model of the scanner for C++ files, src/lib/corelib/cppscanner: Lexer.cpp and Lexer.h (the lexer, with the
    flags and language features that the scanner uses: all features off, no comment tokens, no
    preprocessor mode), Keywords.cpp (which words are not identifiers then) and cppscanner.cpp (includes,
    C++20 modules, Qt macros).  Lines without a file name are lines of Lexer.cpp.

    Simplified: the text ends at the first NUL byte, as it does for the lexer; isspace, isalpha, isdigit
    and isalnum are those of the C locale; the kinds of tokens that the scanner does not ask for are
    one kind; [s._tokenKind], which the lexer sets when the text ends inside a comment or a literal,
    is left out, because the next token is the end of the text with or without it. *)
From Coq Require Import List Bool Arith NArith String Ascii.
From Verif Require Import Str.
Import ListNotations.
Local Open Scope N_scope.

Definition lit (s : string) : str := map N_of_ascii (list_ascii_of_string s).

(** ** Characters *)

(** What [yyinp] moves over at a time: a byte, or a byte with the highest bit set and some that follow. *)
Definition ch := list N.
Definition src := list ch.
Definition lead (c : ch) : N := hd 0 c.
(** Lexer.h 72-94, yyinp_utf8: how many bytes belong to the first one. *)
Fixpoint ones (bits : list bool) : nat := match bits with true :: t => S (ones t) | _ => 0%nat end.
Definition trailing (b : N) : nat :=
  if N.testbit b 7 then S (ones (map (N.testbit b) [5; 4; 3; 2; 1; 0])) else 0%nat.
Fixpoint cut (k : nat) (cur : ch) (s : str) : src :=
  match s with
  | [] => match cur with [] => [] | _ => [cur] end
  | b :: t =>
      match k with
      | O => if b =? 0 then []
             else match trailing b with O => [b] :: cut 0 [] t | n => cut n [b] t end
      | S O => (cur ++ [b]) :: cut 0 [] t
      | S k => cut k (cur ++ [b]) t
      end
  end.

Definition is_space (c : N) : bool := (c =? 32) || ((9 <=? c) && (c <=? 13)).
Definition is_digit (c : N) : bool := (48 <=? c) && (c <=? 57).
Definition is_alpha (c : N) : bool := ((65 <=? c) && (c <=? 90)) || ((97 <=? c) && (c <=? 122)).
Definition is_alnum (c : N) : bool := is_alpha c || is_digit c.
(** The characters of an identifier, 1057-1060. *)
Definition is_word (c : N) : bool := is_alnum c || (c =? 95) || (c =? 36) || N.testbit c 7.
Definition peek (s : src) : N := match s with [] => 0 | c :: _ => lead c end.
Fixpoint drop_while (p : N -> bool) (s : src) : src :=
  match s with
  | [] => []
  | c :: t => if p (lead c) then drop_while p t else s
  end.
Definition drop_if (p : N -> bool) (s : src) : src := if p (peek s) then tl s else s.

(** ** Comments and literals *)

(** 1073-1094, scanBackslash within scanUntilQuote and scanCppComment: [B1] is after the backslash, [B2] within the
    white space after it, [B3] within that after the newline. *)
Inductive bs := B0 | B1 | B2 | B3.
Fixpoint until (stop : N -> bool) (m : bs) (s : src) : src :=
  match s with
  | [] => []
  | c :: t =>
      let b0 := if stop (lead c) || (lead c =? 10) then s
                else if lead c =? 92 then until stop B1 t else until stop B0 t in
      match m with
      | B0 => b0
      | B1 => if lead c =? 10 then until stop B3 t else if is_space (lead c) then until stop B2 t else until stop B0 t
      | B2 => if lead c =? 10 then until stop B3 t else if is_space (lead c) then until stop B2 t else b0
      | B3 => if negb (lead c =? 10) && is_space (lead c) then until stop B3 t else b0
      end
  end.
(** 862-874, scanUntilQuote. *)
Definition quote (q : N) (s : src) : src := drop_if (N.eqb q) (until (N.eqb q) B0 s).
(** 1096-1104, scanCppComment. *)
Definition line_comment (s : src) : src := until (fun _ => false) B0 s.

(** 441-478: the rest of a comment. *)
Fixpoint block (s : src) : src :=
  match s with
  | [] => []
  | c :: t => if lead c =? 42 then match t with d :: t' => if lead d =? 47 then t' else block t | [] => [] end
              else block t
  end.
Definition block_comment (s : src) : src :=
  match s with
  | [] => []
  | c :: t =>
      if (lead c =? 42) && (peek t =? 47) then tl t
      else if (lead c =? 42) || (lead c =? 33) then block (drop_if (N.eqb 60) t)
      else block s
  end.

(** 729-804, scanRawStringLiteral, without an end of the text in it: the delimiter, [n] being its length in bytes so far. *)
Inductive raw_start := RawOpen (n : nat) (s : src) | RawError (s : src).
Fixpoint raw_delim (n : nat) (s : src) : raw_start :=
  match s with
  | [] => RawError []
  | c :: t => if lead c =? 40 then RawOpen n t
              else if lead c =? 41 then RawError t
              else if (lead c =? 92) || is_space (lead c) then RawError s
              else raw_delim (n + List.length c) t
  end.
(** The rest, with the number of bytes after the last candidate for the end. *)
Fixpoint raw_body (txt : str) (n : nat) (cand : option nat) (s : src) : src :=
  match s with
  | [] => []
  | c :: t =>
      if lead c =? 41 then raw_body txt n (Some 0%nat) t
      else match cand with
           | None => raw_body txt n None t
           | Some k => if (lead c =? 34) && Nat.eqb k n then t
                       else raw_body txt n (if lead c =? nth k txt 0 then Some (k + List.length c)%nat else None) t
           end
  end.
Definition raw (s : src) : src :=
  match raw_delim 0 s with
  | RawError t => t
  | RawOpen n t => raw_body (List.concat s) n None t
  end.

(** ** Numbers, 876-1028 *)
Definition exponent (s : src) : bool * src :=
  if (peek s =? 101) || (peek s =? 69)
  then let s := drop_if (fun c => (c =? 43) || (c =? 45)) (tl s) in (is_digit (peek s), drop_while is_digit s)
  else (false, s).
Definition float_suffix (s : src) : src := drop_if (fun c => (c =? 102) || (c =? 108) || (c =? 70) || (c =? 76)) s.
Definition is_u (c : N) : bool := (c =? 117) || (c =? 85).
Definition int_suffix_no_u (s : src) : src :=
  let c := peek s in
  if (c =? 105) || (c =? 73) then
    let s := tl s in if peek s =? 54 then drop_if (N.eqb 52) (tl s) else s
  else if c =? 108 then drop_if is_u (drop_if (N.eqb 108) (tl s))
  else if c =? 76 then drop_if is_u (drop_if (N.eqb 76) (tl s))
  else s.
Definition int_suffix (s : src) : src := if is_u (peek s) then int_suffix_no_u (tl s) else int_suffix_no_u s.
Definition is_hex (c : N) : bool := is_digit c || ((97 <=? c) && (c <=? 102)) || ((65 <=? c) && (c <=? 70)).
Definition is_octal (c : N) : bool := (48 <=? c) && (c <=? 55).
Definition is_alnum_ (c : N) : bool := is_alnum c || (c =? 95).
Definition fraction (s : src) : src := float_suffix (snd (exponent (drop_while is_digit s))).
(** 997-1017; digits are consumed by the loop. *)
Definition decimal (s : src) : src :=
  let s := drop_while is_digit s in
  match s with
  | [] => []
  | c :: t => if lead c =? 46 then fraction t
              else if (lead c =? 101) || (lead c =? 69)
                   then let (ok, s) := exponent s in if ok then float_suffix s else s
              else int_suffix s
  end.
(** 963-1028, scanNumericLiteral; [c] is the first digit. *)
Definition number (c : ch) (s : src) : src :=
  let p := peek s in
  drop_while is_alnum_
    (if (lead c =? 48) && ((p =? 120) || (p =? 88)) then int_suffix (drop_while is_hex (tl s))
     else if (lead c =? 48) && ((p =? 98) || (p =? 66)) then int_suffix (drop_while (fun c => (c =? 48) || (c =? 49)) (tl s))
     else if (lead c =? 48) && is_octal p then int_suffix (drop_while is_octal s)
     else decimal s).

(** ** Tokens *)
Inductive kind := TEof | TIdent | TPound | TString | TAngle | TSemi | TDot | TColon | TLess | TGreater | TOther.
(** [t_text] are the bytes of the token, [t_from] those from its start to the end of the text. *)
Record tok := { t_kind : kind; t_newline : bool; t_text : str; t_from : str }.
(** [Again]: no token yet, [ne] is [s._newlineExpected]. *)
Inductive lexed := Tok (k : kind) (s : src) | Again (ne : bool) (s : src).

Definition one_of (l : list N) (c : N) : bool := existsb (N.eqb c) l.

(** The switch of scan_helper, 222-708: [c] is the first character of the token. *)
Definition after (angle : bool) (c : ch) (t : src) : lexed :=
  let a := lead c in
  let p := peek t in
  let t1 := tl t in
  let word s := Tok TIdent (drop_while is_word s) in
  if a =? 92 then Again true t
  else if a =? 34 then Tok TString (quote 34 t)
  else if a =? 39 then Tok TOther (quote 39 t)
  else if a =? 35 then if p =? 35 then Tok TOther t1 else Tok TPound t
  else if a =? 59 then Tok TSemi t
  else if a =? 58 then if (p =? 58) || (p =? 62) then Tok TOther t1 else Tok TColon t
  else if a =? 46 then
    if p =? 42 then Tok TOther t1
    else if p =? 46 then Tok TOther (drop_if (N.eqb 46) t1)
    else if is_digit p then Tok TOther (drop_while is_alnum_ (fraction t1))
    else Tok TDot t
  else if a =? 43 then Tok TOther (drop_if (one_of [43; 61]) t)
  else if a =? 45 then
    if p =? 62 then Tok TOther (drop_if (N.eqb 42) t1) else Tok TOther (drop_if (one_of [45; 61]) t)
  else if a =? 47 then
    if p =? 47 then Again false (line_comment (drop_if (one_of [47; 33]) t1))
    else if p =? 42 then Again false (block_comment t1)
    else Tok TOther (drop_if (N.eqb 61) t)
  else if a =? 37 then
    if (p =? 61) || (p =? 62) then Tok TOther t1
    else if p =? 58 then
      if (peek t1 =? 37) && (peek (tl t1) =? 58) then Tok TOther (tl (tl t1)) else Tok TPound t1
    else Tok TOther t
  else if (a =? 42) || (a =? 94) || (a =? 126) || (a =? 33) || (a =? 61) then Tok TOther (drop_if (N.eqb 61) t)
  else if a =? 38 then Tok TOther (drop_if (one_of [38; 61]) t)
  else if a =? 124 then Tok TOther (drop_if (one_of [124; 61]) t)
  else if a =? 60 then
    if angle then Tok TAngle (drop_if (N.eqb 62) (drop_while (fun b => negb (b =? 62)) t))
    else if p =? 60 then Tok TOther (drop_if (N.eqb 61) t1)
    else if (p =? 61) || (p =? 37) then Tok TOther t1
    else if p =? 58 then
      if negb (peek t1 =? 58) || one_of [58; 62] (peek (tl t1)) then Tok TOther t1 else Tok TLess t
    else Tok TLess t
  else if a =? 62 then
    if p =? 62 then Tok TOther (drop_if (N.eqb 61) t1) else if p =? 61 then Tok TOther t1 else Tok TGreater t
  else if one_of [76; 117; 85; 82] a then
    if p =? 34 then Tok TOther (if a =? 82 then raw t1 else quote 34 t1)
    else if p =? 39 then Tok TOther (quote 39 t1)
    else if negb (a =? 82) && (p =? 82) then if peek t1 =? 34 then Tok TOther (raw (tl t1)) else word t1
    else if (a =? 117) && (p =? 56) then
      if peek t1 =? 34 then Tok TOther (quote 34 (tl t1))
      else if peek t1 =? 39 then Tok TOther (quote 39 (tl t1))
      else if peek t1 =? 82 then if peek (tl t1) =? 34 then Tok TOther (raw (tl (tl t1))) else word (tl t1)
      else word t1
    else word t
  else if is_alpha a || (a =? 95) || (a =? 36) || N.testbit a 7 then word t
  else if is_digit a then Tok TOther (number c t)
  else Tok TOther t.

(** Keywords.cpp without features: classify and classifyOperator. *)
Definition keywords : list str := map lit
  ["__alignof__"; "__asm"; "__asm__"; "__attribute"; "__attribute__"; "__const"; "__const__"; "__declspec";
   "__inline"; "__inline__"; "__thread"; "__typeof"; "__typeof__"; "__volatile"; "__volatile__"; "_declspec";
   "asm"; "break"; "case"; "char"; "const"; "continue"; "default"; "do"; "double"; "else"; "enum"; "extern";
   "float"; "for"; "goto"; "if"; "inline"; "int"; "long"; "register"; "return"; "short"; "signed"; "sizeof";
   "static"; "struct"; "switch"; "typedef"; "typeof"; "union"; "unsigned"; "void"; "volatile"; "while";
   "or"; "and"; "not"; "xor"; "bitor"; "compl"; "or_eq"; "and_eq"; "bitand"; "not_eq"; "xor_eq"]%string.
Definition is_keyword (w : str) : bool := existsb (str_eqb w) keywords.

(** 133-146: white space before a token; [ne] is [s._newlineExpected], [nl] the token's newline flag. *)
Fixpoint white (ne nl : bool) (s : src) : bool * src :=
  match s with
  | [] => (nl, [])
  | c :: t => if is_space (lead c) then
                if lead c =? 10 then white false (negb ne) t else white ne nl t
              else (nl, s)
  end.
Definition make (k : kind) (nl : bool) (s rest : src) : tok :=
  let w := List.concat (firstn (List.length s - List.length rest) s) in
  {| t_kind := match k with TIdent => if is_keyword w then TOther else TIdent | _ => k end;
     t_newline := nl; t_text := w; t_from := List.concat s |}.
(** 109-220, scan and scan_helper.  [None]: more rounds are needed than [fuel]. *)
Fixpoint lex_go (fuel : nat) (angle ne nl : bool) (s : src) : option (tok * src) :=
  match fuel with
  | O => None
  | S fuel =>
      let (nl, s) := white ne nl s in
      match s with
      | [] => Some ({| t_kind := TEof; t_newline := nl; t_text := []; t_from := [] |}, [])
      | c :: t => match after angle c t with
                  | Again ne r => lex_go fuel angle ne nl r
                  | Tok k r => Some (make k nl s r, r)
                  end
      end
  end.
Definition lex (angle : bool) (s : src) : option (tok * src) := lex_go (S (List.length s)) angle false false s.

(** ** The scanner, cppscanner.cpp *)

Inductive file_type := Hpp | Cpp | Cppm | Objcpp | Unknown.
(** CppScannerContext.  An include is [true] with quotes, [false] with angle brackets. *)
Record result := { r_includes : list (bool * str); r_part : str; r_provides : str; r_requires : list str;
  r_interface : bool; r_qobject : bool; r_plugin : bool }.
Definition empty_result : result :=
  {| r_includes := []; r_part := []; r_provides := []; r_requires := []; r_interface := false;
     r_qobject := false; r_plugin := false |}.
Definition add_include (i : bool * str) (r : result) : result :=
  {| r_includes := r_includes r ++ [i]; r_part := r_part r; r_provides := r_provides r; r_requires := r_requires r;
     r_interface := r_interface r; r_qobject := r_qobject r; r_plugin := r_plugin r |}.
(** 124-128. *)
Definition add_module (ft : file_type) (m : str) (r : result) : result :=
  {| r_includes := r_includes r; r_part := m; r_provides := match ft with Cppm => m | _ => r_provides r end;
     r_requires := match ft with Cppm => r_requires r | _ => r_requires r ++ [m] end;
     r_interface := r_interface r; r_qobject := r_qobject r; r_plugin := r_plugin r |}.
Definition add_require (m : str) (r : result) : result :=
  {| r_includes := r_includes r; r_part := r_part r; r_provides := r_provides r; r_requires := r_requires r ++ [m];
     r_interface := r_interface r; r_qobject := r_qobject r; r_plugin := r_plugin r |}.
Definition set_interface (r : result) : result :=
  {| r_includes := r_includes r; r_part := r_part r; r_provides := r_provides r; r_requires := r_requires r;
     r_interface := true; r_qobject := r_qobject r; r_plugin := r_plugin r |}.
Definition set_macros (q p : bool) (r : result) : result :=
  {| r_includes := r_includes r; r_part := r_part r; r_provides := r_provides r; r_requires := r_requires r;
     r_interface := r_interface r; r_qobject := q; r_plugin := p |}.

Definition has_kind (k : kind) (t : tok) : bool :=
  match k, t_kind t with
  | TEof, TEof | TIdent, TIdent | TPound, TPound | TString, TString | TAngle, TAngle | TSemi, TSemi
  | TDot, TDot | TColon, TColon | TLess, TLess | TGreater, TGreater | TOther, TOther => true
  | _, _ => false
  end.
Definition equals (t : tok) (w : string) : bool := str_eqb (t_text t) (lit w).

(** The current token, the one before, and the text that follows. *)
Record pos := { p_tok : tok; p_old : tok; p_src : src }.
(** 99-102, stepLexer. *)
Definition next (p : pos) : option pos :=
  match lex false (p_src p) with
  | None => None
  | Some (t, s) => Some {| p_tok := t; p_old := p_tok p; p_src := s |}
  end.

(** 104-122, the name of a module.  [None] here and below: [fuel] is used up. *)
Fixpoint module_name (fuel : nat) (m : str) (p : pos) : option (str * pos) :=
  match fuel with
  | O => None
  | S fuel =>
      if has_kind TEof (p_tok p) || has_kind TSemi (p_tok p) then Some (m, p)
      else match next p with
           | None => None
           | Some p =>
               if has_kind TDot (p_tok p) then
                 match next p with
                 | None => None
                 | Some p => module_name fuel (m ++ 46 :: t_text (p_tok p)) p
                 end
               else if has_kind TColon (p_tok p) then
                 match next p with
                 | None => None
                 | Some p => Some (m ++ 58 :: t_text (p_tok p), p)
                 end
               else module_name fuel m p
           end
  end.
Definition parse_module (fuel : nat) (ft : file_type) (p : pos) (r : result) : option (pos * result) :=
  match module_name fuel (t_text (p_tok p)) p with
  | None => None
  | Some (m, p) => Some (p, add_module ft m r)
  end.

(** 157-166. *)
Fixpoint import_name (fuel : nat) (m : str) (p : pos) : option (str * pos) :=
  match fuel with
  | O => None
  | S fuel =>
      if has_kind TEof (p_tok p) || has_kind TSemi (p_tok p) || has_kind TGreater (p_tok p) then Some (m, p)
      else match next p with
           | None => None
           | Some p =>
               if has_kind TDot (p_tok p) then
                 match next p with
                 | None => None
                 | Some p => import_name fuel (m ++ 46 :: t_text (p_tok p)) p
                 end
               else import_name fuel m p
           end
  end.
Fixpoint before_colon (s : str) : str :=
  match s with [] => [] | c :: t => if c =? 58 then [] else c :: before_colon t end.
(** 131-172, parseImport. *)
Definition parse_import (fuel : nat) (p : pos) (r : result) : option (pos * result) :=
  if has_kind TColon (p_tok p) then
    match next p with
    | None => None
    | Some p => Some (p, match r_part r with
                         | [] => r
                         | _ => add_require (before_colon (r_part r) ++ 58 :: t_text (p_tok p)) r
                         end)
    end
  else
    match (if has_kind TLess (p_tok p) then next p else Some p) with
    | None => None
    | Some q =>
        if has_kind TIdent (p_tok q) then
          match import_name fuel (t_text (p_tok q)) q with
          | None => None
          | Some (m, q) => Some (q, add_require (if has_kind TLess (p_tok p) then 60 :: m ++ [62] else m) r)
          end
        else Some (q, r)
    end.

(** 216-217: the name of the file, [bytes] being a bit field of 16 bits. *)
Definition include_name (t : tok) : str :=
  let n := Nat.modulo (List.length (t_text t)) (N.to_nat 65536) in
  if Nat.ltb n 2 then tl (t_from t) else firstn (n - 2) (tl (t_from t)).

(** 175-200: what starts with a word at the beginning of a line.  [inr]: go on with 201. *)
Definition line_start (fuel : nat) (ft : file_type) (p : pos) (r : result) : option (pos * result + pos) :=
  let done (x : option (pos * result)) := match x with None => None | Some y => Some (inl y) end in
  if equals (p_tok p) "module" then
    match next p with
    | None => None
    | Some p => if has_kind TIdent (p_tok p) then done (parse_module fuel ft p r) else Some (inl (p, r))
    end
  else if equals (p_tok p) "import" then
    match next p with None => None | Some p => done (parse_import fuel p r) end
  else if equals (p_tok p) "export" then
    match next p with
    | None => None
    | Some p =>
        if equals (p_tok p) "module" then
          match next p with
          | None => None
          | Some p => match parse_module fuel ft p r with None => None | Some (p, r) => Some (inl (p, set_interface r)) end
          end
        else if equals (p_tok p) "import" then
          match next p with None => None | Some p => done (parse_import fuel p r) end
        else Some (inr p)
    end
  else Some (inr p).

(** 201-221, a directive. *)
Definition directive (deps : bool) (p : pos) (r : result) : option (pos * result) :=
  match lex false (p_src p) with
  | None => None
  | Some (t, s) =>
      let p1 := {| p_tok := t; p_old := p_old p; p_src := s |} in
      if deps && negb (t_newline t) && has_kind TIdent t && (equals t "include" || equals t "import") then
        match lex true s with
        | None => None
        | Some (t, s) =>
            let p2 := {| p_tok := t; p_old := p_old p; p_src := s |} in
            if negb (t_newline t) && (has_kind TString t || has_kind TAngle t)
            then Some (p2, add_include (has_kind TString t, include_name t) r) else Some (p2, r)
        end
      else Some (p1, r)
  end.

(** 222-243, macros; [true]: enough is known. *)
Definition macros (ft : file_type) (deps : bool) (p : pos) (r : result) : result * bool :=
  if has_kind TIdent (p_old p) && equals (p_old p) "define" then (r, false)
  else
    let t := p_tok p in
    let r :=
      if equals t "Q_OBJECT" || equals t "Q_GADGET" || equals t "Q_NAMESPACE" || equals t "Q_NAMESPACE_EXPORT"
      then set_macros true (r_plugin r) r
      else if equals t "Q_PLUGIN_METADATA" then set_macros (r_qobject r) true r else r in
    (r, negb deps && r_qobject r && (r_plugin r || match ft with Cpp | Cppm | Objcpp => true | _ => false end)).

(** 174-247, the loop. *)
Fixpoint loop (fuel : nat) (ft : file_type) (tags deps : bool) (p : pos) (r : result) : option result :=
  match fuel with
  | O => None
  | S f =>
      if has_kind TEof (p_tok p) then Some r
      else
        match (if deps && t_newline (p_tok p) && has_kind TIdent (p_tok p) then line_start f ft p r
               else Some (inr p)) with
        | None => None
        | Some (inl (p, r)) => loop f ft tags deps p r
        | Some (inr p) =>
            if t_newline (p_tok p) && has_kind TPound (p_tok p) then
              match directive deps p r with
              | None => None
              | Some (p, r) => match next p with None => None | Some p => loop f ft tags deps p r end
              end
            else
              let (r, enough) := if has_kind TIdent (p_tok p) && tags then macros ft deps p r else (r, false) in
              if enough then Some r
              else match next p with None => None | Some p => loop f ft tags deps p r end
        end
  end.

(** 249-316: the byte order mark is skipped; the lexer starts with a newline (Lexer.cpp 65-73). *)
Definition skip_bom (s : str) : str :=
  match s with
  | a :: b :: c :: t => if (a =? 239) && (b =? 187) && (c =? 191) then t else s
  | _ => s
  end.
Definition no_tok : tok := {| t_kind := TEof; t_newline := false; t_text := []; t_from := [] |}.
Definition scan (ft : file_type) (tags deps : bool) (s : str) : option result :=
  let s := [10] :: cut 0 [] (skip_bom s) in
  match next {| p_tok := no_tok; p_old := no_tok; p_src := s |} with
  | None => None
  | Some p => loop (S (S (List.length s))) ft tags deps p empty_result
  end.
(** The files that are included. *)
Definition includes (ft : file_type) (s : str) : option (list (bool * str)) :=
  option_map r_includes (scan ft false true s).
