(** What JavaScript expressions made of literals mean (ECMAScript 2020, sections 11.8 and 12.2), as far as they are literals of strings,
    decimal integers, booleans, undefined, arrays and objects with string keys.  This is a specification, written from the standard:
    it describes no code of the project.  The engine of the project is QuickJS. *)
From Coq Require Import List Bool Arith NArith ZArith.
From Verif Require Import Str.
Import ListNotations.
Local Open Scope N_scope.

(** [JInt], [JFloat]: numbers; QuickJS keeps those that fit into 32 bits and come from integer operations apart.  An object is the
    list of its own properties in the order in which they were created. *)
Inductive js :=
| JUndefined
| JBool (b : bool)
| JInt (z : Z)
| JFloat (z : Z)
| JStr (s : str)
| JArr (l : list js)
| JObj (l : list (str * js)).

(** [SyntaxError]: no JavaScript expression.  [Outside]: not one of the expressions described here. *)
Inductive outcome (A : Type) := Ok (a : A) | SyntaxError | Outside.
Arguments Ok {A}. Arguments SyntaxError {A}. Arguments Outside {A}.

Definition is_space (c : N) : bool := (c =? 32) || (c =? 9) || (c =? 10) || (c =? 13).
Fixpoint skip (s : str) : str :=
  match s with
  | c :: s' => if is_space c then skip s' else s
  | [] => []
  end.

(** The escape sequences with one character after the backslash; a line feed after the backslash continues the line. *)
Definition escape (c : N) : outcome str :=
  if c =? 98 then Ok [8] else if c =? 116 then Ok [9] else if c =? 110 then Ok [10] else if c =? 118 then Ok [11]
  else if c =? 102 then Ok [12] else if c =? 114 then Ok [13] else if c =? 10 then Ok []
  else if is_digit c || (c =? 120) || (c =? 117) || (c =? 13) then Outside
  else Ok [c].

(** The rest of a string literal after the opening double quote: its value and what follows.  A line feed or carriage
    return must not occur in it. *)
Fixpoint string_rest (s : str) : outcome (str * str) :=
  match s with
  | [] => SyntaxError
  | c :: s =>
      if c =? 34 then Ok ([], s)
      else if c =? 92 then
        match s with
        | [] => SyntaxError
        | e :: s =>
            match escape e, string_rest s with
            | Ok a, Ok (b, r) => Ok (a ++ b, r)
            | Ok _, SyntaxError => SyntaxError
            | _, _ => Outside
            end
        end
      else if (c =? 10) || (c =? 13) then SyntaxError
      else match string_rest s with
           | Ok (b, r) => Ok (c :: b, r)
           | SyntaxError => SyntaxError
           | Outside => Outside
           end
  end.

(** The double closest to a natural number; of two equally close ones, the one with the even significand. *)
Definition round_double (n : N) : N :=
  if n <? 2 ^ 53 then n
  else
    let u := 2 ^ (N.log2 n - 52) in
    let q := n / u in
    let r := n mod u in
    (if (2 * r <? u) || ((2 * r =? u) && N.even q) then q else q + 1) * u.
Definition number (n : N) : js := if n <? 2 ^ 31 then JInt (Z.of_N n) else JFloat (Z.of_N (round_double n)).
Definition negated (v : js) : js :=
  match v with
  | JInt 0%Z => JFloat 0
  | JInt z => JInt (- z)
  | JFloat z => JFloat (- z)
  | v => v
  end.

(** Letters, digits and so on: what may not follow a number or word directly. *)
Definition is_name (c : N) : bool :=
  is_digit c || ((65 <=? c) && (c <=? 90)) || ((97 <=? c) && (c <=? 122)) || (c =? 95) || (c =? 36) || (c =? 46) || (c =? 92) || (128 <=? c).
Definition ends (s : str) : bool := match s with [] => true | c :: _ => negb (is_name c) end.

Definition number_here (s : str) : outcome (js * str) :=
  let (d, r) := span is_digit s in
  match d with
  | [] => Outside
  | c :: t => if ((c =? 48) && match t with [] => false | _ => true end) || negb (ends r) then Outside else Ok (number (undec d), r)
  end.

Fixpoint word_here (w s : str) : option str :=
  match w, s with
  | [], s => if ends s then Some s else None
  | a :: w, b :: s => if a =? b then word_here w s else None
  | _, [] => None
  end.

(** Creating a property, or giving it a new value.  The key __proto__ sets the prototype and creates no property. *)
Definition proto : str := [95; 95; 112; 114; 111; 116; 111; 95; 95].
Fixpoint set_property (l : list (str * js)) (k : str) (v : js) : list (str * js) :=
  match l with
  | [] => [(k, v)]
  | (k', v') :: l => if str_eqb k' k then (k, v) :: l else (k', v') :: set_property l k v
  end.
Definition property (l : list (str * js)) (k : str) (v : js) : list (str * js) := if str_eqb k proto then l else set_property l k v.

(** The rest of the text if it starts with the character. *)
Definition after (c : N) (s : str) : option str := match s with d :: r => if d =? c then Some r else None | [] => None end.

(** An expression at the start of the text, with what follows it; the elements of an array and the properties of an object, with at
    least one of them to come.  [fuel] bounds the nesting. *)
Fixpoint expression (fuel : nat) (s : str) : outcome (js * str) :=
  match fuel with
  | O => Outside
  | S fuel =>
      let s := skip s in
      match after 34 s with Some r => match string_rest r with Ok (v, r) => Ok (JStr v, r) | SyntaxError => SyntaxError | Outside => Outside end
      | None =>
      match after 91 s with Some r => match after 93 (skip r) with Some r => Ok (JArr [], r) | None => elements fuel r [] end
      | None =>
      match after 123 s with Some r => match after 125 (skip r) with Some r => Ok (JObj [], r) | None => properties fuel r [] end
      | None =>
      match after 45 s with Some r => match number_here r with Ok (v, r) => Ok (negated v, r) | SyntaxError => SyntaxError | Outside => Outside end
      | None =>
      match word_here [116; 114; 117; 101] s with Some r => Ok (JBool true, r)
      | None =>
      match word_here [102; 97; 108; 115; 101] s with Some r => Ok (JBool false, r)
      | None =>
      match word_here [117; 110; 100; 101; 102; 105; 110; 101; 100] s with Some r => Ok (JUndefined, r)
      | None => number_here s
      end end end end end end end
  end
with elements (fuel : nat) (s : str) (done : list js) : outcome (js * str) :=
  match fuel with
  | O => Outside
  | S fuel =>
      match expression fuel s with
      | Ok (v, r) =>
          match after 44 (skip r) with
          | Some r => elements fuel r (done ++ [v])
          | None => match after 93 (skip r) with Some r => Ok (JArr (done ++ [v]), r) | None => Outside end
          end
      | SyntaxError => SyntaxError
      | Outside => Outside
      end
  end
with properties (fuel : nat) (s : str) (done : list (str * js)) : outcome (js * str) :=
  match fuel with
  | O => Outside
  | S fuel =>
      match after 34 (skip s) with
      | Some r =>
          match string_rest r with
          | Ok (k, r) =>
              match after 58 (skip r) with
              | Some r =>
                  match expression fuel r with
                  | Ok (v, r) =>
                      match after 44 (skip r) with
                      | Some r => properties fuel r (property done k v)
                      | None => match after 125 (skip r) with Some r => Ok (JObj (property done k v), r) | None => Outside end
                      end
                  | SyntaxError => SyntaxError
                  | Outside => Outside
                  end
              | None => Outside
              end
          | SyntaxError => SyntaxError
          | Outside => Outside
          end
      | None => Outside
      end
  end.

(** The value of a text that is one expression. *)
Definition js_eval (s : str) : outcome js :=
  match expression (S (length s)) s with
  | Ok (v, r) => match skip r with [] => Ok v | _ => Outside end
  | SyntaxError => SyntaxError
  | Outside => Outside
  end.
