(** Changes to project files: src/lib/corelib/api/projectfileupdater.cpp, with the parts of
    api/qmljsrewriter.cpp it uses. Texts are lists of characters. *)

From Coq Require Import List Bool Arith NArith.
From Verif Require Import Str JsLiteralModel.
Import ListNotations.
Local Open Scope N_scope.

(** * Line endings *)

Inductive ending := UnknownEndings | UnixEndings | WindowsEndings | MixedEndings.

(** 124-146: the line feeds without and with a carriage return before them.
    [before]: the character before, or 0. *)
Fixpoint count_endings (before : N) (t : str) : nat * nat :=
  match t with
  | [] => (0, 0)%nat
  | c :: r =>
      let '(lf, crlf) := count_endings c r in
      if c =? 10 then if before =? 13 then (lf, S crlf) else (S lf, crlf) else (lf, crlf)
  end.

Definition guess_ending (t : str) : ending :=
  match count_endings 0 t with
  | (O, O) => UnknownEndings
  | (_, O) => UnixEndings
  | (O, _) => WindowsEndings
  | _ => MixedEndings
  end.

(** QByteArray::replace: carriage return and line feed by a line feed. *)
Fixpoint drop_returns (t : str) : str :=
  match t with
  | [] => []
  | c :: r =>
      match r with
      | [] => [c]
      | d :: r' => if (c =? 13) && (d =? 10) then 10 :: drop_returns r' else c :: drop_returns r
      end
  end.

(** 148-153 *)
Definition to_unix (e : ending) (t : str) : str :=
  match e with UnixEndings => t | _ => drop_returns t end.

Fixpoint add_returns (t : str) : str :=
  match t with
  | [] => []
  | c :: r => if c =? 10 then 13 :: 10 :: add_returns r else c :: add_returns r
  end.

(** 155-161. [windows]: HostOsInfo::isWindowsHost. *)
Definition from_unix (windows : bool) (e : ending) (t : str) : str :=
  match e with
  | WindowsEndings => add_returns t
  | UnixEndings => t
  | _ => if windows then add_returns t else t
  end.

(** 163-201: [edit] is parsing with doApply, [None] an error; then the file is not
    written. *)
Definition apply_update (windows : bool) (edit : str -> option str) (raw : str) : option str :=
  let e := guess_ending raw in
  option_map (from_unix windows e) (edit (to_unix e raw)).

(** * The files binding *)

(** An element of an array literal: its text in the file, and its value, if it is a
    string literal. *)
Record element := Element { e_text : str; e_value : option str }.

(** What the right-hand side of a binding is: an array literal, a string literal, any
    other expression, with its text, or a statement that is not an expression. *)
Inductive statement :=
| ArrayLiteral (l : list element)
| StringLiteral (value : str)
| OtherExpression (text : str)
| NoExpression.

(** QString::operator<, by characters. *)
Fixpoint before_or_same (a b : str) : bool :=
  match a, b with
  | [], _ => true
  | _ :: _, [] => false
  | x :: a, y :: b => if x <? y then true else if x =? y then before_or_same a b else false
  end.

(** QStringList::sort *)
Fixpoint insert_sorted (x : str) (l : list str) : list str :=
  match l with
  | [] => [x]
  | y :: r => if before_or_same x y then x :: l else y :: insert_sorted x r
  end.
Definition sorted (l : list str) : list str := fold_right insert_sorted [] l.

Definition spaces (n : nat) : str := repeat 32 n.

(** 289-295: a line for a file. *)
Definition file_line (indent : nat) (repr : str) : str := spaces indent ++ repr ++ [44; 10].

(** 297-302 *)
Definition file_lines (indent : nat) (files : list str) : str :=
  flat_map (fun f => file_line indent (js_str f)) files.

(** 304-308 *)
Definition complete (indent : nat) (lines : str) : str := [91; 10] ++ lines ++ spaces indent ++ [93].

(** 353-362: the old elements before the new ones, and those after them. *)
Fixpoint split_at (first : str) (l : list str) : list str * list str :=
  match l with
  | [] => ([], [])
  | x :: r => if before_or_same x first then let '(a, b) := split_at first r in (x :: a, b) else ([], l)
  end.

Definition concat_start : str := [46; 99; 111; 110; 99; 97; 116; 40].

(** 337-389: the new right-hand side. [indent]: that of the item. [files] is not empty. *)
Definition added_rhs (indent : nat) (files : list str) (st : statement) : option str :=
  let new := sorted files in
  let b := (indent + 4)%nat in
  let a := (b + 4)%nat in
  match st with
  | ArrayLiteral l =>
      let '(front, back) := split_at (js_str (hd [] new)) (List.map e_text l) in
      Some (complete b (flat_map (file_line a) front ++ file_lines a new ++ flat_map (file_line a) back))
  | StringLiteral v => Some (complete b (file_lines a (sorted (new ++ [v]))))
  | OtherExpression t => Some (complete b (file_lines a new) ++ concat_start ++ t ++ [41])
  | NoExpression => None
  end.

(** QStringList::removeOne *)
Fixpoint remove_one (x : str) (l : list str) : option (list str) :=
  match l with
  | [] => None
  | y :: r => if str_eqb y x then Some r else option_map (cons y) (remove_one x r)
  end.

(** 458-476: the files that stay and those that were not found; [None] if an element
    is not a string literal. *)
Fixpoint remaining (l : list element) (remove : list str) : option (list str * list str) :=
  match l with
  | [] => Some ([], remove)
  | e :: r =>
      match e_value e with
      | None => None
      | Some v =>
          match remove_one v remove with
          | Some remove => remaining r remove
          | None => option_map (fun p => (v :: fst p, snd p)) (remaining r remove)
          end
      end
  end.

(** 458-508: here, in the lines, nothing is escaped. *)
Definition removed_rhs (indent : nat) (files : list str) (st : statement) : option str :=
  let b := (indent + 4)%nat in
  let a := (b + 4)%nat in
  match st with
  | ArrayLiteral l =>
      match remaining l files with
      | Some (new, []) => Some (complete b (flat_map (fun f => file_line a (34 :: f ++ [34])) new))
      | _ => None
      end
  | StringLiteral v =>
      match files with
      | [f] => if str_eqb v f then Some [91; 93] else None
      | _ => None
      end
  | _ => None
  end.

(** * Items and their places *)

(** An item of a parsed file: the text from its type name to the right-hand side of its
    files binding (or to its opening brace, if it has none), the text of the right-hand
    side and what it is, and the text up to the next item. [i_same_line]: the next
    member (or, without binding, the first member or the closing brace) is on the same
    line; [i_members]: there are members. Simplified: the binding comes before nested
    items, so that items follow one another. *)
Record item := Item {
  i_before : str;
  i_rhs : option (str * statement);
  i_after : str;
  i_same_line : bool;
  i_members : bool
}.

Record document := Document { d_head : str; d_items : list item }.

Definition item_text (i : item) : str :=
  i_before i ++ match i_rhs i with Some (t, _) => t | None => [] end ++ i_after i.

Definition document_text (d : document) : str := d_head d ++ flat_map item_text (d_items d).

(** The line and the column of the end of a text, from 1. *)
Fixpoint place (line column : nat) (t : str) : nat * nat :=
  match t with
  | [] => (line, column)
  | c :: r => if c =? 10 then place (S line) 1 r else place line (S column) r
  end.

(** 66-86: the item at a place. With the items before and after it. *)
Fixpoint find_item (line column : nat) (before : str) (l : list item) : option (str * item * list item) :=
  match l with
  | [] => None
  | i :: r =>
      let '(a, b) := place 1 1 before in
      if (Nat.eqb a line && Nat.eqb b column)%bool then Some (before, i, r)
      else find_item line column (before ++ item_text i) r
  end.

Definition files_name : str := [102; 105; 108; 101; 115].

(** qmljsrewriter.cpp 72-164 with an empty order of properties (the new binding becomes
    the first member) and 265-349. *)
Definition with_semicolon (b : bool) (t : str) : str := if b then t ++ [59] else t.

Definition changed (i : item) (rhs : str) : str :=
  i_before i ++ with_semicolon (i_same_line i) rhs ++ i_after i.

Definition with_binding (indent : nat) (i : item) (rhs : str) : str :=
  let b := spaces (indent + 4) ++ files_name ++ [58; 32] ++ rhs in
  i_before i ++ (if i_same_line i then 32 :: with_semicolon (i_members i) b else 10 :: b) ++ i_after i.

(** 310-410 *)
Definition add_files (line column : nat) (files : list str) (d : document) : option str :=
  match files with
  | [] => Some (document_text d)
  | _ :: _ =>
      match find_item line column (d_head d) (d_items d) with
      | None => None
      | Some (front, i, back) =>
          let indent := (column - 1)%nat in
          option_map (fun t => front ++ t ++ flat_map item_text back)
            (match i_rhs i with
             | Some (_, st) => option_map (changed i) (added_rhs indent files st)
             | None =>
                 Some (with_binding indent i (complete (indent + 4) (file_lines (indent + 8) (sorted files))))
             end)
      end
  end.

(** 421-518 *)
Definition remove_files (line column : nat) (files : list str) (d : document) : option str :=
  match files with
  | [] => Some (document_text d)
  | _ :: _ =>
      match find_item line column (d_head d) (d_items d) with
      | None => None
      | Some (front, i, back) =>
          option_map (fun t => front ++ t ++ flat_map item_text back)
            (match i_rhs i with
             | Some (_, st) => option_map (changed i) (removed_rhs (column - 1) files st)
             | None => None
             end)
      end
  end.

(** * New items *)

Definition group_start : str := [71; 114; 111; 117; 112; 32; 123; 10].              (* Group, brace, line feed *)
Definition name_start : str := [110; 97; 109; 101; 58; 32; 34].                     (* name: and a quote *)
Definition files_line : str := [102; 105; 108; 101; 115; 58; 32; 91; 93; 10].       (* files: [] *)
Definition depends_start : str :=
  [68; 101; 112; 101; 110; 100; 115; 32; 123; 32; 110; 97; 109; 101; 58; 32; 34].   (* Depends, brace, name: and a quote *)

(** 230-237. [indent]: that of the product. *)
Definition group_text (indent : nat) (name : str) : str :=
  let i := spaces (indent + 4) in
  i ++ group_start ++ i ++ i ++ name_start ++ name ++ [34; 10] ++ i ++ i ++ files_line ++ i ++ [125].

(** 581-588 *)
Definition depends_text (indent : nat) (name : str) : str :=
  spaces (indent + 4) ++ depends_start ++ name ++ [34; 32; 125].
