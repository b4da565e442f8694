(** Sets of text edits: src/lib/corelib/api/changeset.cpp.  Positions and lengths are integers as in the code;
    overflow of [int] is not modelled. *)
From Coq Require Import List Bool ZArith.
From Verif Require Import Str.
Import ListNotations.
Local Open Scope Z_scope.

(** changeset.h 52-73: EditOp, one constructor per type with the fields that type uses. *)
Inductive op :=
| Replace (pos len : Z) (text : str)
| Move (pos len to : Z)
| Insert (pos : Z) (text : str)
| Remove (pos len : Z)
| Flip (pos1 len1 pos2 len2 : Z)
| Copy (pos len to : Z).

Record changeset := { operations : list op; error : bool }.
Definition empty : changeset := {| operations := []; error := false |}.

(** changeset.cpp 54-65: overlaps. *)
Definition overlaps (posA lengthA posB lengthB : Z) : bool :=
  if 0 <? lengthB then
    ((posA <? posB + lengthB) && (posB + lengthB <=? posA + lengthA))
    || ((posA <=? posB) && (posB <? posA + lengthA))
    || ((posB <? posA) && (posA + lengthA <? posB + lengthB))
  else (posA <? posB) && (posB <? posA + lengthA).

(** 67-112: hasOverlap; [inside] is the test for single positions. *)
Definition inside (p pos len : Z) : bool := (pos <? p) && (p <? pos + len).
Definition overlaps_op (pos len : Z) (o : op) : bool :=
  match o with
  | Replace p l _ => overlaps pos len p l
  | Move p l t => overlaps pos len p l || inside t pos len
  | Insert p _ => inside p pos len
  | Remove p l => overlaps pos len p l
  | Flip p1 l1 p2 l2 => overlaps pos len p1 l1 || overlaps pos len p2 l2
  | Copy p l t => overlaps pos len p l || inside t pos len
  end.
Definition has_overlap (c : changeset) (pos len : Z) : bool := existsb (overlaps_op pos len) (operations c).

(** 131-144, 146-161, 163-176, 211-222, 224-240, 242-257: the helpers adding an operation.  They return false if there
    has ever been an overlap, but record the operation all the same. *)
Definition push (c : changeset) (bad : bool) (o : op) : changeset * bool :=
  let e := error c || bad in
  ({| operations := operations c ++ [o]; error := e |}, negb e).
Definition replace_helper c pos len text := push c (has_overlap c pos len) (Replace pos len text).
Definition move_helper c pos len to :=
  push c (has_overlap c pos len || has_overlap c to 0 || overlaps pos len to 0) (Move pos len to).
Definition insert c pos text := push c (has_overlap c pos 0) (Insert pos text).
Definition remove_helper c pos len := push c (has_overlap c pos len) (Remove pos len).
Definition flip_helper c pos1 len1 pos2 len2 :=
  push c (has_overlap c pos1 len1 || has_overlap c pos2 len2 || overlaps pos1 len1 pos2 len2) (Flip pos1 len1 pos2 len2).
Definition copy_helper c pos len to :=
  push c (has_overlap c pos len || has_overlap c to 0 || overlaps pos len to 0) (Copy pos len to).

(** 178-209: the interface, with start and end positions. *)
Inductive request :=
| RReplace (start stop : Z) (text : str)
| RRemove (start stop : Z)
| RMove (start stop to : Z)
| RFlip (start1 stop1 start2 stop2 : Z)
| RCopy (start stop to : Z)
| RInsert (pos : Z) (text : str).
Definition perform (c : changeset) (r : request) : changeset * bool :=
  match r with
  | RReplace s e t => replace_helper c s (e - s) t
  | RRemove s e => remove_helper c s (e - s)
  | RMove s e t => move_helper c s (e - s) t
  | RFlip s1 e1 s2 e2 => flip_helper c s1 (e1 - s1) s2 (e2 - s2)
  | RCopy s e t => copy_helper c s (e - s) t
  | RInsert p t => insert c p t
  end.
Definition perform_all (c : changeset) (rs : list request) : changeset := fold_left (fun c r => fst (perform c r)) rs c.

(** QString::mid. *)
Definition mid (s : str) (pos len : Z) : str :=
  let size := Z.of_nat (length s) in
  if size <? pos then []
  else if pos <? 0 then
    if len <? 0 then s
    else if size <=? len + pos then s
    else if len + pos <=? 0 then []
    else firstn (Z.to_nat (len + pos)) s
  else
    let n := if (len <? 0) || (size - pos <? len) then size - pos else len in
    firstn (Z.to_nat n) (skipn (Z.to_nat pos) s).

(** QString::replace(int pos, int len, const QString &): nothing happens if the position is out of range, and the length is cut
    off at the end. *)
Definition replace_at (s : str) (pos len : Z) (text : str) : str :=
  let size := Z.of_nat (length s) in
  if (pos <? 0) || (size <? pos) then s
  else
    let n := if size - pos <? len then size - pos else len in
    firstn (Z.to_nat pos) s ++ text ++ skipn (Z.to_nat (pos + n)) s.

(** The replace operations everything is turned into. *)
Record edit := { e_pos : Z; e_len : Z; e_text : str }.

(** 276-326: convertToReplace; the texts are taken from the original string. *)
Definition convert (s : str) (o : op) : list edit :=
  match o with
  | Replace p l t => [{| e_pos := p; e_len := l; e_text := t |}]
  | Move p l t => [{| e_pos := p; e_len := l; e_text := [] |}; {| e_pos := t; e_len := 0; e_text := mid s p l |}]
  | Insert p t => [{| e_pos := p; e_len := 0; e_text := t |}]
  | Remove p l => [{| e_pos := p; e_len := l; e_text := [] |}]
  | Flip p1 l1 p2 l2 =>
      [{| e_pos := p1; e_len := l1; e_text := mid s p2 l2 |}; {| e_pos := p2; e_len := l2; e_text := mid s p1 l1 |}]
  | Copy p l t => [{| e_pos := t; e_len := 0; e_text := mid s p l |}]
  end.

(** 259-274: doReplace.  The second condition looks at the position already changed by the first. *)
Definition shift (r c : edit) : edit :=
  let p1 := if e_pos r <=? e_pos c then e_pos c + Z.of_nat (length (e_text r)) else e_pos c in
  let p2 := if e_pos r <? p1 then p1 - e_len r else p1 in
  {| e_pos := p2; e_len := e_len c; e_text := e_text c |}.

(** 351-370: apply_helper. *)
Fixpoint run (fuel : nat) (rs : list edit) (s : str) : str :=
  match fuel, rs with
  | S fuel, r :: rs => run fuel (map (shift r) rs) (replace_at s (e_pos r) (e_len r) (e_text r))
  | _, _ => s
  end.
Definition apply (c : changeset) (s : str) : str :=
  let rs := flat_map (convert s) (operations c) in run (length rs) rs s.
