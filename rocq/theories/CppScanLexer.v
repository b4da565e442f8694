(** The text of C++ files (the specification for the scanner), and lemmas about the lexer. *)
From Coq Require Import List Bool Arith NArith String Ascii Lia.
From Verif Require Import Str CppScanModel.
Import ListNotations.
Local Open Scope N_scope.
Notation length := List.length.

(** ** Source files, as C++ defines them *)

(** One character, encoded in UTF-8. *)
Definition cont (b : N) : Prop := 128 <= b < 192.
Definition utf8 (c : ch) : Prop :=
  match c with
  | [a] => 0 < a < 128
  | [a; b] => 192 <= a < 224 /\ cont b
  | [a; b; d] => 224 <= a < 240 /\ cont b /\ cont d
  | [a; b; d; e] => 240 <= a < 248 /\ cont b /\ cont d /\ cont e
  | _ => False
  end.
Definition code (c : ch) : N := match c with [] => 0 | a :: _ => a end.
Definition newline_c : ch := [10].
Definition blank (n : N) : Prop := n = 32 \/ n = 9 \/ n = 11 \/ n = 12 \/ n = 13.
Definition white_c (n : N) : Prop := n = 10 \/ blank n.
Definition digit (n : N) : Prop := 48 <= n <= 57.
Definition letter (n : N) : Prop := 65 <= n <= 90 \/ 97 <= n <= 122.
(** Characters of identifiers: letters, digits, underscore, dollar, and everything beyond ASCII. *)
Definition wordc (n : N) : Prop := letter n \/ digit n \/ n = 95 \/ n = 36 \/ 128 <= n < 256.

(** What may be between two tokens of a line: blanks, backslash and newline, comments. *)
Inductive gap := Blank (c : ch) | Splice | Comment (b : list ch).
(** What literals and comments with two slashes consist of: a character, a backslash and a character, a
    backslash with blanks and a character, a backslash and a newline. *)
Inductive atom := Plain (c : ch) | Esc (c : ch) | EscBlank (b : list ch) (c : ch) | Continued.
(** Tokens of C++ code; identifiers, numbers and punctuators are given character by character.  The first argument of
    [Quoted] is the quote. *)
Inductive piece := Gap (g : gap) | Neutral (c : ch) | Quoted (q : N) (b : list atom) | Raw (pre : list N) (delim body : list ch).
(** The end of a line: nothing, a comment with two slashes, a quote that is not closed (as in [#error don't]). *)
Inductive ending := End | LineComment (b : list atom) | Open (q : N) (b : list atom).

Definition gap_text (g : gap) : src :=
  match g with
  | Blank c => [c]
  | Splice => [[92]; [10]]
  | Comment b => [[47]; [42]] ++ b ++ [[42]; [47]]
  end.
Definition gaps_text (gs : list gap) : src := flat_map gap_text gs.
Definition atom_text (a : atom) : src :=
  match a with
  | Plain c => [c]
  | Esc c => [[92]; c]
  | EscBlank b c => [[92]] ++ b ++ [c]
  | Continued => [[92]; [10]]
  end.
Definition atoms_text (l : list atom) : src := flat_map atom_text l.
Definition piece_text (p : piece) : src :=
  match p with
  | Gap g => gap_text g
  | Neutral c => [c]
  | Quoted q b => [[q]] ++ atoms_text b ++ [[q]]
  | Raw pre delim body => map (fun n => [n]) pre ++ [[34]] ++ delim ++ [[40]] ++ body ++ [[41]] ++ delim ++ [[34]]
  end.
Definition ending_text (e : ending) : src :=
  match e with
  | End => []
  | LineComment b => [[47]; [47]] ++ atoms_text b
  | Open q b => [[q]] ++ atoms_text b
  end.
Definition text (ps : list piece) (e : ending) : src := flat_map piece_text ps ++ ending_text e.
Definition first (s : src) : N := match s with [] => 0 | c :: _ => code c end.

Definition gap_ok (g : gap) : Prop :=
  match g with
  | Blank c => blank (code c)
  | Splice => True
  | Comment b => ~ exists l1 c d l2, b = l1 ++ c :: d :: l2 /\ code c = 42 /\ code d = 47
  end.
(** [stop] tells the quote. *)
Definition atom_ok (stop : N -> Prop) (a : atom) : Prop :=
  match a with
  | Plain c => ~ stop (code c) /\ code c <> 10 /\ code c <> 92
  | Esc c => ~ white_c (code c)
  | EscBlank b c => b <> [] /\ (forall x, In x b -> blank (code x))
      /\ ~ white_c (code c) /\ ~ stop (code c) /\ code c <> 92
  | Continued => True
  end.
(** Two backslashes before a newline continue the line in C++. *)
Definition ends_well (b : list atom) : Prop := forall l c, b = l ++ [Esc c] -> code c <> 92.

(** [cx]: the characters before, the last one first, as far as they belong to the same run. *)
Fixpoint run_of (cx : list N) : list N :=
  match cx with
  | [] => []
  | n :: t => if (((65 <=? n) && (n <=? 90)) || ((97 <=? n) && (n <=? 122)) || ((48 <=? n) && (n <=? 57))
                  || (n =? 95) || (n =? 36) || ((128 <=? n) && (n <? 256)))
              then n :: run_of t else []
  end.
Definition raw_prefix (w : list N) : Prop := w = [82] \/ w = [76; 82] \/ w = [117; 82] \/ w = [85; 82] \/ w = [117; 56; 82].
Definition quote_ok (cx : list N) (q : N) : Prop :=
  (q = 34 /\ ~ raw_prefix (rev (run_of cx))) \/ (q = 39 /\ forall d t, rev (run_of cx) = d :: t -> ~ digit d).
Definition raw_ok (cx : list N) (pre : list N) (delim body : list ch) : Prop :=
  raw_prefix pre
  /\ (forall n t, cx = n :: t -> ~ wordc n /\ n <> 46 /\ n <> 43 /\ n <> 45 /\ n <> 34 /\ n <> 39)
  /\ (forall c, In c delim -> exists n, c = [n] /\ n < 128 /\ ~ white_c n /\ n <> 40 /\ n <> 41 /\ n <> 92)
  /\ ~ (exists l1 l2, body = l1 ++ ([[41]] ++ delim ++ [[34]]) ++ l2).
Definition end_ok (cx : list N) (e : ending) : Prop :=
  match e with
  | End => True
  | LineComment b => Forall (atom_ok (fun _ => False)) b /\ ends_well b
  | Open q b => quote_ok cx q /\ Forall (atom_ok (eq q)) b /\ ends_well b
  end.
Fixpoint pieces_ok (cx : list N) (ps : list piece) (e : ending) : Prop :=
  match ps with
  | [] => end_ok cx e
  | Gap g :: ps => gap_ok g /\ pieces_ok [] ps e
  | Neutral c :: ps =>
      ~ white_c (code c) /\ code c <> 0 /\ code c <> 34 /\ code c <> 39 /\ code c <> 92
      /\ (code c = 47 -> first (text ps e) <> 47 /\ first (text ps e) <> 42)
      /\ (code c = 37 -> first (text ps e) <> 58)
      /\ pieces_ok (code c :: cx) ps e
  | Quoted q b :: ps => quote_ok cx q /\ Forall (atom_ok (eq q)) b /\ pieces_ok [q] ps e
  | Raw pre delim body :: ps => raw_ok cx pre delim body /\ pieces_ok [34] ps e
  end.

(** ** The scan ends *)

Lemma drop_while_le p s : (length (drop_while p s) <= length s)%nat.
Proof. induction s as [|c t IH]; cbn; auto. destruct (p (lead c)); cbn; lia. Qed.
Lemma tl_le {A} (s : list A) : (length (tl s) <= length s)%nat.
Proof. destruct s; cbn; lia. Qed.
Lemma drop_if_le p s : (length (drop_if p s) <= length s)%nat.
Proof. unfold drop_if. destruct (p (peek s)); auto using tl_le. Qed.
Lemma until_le stop s : forall m, (length (until stop m s) <= length s)%nat.
Proof.
  induction s as [|c t IH]; intros m; cbn [until]; auto. pose proof (IH B0). pose proof (IH B1). pose proof (IH B2). pose proof (IH B3).
  destruct m; repeat match goal with |- context [if ?b then _ else _] => destruct b end; cbn [length]; lia.
Qed.
Lemma quote_le q s : (length (quote q s) <= length s)%nat.
Proof. unfold quote. pose proof (drop_if_le (N.eqb q) (until (N.eqb q) B0 s)). pose proof (until_le (N.eqb q) s B0). lia. Qed.
Lemma line_comment_le s : (length (line_comment s) <= length s)%nat.
Proof. apply until_le. Qed.
Lemma block_le s : (length (block s) <= length s)%nat.
Proof.
  induction s as [|c t IH]; cbn [block]; auto. destruct (lead c =? 42); [|cbn; lia]. destruct t as [|d t']; [cbn; lia|].
  destruct (lead d =? 47); cbn [length] in *; lia.
Qed.
Lemma block_comment_le s : (length (block_comment s) <= length s)%nat.
Proof.
  unfold block_comment. destruct s as [|c t]; auto. pose proof (tl_le t). pose proof (block_le (c :: t)).
  pose proof (block_le (drop_if (N.eqb 60) t)). pose proof (drop_if_le (N.eqb 60) t).
  repeat match goal with |- context [if ?b then _ else _] => destruct b end; cbn [length] in *; lia.
Qed.
Lemma raw_delim_le s : forall n, match raw_delim n s with RawOpen _ t => (length t <= length s)%nat | RawError t => (length t <= length s)%nat end.
Proof.
  induction s as [|c t IH]; intros n; cbn [raw_delim]; auto.
  repeat match goal with |- context [if ?b then _ else _] => destruct b end; cbn [length]; try lia.
  specialize (IH (n + length c)%nat). destruct (raw_delim _ t); lia.
Qed.
Lemma raw_body_le txt n s : forall k, (length (raw_body txt n k s) <= length s)%nat.
Proof.
  induction s as [|c t IH]; intros k; cbn [raw_body]; auto.
  destruct (lead c =? 41); [specialize (IH (Some 0%nat)); cbn; lia|]. destruct k as [k|]; [|specialize (IH None); cbn; lia].
  destruct ((lead c =? 34) && (k =? n)%nat); [cbn; lia|].
  destruct (lead c =? nth k txt 0); [specialize (IH (Some (k + length c)%nat))|specialize (IH None)]; cbn [length]; lia.
Qed.
Lemma raw_le s : (length (raw s) <= length s)%nat.
Proof.
  unfold raw. pose proof (raw_delim_le s 0). destruct (raw_delim 0 s) as [n t|t]; auto.
  pose proof (raw_body_le (List.concat s) n t None). lia.
Qed.
Lemma exponent_le s : (length (snd (exponent s)) <= length s)%nat.
Proof.
  unfold exponent. destruct ((peek s =? 101) || (peek s =? 69)); cbn [snd]; auto.
  pose proof (drop_while_le is_digit (drop_if (fun c => (c =? 43) || (c =? 45)) (tl s))).
  pose proof (drop_if_le (fun c => (c =? 43) || (c =? 45)) (tl s)). pose proof (tl_le s). lia.
Qed.
Lemma fraction_le s : (length (fraction s) <= length s)%nat.
Proof.
  unfold fraction, float_suffix. set (p := fun c : N => _).
  pose proof (drop_if_le p (snd (exponent (drop_while is_digit s)))).
  pose proof (exponent_le (drop_while is_digit s)). pose proof (drop_while_le is_digit s). lia.
Qed.
Lemma int_suffix_no_u_le s : (length (int_suffix_no_u s) <= length s)%nat.
Proof.
  unfold int_suffix_no_u. pose proof (tl_le s). pose proof (tl_le (tl s)).
  pose proof (drop_if_le (N.eqb 52) (tl (tl s))).
  pose proof (drop_if_le is_u (drop_if (N.eqb 108) (tl s))). pose proof (drop_if_le (N.eqb 108) (tl s)).
  pose proof (drop_if_le is_u (drop_if (N.eqb 76) (tl s))). pose proof (drop_if_le (N.eqb 76) (tl s)).
  repeat match goal with |- context [if ?b then _ else _] => destruct b end; lia.
Qed.
Lemma int_suffix_le s : (length (int_suffix s) <= length s)%nat.
Proof.
  unfold int_suffix. pose proof (int_suffix_no_u_le s). pose proof (int_suffix_no_u_le (tl s)). pose proof (tl_le s).
  destruct (is_u (peek s)); lia.
Qed.
Lemma decimal_le s : (length (decimal s) <= length s)%nat.
Proof.
  unfold decimal. pose proof (drop_while_le is_digit s). destruct (drop_while is_digit s) as [|c t]; [cbn; lia|].
  pose proof (fraction_le t). pose proof (int_suffix_le (c :: t)). pose proof (exponent_le (c :: t)).
  destruct (exponent (c :: t)) as [ok u]. cbn [snd] in *. unfold float_suffix. set (p := fun c : N => _). pose proof (drop_if_le p u).
  destruct (lead c =? 46); [cbn [length] in *; lia|]. destruct ((lead c =? 101) || (lead c =? 69)); [destruct ok; lia|lia].
Qed.
Lemma number_le c s : (length (number c s) <= length s)%nat.
Proof.
  unfold number. cbv zeta. eapply Nat.le_trans; [apply drop_while_le|].
  pose proof (tl_le s). pose proof (decimal_le s).
  pose proof (int_suffix_le (drop_while is_hex (tl s))). pose proof (drop_while_le is_hex (tl s)).
  pose proof (int_suffix_le (drop_while is_octal s)). pose proof (drop_while_le is_octal s).
  set (b := fun c : N => (c =? 48) || (c =? 49)). pose proof (int_suffix_le (drop_while b (tl s))). pose proof (drop_while_le b (tl s)).
  repeat match goal with |- context [if ?b then _ else _] => destruct b end; lia.
Qed.
Ltac le_chain :=
  cbv zeta;
  repeat match goal with |- context [if ?b then _ else _] => destruct b end; cbv beta;
  repeat match goal with
  | |- (length ?x <= length ?x)%nat => apply le_n
  | |- (length (tl ?s) <= _)%nat => eapply Nat.le_trans; [apply tl_le|]
  | |- (length (drop_if ?p ?s) <= _)%nat => eapply Nat.le_trans; [apply drop_if_le|]
  | |- (length (drop_while ?p ?s) <= _)%nat => eapply Nat.le_trans; [apply drop_while_le|]
  | |- (length (quote ?p ?s) <= _)%nat => eapply Nat.le_trans; [apply quote_le|]
  | |- (length (raw ?s) <= _)%nat => eapply Nat.le_trans; [apply raw_le|]
  | |- (length (line_comment ?s) <= _)%nat => eapply Nat.le_trans; [apply line_comment_le|]
  | |- (length (block_comment ?s) <= _)%nat => eapply Nat.le_trans; [apply block_comment_le|]
  | |- (length (fraction ?s) <= _)%nat => eapply Nat.le_trans; [apply fraction_le|]
  | |- (length (number ?c ?s) <= _)%nat => eapply Nat.le_trans; [apply number_le|]
  end.
Lemma after_le angle c t : match after angle c t with Tok _ r => (length r <= length t)%nat | Again _ r => (length r <= length t)%nat end.
Proof. unfold after. le_chain. Qed.
Lemma white_le s : forall ne nl, (length (snd (white ne nl s)) <= length s)%nat.
Proof.
  induction s as [|c t IH]; intros ne nl; cbn [white]; auto. destruct (is_space (lead c)); auto.
  destruct (lead c =? 10); [specialize (IH false (negb ne))|specialize (IH ne nl)]; cbn [length]; lia.
Qed.
Lemma lex_go_ends fuel : forall angle ne nl s, (length s < fuel)%nat -> exists t r, lex_go fuel angle ne nl s = Some (t, r)
  /\ ((t_kind t = TEof /\ r = []) \/ (length r < length s)%nat).
Proof.
  induction fuel as [|fuel IH]; intros angle ne nl s L; [lia|]. cbn [lex_go]. pose proof (white_le s ne nl) as W.
  destruct (white ne nl s) as [nl' s']. cbn [snd] in W. destruct s' as [|c t]; [eexists _, _; split; [reflexivity|auto]|].
  pose proof (after_le angle c t) as A. cbn [length] in W. destruct (after angle c t) as [k r|ne' r].
  - eexists _, _. split; [reflexivity|]. right. lia.
  - destruct (IH angle ne' nl' r) as (t' & r' & E & P); [lia|]. exists t', r'. split; auto. destruct P as [P|P]; [auto|right; lia].
Qed.

Definition ahead (p q : pos) : Prop := (t_kind (p_tok q) = TEof /\ p_src q = []) \/ (length (p_src q) < length (p_src p))%nat.
Lemma lex_ends angle s : exists t r, lex angle s = Some (t, r) /\ ((t_kind t = TEof /\ r = []) \/ (length r < length s)%nat).
Proof. apply lex_go_ends. lia. Qed.
Lemma next_ends p : exists q, next p = Some q /\ ahead p q.
Proof.
  unfold next. destruct (lex_ends false (p_src p)) as (t & r & -> & P). eexists. split; [reflexivity|]. unfold ahead. exact P.
Qed.
Lemma ahead_trans p q q' : ahead p q -> ahead q q' -> ahead p q'.
Proof. unfold ahead. intros [[A B]|A] [C|C]; auto; [rewrite B in C; cbn in C; lia|right; lia]. Qed.
Definition enough (fuel : nat) (p : pos) : Prop := (1 <= fuel /\ t_kind (p_tok p) = TEof)%nat \/ (2 + length (p_src p) <= fuel)%nat.
Lemma enough_ahead fuel p q : ahead p q -> (2 + length (p_src p) <= S fuel)%nat -> enough fuel q.
Proof. unfold ahead, enough. intros [[A B]|A] L; [left; split; auto; lia|right; lia]. Qed.
Lemma eof_kind t : has_kind TEof t = false -> t_kind t <> TEof.
Proof. unfold has_kind. destruct (t_kind t); congruence. Qed.
Lemma enough_more fuel p : enough (S fuel) p -> has_kind TEof (p_tok p) = false -> (2 + length (p_src p) <= S fuel)%nat.
Proof. intros [[A B]|A] N; auto. apply eof_kind in N. contradiction. Qed.

Lemma module_name_ends fuel : forall m p, enough fuel p -> exists m' q, module_name fuel m p = Some (m', q) /\ (q = p \/ ahead p q).
Proof.
  induction fuel as [|fuel IH]; intros m p E; [destruct E; lia|]. cbn [module_name].
  destruct (has_kind TEof (p_tok p)) eqn:K; [cbn; eauto|]. destruct (has_kind TSemi (p_tok p)); [cbn; eauto|]. cbn [orb].
  pose proof (enough_more _ _ E K) as L. destruct (next_ends p) as (q & -> & A).
  destruct (has_kind TDot (p_tok q)); [|destruct (has_kind TColon (p_tok q))].
  - destruct (next_ends q) as (q' & -> & A'). pose proof (ahead_trans _ _ _ A A') as A2.
    destruct (IH (m ++ 46 :: t_text (p_tok q')) q') as (m' & q2 & -> & B); [eapply enough_ahead; eauto|].
    eexists _, _. split; [reflexivity|]. right. destruct B as [->|B]; auto. eapply ahead_trans; eauto.
  - destruct (next_ends q) as (q' & -> & A'). eexists _, _. split; [reflexivity|]. right. eapply ahead_trans; eauto.
  - destruct (IH m q) as (m' & q2 & -> & B); [eapply enough_ahead; eauto|].
    eexists _, _. split; [reflexivity|]. right. destruct B as [->|B]; auto. eapply ahead_trans; eauto.
Qed.
Lemma import_name_ends fuel : forall m p, enough fuel p -> exists m' q, import_name fuel m p = Some (m', q) /\ (q = p \/ ahead p q).
Proof.
  induction fuel as [|fuel IH]; intros m p E; [destruct E; lia|]. cbn [import_name].
  destruct (has_kind TEof (p_tok p)) eqn:K; [cbn; eauto|]. destruct (has_kind TSemi (p_tok p)); [cbn; eauto|].
  destruct (has_kind TGreater (p_tok p)); [cbn; eauto|]. cbn [orb].
  pose proof (enough_more _ _ E K) as L. destruct (next_ends p) as (q & -> & A).
  destruct (has_kind TDot (p_tok q)).
  - destruct (next_ends q) as (q' & -> & A'). pose proof (ahead_trans _ _ _ A A') as A2.
    destruct (IH (m ++ 46 :: t_text (p_tok q')) q') as (m' & q2 & -> & B); [eapply enough_ahead; eauto|].
    eexists _, _. split; [reflexivity|]. right. destruct B as [->|B]; auto. eapply ahead_trans; eauto.
  - destruct (IH m q) as (m' & q2 & -> & B); [eapply enough_ahead; eauto|].
    eexists _, _. split; [reflexivity|]. right. destruct B as [->|B]; auto. eapply ahead_trans; eauto.
Qed.
Lemma parse_module_ends fuel ft p r : enough fuel p -> exists q r', parse_module fuel ft p r = Some (q, r') /\ (q = p \/ ahead p q).
Proof. intros E. unfold parse_module. destruct (module_name_ends fuel (t_text (p_tok p)) p E) as (m & q & -> & B). eauto. Qed.
Lemma parse_import_ends fuel p r : enough fuel p -> (forall q, ahead p q -> enough fuel q) -> exists q r', parse_import fuel p r = Some (q, r') /\ (q = p \/ ahead p q).
Proof.
  intros E E'. unfold parse_import. destruct (has_kind TColon (p_tok p)).
  - destruct (next_ends p) as (q & -> & A). eauto.
  - destruct (has_kind TLess (p_tok p)).
    + destruct (next_ends p) as (q & -> & A). destruct (has_kind TIdent (p_tok q)); [|eauto].
      destruct (import_name_ends fuel (t_text (p_tok q)) q (E' _ A)) as (m & q' & -> & B).
      eexists _, _. split; [reflexivity|]. right. destruct B as [->|B]; auto. eapply ahead_trans; eauto.
    + destruct (has_kind TIdent (p_tok p)); [|eauto].
      destruct (import_name_ends fuel (t_text (p_tok p)) p E) as (m & q' & -> & B). eauto.
Qed.
Lemma line_start_ends fuel ft p r : (2 + length (p_src p) <= S fuel)%nat ->
  exists x, line_start fuel ft p r = Some x /\ match x with inl (q, _) => ahead p q | inr q => q = p \/ ahead p q end.
Proof.
  intros L. assert (E : forall q, ahead p q -> enough fuel q) by (intros q A; eapply enough_ahead; eauto).
  assert (E2 : forall q, ahead p q -> forall q', ahead q q' -> enough fuel q') by (intros q A q' A'; apply E; eapply ahead_trans; eauto).
  unfold line_start. destruct (next_ends p) as (q & -> & A). destruct (next_ends q) as (q' & -> & A').
  assert (PM : forall x, ahead p x -> exists y r', parse_module fuel ft x r = Some (y, r') /\ ahead p y).
  { intros x X. destruct (parse_module_ends fuel ft x r (E _ X)) as (y & r' & E1 & [->|B]); eauto. exists y, r'. split; auto. eapply ahead_trans; eauto. }
  assert (PI : forall x, ahead p x -> exists y r', parse_import fuel x r = Some (y, r') /\ ahead p y).
  { intros x X. destruct (parse_import_ends fuel x r (E _ X) (E2 _ X)) as (y & r' & E1 & [->|B]); eauto. exists y, r'. split; auto. eapply ahead_trans; eauto. }
  pose proof (ahead_trans _ _ _ A A') as A2.
  destruct (equals (p_tok p) "module").
  { destruct (has_kind TIdent (p_tok q)).
    - destruct (PM q A) as (y & r' & -> & B). eexists. split; [reflexivity|exact B].
    - eexists. split; [reflexivity|exact A]. }
  destruct (equals (p_tok p) "import").
  { destruct (PI q A) as (y & r' & -> & B). eexists. split; [reflexivity|exact B]. }
  destruct (equals (p_tok p) "export").
  { destruct (equals (p_tok q) "module").
    - destruct (PM q' A2) as (y & r' & -> & B). eexists. split; [reflexivity|exact B].
    - destruct (equals (p_tok q) "import").
      + destruct (PI q' A2) as (y & r' & -> & B). eexists. split; [reflexivity|exact B].
      + eexists. split; [reflexivity|right; exact A]. }
  eexists. split; [reflexivity|left; reflexivity].
Qed.
Lemma directive_ends deps p r : exists q r', directive deps p r = Some (q, r') /\ ahead p q.
Proof.
  unfold directive. destruct (lex_ends false (p_src p)) as (t & s & -> & P).
  assert (A : ahead p {| p_tok := t; p_old := p_old p; p_src := s |}) by exact P.
  destruct (deps && negb (t_newline t) && has_kind TIdent t && (equals t "include" || equals t "import")); [|eauto].
  destruct (lex_ends true s) as (t' & s' & -> & P').
  assert (A' : ahead {| p_tok := t; p_old := p_old p; p_src := s |} {| p_tok := t'; p_old := p_old p; p_src := s' |}) by exact P'.
  pose proof (ahead_trans _ _ _ A A'). destruct (_ && _); eauto.
Qed.
Lemma loop_ends fuel : forall ft tags deps p r, enough fuel p -> exists r', loop fuel ft tags deps p r = Some r'.
Proof.
  induction fuel as [|fuel IH]; intros ft tags deps p r E; [destruct E; lia|]. cbn [loop].
  destruct (has_kind TEof (p_tok p)) eqn:K; [eauto|]. pose proof (enough_more _ _ E K) as L.
  assert (X : exists x, (if deps && t_newline (p_tok p) && has_kind TIdent (p_tok p) then line_start fuel ft p r else Some (inr p)) = Some x
    /\ match x with inl (q, _) => ahead p q | inr q => q = p \/ ahead p q end).
  { destruct (_ && _); [now apply line_start_ends|]. eexists. split; [reflexivity|left; reflexivity]. }
  destruct X as (x & -> & A). destruct x as [[q r']|q]; [apply IH; eapply enough_ahead; eauto|].
  assert (N : forall q', ahead q q' -> enough fuel q').
  { intros q' B. destruct A as [->|A]; [exact (enough_ahead fuel p q' B L)|]. exact (enough_ahead fuel p q' (ahead_trans _ _ _ A B) L). }
  destruct (t_newline (p_tok q) && has_kind TPound (p_tok q)).
  - destruct (directive_ends deps q r) as (q1 & r1 & -> & B). destruct (next_ends q1) as (q2 & -> & C). apply IH, N. eapply ahead_trans; eauto.
  - destruct (if has_kind TIdent (p_tok q) && tags then macros ft deps q r else (r, false)) as [r1 b]. destruct b; [eauto|].
    destruct (next_ends q) as (q2 & -> & C). apply IH, N, C.
Qed.
(** C65: the scan of a file ends, whatever is in it. *)
Theorem scan_ends ft tags deps s : scan ft tags deps s <> None.
Proof.
  unfold scan. cbv zeta. generalize ([10] :: cut 0 [] (skip_bom s)) as t. intros t. set (p0 := {| p_tok := no_tok; p_old := no_tok; p_src := t |}).
  destruct (next_ends p0) as (q & -> & A). destruct (loop_ends (S (S (length t))) ft tags deps q empty_result) as (r & ->); [|discriminate].
  destruct A as [[A _]|A]; [left; split; auto; lia|right; apply le_n_S, le_n_S, Nat.lt_le_incl; exact A].
Qed.

(** ** Characters *)

Lemma lead_code c : lead c = code c.
Proof. now destruct c. Qed.
Lemma peek_first s : peek s = first s.
Proof. destruct s as [|c s]; [reflexivity|apply lead_code]. Qed.
Lemma space_iff n : is_space n = true <-> white_c n.
Proof.
  unfold is_space, white_c, blank. rewrite orb_true_iff, andb_true_iff, N.eqb_eq, !N.leb_le. split; [|lia].
  intros [H|[A B]]; auto 10. assert (n = 9 \/ n = 10 \/ n = 11 \/ n = 12 \/ n = 13) by lia. intuition.
Qed.
Lemma space_no n : is_space n = false <-> ~ white_c n.
Proof. rewrite <- space_iff. now destruct (is_space n). Qed.
Lemma bytes_check (p : N -> bool) : forallb p (map N.of_nat (seq 0 (N.to_nat 256))) = true -> forall n, n < 256 -> p n = true.
Proof.
  intros H n L. rewrite forallb_forall in H. apply H. apply in_map_iff. exists (N.to_nat n). split; [apply N2Nat.id|]. apply in_seq. lia.
Qed.
Lemma high_bit n : n < 256 -> N.testbit n 7 = (128 <=? n).
Proof.
  intros L. apply eqb_prop. apply (bytes_check (fun n => Bool.eqb (N.testbit n 7) (128 <=? n))); [vm_compute; reflexivity|exact L].
Qed.
Lemma digit_iff n : is_digit n = true <-> digit n.
Proof. unfold is_digit, digit. rewrite andb_true_iff, !N.leb_le. tauto. Qed.
Lemma alpha_iff n : is_alpha n = true <-> letter n.
Proof. unfold is_alpha, letter. rewrite orb_true_iff, !andb_true_iff, !N.leb_le. tauto. Qed.
Lemma alnum_iff n : is_alnum_ n = true <-> letter n \/ digit n \/ n = 95.
Proof. unfold is_alnum_, is_alnum. rewrite !orb_true_iff, alpha_iff, digit_iff, N.eqb_eq. tauto. Qed.
Lemma word_iff n : n < 256 -> (is_word n = true <-> wordc n).
Proof.
  intros L. unfold is_word, is_alnum, wordc. rewrite !orb_true_iff, alpha_iff, digit_iff, !N.eqb_eq, high_bit, N.leb_le by auto. split; [tauto|].
  intros [H|[H|[H|[H|H]]]]; try tauto. 
Qed.
Lemma word_no n : n < 256 -> (is_word n = false <-> ~ wordc n).
Proof. intros L. rewrite <- word_iff by auto. now destruct (is_word n). Qed.
Lemma utf8_code c : utf8 c -> 0 < code c < 256.
Proof. destruct c as [|a [|b [|d [|e [|f c]]]]]; cbn; intros H; try tauto; lia. Qed.

Lemma trailing_spec n : n < 256 -> (n < 128 -> trailing n = 0%nat) /\ (192 <= n < 224 -> trailing n = 1%nat)
  /\ (224 <= n < 240 -> trailing n = 2%nat) /\ (240 <= n < 248 -> trailing n = 3%nat).
Proof.
  intros L.
  pose (p := fun n => (if n <? 128 then Nat.eqb (trailing n) 0 else true) && (if (192 <=? n) && (n <? 224) then Nat.eqb (trailing n) 1 else true)
    && (if (224 <=? n) && (n <? 240) then Nat.eqb (trailing n) 2 else true) && (if (240 <=? n) && (n <? 248) then Nat.eqb (trailing n) 3 else true)).
  assert (P : p n = true) by (apply bytes_check; [vm_compute; reflexivity|exact L]).
  unfold p in P. rewrite !andb_true_iff in P. destruct P as [[[P1 P2] P3] P4].
  repeat split; intros H.
  - apply Nat.eqb_eq. destruct (N.ltb_spec n 128); [auto|lia].
  - apply Nat.eqb_eq. destruct (N.leb_spec 192 n), (N.ltb_spec n 224); cbn in P2; auto; lia.
  - apply Nat.eqb_eq. destruct (N.leb_spec 224 n), (N.ltb_spec n 240); cbn in P3; auto; lia.
  - apply Nat.eqb_eq. destruct (N.leb_spec 240 n), (N.ltb_spec n 248); cbn in P4; auto; lia.
Qed.
Lemma cut_concat s : Forall utf8 s -> cut 0 [] (List.concat s) = s.
Proof.
  induction 1 as [|c s U F IH]; [reflexivity|]. cbn [List.concat].
  destruct c as [|a [|b [|d [|e [|f c]]]]]; cbn in U; try tauto; destruct (trailing_spec a) as (T0 & T1 & T2 & T3); try lia.
  all: cbn [List.app cut]; destruct (N.eqb_spec a 0); [lia|]; rewrite ?T0, ?T1, ?T2, ?T3 by lia; cbn [List.app cut]; rewrite IH; reflexivity.
Qed.

(** ** One token at a time *)

Lemma lex_go_more fuel : forall fuel' angle ne nl s x, lex_go fuel angle ne nl s = Some x -> (fuel <= fuel')%nat -> lex_go fuel' angle ne nl s = Some x.
Proof.
  induction fuel as [|fuel IH]; intros fuel' angle ne nl s x E L; [discriminate|]. destruct fuel' as [|fuel']; [lia|]. cbn [lex_go] in *.
  destruct (white ne nl s) as [nl' s']. destruct s' as [|c t]; auto. destruct (after angle c t); auto. apply IH; auto. lia.
Qed.
Definition tokenize (angle ne nl : bool) (s : src) : tok * src :=
  match lex_go (S (length s)) angle ne nl s with Some x => x | None => (no_tok, []) end.
Lemma lex_go_tokenize fuel angle ne nl s : (length s < fuel)%nat -> lex_go fuel angle ne nl s = Some (tokenize angle ne nl s).
Proof.
  intros L. unfold tokenize. destruct (lex_go_ends (S (length s)) angle ne nl s) as (t & r & E & _); [lia|]. rewrite E. eapply lex_go_more; eauto.
Qed.
Lemma lex_tokenize angle s : lex angle s = Some (tokenize angle false false s).
Proof. unfold lex. apply lex_go_tokenize. lia. Qed.
Lemma tokenize_nil angle ne nl : tokenize angle ne nl [] = ({| t_kind := TEof; t_newline := nl; t_text := []; t_from := [] |}, []).
Proof. reflexivity. Qed.
Lemma tokenize_blank angle ne nl c s : is_space (lead c) = true -> lead c <> 10 -> tokenize angle ne nl (c :: s) = tokenize angle ne nl s.
Proof.
  intros B N. apply N.eqb_neq in N.
  assert (E : lex_go (S (S (length s))) angle ne nl (c :: s) = lex_go (S (S (length s))) angle ne nl s) by (cbn [lex_go white]; now rewrite B, N).
  rewrite !lex_go_tokenize in E by (cbn; lia). congruence.
Qed.
Lemma tokenize_newline angle ne nl c s : lead c = 10 -> tokenize angle ne nl (c :: s) = tokenize angle false (negb ne) s.
Proof.
  intros B.
  assert (E : lex_go (S (S (length s))) angle ne nl (c :: s) = lex_go (S (S (length s))) angle false (negb ne) s) by (cbn [lex_go white]; now rewrite B).
  rewrite !lex_go_tokenize in E by (cbn; lia). congruence.
Qed.
Lemma tokenize_again angle ne nl c s ne' r : is_space (lead c) = false -> after angle c s = Again ne' r ->
  tokenize angle ne nl (c :: s) = tokenize angle ne' nl r.
Proof.
  intros B A. pose proof (after_le angle c s) as L. rewrite A in L.
  assert (E : lex_go (S (S (length s))) angle ne nl (c :: s) = lex_go (S (length s)) angle ne' nl r) by (cbn [lex_go white]; now rewrite B, A).
  rewrite !lex_go_tokenize in E by (cbn; lia). congruence.
Qed.
Lemma tokenize_tok angle ne nl c s k r : is_space (lead c) = false -> after angle c s = Tok k r ->
  tokenize angle ne nl (c :: s) = (make k nl (c :: s) r, r).
Proof.
  intros B A.
  assert (E : lex_go (S (S (length s))) angle ne nl (c :: s) = Some (make k nl (c :: s) r, r)) by (cbn [lex_go white]; now rewrite B, A).
  rewrite lex_go_tokenize in E by (cbn; lia). congruence.
Qed.

(** Gaps are skipped. *)
Lemma block_end b s : (~ exists l1 c d l2, b = l1 ++ c :: d :: l2 /\ code c = 42 /\ code d = 47) -> block (b ++ [42] :: [47] :: s) = s.
Proof.
  induction b as [|c b IH]; intros N; [reflexivity|].
  assert (N' : ~ exists l1 c d l2, b = l1 ++ c :: d :: l2 /\ code c = 42 /\ code d = 47).
  { intros (l1 & x & y & l2 & -> & A & B). apply N. exists (c :: l1), x, y, l2. auto. }
  specialize (IH N'). cbn [List.app block]. destruct (N.eqb_spec (lead c) 42) as [E|E]; auto.
  destruct b as [|d b]; cbn [List.app] in IH |- *; [cbn; reflexivity|].
  destruct (N.eqb_spec (lead d) 47) as [F|F]; auto. exfalso. apply N. exists [], c, d, b. rewrite <- !lead_code. auto.
Qed.
Lemma block_comment_end b s : (~ exists l1 c d l2, b = l1 ++ c :: d :: l2 /\ code c = 42 /\ code d = 47) -> block_comment (b ++ [42] :: [47] :: s) = s.
Proof.
  intros N. pose proof (block_end b s N) as E. destruct b as [|c b]; [reflexivity|]. cbn [List.app] in *. unfold block_comment.
  assert (E2 : lead c = 42 \/ lead c = 33 -> block (b ++ [42] :: [47] :: s) = s).
  { intros H. cbn [block] in E. destruct (N.eqb_spec (lead c) 42); [|exact E]. destruct b as [|d b]; cbn [List.app] in E |- *; [reflexivity|].
    destruct (N.eqb_spec (lead d) 47) as [F|F]; auto. exfalso. apply N. exists [], c, d, b. rewrite <- !lead_code. auto. }
  assert (D : forall x, block x = s -> x = b ++ [42] :: [47] :: s -> block (drop_if (N.eqb 60) x) = s).
  { intros x B X. unfold drop_if. destruct (N.eqb_spec 60 (peek x)) as [P|P]; auto. destruct x as [|d x]; auto. cbn [tl]. cbn [peek] in P. cbn [block] in B.
    rewrite <- P in B. exact B. }
  destruct (N.eqb_spec (lead c) 42) as [E1|E1]; cbn [andb orb].
  - destruct (N.eqb_spec (peek (b ++ [42] :: [47] :: s)) 47) as [F|F].
    + exfalso. destruct b as [|d b]; cbn [List.app peek] in F; [discriminate F|]. apply N. exists [], c, d, b. rewrite <- !lead_code. auto.
    + apply D; auto.
  - destruct (N.eqb_spec (lead c) 33) as [E3|E3]; [apply D; auto|exact E].
Qed.
Lemma blank_facts c : blank (code c) -> is_space (lead c) = true /\ lead c <> 10.
Proof. intros B. rewrite lead_code, space_iff. split; [right; auto|]. unfold blank in B. lia. Qed.
Lemma tokenize_gap angle nl g s : gap_ok g ->
  tokenize angle false nl (gap_text g ++ s) = tokenize angle false (match g with Splice => false | _ => nl end) s.
Proof.
  destruct g as [c| |b]; cbn [gap_ok gap_text]; intros G.
  - apply blank_facts in G as [A B]. apply tokenize_blank; auto.
  - etransitivity; [apply (tokenize_again angle false nl [92] ([10] :: s) true ([10] :: s)); reflexivity|]. now apply tokenize_newline.
  - rewrite <- !app_assoc. cbn [List.app]. apply tokenize_again; [reflexivity|].
    cbn [after]. unfold after. cbn [lead hd peek tl].
    change (Again false (block_comment (b ++ [42] :: [47] :: s)) = Again false s). now rewrite block_comment_end.
Qed.
Lemma tokenize_gaps angle gs s : Forall gap_ok gs -> forall nl, (nl = true -> ~ In Splice gs) ->
  tokenize angle false nl (gaps_text gs ++ s) = tokenize angle false nl s.
Proof.
  induction 1 as [|g gs G F IH]; intros nl N; [reflexivity|]. unfold gaps_text. cbn [flat_map]. rewrite <- app_assoc, tokenize_gap by auto.
  fold (gaps_text gs). destruct nl.
  - destruct g; [apply IH; intros _ I; apply N; [auto|now right]|exfalso; apply N; [auto|now left]|apply IH; intros _ I; apply N; [auto|now right]].
  - destruct g; apply IH; discriminate.
Qed.

(** Literals and comments to the end of the line. *)
Lemma until_atoms (stop : N -> bool) (P : N -> Prop) b s : (forall n, stop n = true <-> P n) -> stop 92 = false -> Forall (atom_ok P) b ->
  (s = [] \/ (exists c t, s = c :: t /\ (stop (lead c) = true \/ lead c = 10) /\ (is_space (lead c) = true -> lead c = 10))) ->
  forall m, m = B0 \/ m = B3 -> until stop m (atoms_text b ++ s) = s.
Proof.
  intros SP S92 F H. assert (ST : forall m, m = B0 \/ m = B3 -> until stop m s = s).
  { intros m M. destruct H as [->|(c & t & -> & A & B)]; [reflexivity|]. cbn [until].
    assert (X : stop (lead c) || (lead c =? 10) = true) by (destruct A as [->| ->]; [reflexivity|apply orb_true_r]). rewrite X.
    destruct M as [-> | ->]; auto. destruct (N.eqb_spec (lead c) 10); cbn [negb andb]; auto.
    destruct (is_space (lead c)); auto. exfalso. auto. }
  assert (NS : forall n, ~ P n -> stop n = false) by (intros n A; apply not_true_iff_false; rewrite SP; auto).
  induction F as [|a b A F IH]; intros m M; [now apply ST|]. unfold atoms_text. cbn [flat_map]. rewrite <- app_assoc. fold (atoms_text b).
  assert (PL : forall c, ~ P (code c) -> code c <> 10 -> code c <> 92 -> forall m, m = B0 \/ m = B3 -> until stop m (c :: atoms_text b ++ s) = s).
  { intros c A1 A2 A3 k M'. cbn [until]. rewrite lead_code, NS by auto. apply N.eqb_neq in A2, A3. rewrite A2, A3. cbn [orb negb andb].
    destruct M' as [-> | ->]; [apply IH; auto|]. destruct (is_space (code c)); apply IH; auto. }
  assert (BK : forall t, until stop m ([92] :: t) = until stop B1 t).
  { intros t. cbn [until]. change (lead [92]) with 92. rewrite S92. destruct M as [-> | ->]; reflexivity. }
  destruct a as [c|c|bl c|]; cbn [atom_ok atom_text List.app] in *.
  - destruct A as (A1 & A2 & A3). apply PL; auto.
  - rewrite BK. cbn [until]. rewrite lead_code. destruct (N.eqb_spec (code c) 10) as [E|E]; [exfalso; apply A; left; auto|].
    rewrite (proj2 (space_no (code c)) A). apply IH. auto.
  - rewrite BK. destruct A as (A0 & A1 & A2 & A3 & A4). destruct bl as [|x bl]; [congruence|].
    assert (C : until stop B2 (bl ++ [c] ++ atoms_text b ++ s) = s).
    { assert (L : forall y, In y bl -> blank (code y)) by (intros; apply A1; now right). clear A0 A1 x. induction bl as [|y bl IB]; cbn [List.app until].
      - rewrite lead_code. destruct (N.eqb_spec (code c) 10) as [E|E]; [exfalso; apply A2; left; auto|].
        rewrite (proj2 (space_no (code c)) A2), NS by auto. cbn [orb]. apply N.eqb_neq in A4. rewrite A4. apply IH. auto.
      - destruct (blank_facts y) as [Q1 Q2]; [apply L; now left|]. apply N.eqb_neq in Q2. rewrite Q1, Q2. apply IB. intros; apply L; now right. }
    rewrite <- app_assoc. cbn [List.app until]. destruct (blank_facts x) as [Q1 Q2]; [apply A1; now left|]. apply N.eqb_neq in Q2. now rewrite Q1, Q2.
  - rewrite BK. cbn [until]. change (lead [10]) with 10. cbn [N.eqb Pos.eqb]. apply IH. auto.
Qed.
Definition quote_char (q : N) : Prop := q = 34 \/ q = 39.
Definition line_end (more : src) : Prop := more = [] \/ exists m, more = [10] :: m.
Lemma eqb_eq_iff q n : (q =? n) = true <-> q = n.
Proof. apply N.eqb_eq. Qed.
Lemma quote_closed q b s : quote_char q -> Forall (atom_ok (eq q)) b -> quote q (atoms_text b ++ [q] :: s) = s.
Proof.
  intros Q F. unfold quote. rewrite (until_atoms (N.eqb q) (eq q)); auto using eqb_eq_iff.
  - unfold drop_if. cbn [peek lead hd]. now rewrite N.eqb_refl.
  - destruct Q as [-> | ->]; reflexivity.
  - right. exists [q], s. split; [reflexivity|]. cbn [lead hd]. split; [left; apply N.eqb_refl|]. destruct Q as [-> | ->]; discriminate.
Qed.
Lemma line_end_stop (stop : N -> bool) more : line_end more ->
  more = [] \/ (exists c t, more = c :: t /\ (stop (lead c) = true \/ lead c = 10) /\ (is_space (lead c) = true -> lead c = 10)).
Proof. intros [->|[m ->]]; [now left|right]. exists [10], m. auto. Qed.
Lemma quote_open q b more : quote_char q -> Forall (atom_ok (eq q)) b -> line_end more -> quote q (atoms_text b ++ more) = more.
Proof.
  intros Q F L. unfold quote. rewrite (until_atoms (N.eqb q) (eq q)); auto using eqb_eq_iff, line_end_stop.
  - unfold drop_if. destruct L as [->|[m ->]]; cbn; destruct Q as [-> | ->]; reflexivity.
  - destruct Q as [-> | ->]; reflexivity.
Qed.
Lemma line_comment_atoms b more : Forall (atom_ok (fun _ => False)) b -> line_end more -> line_comment (atoms_text b ++ more) = more.
Proof.
  intros F L. unfold line_comment. apply (until_atoms (fun _ => false) (fun _ => False)); [|reflexivity|exact F|exact (line_end_stop (fun _ => false) more L)|now left].
  intros n. split; [discriminate|tauto].
Qed.
Lemma line_comment_end b more : Forall (atom_ok (fun _ => False)) b -> line_end more ->
  line_comment (drop_if (one_of [47; 33]) (atoms_text b ++ more)) = more.
Proof.
  intros F L. unfold drop_if. destruct (one_of [47; 33] (peek (atoms_text b ++ more))) eqn:E; [|now apply line_comment_atoms].
  destruct b as [|a b]; cbn [atoms_text flat_map List.app] in *.
  - destruct L as [->|[m ->]]; [reflexivity|discriminate].
  - inversion F; subst. destruct a; cbn in E; try discriminate. cbn [atom_text List.app tl]. now apply line_comment_atoms.
Qed.

Lemma raw_delim_open (delim : list ch) s : (forall c, In c delim -> exists n, c = [n] /\ n < 128 /\ ~ white_c n /\ n <> 40 /\ n <> 41 /\ n <> 92) ->
  forall n, raw_delim n (delim ++ [40] :: s) = RawOpen (n + length delim) s.
Proof.
  induction delim as [|c delim IH]; intros D n; cbn [List.app raw_delim].
  - cbn. f_equal. lia.
  - destruct (D c) as (x & -> & L & W & A & B & C); [now left|]. cbn [lead hd]. apply N.eqb_neq in A, B, C. rewrite A, B, C, (proj2 (space_no x) W). cbn [orb].
    rewrite IH by (intros; apply D; now right). cbn [length]. f_equal. lia.
Qed.
Lemma nth_delim (delim : list ch) : (forall c, In c delim -> exists n, c = [n] /\ n < 128 /\ ~ white_c n /\ n <> 40 /\ n <> 41 /\ n <> 92) ->
  forall k rest, (k < length delim)%nat -> nth_error delim k = Some [nth k (List.concat delim ++ rest) 0] /\ nth k (List.concat delim ++ rest) 0 < 128.
Proof.
  induction delim as [|c delim IH]; intros D k rest L; [cbn in L; lia|]. destruct (D c) as (x & -> & X & _); [now left|].
  destruct k as [|k]; cbn [nth_error List.concat List.app nth]; [auto|]. apply IH; [intros; apply D; now right|cbn in L; lia].
Qed.
Lemma nth_after_delim (delim : list ch) : (forall c, In c delim -> exists n, c = [n] /\ n < 128 /\ ~ white_c n /\ n <> 40 /\ n <> 41 /\ n <> 92) ->
  length (List.concat delim) = length delim.
Proof.
  induction delim as [|c delim IH]; intros D; [reflexivity|]. destruct (D c) as (x & -> & _); [now left|]. cbn. f_equal. apply IH. intros; apply D; now right.
Qed.
Lemma firstn_snoc {A} (l : list A) : forall k x, nth_error l k = Some x -> firstn (S k) l = firstn k l ++ [x].
Proof.
  induction l as [|a l IH]; intros k x E; destruct k as [|k]; cbn in E; try discriminate; [injection E as ->; reflexivity|].
  cbn [firstn List.app]. f_equal. now apply IH.
Qed.
Lemma utf8_small c n : utf8 c -> code c = n -> n < 128 -> c = [n].
Proof. destruct c as [|a [|b [|d [|e [|f c]]]]]; cbn; intros U E L; subst; try tauto; lia. Qed.
Lemma utf8_len c : utf8 c -> (0 < length c)%nat.
Proof. destruct c; cbn; [tauto|lia]. Qed.
Lemma raw_closed (delim : list ch) rest s : (forall c, In c delim -> exists n, c = [n] /\ n < 128 /\ ~ white_c n /\ n <> 40 /\ n <> 41 /\ n <> 92) ->
  forall d2 d1, delim = d1 ++ d2 -> raw_body (List.concat delim ++ 40 :: rest) (length delim) (Some (length d1)) (d2 ++ [34] :: s) = s.
Proof.
  intros D. induction d2 as [|c d2 IH]; intros d1 E; cbn [List.app raw_body].
  - subst delim. rewrite app_nil_r. cbn. now rewrite Nat.eqb_refl.
  - destruct (D c) as (x & Ec & L & W & A & B & C); [rewrite E; apply in_elt|]. subst c. cbn [lead hd]. apply N.eqb_neq in B. rewrite B.
    destruct (nth_delim delim D (length d1) (40 :: rest)) as [H _]; [rewrite E, app_length; cbn; lia|].
    assert (H2 : nth_error delim (length d1) = Some [x]) by (rewrite E, nth_error_app2, Nat.sub_diag by lia; reflexivity).
    pose proof (eq_trans (eq_sym H2) H) as K. injection K as ->. rewrite N.eqb_refl.
    assert (H3 : Nat.eqb (length d1) (length delim) = false) by (apply Nat.eqb_neq; rewrite E, app_length; cbn; lia).
    rewrite H3, andb_false_r. cbn [length]. specialize (IH (d1 ++ [[nth (length d1) (List.concat delim ++ 40 :: rest) 0]])).
    rewrite app_length in IH. apply IH. rewrite <- app_assoc. exact E.
Qed.
Lemma raw_through (delim : list ch) rest s : (forall c, In c delim -> exists n, c = [n] /\ n < 128 /\ ~ white_c n /\ n <> 40 /\ n <> 41 /\ n <> 92) ->
  forall b2 b1 cand, Forall utf8 b2 -> ~ (exists l1 l2, b1 ++ b2 = l1 ++ ([[41]] ++ delim ++ [[34]]) ++ l2) ->
  (forall k, cand = Some k -> (length delim < k)%nat \/ (k <= length delim)%nat /\ exists l0, b1 = l0 ++ [41] :: firstn k delim) ->
  raw_body (List.concat delim ++ 40 :: rest) (length delim) cand (b2 ++ [41] :: delim ++ [34] :: s) = s.
Proof.
  intros D. induction b2 as [|c b2 IH]; intros b1 cand F NO I.
  - cbn [List.app raw_body]. change (lead [41] =? 41) with true. cbv iota. exact (raw_closed delim rest s D delim [] eq_refl).
  - inversion F as [|? ? U F2]; subst. rewrite <- (app_nil_l b2) in NO. change ([] ++ b2) with b2 in NO.
    assert (NO2 : ~ (exists l1 l2, (b1 ++ [c]) ++ b2 = l1 ++ ([[41]] ++ delim ++ [[34]]) ++ l2)) by (rewrite <- app_assoc; exact NO).
    cbn [List.app raw_body]. rewrite lead_code. destruct (N.eqb_spec (code c) 41) as [E|E].
    { apply (IH (b1 ++ [c])); auto. intros k K. injection K as <-. right. split; [lia|]. exists b1. rewrite (utf8_small c 41); auto. lia. }
    destruct cand as [k|]; [|apply (IH (b1 ++ [c])); auto; discriminate].
    destruct (N.eqb_spec (code c) 34) as [E2|E2]; cbn [andb].
    { destruct (Nat.eqb_spec k (length delim)) as [E3|E3].
      - exfalso. destruct (I k eq_refl) as [X|[X [l0 X2]]]; [lia|]. apply NO. exists l0, b2. rewrite X2, E3, firstn_all, (utf8_small c 34) by (auto; lia).
        rewrite <- !app_assoc. cbn [List.app]. reflexivity.
      - apply (IH (b1 ++ [c])); auto. destruct (N.eqb_spec (code c) (nth k (List.concat delim ++ 40 :: rest) 0)) as [E4|E4]; [|discriminate].
        intros k' K. injection K as <-. pose proof (utf8_len c U). destruct (I k eq_refl) as [X|[X [l0 X2]]]; [left; lia|]. right.
        destruct (nth_delim delim D k (40 :: rest)) as [H1 H2]; [lia|]. rewrite <- E4 in H1, H2. rewrite (utf8_small c (code c) U eq_refl H2). cbn [length].
        split; [lia|]. exists l0. rewrite X2, Nat.add_1_r, (firstn_snoc delim k _ H1), <- app_assoc. reflexivity. }
    apply (IH (b1 ++ [c])); auto. destruct (N.eqb_spec (code c) (nth k (List.concat delim ++ 40 :: rest) 0)) as [E4|E4]; [|discriminate].
    intros k' K. injection K as <-. pose proof (utf8_len c U). destruct (I k eq_refl) as [X|[X [l0 X2]]]; [left; lia|].
    destruct (Nat.eq_dec k (length delim)) as [E3|E3]; [left; lia|]. right.
    destruct (nth_delim delim D k (40 :: rest)) as [H1 H2]; [lia|]. rewrite <- E4 in H1, H2. rewrite (utf8_small c (code c) U eq_refl H2). cbn [length].
    split; [lia|]. exists l0. rewrite X2, Nat.add_1_r, (firstn_snoc delim k _ H1), <- app_assoc. reflexivity.
Qed.
Lemma raw_literal (delim body : list ch) s : (forall c, In c delim -> exists n, c = [n] /\ n < 128 /\ ~ white_c n /\ n <> 40 /\ n <> 41 /\ n <> 92) ->
  Forall utf8 body -> ~ (exists l1 l2, body = l1 ++ ([[41]] ++ delim ++ [[34]]) ++ l2) ->
  raw (delim ++ [40] :: body ++ [41] :: delim ++ [34] :: s) = s.
Proof.
  intros D F NO. unfold raw. rewrite raw_delim_open by auto. cbn [Nat.add]. rewrite concat_app. cbn [List.concat List.app].
  apply (raw_through delim (List.concat (body ++ [41] :: delim ++ [34] :: s)) s D body [] None F); [exact NO|discriminate].
Qed.

(** ** Tokens within a line *)

Section Line.
Context (more : src) (ML : line_end more).

(** The text up to the end of the line, after the characters [cx]. *)
Definition At (cx : list N) (s : src) : Prop :=
  exists ps e, s = text ps e ++ more /\ pieces_ok cx ps e /\ Forall utf8 (text ps e).
Definition glue (n : N) : Prop := wordc n \/ n = 46 \/ n = 43 \/ n = 45.
Definition glued (cx : list N) : Prop := exists m t, cx = m :: t /\ glue m.
Definition special (n : N) : Prop := n = 0 \/ white_c n \/ n = 92 \/ n = 34 \/ n = 39 \/ n = 47.
Definition prefix_char (n : N) : Prop := n = 76 \/ n = 117 \/ n = 85 \/ n = 82.
Definition Fresh (s : src) : Prop := exists cx, At cx s /\ (run_of cx = [] \/ ~ (letter (peek s) \/ digit (peek s) \/ peek s = 95)).

Lemma at_more : At [] more.
Proof. exists [], End. cbn. repeat split; auto. Qed.
Lemma at_more_peek : peek more = 0 \/ peek more = 10.
Proof. destruct ML as [->|[m ->]]; cbn; auto. Qed.
Lemma at_byte cx s : At cx s -> peek s < 256.
Proof.
  intros (ps & e & -> & _ & F). destruct (text ps e) as [|c t]; [|inversion F; subst; cbn [List.app peek]; rewrite lead_code; now apply utf8_code].
  cbn [List.app]. destruct at_more_peek as [-> | ->]; lia.
Qed.
Lemma quote_ok_char cx q : quote_ok cx q -> quote_char q.
Proof. intros [[-> _]|[-> _]]; [now left|now right]. Qed.
Lemma text_cons p ps e : text (p :: ps) e = piece_text p ++ text ps e.
Proof. unfold text. cbn [flat_map]. now rewrite <- app_assoc. Qed.
Lemma raw_first pre delim body s : raw_prefix pre -> prefix_char (peek (piece_text (Raw pre delim body) ++ s)).
Proof. unfold prefix_char. intros [-> |[-> |[-> |[-> | ->]]]]; cbn; auto. Qed.

(** What an ordinary character can only be. *)
Lemma at_head cx s : At cx s -> ~ special (peek s) -> (prefix_char (peek s) -> glued cx) ->
  exists c t, s = c :: t /\ utf8 c /\ code c = peek s /\ At (code c :: cx) t.
Proof.
  intros (ps & e & -> & P & F) NS G. unfold special in NS. destruct ps as [|p ps].
  - exfalso. unfold text in NS. cbn [flat_map List.app pieces_ok] in *. destruct e as [|b|q b]; cbn [ending_text end_ok] in *.
    + cbn [List.app] in NS. destruct at_more_peek as [E|E]; rewrite E in NS; unfold white_c in NS; tauto.
    + cbn in NS. tauto.
    + destruct P as [Q _]. destruct (quote_ok_char _ _ Q) as [-> | ->]; cbn in NS; tauto.
  - rewrite text_cons in *. apply Forall_app in F as [F1 F2]. destruct p as [g|c|q b|pre delim body]; cbn [pieces_ok piece_text] in *.
    + exfalso. destruct P as [P _]. destruct g as [c| |b]; cbn [gap_ok gap_text List.app peek] in *; [|cbn in NS; tauto|cbn in NS; tauto].
      rewrite lead_code in NS. unfold white_c in NS. tauto.
    + inversion F1; subst. exists c, (text ps e ++ more). cbn [List.app peek]. split; [reflexivity|]. split; [assumption|]. split; [symmetry; apply lead_code|].
      exists ps, e. split; [reflexivity|]. split; [tauto|auto].
    + exfalso. destruct P as [Q _]. destruct (quote_ok_char _ _ Q) as [-> | ->]; cbn in NS; tauto.
    + exfalso. destruct P as [(R & B & _) _]. rewrite <- app_assoc in G, NS.
      pose proof (raw_first pre delim body (text ps e ++ more) R) as H. destruct (G H) as (m & t & E & GL). destruct (B m t E) as (B1 & B2 & B3 & B4 & _).
      unfold glue in GL. tauto.
Qed.
Lemma at_tl cx s : At cx s -> ~ special (peek s) -> (prefix_char (peek s) -> glued cx) -> At (peek s :: cx) (tl s).
Proof. intros A S G. destruct (at_head cx s A S G) as (c & t & -> & U & E & T). cbn [tl]. now rewrite <- E. Qed.
(** Quotes. *)
Lemma at_quote cx s : At cx s -> quote_char (peek s) ->
  quote_ok cx (peek s) /\ Fresh (quote (peek s) (tl s)) .
Proof.
  intros (ps & e & -> & P & F) Q. destruct ps as [|p ps].
  - unfold text in *. cbn [flat_map List.app pieces_ok] in *. destruct e as [|b|q b]; cbn [ending_text end_ok] in *.
    + exfalso. cbn [List.app] in Q. unfold quote_char in Q. destruct at_more_peek as [E|E]; rewrite E in Q; lia.
    + exfalso. cbn in Q. unfold quote_char in Q. lia.
    + destruct P as (QO & FA & _). cbn [List.app peek lead hd tl]. split; [exact QO|]. rewrite quote_open; eauto using quote_ok_char.
      exists []. split; [apply at_more|now left].
  - rewrite text_cons in *. apply Forall_app in F as [F1 F2]. destruct p as [g|c|q b|pre delim body]; cbn [pieces_ok piece_text] in *.
    + exfalso. destruct P as [P _]. unfold quote_char in Q. destruct g as [c| |b]; cbn [gap_ok gap_text List.app peek] in *; [|cbn in Q; lia|cbn in Q; lia].
      rewrite lead_code in Q. unfold blank in P. lia.
    + exfalso. cbn [List.app peek] in Q. rewrite lead_code in Q. unfold quote_char in Q. lia.
    + destruct P as (QO & FA & P). cbn [List.app peek lead hd tl]. split; [exact QO|]. rewrite <- !app_assoc. cbn [List.app].
      rewrite quote_closed; eauto using quote_ok_char. exists [q]. split; [exists ps, e; auto|left].
      destruct (quote_ok_char _ _ QO) as [-> | ->]; reflexivity.
    + exfalso. destruct P as [(R & _) _]. rewrite <- app_assoc in Q. pose proof (raw_first pre delim body (text ps e ++ more) R) as H.
      cbn [piece_text] in H. unfold quote_char, prefix_char in *. lia.
Qed.

(** Numbers: only ordinary characters are taken. *)
Definition Num (s : src) : Prop := exists cx, At cx s /\ glued cx.
Lemma glue_not_special n : glue n -> ~ special n.
Proof. unfold glue, special, wordc, letter, digit, white_c, blank. lia. Qed.
Lemma num_tl s : Num s -> glue (peek s) -> Num (tl s).
Proof.
  intros (cx & A & G) P. exists (peek s :: cx). split; [|exists (peek s), cx; auto]. apply at_tl; auto using glue_not_special.
Qed.
Lemma num_drop_if p s : (forall n, p n = true -> glue n) -> Num s -> Num (drop_if p s).
Proof. intros G N. unfold drop_if. destruct (p (peek s)) eqn:E; auto. apply num_tl; auto. Qed.
Lemma num_drop_while p s : (forall n, p n = true -> glue n) -> Num s -> Num (drop_while p s).
Proof.
  intros G. induction s as [|c s IH]; intros N; cbn [drop_while]; auto. destruct (p (lead c)) eqn:E; auto. apply IH.
  change s with (tl (c :: s)). apply num_tl; auto. 
Qed.
Ltac glue_tac := unfold is_hex, glue, wordc, letter, digit, is_alnum_, is_alnum, is_alpha, is_digit, is_u, is_hex, is_octal in *;
  repeat (rewrite ?orb_true_iff, ?andb_true_iff, ?N.leb_le, ?N.eqb_eq in *); lia.
Lemma digit_glue n : is_digit n = true -> glue n. Proof. intros; glue_tac. Qed.
Lemma num_digits s : Num s -> Num (drop_while is_digit s).
Proof. apply num_drop_while. intros; glue_tac. Qed.
Lemma num_float_suffix s : Num s -> Num (float_suffix s).
Proof. apply num_drop_if. intros; glue_tac. Qed.
Lemma num_exponent s : Num s -> Num (snd (exponent s)).
Proof.
  intros N. unfold exponent. destruct ((peek s =? 101) || (peek s =? 69)) eqn:E; cbn [snd]; auto. apply num_digits, num_drop_if; [intros; glue_tac|].
  apply num_tl; auto. glue_tac.
Qed.
Lemma num_fraction s : Num s -> Num (fraction s).
Proof. intros. apply num_float_suffix, num_exponent, num_digits. auto. Qed.
Lemma num_int_suffix_no_u s : Num s -> Num (int_suffix_no_u s).
Proof.
  intros N. unfold int_suffix_no_u. destruct ((peek s =? 105) || (peek s =? 73)) eqn:E1.
  { assert (T : Num (tl s)) by (apply num_tl; auto; glue_tac). destruct (peek (tl s) =? 54) eqn:E2; auto. apply num_drop_if; [intros; glue_tac|].
    apply num_tl; auto. glue_tac. }
  destruct (peek s =? 108) eqn:E3.
  { apply num_drop_if; [intros; glue_tac|]. apply num_drop_if; [intros; glue_tac|]. apply num_tl; auto. glue_tac. }
  destruct (peek s =? 76) eqn:E4; auto.
  apply num_drop_if; [intros; glue_tac|]. apply num_drop_if; [intros; glue_tac|]. apply num_tl; auto. glue_tac.
Qed.
Lemma num_int_suffix s : Num s -> Num (int_suffix s).
Proof. intros N. unfold int_suffix. destruct (is_u (peek s)) eqn:E; apply num_int_suffix_no_u; auto. apply num_tl; auto. glue_tac. Qed.
Lemma num_decimal s : Num s -> Num (decimal s).
Proof.
  intros N. apply num_digits in N. unfold decimal. destruct (drop_while is_digit s) as [|c t]; auto.
  destruct (lead c =? 46) eqn:E. { apply num_fraction. change t with (tl (c :: t)). apply num_tl; auto. cbn [peek]. glue_tac. }
  destruct ((lead c =? 101) || (lead c =? 69)) eqn:E2; [|now apply num_int_suffix].
  pose proof (num_exponent _ N) as X. destruct (exponent (c :: t)) as [ok u]. cbn [snd] in X. destruct ok; auto using num_float_suffix.
Qed.
Lemma drop_while_peek p s : p 0 = false -> p (peek (drop_while p s)) = false.
Proof. intros Z. induction s as [|c s IH]; cbn [drop_while]; auto. destruct (p (lead c)) eqn:E; auto. Qed.
Lemma num_fresh s : Num s -> Fresh (drop_while is_alnum_ s).
Proof.
  intros N. destruct (num_drop_while is_alnum_ s) as (cx & A & _); auto; [intros; glue_tac|]. exists cx. split; auto. right.
  pose proof (drop_while_peek is_alnum_ s eq_refl) as E. intros H. apply alnum_iff in H. congruence.
Qed.
Lemma num_number c s : Num s -> Fresh (number c s).
Proof.
  intros N. unfold number. apply num_fresh.
  destruct ((lead c =? 48) && ((peek s =? 120) || (peek s =? 88))) eqn:E1.
  { apply num_int_suffix, num_drop_while; [intros; glue_tac|]. apply num_tl; auto. glue_tac. }
  destruct ((lead c =? 48) && ((peek s =? 98) || (peek s =? 66))) eqn:E2.
  { apply num_int_suffix, num_drop_while; [intros; glue_tac|]. apply num_tl; auto. glue_tac. }
  destruct ((lead c =? 48) && is_octal (peek s)); [|now apply num_decimal]. apply num_int_suffix, num_drop_while; auto. intros; glue_tac.
Qed.

(** Words. *)
Definition is_run (w : list ch) (s : src) : Prop := Forall (fun c => wordc (code c)) w /\ ~ wordc (first s).
Lemma word_run s : Num s -> exists w, s = w ++ drop_while is_word s /\ is_run w (drop_while is_word s) /\ Fresh (drop_while is_word s).
Proof.
  induction s as [|c s IH]; intros N.
  - exists []. split; [reflexivity|]. split; [split; [apply Forall_nil|cbn; unfold wordc, letter, digit; lia]|].
    destruct N as (cx & A & _). exists cx. split; auto. right. cbn. unfold letter, digit. lia.
  - destruct N as (cx & A & G). pose proof (at_byte _ _ A) as L. cbn [peek] in L. cbn [drop_while]. destruct (is_word (lead c)) eqn:E.
    + apply word_iff in E; auto. destruct IH as (w & E1 & [F1 F2] & FR).
      { change s with (tl (c :: s)). apply num_tl; [exists cx; auto|]. cbn [peek]. now left. }
      exists (c :: w). rewrite lead_code in E. split; [cbn [List.app]; now f_equal|]. split; [split; [constructor; auto|exact F2]|exact FR].
    + apply word_no in E; auto. exists []. cbn [List.app]. split; auto. split; [split; [apply Forall_nil|cbn [first]; now rewrite <- lead_code]|].
      exists cx. split; auto. right. cbn [peek]. intros H. apply E. unfold wordc. tauto.
Qed.

(** The token that starts with an ordinary character. *)
Definition punct (n : N) : Prop := ~ special n /\ ~ prefix_char n /\ ~ wordc n.
Ltac punct_tac := unfold punct, special, prefix_char, wordc, letter, digit, white_c, blank in *; lia.
Lemma ns_82 : ~ special 82.
Proof. punct_tac. Qed.
Lemma ns_56 : ~ special 56.
Proof. punct_tac. Qed.
Lemma run_of_no n t : ~ wordc n -> run_of (n :: t) = [].
Proof.
  intros W. cbn [run_of]. match goal with |- (if ?b then _ else _) = _ => destruct b eqn:E; auto end. exfalso. apply W. unfold wordc, letter, digit.
  rewrite !orb_true_iff, !andb_true_iff, !N.leb_le, !N.eqb_eq, N.ltb_lt in E. lia.
Qed.
Lemma run_of_yes n t : wordc n -> run_of (n :: t) = n :: run_of t.
Proof.
  intros W. cbn [run_of]. match goal with |- (if ?b then _ else _) = _ => destruct b eqn:E; auto end. exfalso.
  rewrite !orb_false_iff, !andb_false_iff, !N.leb_gt, !N.eqb_neq, N.ltb_ge in E. unfold wordc, letter, digit in W. lia.
Qed.
Lemma fresh_after n cx s : At (n :: cx) s -> ~ wordc n -> Fresh s.
Proof. intros A W. exists (n :: cx). split; auto. left. now apply run_of_no. Qed.
Lemma at_known cx t x : At cx t -> peek t = x -> ~ special x -> (prefix_char x -> glued cx) -> exists c t1, t = c :: t1 /\ code c = x /\ At (x :: cx) t1.
Proof. intros A E S G. destruct (at_head cx t A) as (c & t1 & -> & U & C & T); subst; auto. exists c, t1. rewrite <- C. auto. Qed.
Lemma at_punct cx t x : At cx t -> peek t = x -> punct x -> At (x :: cx) (tl t) /\ Fresh (tl t).
Proof.
  intros A E (P1 & P2 & P3). destruct (at_known cx t x A E) as (c & t1 & -> & C & T); auto; [tauto|]. split; auto. eapply fresh_after; eauto.
Qed.
Lemma fresh_drop_if p n cx t : (forall m, p m = true -> punct m) -> At (n :: cx) t -> ~ wordc n -> Fresh (drop_if p t).
Proof.
  intros P A W. unfold drop_if. destruct (p (peek t)) eqn:E; [|eapply fresh_after; eauto]. eapply at_punct; eauto.
Qed.
Lemma word_tok w0 s : Num s -> Forall (fun c => wordc (code c)) w0 ->
  exists w, w0 ++ s = w ++ drop_while is_word s /\ is_run w (drop_while is_word s) /\ Fresh (drop_while is_word s).
Proof.
  intros N F. destruct (word_run s N) as (w & E & [F1 F2] & FR). exists (w0 ++ w). rewrite <- app_assoc, <- E. split; auto. split; auto.
  split; auto. apply Forall_app. auto.
Qed.
Lemma num_after n cx s : At (n :: cx) s -> glue n -> Num s.
Proof. intros A G. exists (n :: cx). split; auto. exists n, cx. auto. Qed.

Definition neutral (cx : list N) (c : ch) (t : src) : Prop :=
  utf8 c /\ ~ white_c (code c) /\ code c <> 34 /\ code c <> 39 /\ code c <> 92
  /\ (code c = 47 -> peek t <> 47 /\ peek t <> 42) /\ (code c = 37 -> peek t <> 58)
  /\ At (code c :: cx) t.
Definition token_ok (k : kind) (c : ch) (t s : src) : Prop :=
  Fresh s /\ k <> TEof /\ (k = TPound -> code c = 35) /\ (k = TIdent -> exists w, c :: t = w ++ s /\ is_run w s).
Lemma token_other k c t s : k <> TEof -> k <> TPound -> k <> TIdent -> Fresh s -> exists k' s', Tok k s = Tok k' s' /\ token_ok k' c t s'.
Proof. intros A B C F. exists k, s. split; auto. split; [auto|]. repeat split; auto; intros; congruence. Qed.
Lemma after_neutral cx c t : neutral cx c t -> (run_of cx = [] \/ ~ (letter (code c) \/ digit (code c) \/ code c = 95)) ->
  exists k s, after false c t = Tok k s /\ token_ok k c t s.
Proof.
  intros (U & NW & N34 & N39 & N92 & N47 & N37 & A) FR. unfold after. cbv zeta. rewrite lead_code. pose proof (utf8_code c U) as UB.
  apply N.eqb_neq in N34, N39, N92. rewrite N34, N39, N92. apply N.eqb_neq in N34, N39, N92.
  pose proof (fun x => at_punct _ t x A) as PT.
  assert (OT : forall k s, k <> TEof -> k <> TPound -> k <> TIdent -> Fresh s -> exists k' s', Tok k s = Tok k' s' /\ token_ok k' c t s')
    by (intros; now apply token_other).
  destruct (N.eqb_spec (code c) 35) as [E|_].
  { rewrite E in A. destruct (N.eqb_spec (peek t) 35) as [P|P]; [apply OT; try discriminate; eapply PT; [eauto|punct_tac]|].
    exists TPound, t. split; auto. split; [eapply fresh_after; eauto; punct_tac|]. repeat split; auto; discriminate. }
  destruct (N.eqb_spec (code c) 59) as [E|_]. { rewrite E in A. apply OT; try discriminate. eapply fresh_after; eauto; punct_tac. }
  destruct (N.eqb_spec (code c) 58) as [E|_].
  { rewrite E in A. destruct (N.eqb_spec (peek t) 58) as [P|P]; cbn [orb]; [apply OT; try discriminate; eapply PT; [eauto|punct_tac]|].
    destruct (N.eqb_spec (peek t) 62) as [P2|P2]; apply OT; try discriminate; [eapply PT; [eauto|punct_tac]|]. eapply fresh_after; eauto; punct_tac. }
  destruct (N.eqb_spec (code c) 46) as [E|_].
  { rewrite E in A. destruct (N.eqb_spec (peek t) 42) as [P|P]; [apply OT; try discriminate; eapply PT; [eauto|punct_tac]|].
    destruct (N.eqb_spec (peek t) 46) as [P2|P2].
    { apply OT; try discriminate. destruct (PT 46 P2) as [A2 _]; [punct_tac|]. eapply fresh_drop_if; [|exact A2|punct_tac]. intros m M. apply N.eqb_eq in M. punct_tac. }
    destruct (is_digit (peek t)) eqn:D; apply OT; try discriminate.
    - apply num_fresh, num_fraction, num_tl; [|now apply digit_glue]. eapply num_after; [exact A|]. unfold glue. auto.
    - eapply fresh_after; eauto; punct_tac. }
  destruct (N.eqb_spec (code c) 43) as [E|_].
  { rewrite E in A. apply OT; try discriminate. eapply fresh_drop_if; [|exact A|punct_tac]. intros m M. unfold one_of in M. cbn [existsb] in M. rewrite !orb_true_iff, !N.eqb_eq in M. intuition; try discriminate; punct_tac. }
  destruct (N.eqb_spec (code c) 45) as [E|_].
  { rewrite E in A. destruct (N.eqb_spec (peek t) 62) as [P|P]; apply OT; try discriminate.
    - destruct (PT 62 P) as [A2 _]; [punct_tac|]. eapply fresh_drop_if; [|exact A2|punct_tac]. intros m M. apply N.eqb_eq in M. punct_tac.
    - eapply fresh_drop_if; [|exact A|punct_tac]. intros m M. unfold one_of in M. cbn [existsb] in M. rewrite !orb_true_iff, !N.eqb_eq in M. intuition; try discriminate; punct_tac. }
  destruct (N.eqb_spec (code c) 47) as [E|_].
  { destruct (N47 E) as [Q1 Q2]. rewrite E in A. apply N.eqb_neq in Q1, Q2. rewrite Q1, Q2. apply OT; try discriminate. eapply fresh_drop_if; [|exact A|punct_tac].
    intros m M. apply N.eqb_eq in M. punct_tac. }
  destruct (N.eqb_spec (code c) 37) as [E|_].
  { pose proof (N37 E) as Q. rewrite E in A. apply N.eqb_neq in Q. rewrite Q.
    destruct (N.eqb_spec (peek t) 61) as [P|P]; cbn [orb]; [apply OT; try discriminate; eapply PT; [eauto|punct_tac]|].
    destruct (N.eqb_spec (peek t) 62) as [P2|P2]; apply OT; try discriminate; [eapply PT; [eauto|punct_tac]|]. eapply fresh_after; eauto; punct_tac. }
  destruct ((code c =? 42) || (code c =? 94) || (code c =? 126) || (code c =? 33) || (code c =? 61)) eqn:E5.
  { rewrite !orb_true_iff, !N.eqb_eq in E5. apply OT; try discriminate. eapply fresh_drop_if; [|exact A|punct_tac]. intros m M. apply N.eqb_eq in M. punct_tac. }
  clear E5. destruct (N.eqb_spec (code c) 38) as [E|_].
  { rewrite E in A. apply OT; try discriminate. eapply fresh_drop_if; [|exact A|punct_tac]. intros m M. unfold one_of in M. cbn [existsb] in M. rewrite !orb_true_iff, !N.eqb_eq in M. intuition; try discriminate; punct_tac. }
  destruct (N.eqb_spec (code c) 124) as [E|_].
  { rewrite E in A. apply OT; try discriminate. eapply fresh_drop_if; [|exact A|punct_tac]. intros m M. unfold one_of in M. cbn [existsb] in M. rewrite !orb_true_iff, !N.eqb_eq in M. intuition; try discriminate; punct_tac. }
  destruct (N.eqb_spec (code c) 60) as [E|_].
  { rewrite E in A. assert (F : Fresh t) by (eapply fresh_after; eauto; punct_tac).
    destruct (N.eqb_spec (peek t) 60) as [P|P].
    { apply OT; try discriminate. destruct (PT 60 P) as [A2 _]; [punct_tac|]. eapply fresh_drop_if; [|exact A2|punct_tac]. intros m M. apply N.eqb_eq in M. punct_tac. }
    destruct (N.eqb_spec (peek t) 61) as [P2|P2]; cbn [orb]; [apply OT; try discriminate; eapply PT; [eauto|punct_tac]|].
    destruct (N.eqb_spec (peek t) 37) as [P3|P3]; [apply OT; try discriminate; eapply PT; [eauto|punct_tac]|].
    destruct (N.eqb_spec (peek t) 58) as [P4|P4]; [|apply OT; try discriminate; auto].
    destruct (negb (peek (tl t) =? 58) || one_of [58; 62] (peek (tl (tl t)))); apply OT; try discriminate; auto. eapply PT; [eauto|punct_tac]. }
  destruct (N.eqb_spec (code c) 62) as [E|_].
  { rewrite E in A. assert (F : Fresh t) by (eapply fresh_after; eauto; punct_tac).
    destruct (N.eqb_spec (peek t) 62) as [P|P].
    { apply OT; try discriminate. destruct (PT 62 P) as [A2 _]; [punct_tac|]. eapply fresh_drop_if; [|exact A2|punct_tac]. intros m M. apply N.eqb_eq in M. punct_tac. }
    destruct (N.eqb_spec (peek t) 61) as [P2|P2]; apply OT; try discriminate; auto. eapply PT; [eauto|punct_tac]. }
  (* words *)
  assert (WD : forall w0 s, c :: t = w0 ++ s -> Num s -> Forall (fun c => wordc (code c)) w0 ->
    exists k s', Tok TIdent (drop_while is_word s) = Tok k s' /\ token_ok k c t s').
  { intros w0 s E N F. destruct (word_tok w0 s N F) as (w & E2 & R & FR2). exists TIdent, (drop_while is_word s). split; auto.
    split; auto. split; [discriminate|]. split; [discriminate|]. intros _. exists w. split; auto. now rewrite E. }
  destruct (one_of [76; 117; 85; 82] (code c)) eqn:E6.
  { assert (PC : code c = 76 \/ code c = 117 \/ code c = 85 \/ code c = 82).
    { unfold one_of in E6. cbn [existsb] in E6. rewrite !orb_true_iff, !N.eqb_eq in E6. intuition discriminate. }
    clear E6. assert (W : wordc (code c)) by (unfold wordc, letter; lia).
    assert (RN : run_of cx = []) by (destruct FR as [FR|FR]; auto; exfalso; apply FR; unfold letter; lia).
    assert (NT : Num t) by (eapply num_after; [exact A|now left]).
    assert (W1 : Forall (fun c => wordc (code c)) [c]) by auto.
    assert (QT : forall q, quote_char q -> peek t = q -> quote_ok (code c :: cx) q /\ Fresh (quote q (tl t))).
    { intros q Q P. rewrite <- P. apply at_quote; auto. now rewrite P. }
    destruct (N.eqb_spec (peek t) 34) as [P|P].
    { destruct (QT 34) as [QO QF]; [now left|auto|]. apply OT; try discriminate. destruct (N.eqb_spec (code c) 82) as [E|E]; auto.
      exfalso. destruct QO as [[_ QO]|[QO _]]; [|discriminate]. apply QO. rewrite run_of_yes, RN, E by auto. left. reflexivity. }
    destruct (N.eqb_spec (peek t) 39) as [P2|P2]. { apply OT; try discriminate. apply QT; [now right|auto]. }
    (* after a character of the prefix *)
    assert (NX : forall x, peek t = x -> x = 82 \/ x = 56 -> exists c2 t1, t = c2 :: t1 /\ code c2 = x /\ At (x :: code c :: cx) t1).
    { intros x X1 X2. apply (at_known _ t x A X1); [destruct X2 as [-> | ->]; [exact ns_82|exact ns_56]|]. intros _. exists (code c), cx. split; auto. now left. }
    destruct (negb (code c =? 82) && (peek t =? 82)) eqn:E7.
    { apply andb_true_iff in E7 as [E7 E8]. apply negb_true_iff, N.eqb_neq in E7. apply N.eqb_eq in E8.
      destruct (NX 82 E8) as (c2 & t1 & -> & C2 & A2); auto. cbn [tl].
      destruct (N.eqb_spec (peek t1) 34) as [P3|P3].
      - exfalso. destruct (at_quote _ t1 A2) as [QO _]; [rewrite P3; now left|]. rewrite P3 in QO. destruct QO as [[_ QO]|[QO _]]; [|discriminate]. apply QO.
        rewrite run_of_yes, run_of_yes, RN by (auto; unfold wordc, letter; lia). cbn [rev List.app]. unfold raw_prefix. destruct PC as [-> |[-> |[-> |PC]]]; auto; congruence.
      - apply (WD [c; c2]); [reflexivity|eapply num_after; [exact A2|left; unfold wordc, letter; lia]|].
        constructor; auto. constructor; auto. rewrite C2. unfold wordc, letter. lia. }
    clear E7. destruct ((code c =? 117) && (peek t =? 56)) eqn:E7; [|apply (WD [c]); auto].
    apply andb_true_iff in E7 as [E7 E8]. apply N.eqb_eq in E7, E8.
    destruct (NX 56 E8) as (c2 & t1 & -> & C2 & A2); auto. cbn [tl].
    assert (NT1 : Num t1) by (eapply num_after; [exact A2|left; unfold wordc, digit; lia]).
    assert (W2 : Forall (fun c => wordc (code c)) [c; c2]) by (constructor; auto; constructor; auto; rewrite C2; unfold wordc, digit; lia).
    destruct (N.eqb_spec (peek t1) 34) as [P3|P3].
    { apply OT; try discriminate. rewrite <- P3. eapply at_quote; [exact A2|]. rewrite P3. now left. }
    destruct (N.eqb_spec (peek t1) 39) as [P4|P4].
    { apply OT; try discriminate. rewrite <- P4. eapply at_quote; [exact A2|]. rewrite P4. now right. }
    destruct (N.eqb_spec (peek t1) 82) as [P5|P5]; [|apply (WD [c; c2]); auto].
    destruct (at_known _ t1 82 A2 P5) as (c3 & t2 & -> & C3 & A3); [exact ns_82|intros _; exists 56, (code c :: cx); split; auto; left; unfold wordc, digit; lia|]. cbn [tl].
    destruct (N.eqb_spec (peek t2) 34) as [P6|P6].
    - exfalso. destruct (at_quote _ t2 A3) as [QO _]; [rewrite P6; now left|]. rewrite P6 in QO. destruct QO as [[_ QO]|[QO _]]; [|discriminate]. apply QO.
      rewrite run_of_yes, run_of_yes, run_of_yes, RN, E7 by (auto; unfold wordc, letter, digit; lia). cbn [rev List.app]. unfold raw_prefix. auto 10.
    - apply (WD [c; c2; c3]); [reflexivity|eapply num_after; [exact A3|left; unfold wordc, letter; lia]|].
      constructor; auto. constructor; [rewrite C2; unfold wordc, digit; lia|]. constructor; auto. rewrite C3. unfold wordc, letter. lia. }
  clear E6. destruct (is_alpha (code c) || (code c =? 95) || (code c =? 36) || N.testbit (code c) 7) eqn:E8.
  { rewrite !orb_true_iff, !N.eqb_eq, alpha_iff, high_bit, N.leb_le in E8 by (exact (proj2 UB)). assert (W : wordc (code c)) by (unfold wordc; intuition lia).
    apply (WD [c]); [reflexivity|eapply num_after; [exact A|now left]|auto]. }
  rewrite !orb_false_iff, !N.eqb_neq, high_bit, N.leb_gt in E8 by (exact (proj2 UB)).
  assert (NL : ~ letter (code c)) by (rewrite <- alpha_iff; intuition congruence).
  destruct (is_digit (code c)) eqn:E9; apply OT; try discriminate.
  - apply num_number. eapply num_after; [exact A|]. now apply digit_glue.
  - eapply fresh_after; [exact A|]. assert (~ digit (code c)) by (rewrite <- digit_iff; congruence). destruct E8 as [[[_ ?] ?] ?]. unfold wordc. intros [?|[?|?]]; [tauto|tauto|lia].
Qed.

Definition tok_ok (nl : bool) (s : src) (t : tok) (s' : src) : Prop :=
  t_newline t = nl /\ t_kind t <> TEof /\ Fresh s' /\ (length s' < length s)%nat /\ (t_kind t = TPound -> first s = 35)
  /\ (t_kind t = TIdent -> exists w, s = w ++ s' /\ t_text t = List.concat w /\ is_run w s')
  /\ exists n, t_text t = List.concat (firstn (S n) s).
Lemma firstn_app_exact {A} (w s : list A) : firstn (length (w ++ s) - length s) (w ++ s) = w.
Proof. rewrite app_length, Nat.add_sub, firstn_app, Nat.sub_diag, firstn_all, app_nil_r. reflexivity. Qed.
Lemma tok_make k nl c t s : is_space (lead c) = false -> after false c t = Tok k s -> token_ok k c t s ->
  exists x s', tokenize false false nl (c :: t) = (x, s') /\ tok_ok nl (c :: t) x s'.
Proof.
  intros W E (F & K & P & I). exists (make k nl (c :: t) s), s. split; [now apply tokenize_tok|].
  pose proof (after_le false c t) as L. rewrite E in L. unfold tok_ok, make. cbn [t_newline t_kind t_text].
  split; auto. split; [destruct k; try congruence; destruct (is_keyword _); discriminate|]. split; auto. split; [cbn [length]; lia|].
  split; [intros Q; apply P; destruct k; try congruence; destruct (is_keyword _); discriminate|].
  split.
  - intros Q. destruct I as (w & Ew & R); [destruct k; congruence|]. exists w. split; auto. split; auto. f_equal. rewrite Ew. apply firstn_app_exact.
  - exists (length t - length s)%nat. do 2 f_equal. cbn [length]. lia.
Qed.
Lemma not_white c : ~ white_c (code c) -> is_space (lead c) = false.
Proof. intros. rewrite lead_code. now apply space_no. Qed.
Definition starts_gap (ps : list piece) : Prop := match ps with Gap _ :: _ => True | _ => False end.
Lemma peek_text ps e x : x <> 0 -> x <> 10 -> first (text ps e) <> x -> peek (text ps e ++ more) <> x.
Proof.
  destruct (text ps e) as [|c t]; cbn [first List.app]; intros A B C; [destruct (at_more_peek) as [-> | ->]; lia|]. cbn [peek]. now rewrite lead_code.
Qed.
Lemma lex_first cx ps e nl : pieces_ok cx ps e -> Forall utf8 (text ps e) -> ~ starts_gap ps ->
  (run_of cx = [] \/ ~ (letter (first (text ps e)) \/ digit (first (text ps e)) \/ first (text ps e) = 95)) ->
  (ps = [] /\ tokenize false false nl (text ps e ++ more) = tokenize false false nl more)
  \/ exists t s', tokenize false false nl (text ps e ++ more) = (t, s') /\ tok_ok nl (text ps e ++ more) t s'.
Proof.
  intros P F G FR. destruct ps as [|p ps].
  - unfold text in *. cbn [flat_map List.app pieces_ok] in *. destruct e as [|b|q b]; cbn [ending_text end_ok List.app] in *.
    + now left.
    + left. split; [reflexivity|]. destruct P as [P _]. etransitivity; [apply (tokenize_again false false nl [47] ([47] :: atoms_text b ++ more) false more); [reflexivity|]|reflexivity].
      unfold after. cbn [lead hd peek tl]. change (Again false (line_comment (drop_if (one_of [47; 33]) (atoms_text b ++ more))) = Again false more).
      now rewrite line_comment_end.
    + right. destruct P as (Q & P & _). assert (A : At [] more) by apply at_more. pose proof (quote_ok_char _ _ Q) as QC.
      assert (X : after false [q] (atoms_text b ++ more) = Tok (if q =? 34 then TString else TOther) more).
      { pose proof (quote_open q b more QC P ML) as QO. unfold after. cbn [lead hd]. destruct QC as [-> | ->]; cbn [N.eqb Pos.eqb]; now rewrite QO. }
      assert (W : is_space (lead [q]) = false) by (destruct QC as [-> | ->]; reflexivity). apply (tok_make _ nl [q] _ _ W X). split; [exists []; split; auto; now left|].
      destruct (q =? 34); repeat split; discriminate.
  - destruct p as [g|c|q b|pre delim body]; [cbn in G; tauto| | |]; rewrite text_cons in *; apply Forall_app in F as [F1 F2]; cbn [pieces_ok piece_text] in *; right.
    + cbn [List.app] in *. inversion F1; subst. destruct P as (P1 & P2 & P3 & P4 & P5 & P6 & P7 & P8).
      destruct (after_neutral cx c (text ps e ++ more)) as (k & s & E & T).
      * split; [assumption|]. split; [exact P1|]. split; [exact P3|]. split; [exact P4|]. split; [exact P5|].
        split; [intros E; destruct (P6 E); split; now apply peek_text|]. split; [intros E; apply peek_text; try discriminate; auto|].
        exists ps, e. auto.
      * exact FR.
      * eapply tok_make; eauto. now apply not_white.
    + destruct P as (Q & P & P2). pose proof (quote_ok_char _ _ Q) as QC. rewrite <- !app_assoc. cbn [List.app].
      assert (X : after false [q] (atoms_text b ++ [q] :: text ps e ++ more) = Tok (if q =? 34 then TString else TOther) (text ps e ++ more)).
      { pose proof (quote_closed q b (text ps e ++ more) QC P) as QO. unfold after. cbn [lead hd]. destruct QC as [-> | ->]; cbn [N.eqb Pos.eqb]; now rewrite QO. }
      assert (W : is_space (lead [q]) = false) by (destruct QC as [-> | ->]; reflexivity). apply (tok_make _ nl [q] _ _ W X).
      split; [exists [q]; split; [exists ps, e; auto|left; destruct QC as [-> | ->]; reflexivity]|].
      destruct (q =? 34); repeat split; discriminate.
    + destruct P as ((R & _ & D & NO) & P2). set (s := text ps e ++ more).
      assert (UB : Forall utf8 body). { apply Forall_app in F1 as [_ F1]. apply Forall_app in F1 as [_ F1]. apply Forall_app in F1 as [_ F1].
        apply Forall_app in F1 as [_ F1]. now apply Forall_app in F1 as [F1 _]. }
      pose proof (raw_literal delim body s D UB NO) as RL.
      assert (FS : Fresh s) by (exists [34]; split; [exists ps, e; auto|left; reflexivity]).
      assert (T : forall c t, after false c t = Tok TOther s -> is_space (lead c) = false -> exists x s', tokenize false false nl (c :: t) = (x, s') /\ tok_ok nl (c :: t) x s').
      { intros c t E W. apply (tok_make _ _ _ _ _ W E). split; auto. repeat split; discriminate. }
      match goal with |- exists t s', tokenize _ _ _ ?X = _ /\ _ =>
        replace X with (map (fun n : N => [n]) pre ++ [34] :: delim ++ [40] :: body ++ [41] :: delim ++ [34] :: s) by (rewrite <- !app_assoc; reflexivity) end.
      destruct R as [-> |[-> |[-> |[-> | ->]]]]; cbn [map List.app]; apply T; try reflexivity; unfold after; cbn [lead hd peek tl]; cbn; now rewrite RL.
Qed.
Lemma at_fresh cx ps e : pieces_ok cx ps e -> Forall utf8 (text ps e) -> run_of cx = [] -> Fresh (text ps e ++ more).
Proof. intros P F R. exists cx. split; [exists ps, e; auto|now left]. Qed.
Lemma lex_mid s : Fresh s -> tokenize false false false s = tokenize false false false more
  \/ exists t s', tokenize false false false s = (t, s') /\ t_newline t = false /\ t_kind t <> TEof /\ Fresh s' /\ (length s' < length s)%nat.
Proof.
  intros (cx & (ps & e & -> & P & F) & FR).
  assert (FR2 : run_of cx = [] \/ ~ (letter (first (text ps e)) \/ digit (first (text ps e)) \/ first (text ps e) = 95)).
  { destruct FR as [FR|FR]; [now left|right]. intros H. apply FR. rewrite peek_first. destruct (text ps e); [cbn in H; unfold letter, digit in H; lia|exact H]. }
  clear FR. revert cx P FR2 F. induction ps as [|p ps IH]; intros cx P FR F.
  - destruct (lex_first cx [] e false P F) as [[_ E]|(t & s' & E & T)]; auto. right. exists t, s'. unfold tok_ok in T. tauto.
  - destruct p as [g|c|q b|pre delim body].
    { rewrite text_cons in *. apply Forall_app in F as [F1 F2]. cbn [piece_text pieces_ok] in *. destruct P as [G P].
      rewrite <- app_assoc, tokenize_gap by auto. replace (match g with Splice => false | _ => false end) with false by now destruct g.
      destruct (IH [] P (or_introl eq_refl) F2) as [E|(t & s' & E & T)]; auto. right. exists t, s'. split; auto. rewrite (app_length (gap_text g)).
      destruct T as (T1 & T2 & T3 & T4). repeat split; auto. apply (Nat.lt_le_trans _ _ _ T4). apply Nat.le_add_l. }
    all: match goal with |- context [text ?ps ?ee ++ _] => destruct (lex_first cx ps ee false P F) as [[_ E]|(t & s' & E & T)]; auto; right; exists t, s'; unfold tok_ok in T; tauto end.
Qed.
End Line.
