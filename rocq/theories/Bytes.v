(** Searching, splitting and number parsing on byte strings: the Qt functions the protocol parsers use. *)
From Coq Require Import List Bool Arith NArith ZArith Lia.
From Verif Require Import Str.
Import ListNotations.

(** QByteArray::indexOf: the position of the first occurrence. *)
Fixpoint index_of (p s : str) : option nat :=
  if starts_with p s then Some 0
  else match s with [] => None | _ :: s => option_map S (index_of p s) end.

(** QByteArray::toInt for base 10: an optional sign and at least one digit, nothing else, value in the
    range of [int].  Qt also ignores surrounding white space; no caller depends on that. *)
Definition int_min : Z := (-2147483648)%Z.
Definition int_max : Z := 2147483647%Z.
Definition digits_value (s : str) : option Z :=
  match s with
  | [] => None
  | _ => if forallb is_digit s then Some (Z.of_N (undec s)) else None
  end.
Definition in_int (z : Z) : option Z :=
  if ((int_min <=? z) && (z <=? int_max))%Z then Some z else None.
Definition to_int (s : str) : option Z :=
  match s with
  | 45%N :: s => match digits_value s with Some z => in_int (- z) | None => None end
  | 43%N :: s => match digits_value s with Some z => in_int z | None => None end
  | _ => match digits_value s with Some z => in_int z | None => None end
  end.

(** QByteArray::trimmed: ASCII white space is removed at both ends. *)
Definition is_space (c : N) : bool := ((9 <=? c) && (c <=? 13) || (c =? 32))%N.
Fixpoint ltrim (s : str) : str :=
  match s with c :: r => if is_space c then ltrim r else s | [] => [] end.
Definition trimmed (s : str) : str := rev (ltrim (rev (ltrim s))).

(** Lemmas. *)
Lemma index_of_spec p s i : index_of p s = Some i ->
  exists t, s = firstn i s ++ p ++ t /\ i <= length s.
Proof.
  revert i. induction s as [|c s IH]; intros i; cbn [index_of].
  - destruct (starts_with p []) eqn:E; [|discriminate]. intros [= <-].
    apply starts_with_spec in E. destruct E as [t E]. exists t. split; auto.
  - destruct (starts_with p (c :: s)) eqn:E.
    + intros [= <-]. apply starts_with_spec in E. destruct E as [t E]. exists t. split; auto. simpl; lia.
    + destruct (index_of p s) as [j|]; [|discriminate]. intros [= <-].
      destruct (IH j eq_refl) as (t & A & B). exists t. simpl. split; [congruence|lia].
Qed.
Lemma starts_with_app p s t : starts_with p s = true -> starts_with p (s ++ t) = true.
Proof. rewrite !starts_with_spec. intros [u ->]. exists (u ++ t). now rewrite app_assoc. Qed.
Lemma starts_with_app_false p s t : length p <= length s -> starts_with p s = false -> starts_with p (s ++ t) = false.
Proof.
  revert s. induction p as [|x p IH]; intros [|y s]; cbn [length starts_with app]; try discriminate; try lia.
  intros L H. destruct (N.eqb x y); cbn [andb] in *; auto. apply IH; auto. lia.
Qed.
(** An occurrence found in a prefix is found in the whole. *)
Lemma index_of_app p s t i : index_of p s = Some i -> index_of p (s ++ t) = Some i.
Proof.
  revert i. induction s as [|c s IH]; intros i; cbn [index_of].
  - destruct (starts_with p []) eqn:E; [|discriminate]. intros [= <-].
    destruct p; [|discriminate]. simpl. destruct t; reflexivity.
  - destruct (starts_with p (c :: s)) eqn:E.
    + intros [= <-]. change ((c :: s) ++ t) with (c :: s ++ t). cbn [index_of].
      change (c :: s ++ t) with ((c :: s) ++ t). rewrite (starts_with_app p (c :: s) t E). reflexivity.
    + destruct (index_of p s) as [j|] eqn:F; [|discriminate]. intros [= <-].
      pose proof (index_of_spec _ _ _ F) as (u & A & B).
      assert (L : length p <= length (c :: s)).
      { rewrite A. simpl length. rewrite !app_length. lia. }
      change ((c :: s) ++ t) with (c :: s ++ t). cbn [index_of].
      change (c :: s ++ t) with ((c :: s) ++ t). rewrite (starts_with_app_false _ _ _ L E).
      rewrite (IH j eq_refl). reflexivity.
Qed.
Lemma index_of_head p t : index_of p (p ++ t) = Some 0.
Proof. unfold index_of. destruct (p ++ t) eqn:E; rewrite <- E; rewrite (proj2 (starts_with_spec p (p ++ t))); eauto. Qed.
(** A single character. *)
Lemma index_of_char c s t : ~ In c s -> index_of [c] (s ++ c :: t) = Some (length s).
Proof.
  induction s as [|x s IH]; intros H.
  - simpl. now rewrite N.eqb_refl.
  - simpl. destruct (N.eqb_spec c x) as [->|E]; [exfalso; apply H; now left|]. simpl.
    rewrite IH; auto. intros K. apply H. now right.
Qed.
Lemma index_of_char_none c s : ~ In c s -> index_of [c] s = None.
Proof.
  induction s as [|x s IH]; intros H; [reflexivity|]. simpl.
  destruct (N.eqb_spec c x) as [->|E]; [exfalso; apply H; now left|]. simpl.
  rewrite IH; auto. intros K. apply H. now right.
Qed.

Lemma digits_value_dec n : digits_value (dec n) = Some (Z.of_N n).
Proof.
  unfold digits_value. pose proof (dec_nonempty n). pose proof (dec_digits n) as D.
  assert (F : forallb is_digit (dec n) = true) by (apply forallb_forall; now apply Forall_forall).
  destruct (dec n) eqn:E; [congruence|]. rewrite F. rewrite <- E, undec_dec. reflexivity.
Qed.
Lemma to_int_digits s : Forall (fun c => is_digit c = true) s ->
  to_int s = match digits_value s with Some z => in_int z | None => None end.
Proof.
  intros D. destruct s as [|c s]; [reflexivity|]. pose proof (Forall_inv D) as K.
  unfold to_int. destruct (N.eq_dec c 45) as [->|A]; [discriminate K|].
  destruct (N.eq_dec c 43) as [->|B]; [discriminate K|].
  repeat (match goal with |- context [match ?x with _ => _ end] => is_var x; destruct x end; try reflexivity); congruence.
Qed.
Lemma to_int_dec n : (Z.of_N n <= int_max)%Z -> to_int (dec n) = Some (Z.of_N n).
Proof.
  intros H. rewrite to_int_digits by apply dec_digits. rewrite digits_value_dec. unfold in_int.
  replace ((int_min <=? Z.of_N n) && (Z.of_N n <=? int_max))%Z with true; auto.
  symmetry. rewrite andb_true_iff, !Z.leb_le. unfold int_min, int_max in *. lia.
Qed.
Lemma dec_no_char n c : is_digit c = false -> ~ In c (dec n).
Proof. intros H K. pose proof (proj1 (Forall_forall _ _) (dec_digits n) c K). cbv beta in *. congruence. Qed.
