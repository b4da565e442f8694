(** Strings as lists of code units, and decimal numbers; used by several models. *)
From Coq Require Import List Bool Arith NArith ZArith Lia.
Import ListNotations.
Local Open Scope N_scope.

Definition str := list N.

Fixpoint str_eqb (a b : str) : bool :=
  match a, b with
  | [], [] => true
  | x :: a, y :: b => (x =? y) && str_eqb a b
  | _, _ => false
  end.

Lemma str_eqb_eq a b : str_eqb a b = true <-> a = b.
Proof.
  revert b. induction a as [|x a IH]; intros [|y b]; simpl; split; try discriminate; auto.
  - intros H. apply andb_prop in H. destruct H as [H1 H2]. apply N.eqb_eq in H1. apply IH in H2. congruence.
  - intros [= -> ->]. rewrite N.eqb_refl. simpl. now apply IH.
Qed.
Lemma str_eqb_refl a : str_eqb a a = true.
Proof. now apply str_eqb_eq. Qed.
Lemma str_eqb_neq a b : str_eqb a b = false <-> a <> b.
Proof. rewrite <- not_true_iff_false, str_eqb_eq. reflexivity. Qed.
Lemma str_eqb_sym a b : str_eqb a b = str_eqb b a.
Proof.
  destruct (str_eqb a b) eqn:E; symmetry.
  - apply str_eqb_eq in E. subst. apply str_eqb_refl.
  - apply str_eqb_neq in E. apply str_eqb_neq. congruence.
Qed.
Definition str_dec (a b : str) : {a = b} + {a <> b}.
Proof. destruct (str_eqb a b) eqn:E; [left; now apply str_eqb_eq|right; now apply str_eqb_neq]. Defined.

(** Prefix test (QString::startsWith). *)
Fixpoint starts_with (p s : str) : bool :=
  match p, s with
  | [], _ => true
  | x :: p, y :: s => (x =? y) && starts_with p s
  | _ :: _, [] => false
  end.
Lemma starts_with_spec p s : starts_with p s = true <-> exists t, s = p ++ t.
Proof.
  revert s. induction p as [|x p IH]; intros s; simpl.
  - split; eauto.
  - destruct s as [|y s]; [split; [discriminate|intros [t H]; discriminate]|]. split.
    + intros H. apply andb_prop in H. destruct H as [H1 H2]. apply N.eqb_eq in H1. apply IH in H2.
      destruct H2 as [t ->]. exists t. congruence.
    + intros [t [= -> ->]]. rewrite N.eqb_refl. simpl. apply IH. eauto.
Qed.

Definition memN (c : N) (s : str) : bool := existsb (N.eqb c) s.
Lemma memN_In c s : memN c s = true <-> In c s.
Proof.
  unfold memN. rewrite existsb_exists. split.
  - intros (x & H & E). apply N.eqb_eq in E. now subst.
  - intros H. exists c. split; auto. apply N.eqb_refl.
Qed.
Lemma memN_notIn c s : memN c s = false <-> ~ In c s.
Proof. rewrite <- memN_In. destruct (memN c s); split; congruence. Qed.

(** ASCII digits. *)
Definition is_digit (c : N) : bool := (48 <=? c) && (c <=? 57).

(** Decimal representation of a natural number, without leading zeros. *)
Fixpoint dec_fuel (fuel : nat) (n : N) : str :=
  match fuel with
  | O => []
  | S fuel => if n <? 10 then [48 + n] else dec_fuel fuel (n / 10) ++ [48 + n mod 10]
  end.
Definition dec (n : N) : str := dec_fuel (S (N.to_nat (N.log2 n))) n.

(** Value of a string of digits. *)
Definition undec (s : str) : N := fold_left (fun a c => 10 * a + (c - 48)) s 0.

Lemma undec_app s c : undec (s ++ [c]) = 10 * undec s + (c - 48).
Proof. unfold undec. now rewrite fold_left_app. Qed.

Lemma dec_fuel_ok fuel : forall n, n < 2 ^ N.of_nat fuel ->
  undec (dec_fuel fuel n) = n /\ Forall (fun c => is_digit c = true) (dec_fuel fuel n)
  /\ (0 < fuel -> dec_fuel fuel n <> [])%nat.
Proof.
  induction fuel as [|fuel IH]; intros n Hn.
  - change (2 ^ N.of_nat 0) with 1 in Hn. assert (n = 0) by lia. subst. split; [reflexivity|split; [constructor|lia]].
  - rewrite Nat2N.inj_succ, N.pow_succ_r' in Hn. cbn [dec_fuel]. destruct (N.ltb_spec n 10) as [H|H].
    + assert (D : is_digit (48 + n) = true).
      { unfold is_digit. rewrite andb_true_iff, !N.leb_le. lia. }
      split; [|split; [repeat constructor; auto|discriminate]]. change (10 * 0 + (48 + n - 48) = n). lia.
    + assert (Hq : n / 10 < 2 ^ N.of_nat fuel).
      { apply N.div_lt_upper_bound; [lia|]. lia. }
      destruct (IH _ Hq) as (A & B & _). pose proof (N.mod_lt n 10 ltac:(lia)) as M.
      split; [|split].
      * rewrite undec_app, A. pose proof (N.div_mod n 10 ltac:(lia)) as D. clear -D M.
        rewrite (N.add_comm 48), N.add_sub. symmetry. exact D.
      * apply Forall_app. split; auto. constructor; auto. unfold is_digit. rewrite andb_true_iff, !N.leb_le. set (r := n mod 10) in *. clearbody r. lia.
      * intros _ E. apply app_eq_nil in E. destruct E. discriminate.
Qed.

Lemma dec_bound n : n < 2 ^ N.of_nat (S (N.to_nat (N.log2 n))).
Proof.
  rewrite Nat2N.inj_succ, N2Nat.id. destruct (N.eq_dec n 0) as [->|H]; [reflexivity|]. apply N.log2_spec. lia.
Qed.
Lemma undec_dec n : undec (dec n) = n.
Proof. apply dec_fuel_ok, dec_bound. Qed.
Lemma dec_digits n : Forall (fun c => is_digit c = true) (dec n).
Proof. apply (dec_fuel_ok _ n (dec_bound n)). Qed.
Lemma dec_nonempty n : dec n <> [].
Proof. apply (dec_fuel_ok _ n (dec_bound n)). lia. Qed.

(** Longest prefix satisfying a test. *)
Fixpoint span (p : N -> bool) (s : str) : str * str :=
  match s with
  | [] => ([], [])
  | c :: r => if p c then let (a, b) := span p r in (c :: a, b) else ([], s)
  end.
Lemma span_spec p s : let (a, b) := span p s in
  s = a ++ b /\ Forall (fun c => p c = true) a /\ match b with [] => True | c :: _ => p c = false end.
Proof.
  induction s as [|c s IH]; simpl; auto. destruct (p c) eqn:E; [|simpl; rewrite E; auto].
  destruct (span p s) as [a b]. destruct IH as (-> & A & B). simpl. auto.
Qed.
Lemma span_app p a b : Forall (fun c => p c = true) a -> match b with [] => True | c :: _ => p c = false end ->
  span p (a ++ b) = (a, b).
Proof.
  intros H Hb. induction H as [|c a Hc H IH]; simpl.
  - destruct b as [|c b]; auto. simpl. now rewrite Hb.
  - rewrite Hc, IH. reflexivity.
Qed.
