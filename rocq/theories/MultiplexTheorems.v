(** C40: a product is instantiated once for every combination of values; C55: which instances a dependency on a multiplexed product stands for. *)
From Coq Require Import List Bool Arith NArith ZArith Lia Sorted.
From Verif Require Import Str SettingsModel SettingsTheorems JsLiteralTheorems MultiplexModel.
Import ListNotations.
Local Open Scope N_scope.

(** ** Specification *)

(** Position of the first occurrence of a value in a column is before that of another. *)
Definition before (col : list jv) (a b : jv) : Prop := exists x y z, col = x ++ a :: y ++ b :: z.
(** Rows in the order of a counter, the last column changing fastest: at the first difference, the left row has the earlier value. *)
Inductive row_before : list (list jv) -> list jv -> list jv -> Prop :=
| differ_here col cols a b r s : before col a b -> row_before (col :: cols) (a :: r) (b :: s)
| same_here col cols a r s : row_before cols r s -> row_before (col :: cols) (a :: r) (a :: s).

(** Each value of a list that has none like it before. *)
Definition unique (eqv : jv -> jv -> bool) (l u : list jv) : Prop :=
  (forall x y z a b, u = x ++ a :: y ++ b :: z -> eqv a b = false) /\
  (forall v, In v l -> In v u \/ exists w, In w u /\ eqv w v = true) /\ incl u l.
(** [u] is a part of [l] in the same order. *)
Inductive part {A} : list A -> list A -> Prop :=
| part_nil : part [] []
| part_skip a u l : part u l -> part u (a :: l)
| part_take a u l : part u l -> part (a :: u) (a :: l).

(** The keys that count: no earlier key stands for the same property, and there are values. *)
Fixpoint axes_of (mapped : str -> str) (axes : str -> axis) (earlier keys : list str) : list (str * list jv) :=
  match keys with
  | [] => []
  | k :: keys =>
      let rest := axes_of mapped axes (earlier ++ [k]) keys in
      match in_dec str_dec (mapped k) (map mapped earlier), axes k with
      | right _, Values (v :: l) => (mapped k, v :: l) :: rest
      | _, _ => rest
      end
  end.

(** A value all of whose characters are Unicode code points. *)
Fixpoint unicode (v : jv) : Prop :=
  match v with
  | JStr s => Forall (fun c => c < 1114112) s
  | JArr l => fold_right (fun w P => unicode w /\ P) True l
  | JObj l => fold_right (fun e P => Forall (fun c => c < 1114112) (fst e) /\ unicode (snd e) /\ P) True l
  | _ => True
  end.

(** ** Configuration ids *)

Section Induction.
  Variable P : jv -> Prop.
  Hypothesis HNull : P JNull.
  Hypothesis HBool : forall b, P (JBool b).
  Hypothesis HNum : forall z, P (JNum z).
  Hypothesis HStr : forall s, P (JStr s).
  Hypothesis HArr : forall l, Forall P l -> P (JArr l).
  Hypothesis HObj : forall l, Forall (fun e => P (snd e)) l -> P (JObj l).
  Fixpoint jv_rect' (v : jv) : P v :=
    match v with
    | JNull => HNull
    | JBool b => HBool b
    | JNum z => HNum z
    | JStr s => HStr s
    | JArr l => HArr l ((fix go l := match l return Forall P l with [] => Forall_nil P | w :: l => Forall_cons w (jv_rect' w) (go l) end) l)
    | JObj l => HObj l ((fix go l := match l return Forall (fun e => P (snd e)) l with
                                     | [] => Forall_nil _ | e :: l => Forall_cons e (jv_rect' (snd e)) (go l) end) l)
    end.
End Induction.

(** *** Base 64 *)

Definition unsextet (c : N) : N :=
  if (65 <=? c) && (c <=? 90) then c - 65 else if (97 <=? c) && (c <=? 122) then c - 71 else if (48 <=? c) && (c <=? 57) then c + 4 else if c =? 43 then 62 else 63.
Definition all_sextets : list N := map N.of_nat (seq 0 64).
Lemma sextet_check : forallb (fun n => (unsextet (sextet n) =? n) && negb (sextet n =? 61)) all_sextets = true.
Proof. vm_compute. reflexivity. Qed.
Lemma unsextet_sextet n : n < 64 -> unsextet (sextet n) = n /\ sextet n <> 61.
Proof.
  intros H. pose proof sextet_check as C. rewrite forallb_forall in C. specialize (C n).
  assert (I : In n all_sextets). { unfold all_sextets. apply in_map_iff. exists (N.to_nat n). split; [apply N2Nat.id|]. apply in_seq. lia. }
  apply C in I. apply andb_prop in I as [I1 I2]. apply N.eqb_eq in I1. apply negb_true_iff, N.eqb_neq in I2. auto.
Qed.
Lemma sextet_inj a b : a < 64 -> b < 64 -> sextet a = sextet b -> a = b.
Proof. intros A B E. rewrite <- (proj1 (unsextet_sextet a A)), <- (proj1 (unsextet_sextet b B)). now rewrite E. Qed.

Lemma base64_len s : (length s <= length (base64 s))%nat.
Proof.
  assert (G : forall n s, (length s <= n)%nat -> (length s <= length (base64 s))%nat).
  { induction n as [|n IH]; intros [|a [|b [|c t]]] H; cbn in *; try lia. specialize (IH t ltac:(lia)). lia. }
  eapply G. apply le_n.
Qed.
Lemma base64_inj n : forall s t, (length s <= n)%nat -> Forall (fun c => c < 256) s -> Forall (fun c => c < 256) t -> base64 s = base64 t -> s = t.
Proof.
  induction n as [|n IH]; intros s t L Hs Ht E.
  - destruct s; [|cbn in L; lia]. apply (f_equal (@length N)) in E. pose proof (base64_len t). destruct t; [reflexivity|]. cbn in *. lia.
  - assert (S6 : forall a b, a < 64 -> b < 64 -> sextet a = sextet b -> a = b) by apply sextet_inj.
    assert (S61 : forall a, a < 64 -> sextet a <> 61) by (intros a Ha; apply (unsextet_sextet a Ha)).
    assert (Q4 : forall a, a < 256 -> a / 4 < 64) by (intros a Ha; apply N.div_lt_upper_bound; lia).
    assert (Q16 : forall a, a < 256 -> a / 16 < 16) by (intros a Ha; apply N.div_lt_upper_bound; lia).
    assert (Q64 : forall a, a < 256 -> a / 64 < 4) by (intros a Ha; apply N.div_lt_upper_bound; lia).
    assert (M4 : forall a, a mod 4 < 4) by (intros; apply N.mod_lt; discriminate).
    assert (M16 : forall a, a mod 16 < 16) by (intros; apply N.mod_lt; discriminate).
    assert (M64 : forall a, a mod 64 < 64) by (intros; apply N.mod_lt; discriminate).
    assert (W4 : forall a b, a / 4 = b / 4 -> a mod 4 = b mod 4 -> a = b) by (intros a b A B; rewrite (N.div_mod a 4), (N.div_mod b 4), A, B by discriminate; reflexivity).
    assert (W16 : forall a b, a / 16 = b / 16 -> a mod 16 = b mod 16 -> a = b) by (intros a b A B; rewrite (N.div_mod a 16), (N.div_mod b 16), A, B by discriminate; reflexivity).
    assert (W64 : forall a b, a / 64 = b / 64 -> a mod 64 = b mod 64 -> a = b) by (intros a b A B; rewrite (N.div_mod a 64), (N.div_mod b 64), A, B by discriminate; reflexivity).
    assert (D16 : forall x y u v, x * 16 + u = y * 16 + v -> u < 16 -> v < 16 -> x = y /\ u = v) by (intros; lia).
    assert (D4 : forall x y u v, x * 4 + u = y * 4 + v -> u < 4 -> v < 4 -> x = y /\ u = v) by (intros; lia).
    destruct s as [|a [|b [|c s]]], t as [|a' [|b' [|c' t]]]; try reflexivity; try (cbn in E; discriminate E);
      repeat match goal with H : Forall _ (_ :: _) |- _ => inversion H; clear H; subst end; cbn [base64] in E; injection E; clear E; intros;
      repeat match goal with H : 61 = sextet _ |- _ => symmetry in H; apply S61 in H; [destruct H|] | H : sextet _ = 61 |- _ => apply S61 in H; [destruct H|] end;
      repeat match goal with
      | H : sextet (?x / 4) = sextet (?y / 4) |- _ => apply S6 in H; [|now apply Q4|now apply Q4]
      | H : sextet (?x mod 4 * 16) = sextet (?y mod 4 * 16) |- _ => apply S6 in H; [|pose proof (M4 x); lia|pose proof (M4 y); lia]
      | H : sextet (?x mod 4 * 16 + ?u / 16) = sextet (?y mod 4 * 16 + ?v / 16) |- _ => apply S6 in H; [|pose proof (M4 x); pose proof (Q16 u ltac:(assumption)); lia|pose proof (M4 y); pose proof (Q16 v ltac:(assumption)); lia];
          apply D16 in H; [destruct H|apply Q16; assumption|apply Q16; assumption]
      | H : sextet (?x mod 16 * 4) = sextet (?y mod 16 * 4) |- _ => apply S6 in H; [|pose proof (M16 x); lia|pose proof (M16 y); lia]
      | H : sextet (?x mod 16 * 4 + ?u / 64) = sextet (?y mod 16 * 4 + ?v / 64) |- _ => apply S6 in H; [|pose proof (M16 x); pose proof (Q64 u ltac:(assumption)); lia|pose proof (M16 y); pose proof (Q64 v ltac:(assumption)); lia];
          apply D4 in H; [destruct H|apply Q64; assumption|apply Q64; assumption]
      | H : sextet (?x mod 64) = sextet (?y mod 64) |- _ => apply S6 in H; [|apply M64|apply M64]
      end.
    all: try match goal with
      | |- ?x mod 16 * 4 < 64 => pose proof (M16 x); lia
      | |- ?x mod 16 * 4 + ?u / 64 < 64 => pose proof (M16 x); pose proof (Q64 u ltac:(assumption)); lia
      | |- ?x mod 64 < 64 => apply M64
      end.
    + assert (a = a') by (apply W4; [assumption|lia]). now subst.
    + assert (a = a') by (apply W4; assumption). assert (b = b') by (apply W16; [assumption|lia]). now subst.
    + assert (a = a') by (apply W4; assumption). assert (b = b') by (apply W16; assumption). assert (c = c') by (apply W64; assumption). subst. do 3 f_equal.
      apply IH; auto. cbn in L. lia.
Qed.

(** *** UTF-8 *)

Lemma div_mod_eq b c d : b <> 0 -> c / b = d / b -> c mod b = d mod b -> c = d.
Proof. intros B Q R. rewrite (N.div_mod c b B), (N.div_mod d b B), Q, R. reflexivity. Qed.
Lemma cons_eq (a b : N) x y : a :: x = b :: y -> a = b /\ x = y.
Proof. intros E. injection E. auto. Qed.
Lemma utf8_char_prefix c d x y : utf8_char c ++ x = utf8_char d ++ y -> c < 2097152 -> d < 2097152 -> c = d /\ x = y.
Proof.
  intros E C D. unfold utf8_char in E.
  assert (D1 : forall c, c < 2048 -> c / 64 < 32) by (intros; apply N.div_lt_upper_bound; lia).
  assert (D2 : forall c, c < 65536 -> c / 4096 < 16) by (intros; apply N.div_lt_upper_bound; lia).
  assert (D3 : forall c, c < 2097152 -> c / 262144 < 8) by (intros; apply N.div_lt_upper_bound; lia).
  assert (V1 : forall c, c / 4096 = c / 64 / 64) by (intros; rewrite N.div_div by discriminate; reflexivity).
  assert (V2 : forall c, c / 262144 = c / 4096 / 64) by (intros; rewrite N.div_div by discriminate; reflexivity).
  destruct (N.ltb_spec c 128), (N.ltb_spec d 128); try destruct (N.ltb_spec c 2048); try destruct (N.ltb_spec d 2048); try destruct (N.ltb_spec c 65536);
    try destruct (N.ltb_spec d 65536); cbn [app] in E; try lia; try pose proof (D1 c ltac:(assumption)); try pose proof (D1 d ltac:(assumption));
    try pose proof (D2 c ltac:(assumption)); try pose proof (D2 d ltac:(assumption)); pose proof (D3 c C); pose proof (D3 d D);
    repeat (let H := fresh in apply cons_eq in E as [H E]);
    try (exfalso; clear V1 V2 D1 D2 D3; generalize dependent (c / 64); generalize dependent (d / 64); generalize dependent (c / 4096); generalize dependent (d / 4096);
         generalize dependent (c / 262144); generalize dependent (d / 262144); intros; lia).
  all: split; [|assumption].
  - assumption.
  - apply (div_mod_eq 64); [discriminate|lia|lia].
  - apply (div_mod_eq 64); [discriminate| |lia]. apply (div_mod_eq 64); [discriminate| |lia]. rewrite <- !V1. lia.
  - apply (div_mod_eq 64); [discriminate| |lia]. apply (div_mod_eq 64); [discriminate| |lia]. rewrite <- !V1.
    apply (div_mod_eq 64); [discriminate| |lia]. rewrite <- !V2. lia.
Qed.
Lemma utf8_char_bytes c : c < 2097152 -> Forall (fun b => b < 256) (utf8_char c).
Proof.
  intros C. unfold utf8_char.
  assert (M : forall a, a mod 64 < 64) by (intros; apply N.mod_lt; discriminate).
  assert (c < 2048 -> c / 64 < 32) by (intros; apply N.div_lt_upper_bound; lia).
  assert (c < 65536 -> c / 4096 < 16) by (intros; apply N.div_lt_upper_bound; lia).
  assert (c / 262144 < 8) by (apply N.div_lt_upper_bound; lia).
  pose proof (M c). pose proof (M (c / 64)). pose proof (M (c / 4096)).
  destruct (N.ltb_spec c 128); [|destruct (N.ltb_spec c 2048); [|destruct (N.ltb_spec c 65536)]]; repeat constructor;
    generalize dependent (c mod 64); generalize dependent (c / 64 mod 64); generalize dependent (c / 4096 mod 64); generalize dependent (c / 64);
    generalize dependent (c / 4096); generalize dependent (c / 262144); intros; lia.
Qed.
Lemma utf8_char_some c : utf8_char c <> [].
Proof. unfold utf8_char. destruct (c <? 128), (c <? 2048), (c <? 65536); discriminate. Qed.
Lemma utf8_inj s : forall t, Forall (fun c => c < 2097152) s -> Forall (fun c => c < 2097152) t -> utf8 s = utf8 t -> s = t.
Proof.
  induction s as [|c s IH]; intros [|d t] Hs Ht E; [reflexivity| | |].
  - cbn in E. destruct (utf8_char d) eqn:U; [now destruct (utf8_char_some d)|discriminate].
  - cbn in E. destruct (utf8_char c) eqn:U; [now destruct (utf8_char_some c)|discriminate].
  - cbn in E. inversion Hs; inversion Ht; subst. apply utf8_char_prefix in E as [-> E]; auto. f_equal. auto.
Qed.
Lemma utf8_bytes s : Forall (fun c => c < 2097152) s -> Forall (fun b => b < 256) (utf8 s).
Proof. induction 1; cbn; [constructor|]. apply Forall_app. split; [now apply utf8_char_bytes|assumption]. Qed.

(** *** JSON *)

Definition arr_tail (l : list jv) : str := flat_map (fun v => 44 :: json v) l.
Definition obj_tail (l : list (str * jv)) : str := flat_map (fun e => 44 :: json_str (fst e) ++ 58 :: json (snd e)) l.
Lemma json_arr l : json (JArr l) = 91 :: match l with [] => [] | v :: l => json v ++ arr_tail l end ++ [93].
Proof.
  destruct l as [|v l]; [reflexivity|]. cbn [json app]. do 3 f_equal. induction l as [|w l IH]; [reflexivity|]. cbn [app arr_tail flat_map]. f_equal. f_equal. exact IH.
Qed.
Lemma json_obj l : json (JObj l) = 123 :: match l with [] => [] | (k, v) :: l => json_str k ++ 58 :: json v ++ obj_tail l end ++ [125].
Proof.
  destruct l as [|[k v] l]; [reflexivity|]. cbn [json app]. do 5 f_equal. induction l as [|[k' w] l IH]; [reflexivity|].
  cbn [app obj_tail flat_map fst snd]. f_equal. rewrite <- app_assoc. f_equal. cbn [app]. f_equal. f_equal. exact IH.
Qed.

Definition specials : list N := 34 :: 92 :: map N.of_nat (seq 0 32).
Lemma json_char_cases c : json_char c = [c] /\ c <> 34 /\ c <> 92 \/ In c specials /\ exists t, json_char c = 92 :: t.
Proof.
  destruct (N.eqb_spec c 34) as [->|A]; [right; split; [now left|]; eexists; reflexivity|].
  destruct (N.eqb_spec c 92) as [->|B]; [right; split; [right; now left|]; eexists; reflexivity|].
  destruct (N.ltb_spec c 32) as [L|L].
  - right. split; [right; right; apply in_map_iff; exists (N.to_nat c); split; [apply N2Nat.id|apply in_seq; lia]|].
    unfold json_char. apply N.eqb_neq in A, B. apply N.ltb_lt in L. rewrite A, B, L.
    destruct (c =? 8), (c =? 12), (c =? 10), (c =? 13), (c =? 9); eexists; reflexivity.
  - left. unfold json_char. split; [|auto]. apply N.eqb_neq in A, B. rewrite A, B.
    replace (c =? 8) with false by (symmetry; apply N.eqb_neq; lia). replace (c =? 12) with false by (symmetry; apply N.eqb_neq; lia).
    replace (c =? 10) with false by (symmetry; apply N.eqb_neq; lia). replace (c =? 13) with false by (symmetry; apply N.eqb_neq; lia).
    replace (c =? 9) with false by (symmetry; apply N.eqb_neq; lia). replace (c <? 32) with false by (symmetry; apply N.ltb_ge; lia). reflexivity.
Qed.
Fixpoint agree (a b : str) : bool := match a, b with x :: a, y :: b => (x =? y) && agree a b | _, _ => true end.
Lemma agree_app a : forall b x y, a ++ x = b ++ y -> agree a b = true.
Proof. induction a as [|c a IH]; intros [|d b] x y E; try reflexivity. cbn in *. injection E as -> E. rewrite N.eqb_refl. eapply IH, E. Qed.
Lemma specials_check : forallb (fun c => forallb (fun d => (c =? d) || negb (agree (json_char c) (json_char d))) specials) specials = true.
Proof. vm_compute. reflexivity. Qed.
Lemma json_char_prefix c d x y : json_char c ++ x = json_char d ++ y -> c = d /\ x = y.
Proof.
  intros E.
  assert (c = d). { destruct (json_char_cases c) as [[C [C1 C2]]|[C [t Ct]]], (json_char_cases d) as [[D [D1 D2]]|[D [u Du]]].
    - rewrite C, D in E. now injection E.
    - rewrite C, Du in E. injection E. congruence.
    - rewrite Ct, D in E. injection E. congruence.
    - pose proof specials_check as K. rewrite forallb_forall in K. specialize (K _ C). rewrite forallb_forall in K. specialize (K _ D).
      apply orb_prop in K as [K|K]; [now apply N.eqb_eq|]. now rewrite (agree_app _ _ _ _ E) in K. }
  subst. split; [reflexivity|]. eapply app_inv_head, E.
Qed.
Lemma json_char_quote c x y : json_char c ++ x <> 34 :: y.
Proof. destruct (json_char_cases c) as [[-> [C1 _]]|[_ [t ->]]]; cbn; congruence. Qed.
Lemma json_str_prefix s : forall t x y, json_str s ++ x = json_str t ++ y -> s = t /\ x = y.
Proof.
  assert (G : forall s t x y, flat_map json_char s ++ 34 :: x = flat_map json_char t ++ 34 :: y -> s = t /\ x = y).
  { clear s. induction s as [|c s IH]; intros [|d t] x y E; cbn [flat_map app] in E.
    - injection E. auto.
    - rewrite <- app_assoc in E. now apply eq_sym, json_char_quote in E.
    - rewrite <- app_assoc in E. now apply json_char_quote in E.
    - rewrite <- !app_assoc in E. apply json_char_prefix in E as [-> E]. apply IH in E as [-> ->]. auto. }
  intros t x y E. unfold json_str in E. cbn [app] in E. rewrite <- !app_assoc in E. cbn [app] in E. injection E as E. now apply G.
Qed.

Definition ending (x : str) : Prop := match x with [] => True | c :: _ => c = 44 \/ c = 93 \/ c = 125 end.
Lemma digits_prefix u : forall v x y, Forall (fun c => is_digit c = true) u -> Forall (fun c => is_digit c = true) v -> ending x -> ending y -> u ++ x = v ++ y -> u = v /\ x = y.
Proof.
  assert (K : forall c x, ending (c :: x) -> is_digit c = true -> False) by (intros c x [ -> |[ -> | -> ]] H; discriminate H).
  induction u as [|c u IH]; intros [|d v] x y U V X Y E; cbn in E.
  - auto.
  - subst x. inversion V; subst. now destruct (K _ _ X).
  - subst y. inversion U; subst. now destruct (K _ _ Y).
  - injection E as -> E. inversion U; inversion V; subst. destruct (IH v x y) as [-> ->]; auto.
Qed.
Lemma dec_inj a b : dec a = dec b -> a = b.
Proof. intros E. rewrite <- (undec_dec a), <- (undec_dec b). now rewrite E. Qed.
Lemma dec_prefix a b x y : ending x -> ending y -> dec a ++ x = dec b ++ y -> a = b /\ x = y.
Proof. intros X Y E. apply digits_prefix in E as [E ->]; auto using dec_digits. split; [now apply dec_inj|reflexivity]. Qed.
Lemma dec_z_cases z : (0 <= z)%Z /\ dec_z z = dec (Z.to_N z) \/ exists p, z = Z.neg p /\ dec_z z = 45 :: dec (Npos p).
Proof. destruct z as [|p|p]; [left|left|right]; try (split; [lia|reflexivity]). exists p. auto. Qed.
Lemma dec_minus a x y : dec a ++ x <> 45 :: y.
Proof.
  destruct (dec_starts a) as (c & t & E & D). rewrite E. cbn. intros Q. injection Q as -> _. discriminate D.
Qed.
Lemma dec_z_prefix a b x y : ending x -> ending y -> dec_z a ++ x = dec_z b ++ y -> a = b /\ x = y.
Proof.
  intros X Y E. destruct (dec_z_cases a) as [[A EA]|(p & -> & EA)], (dec_z_cases b) as [[B EB]|(q & -> & EB)]; rewrite EA, EB in E.
  - apply dec_prefix in E as [E ->]; auto. split; [lia|reflexivity].
  - now apply dec_minus in E.
  - now apply eq_sym, dec_minus in E.
  - cbn [app] in E. apply cons_eq in E as [_ E]. apply dec_prefix in E as [E ->]; auto. split; [congruence|reflexivity].
Qed.
Lemma dec_z_starts z : exists c t, dec_z z = c :: t /\ (c = 45 \/ is_digit c = true).
Proof.
  destruct (dec_z_cases z) as [[_ E]|(p & _ & E)]; rewrite E; [|eauto].
  destruct (dec_starts (Z.to_N z)) as (c & t & -> & D). eauto.
Qed.

(** The first character tells what kind of value it is. *)
Definition kind (v : jv) : N := match v with JNull => 1 | JBool true => 2 | JBool false => 3 | JNum _ => 4 | JStr _ => 5 | JArr _ => 6 | JObj _ => 7 end.
Definition kind_of (c : N) : N :=
  if c =? 110 then 1 else if c =? 116 then 2 else if c =? 102 then 3 else if c =? 34 then 5 else if c =? 91 then 6 else if c =? 123 then 7 else if (c =? 45) || is_digit c then 4 else 0.
Lemma json_starts v : exists c t, json v = c :: t /\ kind_of c = kind v.
Proof.
  destruct v as [|[]|z|s|l|l]; try (eexists; eexists; split; [reflexivity|reflexivity]).
  destruct (dec_z_starts z) as (c & t & E & D). exists c, t. split; [exact E|]. destruct D as [-> |D]; [reflexivity|].
  assert (R : 48 <= c <= 57). { unfold is_digit in D. apply andb_prop in D as [D1 D2]. apply N.leb_le in D1, D2. lia. }
  unfold kind_of. rewrite D, orb_true_r.
  repeat match goal with |- context [c =? ?n] => replace (c =? n) with false by (symmetry; apply N.eqb_neq; lia) end. reflexivity.
Qed.
Lemma json_kind v w x y : json v ++ x = json w ++ y -> kind v = kind w.
Proof.
  destruct (json_starts v) as (c & t & Ev & Kv), (json_starts w) as (d & u & Ew & Kw). rewrite Ev, Ew. cbn. intros E. injection E as -> _. congruence.
Qed.

Lemma arr_tail_cons v l : arr_tail (v :: l) = 44 :: json v ++ arr_tail l.
Proof. reflexivity. Qed.
Lemma obj_tail_cons e l : obj_tail (e :: l) = 44 :: json_str (fst e) ++ 58 :: json (snd e) ++ obj_tail l.
Proof. unfold obj_tail. cbn [flat_map app]. rewrite <- app_assoc. reflexivity. Qed.
Lemma ending_arr l x : ending (arr_tail l ++ 93 :: x).
Proof. destruct l; cbn; auto. Qed.
Lemma ending_obj l x : ending (obj_tail l ++ 125 :: x).
Proof. destruct l; cbn; auto. Qed.

Lemma json_prefix v : forall w x y, ending x -> ending y -> json v ++ x = json w ++ y -> v = w /\ x = y.
Proof.
  induction v as [|b|z|s|l IH|l IH] using jv_rect'; intros w x y X Y E; pose proof (json_kind _ _ _ _ E) as K;
    destruct w as [|b'|z'|s'|l'|l']; try (cbn in K; destruct b; discriminate K); try (cbn in K; destruct b'; discriminate K); try (cbn in K; discriminate K).
  - cbn in E. injection E. auto.
  - destruct b, b'; cbn in K; try discriminate; cbn in E; injection E; auto.
  - cbn [json] in E. apply dec_z_prefix in E as [-> ->]; auto.
  - cbn [json] in E. apply json_str_prefix in E as [-> ->]; auto.
  - rewrite !json_arr in E. cbn [app] in E. apply cons_eq in E as [_ E]. rewrite <- !app_assoc in E. cbn [app] in E.
    assert (T : forall l, Forall (fun v => forall w x y, ending x -> ending y -> json v ++ x = json w ++ y -> v = w /\ x = y) l ->
                forall m x y, arr_tail l ++ 93 :: x = arr_tail m ++ 93 :: y -> l = m /\ x = y).
    { clear. induction 1 as [|v l Hv Hl IH]; intros [|w m] x y E.
      - cbn in E. injection E. auto.
      - cbn in E. discriminate.
      - cbn in E. discriminate.
      - rewrite !arr_tail_cons in E. cbn [app] in E. apply cons_eq in E as [_ E]. rewrite <- !app_assoc in E.
        apply Hv in E as [-> E]; [|apply ending_arr|apply ending_arr]. apply IH in E as [-> ->]. auto. }
    assert (B : forall v r, json v ++ r <> 93 :: y /\ json v ++ r <> 93 :: x).
    { intros v r. destruct (json_starts v) as (c & t & -> & Kc). cbn. split; intros Q; injection Q as -> _; destruct v as [|[]| | | |]; discriminate Kc. }
    destruct l as [|v l], l' as [|v' l']; cbn [app] in E.
    + injection E. auto.
    + rewrite <- app_assoc in E. now apply eq_sym, B in E.
    + rewrite <- app_assoc in E. now apply B in E.
    + rewrite <- !app_assoc in E. inversion IH as [|? ? Hv Hl]; subst. apply Hv in E as [-> E]; [|apply ending_arr|apply ending_arr].
      apply T in E as [-> ->]; auto.
  - rewrite !json_obj in E. cbn [app] in E. apply cons_eq in E as [_ E]. rewrite <- !app_assoc in E. cbn [app] in E.
    assert (T : forall l, Forall (fun e : str * jv => forall w x y, ending x -> ending y -> json (snd e) ++ x = json w ++ y -> snd e = w /\ x = y) l ->
                forall m x y, obj_tail l ++ 125 :: x = obj_tail m ++ 125 :: y -> l = m /\ x = y).
    { clear. induction 1 as [|[k v] l Hv Hl IH]; intros [|[k' w] m] x y E.
      - cbn in E. injection E. auto.
      - cbn in E. discriminate.
      - cbn in E. discriminate.
      - rewrite !obj_tail_cons in E. cbn [app fst snd] in *. apply cons_eq in E as [_ E]. rewrite <- !app_assoc in E. apply json_str_prefix in E as [-> E].
        cbn [app] in E. apply cons_eq in E as [_ E]. rewrite <- !app_assoc in E.
        apply Hv in E as [-> E]; [|apply ending_obj|apply ending_obj]. apply IH in E as [-> ->]. auto. }
    destruct l as [|[k v] l], l' as [|[k' v'] l']; cbn [app] in E.
    + injection E. auto.
    + unfold json_str in E. cbn in E. discriminate.
    + unfold json_str in E. cbn in E. discriminate.
    + rewrite <- !app_assoc in E. apply json_str_prefix in E as [-> E]. cbn [app] in E. apply cons_eq in E as [_ E]. rewrite <- !app_assoc in E.
      inversion IH as [|? ? Hv Hl]; subst. apply Hv in E as [E1 E]; [|apply ending_obj|apply ending_obj]. cbn in E1. subst v'.
      apply T in E as [-> ->]; auto.
Qed.
Theorem json_injective v w : json v = json w -> v = w.
Proof. intros E. apply (json_prefix v w [] []); cbn; auto. now rewrite !app_nil_r. Qed.

Definition below (s : str) : Prop := Forall (fun c => c < 2097152) s.
Lemma below_dec n : below (dec n).
Proof.
  eapply Forall_impl; [|apply dec_digits]. cbn. intros c D. unfold is_digit in D. apply andb_prop in D as [_ D]. apply N.leb_le in D. lia.
Qed.
Lemma below_char c : c < 1114112 -> below (json_char c).
Proof.
  intros C. destruct (json_char_cases c) as [[-> _]|[I _]]; [repeat constructor; lia|].
  assert (K : forallb (fun d => forallb (fun e => e <? 2097152) (json_char d)) specials = true) by (vm_compute; reflexivity).
  rewrite forallb_forall in K. specialize (K _ I). rewrite forallb_forall in K. apply Forall_forall. intros e H. now apply N.ltb_lt, K.
Qed.
Lemma below_json_str s : Forall (fun c => c < 1114112) s -> below (json_str s).
Proof.
  intros H. constructor; [lia|]. apply Forall_app. split; [|repeat constructor; lia]. induction H; cbn; [constructor|]. apply Forall_app. split; [now apply below_char|assumption].
Qed.
Lemma below_json v : unicode v -> below (json v).
Proof.
  induction v as [|b|z|s|l IH|l IH] using jv_rect'; intros U.
  - repeat constructor; lia.
  - destruct b; repeat constructor; lia.
  - cbn [json]. destruct (dec_z_cases z) as [[_ ->]|(p & _ & ->)]; [apply below_dec|constructor; [lia|apply below_dec]].
  - now apply below_json_str.
  - rewrite json_arr. constructor; [lia|]. apply Forall_app. split; [|repeat constructor; lia]. destruct l as [|v l]; [constructor|].
    inversion IH as [|? ? Hv Hl]; subst. cbn in U. destruct U as [U1 U2]. apply Forall_app. split; [exact (Hv U1)|]. clear Hv IH U1. induction Hl as [|w l Hw Hl IH]; [constructor|].
    cbn in U2. destruct U2 as [U1 U2]. rewrite arr_tail_cons. constructor; [lia|]. apply Forall_app. split; [exact (Hw U1)|exact (IH U2)].
  - rewrite json_obj. constructor; [lia|]. apply Forall_app. split; [|repeat constructor; lia]. destruct l as [|[k v] l]; [constructor|].
    inversion IH as [|? ? Hv Hl]; subst. cbn in U. destruct U as (U0 & U1 & U2). apply Forall_app. split; [now apply below_json_str|]. constructor; [lia|].
    apply Forall_app. split; [exact (Hv U1)|]. clear Hv IH U1. induction Hl as [|[k' w] l Hw Hl IH]; [constructor|].
    cbn in U2. destruct U2 as (U3 & U4 & U2). rewrite obj_tail_cons. cbn [fst snd]. constructor; [lia|]. apply Forall_app. split; [now apply below_json_str|]. constructor; [lia|].
    apply Forall_app. split; [exact (Hw U4)|exact (IH U2)].
Qed.
Theorem id_of_injective c d : unicode (JObj c) -> unicode (JObj d) -> id_of c = id_of d -> c = d.
Proof.
  intros C D E. unfold id_of in E. eapply base64_inj in E; [|apply le_n|now apply utf8_bytes, below_json|now apply utf8_bytes, below_json].
  apply utf8_inj in E; [|now apply below_json|now apply below_json]. apply json_injective in E. congruence.
Qed.

(** *** Configurations *)

Lemma find_config_cons k' v' m k : find_config ((k', v') :: m) k = if str_eqb k' k then Some v' else find_config m k.
Proof. unfold find_config. cbn. now destruct (str_eqb k' k). Qed.
Lemma find_config_insert m k v k' : find_config (config_insert m k v) k' = if str_eqb k k' then Some v else find_config m k'.
Proof.
  induction m as [|[j w] m IH]; cbn [config_insert]; [now rewrite find_config_cons|].
  destruct (str_eqb j k) eqn:J.
  - rewrite !find_config_cons. apply str_eqb_eq in J as ->. now destruct (str_eqb k k').
  - destruct (str_leb k j).
    + now rewrite find_config_cons.
    + rewrite !find_config_cons, IH. destruct (str_eqb j k') eqn:J'; [|reflexivity]. destruct (str_eqb k k') eqn:K; [|reflexivity].
      apply str_eqb_eq in J', K. subst. now rewrite str_eqb_refl in J.
Qed.
Lemma find_row_config props : forall row m k, length props = length row -> ~ In k props -> find_config (row_config m props row) k = find_config m k.
Proof.
  induction props as [|p props IH]; intros [|v row] m k L H; try discriminate; [reflexivity|]. cbn. rewrite IH; [|now injection L|intros I; apply H; now right].
  rewrite find_config_insert. destruct (str_eqb p k) eqn:E; [|reflexivity]. apply str_eqb_eq in E. subst. destruct H. now left.
Qed.
(** What is stored for a row is the row. *)
Lemma row_config_nth props : forall row m, NoDup props -> length props = length row ->
  Forall2 (fun p v => find_config (row_config m props row) p = Some v) props row.
Proof.
  induction props as [|p props IH]; intros [|v row] m N L; try discriminate; [constructor|]. inversion N; subst. cbn. constructor; [|apply IH; auto].
  rewrite find_row_config; [|now injection L|assumption]. now rewrite find_config_insert, str_eqb_refl.
Qed.
Lemma row_config_inj props r s : NoDup props -> length props = length r -> length props = length s ->
  row_config [] props r = row_config [] props s -> r = s.
Proof.
  intros N R S E. pose proof (row_config_nth props r [] N R) as F. pose proof (row_config_nth props s [] N S) as G. rewrite E in F. clear E N R S.
  set (c := row_config [] props s) in *. clearbody c. revert s G. induction F as [|p v ps r Hp F IH]; intros s G; inversion G; subst; [reflexivity|]. f_equal; [congruence|auto].
Qed.
Lemma unicode_insert m k v : unicode (JObj m) -> Forall (fun c => c < 1114112) k -> unicode v -> unicode (JObj (config_insert m k v)).
Proof.
  induction m as [|[j w] m IH]; intros M K V; cbn [config_insert]; [cbn; auto|]. cbn in M. destruct M as (M1 & M2 & M3).
  destruct (str_eqb j k); [cbn; auto|]. destruct (str_leb k j); [cbn; auto 6|]. cbn in *. auto.
Qed.
Lemma unicode_row props : forall row m, unicode (JObj m) -> Forall (Forall (fun c => c < 1114112)) props -> Forall unicode row -> unicode (JObj (row_config m props row)).
Proof.
  induction props as [|p props IH]; intros [|v row] m M P R; cbn [row_config]; try assumption. inversion P; inversion R; subst. apply IH; auto. now apply unicode_insert.
Qed.
(** Different rows have different ids. *)
Theorem row_id_injective props r s :
  NoDup props -> Forall (Forall (fun c => c < 1114112)) props -> length props = length r -> length props = length s -> Forall unicode r -> Forall unicode s ->
  row_id props r = row_id props s -> r = s.
Proof.
  intros N P R S UR US E. apply (row_config_inj props); auto. apply id_of_injective; auto; apply unicode_row; cbn; auto.
Qed.

(** ** The table *)

Lemma unique_values_spec eqv l : forall seen, exists u, unique_values eqv seen l = u /\ part u l /\
  (forall w a, In w seen -> In a u -> eqv w a = false) /\
  (forall x y z a b, u = x ++ a :: y ++ b :: z -> eqv a b = false) /\
  (forall v, In v l -> In v u \/ exists w, In w (seen ++ u) /\ eqv w v = true).
Proof.
  induction l as [|v l IH]; intros seen; cbn.
  - exists []. split; [reflexivity|]. split; [constructor|]. split; [easy|]. split; [|easy]. intros [|? ?] y z a b E; discriminate.
  - destruct (existsb (fun w => eqv w v) seen) eqn:X.
    + destruct (IH seen) as (u & -> & P & A & B & C). exists u. split; [reflexivity|]. split; [now constructor|]. split; [assumption|]. split; [assumption|].
      intros v' [<-|H]; [|auto]. apply existsb_exists in X as (w & W & E). right. exists w. split; [apply in_or_app; now left|assumption].
    + destruct (IH (seen ++ [v])) as (u & -> & P & A & B & C). exists (v :: u). split; [reflexivity|]. split; [now constructor|]. split; [|split].
      * intros w a W [<-|I]; [|apply A; [apply in_or_app; now left|assumption]].
        destruct (eqv w v) eqn:E; [|reflexivity]. assert (existsb (fun w => eqv w v) seen = true) by (apply existsb_exists; eauto). congruence.
      * intros [|x0 x] y z a b E; cbn in E; injection E as <- E.
        -- apply A; [apply in_or_app; right; now left|]. rewrite E. apply in_or_app. right. now left.
        -- eapply B, E.
      * intros v' [<-|H]; [now left; left|]. destruct (C _ H) as [I|(w & I & E)]; [left; now right|]. right. exists w. split; [|assumption].
        rewrite <- app_assoc in I. exact I.
Qed.
Lemma part_incl {A} (u l : list A) : part u l -> incl u l.
Proof. induction 1; intros x I; [destruct I|right; auto|]. destruct I as [<-|I]; [now left|right; auto]. Qed.
Theorem unique_values_exact eqv l : unique eqv l (unique_values eqv [] l) /\ part (unique_values eqv [] l) l.
Proof.
  destruct (unique_values_spec eqv l []) as (u & -> & P & A & B & C). split; [|assumption]. split; [assumption|]. split; [|now apply part_incl]. intros v H. destruct (C v H); auto.
Qed.

(** All rows that have an element of each column, each once, in order. *)
Definition exact (cols table : list (list jv)) : Prop :=
  (forall row, In row table <-> Forall2 (fun v col => In v col) row cols) /\ StronglySorted (row_before cols) table.

Lemma sorted_before l : forall x, StronglySorted (before (x ++ l)) l.
Proof.
  induction l as [|a l IH]; intros x; constructor.
  - specialize (IH (x ++ [a])). rewrite <- app_assoc in IH. exact IH.
  - apply Forall_forall. intros b H. apply in_split in H as (y & z & ->). exists x, y, z. reflexivity.
Qed.
Lemma StronglySorted_app {A} (R : A -> A -> Prop) l : forall m, StronglySorted R l -> StronglySorted R m -> (forall a b, In a l -> In b m -> R a b) -> StronglySorted R (l ++ m).
Proof.
  induction l as [|a l IH]; intros m L M H; cbn; [assumption|]. inversion L; subst. constructor.
  - apply IH; auto. intros. apply H; auto. now right.
  - apply Forall_app. split; [assumption|]. apply Forall_forall. intros b B. apply H; auto. now left.
Qed.
Lemma StronglySorted_map {A B} (f : A -> B) (R : A -> A -> Prop) (S : B -> B -> Prop) l : (forall a b, In a l -> In b l -> R a b -> S (f a) (f b)) -> StronglySorted R l -> StronglySorted S (map f l).
Proof.
  induction l as [|a l IH]; intros H L; cbn; constructor; inversion L; subst.
  - apply IH; auto. intros. apply H; auto; now right.
  - apply Forall_forall. intros y Y. apply in_map_iff in Y as (b & <- & Ib). rewrite Forall_forall in *. apply H; auto; [now left|now right].
Qed.
Lemma row_before_app cols r s vs a b : row_before cols r s -> row_before (cols ++ [vs]) (r ++ [a]) (s ++ [b]).
Proof. induction 1; cbn; [now apply differ_here|now apply same_here]. Qed.
Lemma row_before_last cols : forall r vs a b, length r = length cols -> before vs a b -> row_before (cols ++ [vs]) (r ++ [a]) (r ++ [b]).
Proof. induction cols as [|c cols IH]; intros [|x r] vs a b L H; try discriminate; cbn; [now apply differ_here|apply same_here; auto]. Qed.

Lemma Forall2_len {A B} (R : A -> B -> Prop) l m : Forall2 R l m -> length l = length m.
Proof. induction 1; cbn; congruence. Qed.
Lemma combine_exact cols table vs : cols <> [] -> table <> [] -> exact cols table -> exact (cols ++ [vs]) (combine table vs).
Proof.
  intros NC NT [X Y]. unfold combine. destruct table as [|r0 t0]; [easy|]. set (table := r0 :: t0) in *. split.
  - intros row. rewrite in_flat_map. split.
    + intros (r & R & M). apply in_map_iff in M as (v & <- & V). apply Forall2_app; [now apply X|repeat constructor; assumption].
    + intros F. apply Forall2_app_inv_r in F as (r & w & F & G & ->). inversion G as [|v ? ? ? V W]; subst. inversion W; subst. exists r. split; [now apply X|].
      apply in_map_iff. eauto.
  - assert (L : forall r, In r table -> length r = length cols) by (intros r R; apply X in R; eapply Forall2_len, R).
    clear X NT. clearbody table. induction Y as [|r t Y IH F]; [constructor|]. cbn. apply StronglySorted_app.
    + eapply StronglySorted_map; [|exact (sorted_before vs [])]. cbn. intros a b _ _ H. apply row_before_last; [apply L; now left|assumption].
    + apply IH. intros; apply L; now right.
    + intros a b A B. apply in_map_iff in A as (v & <- & _). apply in_flat_map in B as (s & S & B). apply in_map_iff in B as (w & <- & _).
      apply row_before_app. rewrite Forall_forall in F. auto.
Qed.
Lemma combine_first vs : exact [vs] (combine [] vs).
Proof.
  cbn. split.
  - intros row. rewrite in_map_iff. split; [intros (v & <- & V); repeat constructor; assumption|]. intros F. inversion F as [|v ? r ? V W]; subst. inversion W; subst. eauto.
  - eapply StronglySorted_map; [|exact (sorted_before vs [])]. intros a b _ _ H. now constructor.
Qed.
Lemma combine_some table vs : vs <> [] -> combine table vs <> [].
Proof. destruct table as [|r t], vs as [|v vs]; cbn; try easy. Qed.
Lemma fold_combine_exact more : forall cols table, cols <> [] -> table <> [] -> exact cols table -> Forall (fun c => c <> []) more ->
  exact (cols ++ more) (fold_left combine more table) /\ fold_left combine more table <> [].
Proof.
  induction more as [|vs more IH]; intros cols table NC NT X F; cbn; [now rewrite app_nil_r|]. inversion F; subst.
  replace (cols ++ vs :: more) with ((cols ++ [vs]) ++ more) by (rewrite <- app_assoc; reflexivity). apply IH; auto; [destruct cols; discriminate|now apply combine_some|now apply combine_exact].
Qed.

Section Extract.
  Variables (eqv : jv -> jv -> bool) (mapped : str -> str) (axes : str -> axis).

  (** What is wrong with a key, given the keys before it. *)
  Definition fine (earlier : list str) (k : str) : Prop := mapped k <> [] /\ (In (mapped k) (map mapped earlier) \/ axes k <> NotAnArray).

  Lemma extract_go keys : forall earlier used props table, (forall p, In p used <-> In p (map mapped earlier)) ->
    match extract eqv mapped axes keys used props table with
    | Info props' table' =>
        (forall x k y, keys = x ++ k :: y -> fine (earlier ++ x) k) /\ props' = props ++ map fst (axes_of mapped axes earlier keys) /\
        table' = fold_left combine (map (fun a => unique_values eqv [] (snd a)) (axes_of mapped axes earlier keys)) table
    | NoEntry k => exists x y, keys = x ++ k :: y /\ (forall x' k' y', x = x' ++ k' :: y' -> fine (earlier ++ x') k') /\ mapped k = []
    | MustBeArray k => exists x y, keys = x ++ k :: y /\ (forall x' k' y', x = x' ++ k' :: y' -> fine (earlier ++ x') k') /\
                                   mapped k <> [] /\ ~ In (mapped k) (map mapped (earlier ++ x)) /\ axes k = NotAnArray
    end.
  Proof.
    induction keys as [|k keys IH]; intros earlier used props table U; cbn [extract axes_of].
    - split; [intros [|? ?] ? ? E; discriminate|]. cbn. now rewrite app_nil_r.
    - destruct (mapped k) as [|c0 p0] eqn:M.
      + exists [], keys. split; [reflexivity|]. split; [intros [|? ?] ? ? E; discriminate|assumption].
      + set (p := c0 :: p0) in *. assert (P : p <> []) by discriminate. clearbody p. clear c0 p0.
        assert (ST : forall used' props' table', fine earlier k -> (forall q, In q used' <-> In q (map mapped (earlier ++ [k]))) ->
          forall ax, ax = axes_of mapped axes (earlier ++ [k]) keys ->
          match extract eqv mapped axes keys used' props' table' with
          | Info props'' table'' =>
              (forall x k' y, k :: keys = x ++ k' :: y -> fine (earlier ++ x) k') /\ props'' = props' ++ map fst ax /\
              table'' = fold_left combine (map (fun a => unique_values eqv [] (snd a)) ax) table'
          | NoEntry k0 => exists x y, k :: keys = x ++ k0 :: y /\ (forall x' k' y', x = x' ++ k' :: y' -> fine (earlier ++ x') k') /\ mapped k0 = []
          | MustBeArray k0 => exists x y, k :: keys = x ++ k0 :: y /\ (forall x' k' y', x = x' ++ k' :: y' -> fine (earlier ++ x') k') /\
                                         mapped k0 <> [] /\ ~ In (mapped k0) (map mapped (earlier ++ x)) /\ axes k0 = NotAnArray
          end).
        { intros used' props' table' F U' ax ->. specialize (IH (earlier ++ [k]) used' props' table' U').
          assert (FF : forall z, (forall x' k' y', z = x' ++ k' :: y' -> fine ((earlier ++ [k]) ++ x') k') ->
                       forall x' k' y', k :: z = x' ++ k' :: y' -> fine (earlier ++ x') k').
          { intros z H [|k1 x'] k' y' E; cbn in E; injection E as <- E; [now rewrite app_nil_r|]. specialize (H _ _ _ E). now rewrite <- app_assoc in H. }
          destruct (extract eqv mapped axes keys used' props' table').
          - destruct IH as (x & y & -> & H & Q). exists (k :: x), y. split; [reflexivity|]. split; [now apply FF|assumption].
          - destruct IH as (x & y & -> & H & Q1 & Q2 & Q3). exists (k :: x), y. split; [reflexivity|]. split; [now apply FF|]. split; [assumption|]. split; [|assumption].
            now rewrite <- app_assoc in Q2.
          - destruct IH as (H & -> & ->). split; [now apply FF|auto]. }
        assert (UC : forall q, In q (p :: used) <-> In q (map mapped (earlier ++ [k]))).
        { intros q. rewrite map_app, in_app_iff. cbn. rewrite M, U. tauto. }
        destruct (mem_str p used) eqn:ME.
        * apply mem_str_In in ME. apply U in ME. apply ST; auto.
          -- split; [congruence|left; now rewrite M].
          -- intros q. split; [intros H; apply UC; now right|intros H; apply UC in H as [<-|H]; [now apply U|assumption]].
          -- destruct (in_dec str_dec p (map mapped earlier)) as [|C]; [reflexivity|easy].
        * assert (NI : ~ In (mapped k) (map mapped earlier)).
          { rewrite M, <- U. intros C. apply mem_str_In in C. congruence. }
          destruct (in_dec str_dec p (map mapped earlier)) as [C|_]; [rewrite M in NI; easy|].
          destruct (axes k) as [| |l] eqn:AX.
          -- apply ST; auto. split; [congruence|right; congruence].
          -- exists [], keys. split; [reflexivity|]. split; [intros [|? ?] ? ? E; discriminate|]. rewrite app_nil_r. repeat split; auto. congruence.
          -- destruct l as [|v l].
             ++ apply ST; auto. split; [congruence|right; congruence].
             ++ specialize (ST (p :: used) (props ++ [p]) (combine table (unique_values eqv [] (v :: l))) ltac:(split; [congruence|right; congruence]) UC _ eq_refl).
                destruct (extract eqv mapped axes keys (p :: used) (props ++ [p]) _); auto.
                destruct ST as (A & -> & ->). split; [assumption|]. cbn [map fst snd fold_left]. rewrite <- app_assoc. auto.
  Qed.

  (** The outcome: for keys that are all fine, the properties and the table. *)
  Theorem extract_exact keys props table : extract eqv mapped axes keys [] [] [] = Info props table ->
    let ax := axes_of mapped axes [] keys in
    props = map fst ax /\
    exists cols, Forall2 (fun a c => unique eqv (snd a) c /\ part c (snd a)) ax cols /\
      (ax = [] -> table = []) /\ (ax <> [] -> table <> [] /\ exact cols table).
  Proof.
    intros E ax. pose proof (extract_go keys [] [] [] [] ltac:(easy)) as G. rewrite E in G. destruct G as (_ & -> & ->). split; [reflexivity|]. fold ax.
    exists (map (fun a => unique_values eqv [] (snd a)) ax). split; [|split].
    - clear. induction ax as [|a ax IH]; cbn; constructor; auto. apply unique_values_exact.
    - now intros ->.
    - assert (NE : Forall (fun c : list jv => c <> []) (map (fun a => unique_values eqv [] (snd a)) ax)).
      { assert (H : Forall (fun a => snd a <> []) ax).
        { unfold ax. clear. generalize (@nil str) as earlier. induction keys as [|k keys IH]; intros earlier; cbn; [constructor|].
          destruct (in_dec _ _ _); [auto|]. destruct (axes k) as [| |[|v l]]; auto. constructor; [discriminate|auto]. }
        induction H as [|a ax' H F IH]; cbn; constructor; auto. destruct (snd a) as [|v l]; [easy|]. cbn. discriminate. }
      destruct ax as [|a ax']; [easy|]. intros _. cbn [map fold_left] in *. inversion NE; subst.
      destruct (fold_combine_exact (map (fun a => unique_values eqv [] (snd a)) ax') [unique_values eqv [] (snd a)] (combine [] (unique_values eqv [] (snd a)))) as [X Y];
        auto; [discriminate|now apply combine_some|apply combine_first].
  Qed.
  (** The errors: the first key that is not fine. *)
  Theorem extract_errors keys :
    ((exists props table, extract eqv mapped axes keys [] [] [] = Info props table) <-> (forall x k y, keys = x ++ k :: y -> fine x k)) /\
    (forall k, extract eqv mapped axes keys [] [] [] = NoEntry k <->
       exists x y, keys = x ++ k :: y /\ (forall x' k' y', x = x' ++ k' :: y' -> fine x' k') /\ mapped k = []) /\
    (forall k, extract eqv mapped axes keys [] [] [] = MustBeArray k <->
       exists x y, keys = x ++ k :: y /\ (forall x' k' y', x = x' ++ k' :: y' -> fine x' k') /\ mapped k <> [] /\ ~ In (mapped k) (map mapped x) /\ axes k = NotAnArray).
  Proof.
    pose proof (extract_go keys [] [] [] [] ltac:(easy)) as G.
    assert (NF1 : forall x k, mapped k = [] -> ~ fine x k) by (intros x k H [C _]; easy).
    assert (NF2 : forall x k, ~ In (mapped k) (map mapped x) -> axes k = NotAnArray -> ~ fine x k) by (intros x k H A [_ [C|C]]; easy).
    (* Two first keys that are not fine are the same. *)
    assert (UQ : forall x k y x' k' y', x ++ k :: y = x' ++ k' :: y' -> (forall a b c, x = a ++ b :: c -> fine a b) -> (forall a b c, x' = a ++ b :: c -> fine a b) ->
                 ~ fine x k -> ~ fine x' k' -> x = x' /\ k = k').
    { intros x k y x' k' y' E F F' N N'.
      destruct (Nat.lt_trichotomy (length x) (length x')) as [L|[L|L]].
      - exfalso. apply N. assert (Ex : exists c, x' = x ++ k :: c).
        { clear - E L. revert x' E L. induction x as [|a x IH]; intros [|a' x'] E L; cbn in *; try lia.
          - injection E as -> _. eauto.
          - injection E as -> E. destruct (IH x' E ltac:(lia)) as [c ->]. eauto. }
        destruct Ex as [c Ex]. eapply F', Ex.
      - clear - E L. revert x' E L. induction x as [|a x IH]; intros [|a' x'] E L; cbn in *; try lia.
        + injection E. auto.
        + injection E as -> E. destruct (IH x' E ltac:(lia)) as [-> ->]. auto.
      - exfalso. apply N'. assert (Ex : exists c, x = x' ++ k' :: c).
        { clear - E L. revert x E L. induction x' as [|a' x' IH]; intros [|a x] E L; cbn in *; try lia.
          - injection E as -> _. eauto.
          - injection E as -> E. destruct (IH x E ltac:(lia)) as [c ->]. eauto. }
        destruct Ex as [c Ex]. eapply F, Ex. }
    destruct (extract eqv mapped axes keys [] [] []) as [k0|k0|props table] eqn:EX.
    - destruct G as (x & y & -> & F & M). split; [|split].
      + split; [intros (? & ? & H); discriminate|]. intros H. specialize (H x k0 y eq_refl). now destruct (NF1 x k0 M).
      + intros k. split; [intros H; injection H as <-; eauto|]. intros (x' & y' & E & F' & M'). destruct (UQ _ _ _ _ _ _ E F F') as [_ ->]; auto.
      + intros k. split; [discriminate|]. intros (x' & y' & E & F' & M1 & M2 & M3). destruct (UQ _ _ _ _ _ _ E F F') as [_ ->]; auto. congruence.
    - destruct G as (x & y & -> & F & M1 & M2 & M3). split; [|split].
      + split; [intros (? & ? & H); discriminate|]. intros H. specialize (H x k0 y eq_refl). now destruct (NF2 x k0 M2 M3).
      + intros k. split; [discriminate|]. intros (x' & y' & E & F' & M'). destruct (UQ _ _ _ _ _ _ E F F') as [_ ->]; auto. congruence.
      + intros k. split; [intros H; injection H as <-; exists x, y; auto|]. intros (x' & y' & E & F' & M1' & M2' & M3'). destruct (UQ _ _ _ _ _ _ E F F') as [_ ->]; auto.
    - destruct G as (F & _). split; [|split].
      + split; [auto|eauto].
      + intros k. split; [discriminate|]. intros (x' & y' & E & F' & M'). now destruct (NF1 x' k M' (F _ _ _ E)).
      + intros k. split; [discriminate|]. intros (x' & y' & E & F' & M1' & M2' & M3'). now destruct (NF2 x' k M2' M3' (F _ _ _ E)).
  Qed.

  Lemma axes_of_fst keys : forall earlier, NoDup (map fst (axes_of mapped axes earlier keys)) /\
    (forall p, In p (map fst (axes_of mapped axes earlier keys)) -> ~ In p (map mapped earlier)).
  Proof.
    induction keys as [|k keys IH]; intros earlier; cbn; [split; [constructor|easy]|]. destruct (IH (earlier ++ [k])) as [N D].
    assert (D' : forall p, In p (map fst (axes_of mapped axes (earlier ++ [k]) keys)) -> ~ In p (map mapped earlier) /\ p <> mapped k).
    { intros p H. apply D in H. rewrite map_app, in_app_iff in H. cbn in H. split; [tauto|]. intros ->. tauto. }
    destruct (in_dec _ _ _) as [I|I]; [split; [assumption|intros p H; now apply D']|]. destruct (axes k) as [| |[|v l]]; try (split; [assumption|intros p H; now apply D']).
    cbn. split.
    - constructor; [|assumption]. intros H. apply D' in H as [_ H]. easy.
    - intros p [<-|H]; [assumption|now apply D'].
  Qed.
End Extract.

(** ** Each combination once *)

Definition choice (ax : list (str * list jv)) (row : list jv) : Prop := Forall2 (fun v a => In v (snd a)) row ax.
Definition alike (eqv : jv -> jv -> bool) (r s : list jv) : Prop := Forall2 (fun w v => w = v \/ eqv w v = true) r s.

Lemma before_distinct eqv l u a b : (forall v, eqv v v = true) -> unique eqv l u -> before u a b -> a <> b.
Proof. intros R (D & _) (x & y & z & E) ->. specialize (D _ _ _ _ _ E). now rewrite R in D. Qed.
Lemma row_before_distinct eqv (ax : list (str * list jv)) cols r s : (forall v, eqv v v = true) -> Forall2 (fun a c => unique eqv (snd a) c /\ part c (snd a)) ax cols -> row_before cols r s -> r <> s.
Proof.
  intros R F B. revert ax F. induction B as [col cols a b r s H|col cols a r s B IH]; intros ax F; inversion F as [|? ? ? ? [U _] F']; subst.
  - intros E. injection E as E _. revert E. eapply before_distinct; eauto.
  - intros E. injection E as E. now apply (IH _ F').
Qed.
Lemma sorted_NoDup {A} (R : A -> A -> Prop) l : (forall a b, R a b -> a <> b) -> StronglySorted R l -> NoDup l.
Proof.
  intros H. induction 1 as [|a l S IH F]; constructor; [|assumption]. intros I. rewrite Forall_forall in F. now apply (H _ _ (F _ I)).
Qed.

(** C40.  The rows of the table are choices of one value for each property; each choice of given values is alike one of the rows.  If equality of values is an
    equivalence, it is alike exactly one. *)
Theorem combinations_exact eqv mapped axes keys props table :
  extract eqv mapped axes keys [] [] [] = Info props table ->
  let ax := axes_of mapped axes [] keys in
  ax <> [] -> (forall v, eqv v v = true) ->
  NoDup props /\ props = map fst ax /\ NoDup table /\ (forall row, In row table -> choice ax row) /\
  (forall row, choice ax row -> exists r, In r table /\ alike eqv r row) /\
  ((forall a b, eqv a b = true -> eqv b a = true) -> (forall a b c, eqv a b = true -> eqv b c = true -> eqv a c = true) ->
   forall row r s, In r table -> In s table -> alike eqv r row -> alike eqv s row -> r = s).
Proof.
  intros E ax NE R. destruct (extract_exact _ _ _ _ _ _ E) as (P & cols & F & _ & X). fold ax in P, F, X. destruct (X NE) as [NT [XI XS]]. clear X.
  split; [|split; [|split; [|split; [|split]]]].
  - rewrite P. apply axes_of_fst.
  - exact P.
  - eapply sorted_NoDup; [|exact XS]. intros a b H. eapply row_before_distinct; eauto.
  - intros row I. apply XI in I. unfold choice. clear - I F. revert cols F I. generalize ax as a. clear ax. intros a cols F. revert row. induction F as [|x c a cols [(_ & _ & U) _] F IH]; intros row I; inversion I; subst; constructor; auto.
  - intros row C. assert (Ex : exists r, Forall2 (fun v col => In v col) r cols /\ alike eqv r row).
    { clear - C F. unfold choice in C. revert row C. induction F as [|x c a cols [(_ & U & _) _] F IH]; intros row C; inversion C as [|v ? row' ? V C']; subst.
      - exists []. split; constructor.
      - destruct (IH _ C') as (r & A & B). destruct (U _ V) as [I|(w & I & Q)]; [exists (v :: r)|exists (w :: r)]; split; constructor; auto. }
    destruct Ex as (r & A & B). exists r. split; [now apply XI|assumption].
  - intros SY TR row r s Ir Is Ar As. apply XI in Ir, Is. clear - R SY TR F Ir Is Ar As.
    revert row r s Ir Is Ar As. induction F as [|x c a cols [(U & _) _] F IH]; intros row r s Ir Is Ar As; inversion Ir as [|v ? r' ? V Ir']; inversion Is as [|w ? s' ? W Is']; subst; [reflexivity|].
    inversion Ar as [|? u ? row' Hv Ar']; subst. inversion As as [|? ? ? ? Hw As']; subst. f_equal; [|eapply IH; eauto].
    assert (Q : eqv v w = true /\ eqv w v = true).
    { destruct Hv as [<-|Hv], Hw as [<-|Hw]; eauto. split; eauto 6. }
    destruct Q as [Q1 Q2]. apply in_split in V as (y & z & ->). rewrite in_app_iff in W. cbn in W. destruct W as [W|[W|W]]; [| |].
    + apply in_split in W as (y1 & y2 & ->). specialize (U y1 y2 z w v). rewrite <- app_assoc in U. specialize (U eq_refl). congruence.
    + assumption.
    + apply in_split in W as (z1 & z2 & ->). specialize (U y z1 z2 v w eq_refl). congruence.
Qed.

(** ** Instances *)

Lemma NoDup_map_on {A B} (f : A -> B) l : (forall a b, In a l -> In b l -> f a = f b -> a = b) -> NoDup l -> NoDup (map f l).
Proof.
  induction l as [|a l IH]; intros H N; cbn; [constructor|]. inversion N; subst. constructor.
  - intros I. apply in_map_iff in I as (b & E & I). assert (b = a) by (apply H; auto; [now right|now left]). now subst.
  - apply IH; auto. intros. apply H; auto; now right.
Qed.

Lemma NoDup_snoc {A} (l : list A) a : NoDup l -> ~ In a l -> NoDup (l ++ [a]).
Proof.
  induction 1 as [|b l H N IH]; intros I; cbn; [repeat constructor; easy|]. constructor; [|apply IH; intros C; apply I; now right].
  rewrite in_app_iff. intros [C|[C|[]]]; [easy|]. apply I. now left.
Qed.

(** C40.  Instances: without aggregator one for each row, with the values of the row; an id only if there are several; the aggregator has no id and depends on exactly
    the others; no two have the same id. *)
Theorem instances_exact eqv mapped axes keys aggregate props table :
  extract eqv mapped axes keys [] [] [] = Info props table ->
  let ax := axes_of mapped axes [] keys in
  ax <> [] -> (forall v, eqv v v = true) ->
  Forall (Forall (fun c => c < 1114112)) props -> Forall (fun a => Forall unicode (snd a)) ax ->
  exists rows aggregators, multiplex aggregate props table = rows ++ aggregators /\
    map i_values rows = map (List.combine props) table /\ Forall (fun i => i_depends i = []) rows /\
    NoDup (map i_id (multiplex aggregate props table)) /\
    (length table = 1%nat -> aggregate = false -> map i_id rows = [None]) /\
    ((2 <= length table)%nat \/ aggregate = true -> exists ids, map i_id rows = map Some ids /\ NoDup ids /\ length ids = length table /\
       (aggregate = true -> aggregators = [mkInstance None [] ids])) /\
    (aggregate = false -> aggregators = []).
Proof.
  intros E ax NE R UP UA. destruct (combinations_exact _ _ _ _ _ _ E NE R) as (NP & EP & NT & CH & _ & _). fold ax in EP, CH.
  destruct (extract_exact _ _ _ _ _ _ E) as (_ & cols & _ & _ & X). destruct (X NE) as [TN _]. clear X.
  assert (LEN : forall r, In r table -> length props = length r). { intros r H. apply CH in H. apply Forall2_len in H. rewrite EP, map_length. congruence. }
  assert (UNI : forall r, In r table -> Forall unicode r).
  { intros r H. apply CH in H. clear - H UA. unfold choice in H. induction H as [|v a r ax V H IH]; [constructor|]. inversion UA; subst. constructor; auto. rewrite Forall_forall in *. auto. }
  assert (IDS : NoDup (map (row_id props) table)).
  { apply NoDup_map_on; [|assumption]. intros a b A B. apply row_id_injective; auto. }
  destruct table as [|r0 t]; [easy|]. set (table := r0 :: t) in *.
  exists (map (row_instance ((match t with _ :: _ => true | _ => false end) || aggregate) props) table).
  exists (if aggregate then [mkInstance None [] (map (row_id props) table)] else []).
  assert (EQ : multiplex aggregate props table = map (row_instance ((match t with _ :: _ => true | _ => false end) || aggregate) props) table ++
                 (if aggregate then [mkInstance None [] (map (row_id props) table)] else [])).
  { unfold multiplex. subst table. cbv zeta. destruct t as [|r1 t]; cbn [orb]; [|reflexivity]. now destruct aggregate. }
  split; [exact EQ|]. rewrite EQ. clear EQ. split; [rewrite map_map; reflexivity|]. split; [apply Forall_forall; intros i I; apply in_map_iff in I as (r & <- & _); reflexivity|].
  assert (MANY : (2 <= length table)%nat \/ aggregate = true -> (match t with _ :: _ => true | _ => false end) || aggregate = true).
  { intros [H| ->]; [|apply orb_true_r]. subst table. cbn in H. destruct t; [cbn in H; lia|reflexivity]. }
  split; [|split; [|split]].
  - destruct (match t with _ :: _ => true | _ => false end || aggregate) eqn:M.
    + rewrite map_app, map_map. cbn [row_instance i_id].
      assert (NS : NoDup (map (fun r => Some (row_id props r)) table)).
      { rewrite <- (map_map (row_id props) Some). apply FinFun.Injective_map_NoDup; [intros a b H; congruence|assumption]. }
      destruct aggregate; cbn [map i_id]; [|now rewrite app_nil_r]. apply NoDup_snoc; [assumption|]. rewrite in_map_iff. intros (? & ? & _). discriminate.
    + apply orb_false_elim in M as [M ->]. destruct t; [|discriminate]. cbn. repeat constructor. easy.
  - intros L ->. subst table. destruct t; [|discriminate]. reflexivity.
  - intros H. rewrite (MANY H). exists (map (row_id props) table). split; [rewrite !map_map; reflexivity|]. split; [assumption|]. split; [apply map_length|]. now intros ->.
  - now intros ->.
Qed.
(** Without axes and without aggregator there is the one product. *)
Theorem instances_none props : multiplex false props [] = [mkInstance None [] []].
Proof. reflexivity. Qed.
(** Asking for an aggregator of a product with nothing to multiplex by makes two products that only differ by their dependencies -- there are none. *)
Theorem aggregate_without_axes_refuted : ~ (forall props table, NoDup (map i_id (multiplex true props table))).
Proof. intros H. specialize (H [] []). inversion H as [|? ? N _]; subst. apply N. now left. Qed.

(** ** C55: Dependencies *)

(** Two configurations have no property with different values. *)
Definition compatible (eqv : jv -> jv -> bool) (c d : config) : Prop := forall k v w, find_config c k = Some v -> find_config d k = Some w -> eqv v w = true.
Definition plain (p : product) : Prop := p_id p = [].

Lemma find_config_In m k v : NoDup (map fst m) -> (find_config m k = Some v <-> In (k, v) m).
Proof.
  induction m as [|[j w] m IH]; intros N; [cbn; split; [discriminate|easy]|]. inversion N as [|? ? NI N']; subst. rewrite find_config_cons. destruct (str_eqb j k) eqn:J.
  - apply str_eqb_eq in J as ->. split; [intros H; injection H as ->; now left|]. intros [H|H]; [congruence|]. destruct NI. cbn. apply in_map_iff. now exists (k, v).
  - rewrite IH by assumption. split; [now right|]. intros [H|H]; [|assumption]. injection H as -> _. now rewrite str_eqb_refl in J.
Qed.
Lemma intersects_iff eqv c d : NoDup (map fst c) -> (intersects eqv c d = true <-> compatible eqv c d).
Proof.
  intros N. unfold intersects, compatible. rewrite forallb_forall. split.
  - intros H k v w V W. apply find_config_In in V; [|assumption]. specialize (H _ V). cbn in H. now rewrite W in H.
  - intros H [k v] I. cbn. destruct (find_config d k) eqn:W; [|reflexivity]. apply (H k); [|assumption]. now apply find_config_In.
Qed.

Lemma is_plain d : str_eqb (p_id d) [] = true <-> plain d.
Proof. unfold plain. now rewrite str_eqb_eq. Qed.
Lemma not_plain d : negb (str_eqb (p_id d) []) = true <-> ~ plain d.
Proof. rewrite negb_true_iff, <- is_plain. destruct (str_eqb (p_id d) []); split; congruence. Qed.

Lemma candidates_best eqv p profiles deps : forall ids,
  candidates eqv true p profiles deps ids =
  if existsb (fun d => str_eqb (p_id d) (p_id p)) deps then inl (Ids [p_id p]) else inr (ids ++ map p_id (filter (fun d => intersects eqv (p_config d) (p_config p)) deps)).
Proof.
  induction deps as [|d deps IH]; intros ids; cbn; [now rewrite app_nil_r|]. destruct (str_eqb (p_id d) (p_id p)); [reflexivity|]. cbn. rewrite IH.
  destruct (existsb _ deps); [reflexivity|]. destruct (intersects eqv (p_config d) (p_config p)); cbn; [now rewrite <- app_assoc|reflexivity].
Qed.
Definition profile_ok (profiles : option (list str)) (d : product) : bool := match profiles with None | Some [] => true | Some l => mem_str (p_profile d) l end.
Lemma candidates_all eqv p profiles deps : forall ids,
  candidates eqv false p profiles deps ids = inr (ids ++ map p_id (filter (profile_ok profiles) deps)).
Proof.
  induction deps as [|d deps IH]; intros ids; cbn; [now rewrite app_nil_r|]. rewrite IH. fold (profile_ok profiles d). destruct (profile_ok profiles d); cbn; [now rewrite <- app_assoc|reflexivity].
Qed.

Section Dependency.
  Variables (eqv : jv -> jv -> bool) (p : product) (named : list product).
  Hypothesis keys : forall d, In d named -> NoDup (map fst (p_config d)).

  (** Nothing of that name is multiplexed: the item stays as it is. *)
  Theorem depends_plain profiles : (forall d, In d named -> plain d) -> adjust eqv p named profiles = Unchanged.
  Proof.
    intros H. unfold adjust. destruct (filter _ named) as [|d l] eqn:F; [reflexivity|]. assert (I : In d (filter (fun d => negb (str_eqb (p_id d) [])) named)) by (rewrite F; now left).
    apply filter_In in I as [I N]. apply not_plain in N. now destruct N; apply H.
  Qed.
  (** A multiplexed product, no profiles given: the instance with the same id. *)
  Theorem depends_same_id : ~ plain p -> (exists d, In d named /\ p_id d = p_id p) -> adjust eqv p named None = Ids [p_id p].
  Proof.
    intros P (d & I & E). unfold adjust. assert (ND : ~ plain d) by (unfold plain in *; congruence).
    assert (I' : In d (filter (fun d => negb (str_eqb (p_id d) [])) named)) by (apply filter_In; split; [assumption|now apply not_plain]).
    destruct (filter _ named) as [|d0 l]; [easy|]. apply not_plain in P. rewrite P. cbn [negb andb]. rewrite candidates_best.
    assert (X : existsb (fun d => str_eqb (p_id d) (p_id p)) (d0 :: l) = true) by (apply existsb_exists; exists d; split; [assumption|now apply str_eqb_eq]).
    now rewrite X.
  Qed.
  (** Otherwise: the only compatible one, or an error. *)
  Theorem depends_best : ~ plain p -> (exists d, In d named /\ ~ plain d) -> (forall d, In d named -> p_id d <> p_id p) ->
    exists found, part found named /\ (forall d, In d found <-> In d named /\ ~ plain d /\ compatible eqv (p_config d) (p_config p)) /\
      adjust eqv p named None = match found with [] => NoCandidate | [d] => Ids [p_id d] | _ => Ambiguous (map p_id found) end.
  Proof.
    intros P (d & I & ND) NE. set (mux := filter (fun d => negb (str_eqb (p_id d) [])) named).
    exists (filter (fun d => intersects eqv (p_config d) (p_config p)) mux). split; [|split].
    - unfold mux. clear. induction named as [|d l IH]; cbn; [constructor|]. destruct (negb _); cbn; [|now constructor]. destruct (intersects _ _ _); now constructor.
    - intros d'. unfold mux. rewrite !filter_In, not_plain. split.
      + intros [[J N] Q]. split; [assumption|]. split; [assumption|]. now apply intersects_iff; auto.
      + intros (J & N & Q). split; [auto|]. apply intersects_iff; auto.
    - unfold adjust. fold mux. assert (I' : In d mux) by (apply filter_In; split; [assumption|now apply not_plain]).
      destruct mux as [|d0 l] eqn:M; [easy|]. rewrite <- M in *. apply not_plain in P. rewrite P. cbn [negb andb]. rewrite candidates_best.
      destruct (existsb (fun d => str_eqb (p_id d) (p_id p)) mux) eqn:X.
      { apply existsb_exists in X as (e & Ie & Q). apply str_eqb_eq in Q. unfold mux in Ie. apply filter_In in Ie as [Ie _]. now destruct (NE e). }
      cbn [app]. destruct (filter _ mux) as [|a [|b t]]; reflexivity.
  Qed.
  (** A product that is not multiplexed, no profiles given: the instance that is not multiplexed, or else all of them. *)
  Theorem depends_unmultiplexed : plain p -> (exists d, In d named /\ ~ plain d) ->
    ((exists d, In d named /\ plain d) -> adjust eqv p named None = Unchanged) /\
    ((forall d, In d named -> ~ plain d) -> adjust eqv p named None = Ids (map p_id named)).
  Proof.
    intros P (d & I & ND). unfold adjust.
    assert (I' : In d (filter (fun d => negb (str_eqb (p_id d) [])) named)) by (apply filter_In; split; [assumption|now apply not_plain]).
    apply is_plain in P. rewrite P. cbn [negb andb]. split.
    - intros (e & Ie & Pe). assert (X : existsb (fun d => str_eqb (p_id d) []) named = true) by (apply existsb_exists; exists e; split; [assumption|now apply is_plain]). rewrite X.
      destruct (filter _ named); reflexivity.
    - intros H. assert (X : existsb (fun d => str_eqb (p_id d) []) named = false).
      { destruct (existsb _ named) eqn:X; [|reflexivity]. apply existsb_exists in X as (e & Ie & Q). apply is_plain in Q. now destruct (H e). }
      rewrite X. assert (F : filter (fun d => negb (str_eqb (p_id d) [])) named = named).
      { clear - H. induction named as [|e l IH]; [reflexivity|]. cbn. assert (N : negb (str_eqb (p_id e) []) = true) by (apply not_plain, H; now left). rewrite N, IH; auto. intros; apply H; now right. }
      rewrite F. rewrite F in I'. destruct named as [|e l] eqn:EN; [easy|]. rewrite <- EN. rewrite candidates_all. cbn [app].
      assert (F' : filter (profile_ok None) named = named) by (clear; induction named as [|? ? IH]; [reflexivity|cbn; now rewrite IH]). rewrite F'. rewrite EN. reflexivity.
  Qed.
  (** Profiles given: all multiplexed instances with one of them, whatever the product is. *)
  Theorem depends_profiles profiles : profiles <> [] -> (exists d, In d named /\ ~ plain d) ->
    exists found, part found named /\ (forall d, In d found <-> In d named /\ ~ plain d /\ In (p_profile d) profiles) /\
      adjust eqv p named (Some profiles) = match found with [] => NoCandidate | _ => Ids (map p_id found) end.
  Proof.
    intros NP (d & I & ND). set (mux := filter (fun d => negb (str_eqb (p_id d) [])) named).
    exists (filter (profile_ok (Some profiles)) mux). split; [|split].
    - unfold mux. clear. induction named as [|d l IH]; cbn [filter]; [constructor|]. destruct (negb _); cbn [filter]; [|now constructor]. destruct (profile_ok _ _); now constructor.
    - intros d'. unfold mux. rewrite !filter_In, not_plain. cbn. destruct profiles as [|q qs]; [easy|]. rewrite mem_str_In. tauto.
    - unfold adjust. fold mux. assert (I' : In d mux) by (apply filter_In; split; [assumption|now apply not_plain]).
      destruct mux as [|d0 l] eqn:M; [easy|]. rewrite <- M in *. cbn [negb andb]. rewrite andb_false_r, andb_false_r, candidates_all. cbn [app andb].
      destruct (filter _ mux) as [|a t]; reflexivity.
  Qed.
End Dependency.

(** *** Instances of a multiplexed dependency *)

Definition before_key (a b : str) : Prop := str_leb a b = true /\ a <> b.
Definition ordered (m : config) : Prop := StronglySorted before_key (map fst m).
Lemma ordered_insert m k v : ordered m -> ordered (config_insert m k v) /\ (forall j, In j (map fst (config_insert m k v)) <-> j = k \/ In j (map fst m)).
Proof.
  unfold ordered. induction m as [|[j w] m IH]; intros S; cbn [config_insert].
  - cbn. split; [repeat constructor|]. intros i. split; intros [H|H]; auto.
  - cbn in S. inversion S as [|? ? S' F]; subst. destruct (str_eqb j k) eqn:J.
    + apply str_eqb_eq in J as ->. cbn. split; [assumption|]. intros i. split; intros [H|H]; subst; auto.
    + assert (JK : j <> k) by (intros ->; now rewrite str_eqb_refl in J). destruct (str_leb k j) eqn:L.
      * cbn. split.
        -- constructor; [assumption|]. constructor; [split; congruence|]. rewrite Forall_forall in *. intros i I. destruct (F i I) as [A B]. split; [eapply str_leb_trans; eauto|].
           intros ->. apply B. now apply str_leb_antisym.
        -- intros i. split; [intros [H|H]; subst; auto|intros [->|H]; auto].
      * destruct (IH S') as [A B]. cbn. split.
        -- constructor; [assumption|]. rewrite Forall_forall in *. intros i I. apply B in I as [->|I]; [|auto]. split; [|assumption]. destruct (str_leb_total j k); congruence.
        -- intros i. rewrite B. split; [intros [H|[H|H]]; auto|intros [H|[H|H]]; auto].
Qed.
Lemma ordered_row props : forall row m, ordered m -> ordered (row_config m props row).
Proof. induction props as [|p props IH]; intros [|v row] m S; cbn; auto. apply IH. now apply ordered_insert. Qed.
Lemma ordered_nodup m : ordered m -> NoDup (map fst m).
Proof. intros H. eapply sorted_NoDup; [|exact H]. now intros a b [_ ?]. Qed.
Lemma ordered_ext m : forall n, ordered m -> ordered n -> (forall k, find_config m k = find_config n k) -> m = n.
Proof.
  assert (NF : forall m k, Forall (before_key k) (map fst m) -> find_config m k = None).
  { intros m' k F. destruct (find_config m' k) eqn:E; [|reflexivity]. unfold find_config in E. destruct (find _ m') as [e|] eqn:Q; [|discriminate].
    apply find_some in Q as [I Q]. apply str_eqb_eq in Q. rewrite Forall_forall in F. destruct (F (fst e)) as [_ C]; [now apply in_map|congruence]. }
  induction m as [|[j w] m IH]; intros [|[i u] n] M N' E.
  - reflexivity.
  - specialize (E i). rewrite find_config_cons, str_eqb_refl in E. discriminate.
  - specialize (E j). rewrite find_config_cons, str_eqb_refl in E. discriminate.
  - inversion M as [|? ? M1 M2]; inversion N' as [|? ? N1 N2]; subst.
    assert (JI : j = i).
    { destruct (str_dec j i) as [|D]; [assumption|exfalso]. destruct (str_leb_total j i) as [L|L].
      - specialize (E j). rewrite !find_config_cons, str_eqb_refl in E. destruct (str_eqb i j) eqn:Q; [apply str_eqb_eq in Q; congruence|].
        rewrite NF in E; [discriminate|]. eapply Forall_impl; [|exact N2]. cbn. intros a [A B]. split; [eapply str_leb_trans; eauto|]. intros ->. apply D. now apply str_leb_antisym.
      - specialize (E i). rewrite !find_config_cons, str_eqb_refl in E. destruct (str_eqb j i) eqn:Q; [apply str_eqb_eq in Q; congruence|].
        rewrite NF in E; [discriminate|]. eapply Forall_impl; [|exact M2]. cbn. intros a [A B]. split; [eapply str_leb_trans; eauto|]. intros ->. apply D. now apply str_leb_antisym. }
    subst i. assert (w = u). { specialize (E j). rewrite !find_config_cons, str_eqb_refl in E. congruence. } subst u. f_equal. apply IH; auto.
    intros k. destruct (str_eqb j k) eqn:Q.
    + apply str_eqb_eq in Q as <-. now rewrite !NF.
    + specialize (E k). now rewrite !find_config_cons, Q in E.
Qed.
(** The id does not depend on the order of the properties. *)
Theorem row_id_any_order props row props' row' :
  (forall k, find_config (row_config [] props row) k = find_config (row_config [] props' row') k) -> row_id props row = row_id props' row'.
Proof. intros E. unfold row_id. f_equal. apply ordered_ext; auto; apply ordered_row; constructor. Qed.

Lemma row_config_lookup props row k v : NoDup props -> length props = length row -> find_config (row_config [] props row) k = Some v -> In k props.
Proof.
  intros N L E. destruct (in_dec str_dec k props) as [|D]; [assumption|]. now rewrite find_row_config in E by assumption.
Qed.
Lemma Forall2_fun {A B} (f : A -> option B) l r s : Forall2 (fun a b => f a = Some b) l r -> Forall2 (fun a b => f a = Some b) l s -> r = s.
Proof. intros H. revert s. induction H; intros s G; inversion G; subst; [reflexivity|]. f_equal; [congruence|auto]. Qed.
Lemma id_some c : id_of c <> [].
Proof.
  unfold id_of. rewrite json_obj. set (t := _ ++ [125]). cbn [utf8 flat_map]. change (utf8_char 123) with [123]. cbn [app]. fold (utf8 t).
  destruct (utf8 t) as [|b [|d u]]; cbn [base64]; discriminate.
Qed.

Lemma same_values (f g : str -> option jv) props r u :
  Forall2 (fun k v => f k = Some v) props r -> Forall2 (fun k v => g k = Some v) props u ->
  (forall k v w, In k props -> f k = Some v -> g k = Some w -> In v r -> In w u -> v = w) -> r = u.
Proof.
  intros F. revert u. induction F as [|k v ks r Hk F IH]; intros u G E; inversion G as [|? w ? u' Hw G']; subst; [reflexivity|]. f_equal.
  - apply (E k); auto; now left.
  - apply IH; auto. intros k' v' w' K A B V W. apply (E k'); auto; now right.
Qed.
(** C55.  A product that has a value for each of the properties that another one is multiplexed by gets the instance for those values, whatever else it is multiplexed by itself. *)
Theorem depends_on_instance eqv p props cols table named profile vs :
  NoDup props -> Forall (Forall (fun c => c < 1114112)) props -> length props = length cols -> exact cols table -> Forall (Forall unicode) table ->
  (forall r s v w, In r table -> In s table -> In v r -> In w s -> eqv v w = true <-> v = w) ->
  p_id p = id_of (p_config p) -> unicode (JObj (p_config p)) ->
  Forall2 (fun k v => find_config (p_config p) k = Some v) props vs -> In vs table ->
  (forall d, In d named -> plain d \/ exists row, In row table /\ d = mkProduct (row_id props row) (row_config [] props row) (profile row)) ->
  (forall row, In row table -> In (mkProduct (row_id props row) (row_config [] props row) (profile row)) named) -> NoDup named ->
  adjust eqv p named None = Ids [row_id props vs].
Proof.
  intros N UP LC [XI _] UT EQ PID UPC VS IV NAMED ALL ND.
  assert (LEN : forall r, In r table -> length props = length r) by (intros r R; apply XI in R; apply Forall2_len in R; congruence).
  assert (NP : ~ plain p) by (unfold plain; rewrite PID; apply id_some).
  assert (KEYS : forall d, In d named -> ~ plain d -> NoDup (map fst (p_config d))).
  { intros d I D. apply NAMED in I as [I|(row & R & ->)]; [easy|]. cbn. apply ordered_nodup, ordered_row. constructor. }
  destruct (in_dec str_dec (p_id p) (map p_id named)) as [S|S].
  - apply in_map_iff in S as (d & E & I). rewrite depends_same_id by eauto. do 2 f_equal.
    apply NAMED in I as [I|(row & R & ->)]; [unfold plain in *; congruence|]. cbn [p_id] in E. enough (row = vs) by congruence.
    rewrite PID in E. unfold row_id in E. apply id_of_injective in E; [|apply unicode_row; cbn; auto; rewrite Forall_forall in UT; auto|assumption].
    rewrite <- E in VS. eapply (Forall2_fun (find_config (row_config [] props row))); [|exact VS]. apply row_config_nth; auto.
  - set (mux := filter (fun d => negb (str_eqb (p_id d) [])) named).
    assert (FOUND : filter (fun d => intersects eqv (p_config d) (p_config p)) mux = [mkProduct (row_id props vs) (row_config [] props vs) (profile vs)]).
    { assert (IN : forall d, In d (filter (fun d => intersects eqv (p_config d) (p_config p)) mux) <-> d = mkProduct (row_id props vs) (row_config [] props vs) (profile vs)).
      { intros d. unfold mux. rewrite !filter_In, not_plain. split.
        - intros [[I D] C]. apply intersects_iff in C; [|now apply KEYS]. apply NAMED in I as [I|(row & R & ->)]; [easy|]. cbn in C.
          assert (row = vs); [|now subst]. pose proof (row_config_nth props row [] N (LEN _ R)) as F.
          assert (G : forall k v w, In k props -> find_config (row_config [] props row) k = Some v -> find_config (p_config p) k = Some w -> In v row -> In w vs -> v = w).
          { intros k v w K A B V W. apply (EQ row vs); auto. exact (C k v w A B). }
          exact (same_values _ _ _ _ _ F VS G).
        - intros ->. split; [split|].
          + now apply ALL.
          + unfold plain. cbn. apply id_some.
          + cbn. apply intersects_iff; [apply ordered_nodup, ordered_row; constructor|]. intros k v w A B.
            assert (K := row_config_lookup _ _ _ _ N (LEN _ IV) A). pose proof (row_config_nth props vs [] N (LEN _ IV)) as F.
            assert (v = w /\ In v vs) as [-> V].
            { clear - K A B F VS. revert VS K. induction F as [|k' v' ks vs' Hk F IH]; intros VS K; [easy|]. inversion VS; subst. destruct K as [->|K].
              - split; [congruence|left; congruence].
              - destruct IH; auto. split; [assumption|now right]. }
            apply (EQ vs vs); auto. }
      assert (ND' : NoDup (filter (fun d => intersects eqv (p_config d) (p_config p)) mux)) by (unfold mux; apply NoDup_filter, NoDup_filter; assumption).
      destruct (filter _ mux) as [|a [|b t]].
      - specialize (proj2 (IN _) eq_refl). easy.
      - f_equal. apply IN. now left.
      - assert (a = b) by (rewrite (proj1 (IN a)), (proj1 (IN b)); auto; [right; now left|now left]). subst. inversion ND' as [|? ? C _]; subst. destruct C. now left. }
    unfold adjust. fold mux. destruct mux as [|d0 l] eqn:M; [discriminate|]. rewrite <- M in *. apply not_plain in NP. rewrite NP. cbn [negb andb]. rewrite candidates_best, FOUND.
    destruct (existsb (fun d => str_eqb (p_id d) (p_id p)) mux) eqn:X; [|reflexivity].
    apply existsb_exists in X as (e & Ie & Q). apply str_eqb_eq in Q. destruct S. rewrite <- Q. apply in_map. unfold mux in Ie. now apply filter_In in Ie as [Ie _].
Qed.

(** ** A case: profiles and architectures, the dependency being multiplexed by the architectures only *)
Module Demo.
  Definition eqv' (a b : jv) : bool := str_eqb (json a) (json b).
  Definition profiles := [112; 115]. Definition architectures := [97; 115]. Definition profile := [112]. Definition architecture := [97].
  Definition x86 := JStr [120]. Definition arm := JStr [8364]. Definition gcc := JStr [103]. Definition clang := JStr [99; 34].
  Definition mapped (k : str) : str := if str_eqb k profiles then profile else if str_eqb k architectures then architecture else [].
  Definition axes (k : str) : axis := if str_eqb k profiles then Values [gcc; clang] else if str_eqb k architectures then Values [x86; arm; x86] else Undefined.
  Definition table := [[gcc; x86]; [gcc; arm]; [clang; x86]; [clang; arm]].
  Example no_entry : extract eqv' mapped axes [profiles; [113]; architectures] [] [] [] = NoEntry [113].
  Proof. vm_compute. reflexivity. Qed.
  Example ax : axes_of mapped axes [] [profiles; architectures; profiles] = [(profile, [gcc; clang]); (architecture, [x86; arm; x86])].
  Proof. vm_compute. reflexivity. Qed.
  Example arm_gcc_id : utf8 (json (JObj (row_config [] [profile; architecture] [gcc; arm]))) =
    [123; 34; 97; 34; 58; 34; 226; 130; 172; 34; 44; 34; 112; 34; 58; 34; 103; 34; 125].
  Proof. vm_compute. reflexivity. Qed.
  Example instances : map i_id (multiplex true [profile; architecture] table) = map Some (map (row_id [profile; architecture]) table) ++ [None].
  Proof. vm_compute. reflexivity. Qed.
  Example extracted_here' : extract eqv' mapped axes [profiles; architectures; profiles] [] [] [] = Info [profile; architecture] table.
  Proof. vm_compute. reflexivity. Qed.
  Example once : NoDup table /\ forall row r s, In r table -> In s table -> alike eqv' r row -> alike eqv' s row -> r = s.
  Proof.
    destruct (combinations_exact _ _ _ _ _ _ extracted_here') as (_ & _ & T & _ & _ & U); [discriminate|intros; apply str_eqb_refl|]. split; [assumption|]. apply U.
    - intros a b. unfold eqv'. rewrite !str_eqb_eq. congruence.
    - intros a b c. unfold eqv'. rewrite !str_eqb_eq. congruence.
  Qed.
  Example distinct : NoDup (map i_id (multiplex true [profile; architecture] table)).
  Proof.
    destruct (instances_exact _ _ _ _ true _ _ extracted_here') as (rows & ag & _ & _ & _ & H & _); [discriminate|intros; apply str_eqb_refl| | |exact H]; repeat constructor.
  Qed.
  (** Dependencies. *)
  Definition dep row := mkProduct (row_id [architecture] row) (row_config [] [architecture] row) profile.
  Definition named := [dep [x86]; dep [arm]].
  Definition user row := mkProduct (row_id [profile; architecture] row) (row_config [] [profile; architecture] row) (match row with JStr s :: _ => s | _ => [] end).
  Example depends : adjust eqv' (user [clang; arm]) named None = Ids [row_id [architecture] [arm]].
  Proof.
    apply (depends_on_instance eqv' (user [clang; arm]) [architecture] [[x86; arm]] [[x86]; [arm]] named (fun _ => profile) [arm]).
    - repeat constructor. easy.
    - repeat constructor.
    - reflexivity.
    - apply (combine_first [x86; arm]).
    - repeat constructor.
    - intros r s v w _ _ _ _. unfold eqv'. rewrite str_eqb_eq. split; [apply json_injective|now intros ->].
    - reflexivity.
    - apply unicode_row; repeat constructor.
    - repeat constructor.
    - right. now left.
    - intros d [<-|[<-|[]]]; right; [exists [x86]|exists [arm]]; cbn; auto.
    - intros row [<-|[<-|[]]]; cbn; auto.
    - constructor; [|repeat constructor; easy]. intros [H|[]]. apply (f_equal p_id) in H. vm_compute in H. discriminate.
  Qed.
  Example only_compatible : adjust eqv' (user [gcc; arm]) [user [gcc; x86]; dep [arm]; user [clang; JNull]] None = Ids [p_id (dep [arm])].
  Proof. vm_compute. reflexivity. Qed.
  Example by_profile : adjust eqv' (user [gcc; arm]) (map user table) (Some [[103]]) = Ids [p_id (user [gcc; x86]); p_id (user [gcc; arm])].
  Proof. vm_compute. reflexivity. Qed.
  Example two_compatible : adjust eqv' (dep [arm]) (map user table) None = Ambiguous [p_id (user [gcc; arm]); p_id (user [clang; arm])].
  Proof. vm_compute. reflexivity. Qed.
End Demo.

Print Assumptions extract_exact.
Print Assumptions extract_errors.
Print Assumptions combinations_exact.
Print Assumptions instances_exact.
Print Assumptions aggregate_without_axes_refuted.
Print Assumptions row_id_injective.
Print Assumptions row_id_any_order.
Print Assumptions depends_plain.
Print Assumptions depends_same_id.
Print Assumptions depends_best.
Print Assumptions depends_unmultiplexed.
Print Assumptions depends_profiles.
Print Assumptions depends_on_instance.
