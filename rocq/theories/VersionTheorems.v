(** Versions and version ranges: specification, proofs and theorems (C26, C27). *)
From Coq Require Import List Bool NArith ZArith Lia.
From Verif Require Import Str VersionModel.
Import ListNotations.
Local Open Scope Z_scope.

(** *** Specification *)

(** Lexicographic order of the components. *)
Definition lex_lt (a b : version) : Prop :=
  v_major a < v_major b
  \/ v_major a = v_major b /\ (v_minor a < v_minor b
  \/ v_minor a = v_minor b /\ (v_patch a < v_patch b
  \/ v_patch a = v_patch b /\ v_build a < v_build b)).

(** A non-empty string of digits, and its value as an int (0 on overflow). *)
Definition digits (d : str) : Prop := d <> [] /\ Forall (fun c => (48 <= c <= 57)%N) d.
Definition int_value (d : str) : Z :=
  if Z.of_N (undec d) <=? 2147483647 then Z.of_N (undec d) else 0.

(** The accepted texts: one to three numbers separated by dots; if a build number is allowed, it
    follows after a dash, or, after three numbers, after a dash or a dot. *)
Inductive version_text : bool -> str -> version -> Prop :=
| vt1 b d1 : digits d1 -> version_text b d1 (Build_version (int_value d1) 0 0 0)
| vt2 b d1 d2 : digits d1 -> digits d2 ->
    version_text b (d1 ++ [46%N] ++ d2) (Build_version (int_value d1) (int_value d2) 0 0)
| vt3 b d1 d2 d3 : digits d1 -> digits d2 -> digits d3 ->
    version_text b (d1 ++ [46%N] ++ d2 ++ [46%N] ++ d3)
      (Build_version (int_value d1) (int_value d2) (int_value d3) 0)
| vtb1 d1 d4 : digits d1 -> digits d4 ->
    version_text true (d1 ++ [45%N] ++ d4) (Build_version (int_value d1) 0 0 (int_value d4))
| vtb2 d1 d2 d4 : digits d1 -> digits d2 -> digits d4 ->
    version_text true (d1 ++ [46%N] ++ d2 ++ [45%N] ++ d4)
      (Build_version (int_value d1) (int_value d2) 0 (int_value d4))
| vtb3 d1 d2 d3 c d4 : digits d1 -> digits d2 -> digits d3 -> c = 45%N \/ c = 46%N -> digits d4 ->
    version_text true (d1 ++ [46%N] ++ d2 ++ [46%N] ++ d3 ++ [c] ++ d4)
      (Build_version (int_value d1) (int_value d2) (int_value d3) (int_value d4)).

(** All components non-negative, as in every version that was parsed from a string. *)
Definition natural (v : version) : Prop :=
  0 <= v_major v <= 2147483647 /\ 0 <= v_minor v <= 2147483647
  /\ 0 <= v_patch v <= 2147483647 /\ 0 <= v_build v <= 2147483647.

(** The versions a range stands for; the maximum is exclusive and 0.0.0 stands for "no maximum". *)
Definition unbounded (v : version) : Prop := v = Build_version 0 0 0 0.
Definition in_range (r : range) (v : version) : Prop :=
  ~ lex_lt v (r_min r) /\ (unbounded (r_max r) \/ lex_lt v (r_max r)).

(** *** Order *)
Lemma compare_cases a b :
  (compare a b = -1 /\ lex_lt a b) \/ (compare a b = 0 /\ a = b) \/ (compare a b = 1 /\ lex_lt b a).
Proof.
  destruct a as [a1 a2 a3 a4], b as [b1 b2 b3 b4]. unfold compare, lex_lt; simpl.
  repeat match goal with |- context [?x <? ?y] => destruct (Z.ltb_spec x y) end;
  first [left; split; [reflexivity|lia]|right; right; split; [reflexivity|lia]
        |right; left; split; [reflexivity|]; f_equal; lia].
Qed.
Lemma lex_irrefl a : ~ lex_lt a a.
Proof. unfold lex_lt. lia. Qed.
Lemma lex_trans a b c : lex_lt a b -> lex_lt b c -> lex_lt a c.
Proof. unfold lex_lt. lia. Qed.
Lemma lex_total a b : lex_lt a b \/ a = b \/ lex_lt b a.
Proof. destruct (compare_cases a b) as [[_ H]|[[_ H]|[_ H]]]; auto. Qed.
Lemma ltv_spec a b : ltv a b = true <-> lex_lt a b.
Proof.
  unfold ltv. rewrite Z.ltb_lt. destruct (compare_cases a b) as [[E H]|[[E H]|[E H]]]; rewrite E; split; intros X; try lia; auto.
  - subst. now apply lex_irrefl in X.
  - exfalso. apply (lex_irrefl a). eapply lex_trans; eauto.
Qed.
Lemma gtv_spec a b : gtv a b = true <-> lex_lt b a.
Proof.
  unfold gtv. rewrite Z.ltb_lt. destruct (compare_cases a b) as [[E H]|[[E H]|[E H]]]; rewrite E; split; intros X; try lia; auto.
  - exfalso. apply (lex_irrefl a). eapply lex_trans; eauto.
  - subst. now apply lex_irrefl in X.
Qed.
Lemma eqv_spec a b : eqv a b = true <-> a = b.
Proof.
  unfold eqv. rewrite Z.eqb_eq. destruct (compare_cases a b) as [[E H]|[[E H]|[E H]]]; rewrite E; split; intros X; try lia; auto.
  - subst. now apply lex_irrefl in H.
  - subst. now apply lex_irrefl in H.
Qed.
Lemma gev_spec a b : gev a b = true <-> ~ lex_lt a b.
Proof. unfold gev. rewrite negb_true_iff, <- not_true_iff_false, ltv_spec. reflexivity. Qed.
Lemma lev_spec a b : lev a b = true <-> ~ lex_lt b a.
Proof. unfold lev. rewrite negb_true_iff, <- not_true_iff_false, gtv_spec. reflexivity. Qed.

(** C26: the comparison operators implement one total order, lexicographic in the components. *)
Theorem version_order :
  (forall a b, ltv a b = true <-> lex_lt a b) /\ (forall a b, gtv a b = true <-> lex_lt b a)
  /\ (forall a b, eqv a b = true <-> a = b)
  /\ (forall a b, lev a b = true <-> lex_lt a b \/ a = b) /\ (forall a b, gev a b = true <-> lex_lt b a \/ a = b)
  /\ (forall a, ltv a a = false) /\ (forall a b c, ltv a b = true -> ltv b c = true -> ltv a c = true)
  /\ (forall a b, ltv a b = true \/ a = b \/ ltv b a = true).
Proof.
  split; [apply ltv_spec|]. split; [apply gtv_spec|]. split; [apply eqv_spec|].
  split; [|split; [|split; [|split]]].
  - intros a b. rewrite lev_spec. destruct (lex_total a b) as [H|[H|H]]; split; auto.
    + intros _ X. apply (lex_irrefl a). eapply lex_trans; eauto.
    + intros _. subst. apply lex_irrefl.
    + intros X. contradiction.
    + intros [X|X] _; [|subst; now apply lex_irrefl in H]. apply (lex_irrefl a). eapply lex_trans; eauto.
  - intros a b. rewrite gev_spec. destruct (lex_total a b) as [H|[H|H]]; split; auto.
    + intros X. contradiction.
    + intros [X|X] _; [|subst; now apply lex_irrefl in H]. apply (lex_irrefl a). eapply lex_trans; eauto.
    + intros _. subst. apply lex_irrefl.
    + intros _ X. apply (lex_irrefl a). eapply lex_trans; eauto.
  - intros a. apply not_true_iff_false. rewrite ltv_spec. apply lex_irrefl.
  - intros a b c. rewrite !ltv_spec. apply lex_trans.
  - intros a b. rewrite !ltv_spec. apply lex_total.
Qed.
Example version_order_case : ltv (Build_version 1 9 0 0) (Build_version 1 10 0 0) = true
  /\ ltv (Build_version 1 10 0 0) (Build_version 2 0 0 0) = true.
Proof. split; reflexivity. Qed.

(** *** Parsing *)
Lemma is_digit_spec c : is_digit c = true <-> (48 <= c <= 57)%N.
Proof. unfold is_digit. rewrite andb_true_iff, !N.leb_le. reflexivity. Qed.
Lemma digits_forall d : Forall (fun c => (48 <= c <= 57)%N) d <-> Forall (fun c => is_digit c = true) d.
Proof. split; apply Forall_impl; intros c; apply is_digit_spec. Qed.

Definition no_digit_first (s : str) : Prop := match s with [] => True | c :: _ => is_digit c = false end.

Lemma number_app d s : digits d -> no_digit_first s -> number (d ++ s) = Some (d, s).
Proof.
  intros [N D] H. unfold number. apply digits_forall in D. rewrite (span_app _ d s D).
  - destruct d; [contradiction|reflexivity].
  - exact H.
Qed.
Lemma number_some s d r : number s = Some (d, r) -> s = d ++ r /\ digits d /\ no_digit_first r.
Proof.
  unfold number. pose proof (span_spec is_digit s) as H. destruct (span is_digit s) as [a b].
  destruct H as (E & A & B). destruct a as [|c a]; [discriminate|]. intros [= <- <-].
  split; auto. split; [split; [discriminate|now apply digits_forall]|exact B].
Qed.
Lemma number_none s : number s = None -> no_digit_first s.
Proof.
  unfold number. pose proof (span_spec is_digit s) as H. destruct (span is_digit s) as [a b].
  destruct H as (E & A & B). destruct a as [|c a]; [|discriminate]. intros _. simpl in E. now subst.
Qed.
Lemma to_int_value d : to_int d = int_value d.
Proof. reflexivity. Qed.

Lemma opt_group_take seps c d s : In c seps -> digits d -> no_digit_first s ->
  opt_group seps (c :: d ++ s) = (d, s).
Proof. intros C D H. unfold opt_group. apply memN_In in C. rewrite C, number_app; auto. Qed.
Lemma opt_group_skip seps s : match s with [] => True | c :: _ => ~ In c seps end ->
  opt_group seps s = ([], s).
Proof. destruct s as [|c s]; auto. intros H. unfold opt_group. apply memN_notIn in H. now rewrite H. Qed.
(** Either the group takes part, or the rest is unchanged and is no separator followed by a number. *)
Lemma opt_group_cases seps s :
  (exists c d r, s = c :: d ++ r /\ In c seps /\ digits d /\ no_digit_first r /\ opt_group seps s = (d, r))
  \/ (opt_group seps s = ([], s) /\ forall c d r, s = c :: d ++ r -> In c seps -> digits d -> False).
Proof.
  destruct s as [|c s]; [right; split; [reflexivity|discriminate]|]. unfold opt_group. destruct (memN c seps) eqn:M.
  - destruct (number s) as [[d r]|] eqn:E.
    + left. apply number_some in E. destruct E as (-> & D & R).
      exists c, d, r. repeat split; auto; try apply D. now apply memN_In.
    + right. split; auto. intros c' d r [= -> ->] _ D. apply number_none in E.
      destruct D as [N F]. destruct d as [|x d]; [contradiction|]. inversion F as [|? ? X]. subst. simpl in E.
      apply is_digit_spec in X. congruence.
  - right. split; auto. intros c' d r [= -> ->] C _. apply memN_notIn in M. contradiction.
Qed.

Lemma digits_cons d : digits d -> exists c t, d = c :: t /\ is_digit c = true.
Proof. intros [N F]. destruct d as [|c t]; [contradiction|]. inversion F. exists c, t. split; auto. now apply is_digit_spec. Qed.

Ltac dg := match goal with |- no_digit_first _ => simpl; auto; reflexivity end.
Lemma from_string_text b s v : version_text b s v -> from_string s b = v.
Proof.
  unfold from_string. intros H.
  destruct H as [b d1 H1|b d1 d2 H1 H2|b d1 d2 d3 H1 H2 H3|d1 d4 H1 H4|d1 d2 d4 H1 H2 H4|d1 d2 d3 c d4 H1 H2 H3 Hc H4].
  - rewrite <- (app_nil_r d1) at 1. rewrite number_app; [|auto|simpl; auto]. simpl. now destruct b.
  - rewrite number_app; [|auto|reflexivity]. simpl app. rewrite <- (app_nil_r d2) at 1.
    rewrite opt_group_take; [|simpl; auto|auto|simpl; auto]. destruct (digits_cons _ H2) as (c & t & -> & _).
    destruct b; reflexivity.
  - rewrite number_app; [|auto|reflexivity]. simpl app.
    rewrite opt_group_take; [|simpl; auto|auto|reflexivity]. destruct (digits_cons _ H2) as (c & t & -> & _).
    rewrite <- (app_nil_r d3) at 1. rewrite opt_group_take; [|simpl; auto|auto|simpl; auto].
    destruct b; reflexivity.
  - rewrite number_app; [|auto|reflexivity]. simpl app. rewrite opt_group_skip; [|simpl; intros [X|[]]; discriminate].
    cbv iota beta. rewrite <- (app_nil_r d4) at 1. rewrite opt_group_take; [|simpl; auto|auto|simpl; auto]. reflexivity.
  - rewrite number_app; [|auto|reflexivity]. simpl app.
    rewrite opt_group_take; [|simpl; auto|auto|reflexivity]. destruct (digits_cons _ H2) as (c & t & -> & _).
    rewrite opt_group_skip; [|simpl; intros [X|[]]; discriminate].
    rewrite <- (app_nil_r d4) at 1. rewrite opt_group_take; [|simpl; auto|auto|simpl; auto]. reflexivity.
  - rewrite number_app; [|auto|reflexivity]. simpl app.
    rewrite opt_group_take; [|simpl; auto|auto|reflexivity]. destruct (digits_cons _ H2) as (x & t & -> & _).
    rewrite opt_group_take; [|simpl; auto|auto|destruct Hc; subst; reflexivity].
    rewrite <- (app_nil_r d4) at 1. rewrite opt_group_take; [|destruct Hc; subst; simpl; auto|auto|simpl; auto]. reflexivity.
Qed.

Lemma from_string_cases b s : version_text b s (from_string s b) \/ from_string s b = invalid_version.
Proof.
  unfold from_string. destruct (number s) as [[d1 s1]|] eqn:E1; auto.
  apply number_some in E1. destruct E1 as (-> & H1 & N1).
  destruct (opt_group_cases [dot] s1) as [(c & d2 & s2 & -> & C & H2 & N2 & ->)|[-> X1]].
  - destruct C as [<-|[]]. destruct (digits_cons _ H2) as (x & t & E & _).
    assert (K : forall A (a b : A), match d2 with [] => a | _ => b end = b) by (intros; now rewrite E).
    rewrite K. clear K x t E.
    destruct (opt_group_cases [dot] s2) as [(c & d3 & s3 & -> & C & H3 & N3 & ->)|[-> X2]].
    + destruct C as [<-|[]]. destruct b.
      * destruct (opt_group_cases [dash; dot] s3) as [(c & d4 & s4 & -> & C & H4 & N4 & ->)|[-> _]].
        -- destruct s4; auto. left. rewrite app_nil_r.
           apply (vtb3 d1 d2 d3 c d4); auto. destruct C as [<-|[<-|[]]]; auto.
        -- destruct s3; auto. left. rewrite app_nil_r. apply (vt3 true d1 d2 d3); auto.
      * destruct s3; auto. left. rewrite app_nil_r. apply (vt3 false d1 d2 d3); auto.
    + destruct b.
      * destruct (opt_group_cases [dash; dot] s2) as [(c & d4 & s4 & -> & C & H4 & N4 & ->)|[-> _]].
        -- destruct s4; auto. left. rewrite app_nil_r.
           destruct C as [<-|[<-|[]]]; [apply (vtb2 d1 d2 d4); auto|].
           exfalso. apply (X2 dot d4 []); simpl; auto.
        -- destruct s2; auto. left. rewrite app_nil_r. apply (vt2 true d1 d2); auto.
      * destruct s2; auto. left. rewrite app_nil_r. apply (vt2 false d1 d2); auto.
  - destruct b.
    + destruct (opt_group_cases [dash; dot] s1) as [(c & d4 & s4 & -> & C & H4 & N4 & ->)|[-> _]].
      * destruct s4; auto. left. rewrite app_nil_r.
        destruct C as [<-|[<-|[]]]; [apply (vtb1 d1 d4); auto|].
        exfalso. apply (X1 dot d4 []); simpl; auto.
      * destruct s1; auto. left. rewrite app_nil_r. apply (vt1 true d1); auto.
    + destruct s1; auto. left. rewrite app_nil_r. apply (vt1 false d1); auto.
Qed.

(** C26: exactly the texts of the grammar are accepted, with the numbers they show; everything else
    gives the invalid version. *)
Theorem version_parse b s :
  (forall v, version_text b s v -> from_string s b = v)
  /\ ((forall v, ~ version_text b s v) -> from_string s b = Build_version 0 0 0 0 /\ is_valid (from_string s b) = false).
Proof.
  split; [intros v; apply from_string_text|]. intros H. destruct (from_string_cases b s) as [X| ->]; [now apply H in X|].
  auto.
Qed.
Lemma text_chars b s v : version_text b s v -> b = false -> Forall (fun c => is_digit c = true \/ c = 46%N) s.
Proof.
  assert (D : forall d, digits d -> Forall (fun c => is_digit c = true \/ c = 46%N) d).
  { intros d [_ X]. eapply Forall_impl; [|exact X]. intros c Hc. left. now apply is_digit_spec. }
  intros H Hb. destruct H; try discriminate; repeat (apply Forall_app; split; auto); auto.
Qed.
Example version_parse_case :
  from_string [49; 46; 50; 45; 51]%N true = Build_version 1 2 0 3   (* 1.2-3 *)
  /\ version_text true [49; 46; 50; 45; 51]%N (Build_version 1 2 0 3)
  /\ from_string [49; 46; 50; 45; 51]%N false = Build_version 0 0 0 0
  /\ (forall v, ~ version_text false [49; 46; 50; 45; 51]%N v).
Proof.
  split; [reflexivity|]. split.
  - apply (vtb2 [49] [50] [51])%N; split; try discriminate; repeat constructor; lia.
  - split; [reflexivity|]. intros v H.
    apply text_chars in H; [|reflexivity]. rename H into F.
    inversion F as [|? ? _ F2]; inversion F2 as [|? ? _ F3]; inversion F3 as [|? ? _ F4].
    inversion F4 as [|? ? [X|X] _]; discriminate.
Qed.

(** *** Printing *)
Lemma number_string_digits z : 0 <= z -> digits (number_string z) /\ undec (number_string z) = Z.to_N z.
Proof.
  intros H. unfold number_string. destruct (Z.ltb_spec z 0); [lia|]. split; [|apply undec_dec].
  split; [apply dec_nonempty|]. apply digits_forall, dec_digits.
Qed.
Lemma number_string_value z : 0 <= z <= 2147483647 -> int_value (number_string z) = z.
Proof.
  intros H. unfold int_value. rewrite (proj2 (number_string_digits z ltac:(lia))). rewrite Z2N.id; [|lia].
  destruct (Z.leb_spec z 2147483647); lia.
Qed.

(** C26: printing and parsing is the identity on all versions with non-negative components. *)
Theorem version_roundtrip v : natural v ->
  from_string (to_string v 46%N 45%N) true = v
  /\ (v_build v = 0 -> from_string (to_string v 46%N 45%N) false = v).
Proof.
  intros (A & B & C & D). destruct v as [a b c d]. simpl in *.
  pose proof (proj1 (number_string_digits a ltac:(lia))). pose proof (proj1 (number_string_digits b ltac:(lia))).
  pose proof (proj1 (number_string_digits c ltac:(lia))). pose proof (proj1 (number_string_digits d ltac:(lia))).
  assert (E : forall z, 0 <= z <= 2147483647 -> int_value (number_string z) = z) by apply number_string_value.
  split.
  - apply from_string_text. unfold to_string. simpl v_major; simpl v_minor; simpl v_patch; simpl v_build.
    destruct (Z.eqb_spec d 0) as [->|Hd].
    + rewrite app_nil_r. pose proof (vt3 true _ _ _ H H0 H1) as X. rewrite !E in X by lia. exact X.
    + pose proof (vtb3 _ _ _ 45%N _ H H0 H1 (or_introl eq_refl) H2) as X. rewrite !E in X by lia.
      exact X.
  - intros ->. apply from_string_text. unfold to_string. simpl. rewrite app_nil_r.
    pose proof (vt3 false _ _ _ H H0 H1) as X. rewrite !E in X by lia. exact X.
Qed.
Example version_roundtrip_case : natural (Build_version 2 4 10 77)
  /\ to_string (Build_version 2 4 10 77) 46%N 45%N = [50; 46; 52; 46; 49; 48; 45; 55; 55]%N.
Proof. split; [unfold natural; simpl; lia|reflexivity]. Qed.

(** Every parsed version has non-negative components, so it survives printing. *)
Theorem parsed_natural s b : natural (from_string s b).
Proof.
  assert (E : forall d, 0 <= int_value d <= 2147483647).
  { intros d. unfold int_value. destruct (Z.leb_spec (Z.of_N (undec d)) 2147483647); lia. }
  destruct (from_string_cases b s) as [H|H]; [|rewrite H; unfold natural; simpl; lia].
  remember (from_string s b) as v eqn:Ev. clear Ev.
  destruct H; unfold natural; simpl; repeat split; try apply E; lia.
Qed.

(** *** Ranges *)
Lemma valid_unbounded v : is_valid v = false <-> unbounded v.
Proof.
  destruct v as [a b c d]. unfold is_valid, unbounded; simpl. split.
  - intros H. repeat (apply orb_false_iff in H; destruct H as [H ?]).
    repeat match goal with X : negb (_ =? _) = false |- _ => apply negb_false_iff, Z.eqb_eq in X end. congruence.
  - intros [= -> -> -> ->]. reflexivity.
Qed.
Lemma natural_not_below v : natural v -> ~ lex_lt v invalid_version.
Proof. unfold natural, lex_lt. simpl. lia. Qed.
Lemma zero_least v : natural v -> v = invalid_version \/ lex_lt invalid_version v.
Proof.
  intros H. destruct (lex_total invalid_version v) as [X|[X|X]]; auto. now apply natural_not_below in X.
Qed.

(** The check done for a module decides [in_range]; both places that do it agree. *)
Theorem range_check r v : natural v -> natural (r_min r) ->
  (range_ok r v = true <-> in_range r v) /\ candidate_ok r v = range_ok r v.
Proof.
  intros Nv Nm. assert (K : range_ok r v = true <-> in_range r v).
  { unfold range_ok, in_range. destruct (is_valid (r_max r)) eqn:Vx.
    - rewrite orb_true_r. cbv [andb]. split.
      + destruct (gev (r_min r) (r_max r)) eqn:G1; [discriminate|].
        destruct (ltv v (r_min r)) eqn:L; [discriminate|]. destruct (gev v (r_max r)) eqn:G2; [discriminate|]. intros _.
        split; [rewrite <- ltv_spec; congruence|]. right. apply ltv_spec. unfold gev in G2.
        now apply negb_false_iff in G2.
      + intros [A B]. assert (B' : lex_lt v (r_max r)).
        { destruct B as [B|B]; auto. apply valid_unbounded in B. congruence. }
        assert (L : ltv v (r_min r) = false) by (apply not_true_iff_false; now rewrite ltv_spec).
        assert (G2 : gev v (r_max r) = false) by (apply not_true_iff_false; rewrite gev_spec; auto).
        assert (G1 : gev (r_min r) (r_max r) = false).
        { apply not_true_iff_false. rewrite gev_spec. intros X. apply X.
          destruct (lex_total v (r_min r)) as [Y|[Y|Y]]; [contradiction|now subst|]. eapply lex_trans; eauto. }
        now rewrite G1, L, G2.
    - rewrite orb_false_r. cbv [andb]. split.
      + intros H. split; [|left; now apply valid_unbounded]. destruct (is_valid (r_min r)) eqn:Vm.
        * rewrite <- ltv_spec. destruct (ltv v (r_min r)); [discriminate|]. discriminate.
        * apply valid_unbounded in Vm. rewrite Vm. now apply natural_not_below.
      + intros [A _]. destruct (is_valid (r_min r)); auto.
        assert (L : ltv v (r_min r) = false) by (apply not_true_iff_false; now rewrite ltv_spec).
        now rewrite L. }
  split; auto. apply eq_true_iff_eq. rewrite K. unfold candidate_ok, in_range.
  destruct (is_valid (r_min r)) eqn:Vm, (is_valid (r_max r)) eqn:Vx; simpl.
  - rewrite andb_true_iff, gev_spec, ltv_spec. split; intros [A B]; split; auto.
    destruct B as [B|B]; auto. apply valid_unbounded in B. congruence.
  - rewrite andb_true_r, gev_spec. apply valid_unbounded in Vx. intuition.
  - rewrite ltv_spec. apply valid_unbounded in Vm. rewrite Vm. split.
    + intros B. split; auto. now apply natural_not_below.
    + intros [_ [B|B]]; auto. apply valid_unbounded in B. congruence.
  - apply valid_unbounded in Vm, Vx. rewrite Vm. split; auto. intros _. split; auto. now apply natural_not_below.
Qed.

Lemma narrow_min a o : ~ lex_lt (r_min (narrow_down a o)) (r_min a) /\ ~ lex_lt (r_min (narrow_down a o)) (r_min o)
  /\ (r_min (narrow_down a o) = r_min a \/ r_min (narrow_down a o) = r_min o).
Proof.
  unfold narrow_down; simpl. destruct (gtv (r_min o) (r_min a)) eqn:G.
  - apply gtv_spec in G. repeat split; auto; [|apply lex_irrefl]. intros X. apply (lex_irrefl (r_min a)). eapply lex_trans; eauto.
  - repeat split; auto; [apply lex_irrefl|]. intros X. apply gtv_spec in X. congruence.
Qed.

(** C27, weaker form: narrowing is intersection if the range already has a maximum or the other has none. *)
Theorem narrow_down_intersection_partial a o v :
  (~ unbounded (r_max a) \/ unbounded (r_max o)) ->
  (in_range (narrow_down a o) v <-> in_range a v /\ in_range o v).
Proof.
  intros H. destruct (narrow_min a o) as (M1 & M2 & M3).
  assert (Lo : ~ lex_lt v (r_min (narrow_down a o)) <-> ~ lex_lt v (r_min a) /\ ~ lex_lt v (r_min o)).
  { assert (T : forall x y z, ~ lex_lt x y -> ~ lex_lt y z -> ~ lex_lt x z).
    { intros x y z A B C. destruct (lex_total x y) as [X|[X|X]]; [contradiction|subst; contradiction|].
      apply B. eapply lex_trans; eauto. }
    split.
    - intros X. split; eapply T; eauto.
    - intros [X Y]. destruct M3 as [-> | ->]; auto. }
  unfold in_range. rewrite Lo.
  assert (Up : (unbounded (r_max (narrow_down a o)) \/ lex_lt v (r_max (narrow_down a o)))
     <-> (unbounded (r_max a) \/ lex_lt v (r_max a)) /\ (unbounded (r_max o) \/ lex_lt v (r_max o))).
  { unfold narrow_down; simpl. destruct (is_valid (r_max o)) eqn:Vo; simpl.
    - assert (Uo : ~ unbounded (r_max o)) by (rewrite <- valid_unbounded; congruence).
      assert (Ua : ~ unbounded (r_max a)) by tauto.
      destruct (ltv (r_max o) (r_max a)) eqn:L.
      + apply ltv_spec in L. split; [|tauto]. intros [X|X]; [contradiction|]. split; auto. right. eapply lex_trans; eauto.
      + assert (L' : ~ lex_lt (r_max o) (r_max a)) by (rewrite <- ltv_spec; congruence).
        split; [|tauto]. intros [X|X]; [contradiction|]. split; auto. right.
        destruct (lex_total (r_max o) (r_max a)) as [Y|[Y|Y]]; [contradiction|congruence|]. eapply lex_trans; eauto.
    - apply valid_unbounded in Vo. tauto. }
  rewrite Up. tauto.
Qed.
(** In all cases the result accepts nothing the range itself did not accept, and respects both minima. *)
Theorem narrow_down_narrows a o v : in_range (narrow_down a o) v -> in_range a v /\ ~ lex_lt v (r_min o).
Proof.
  intros [A B]. destruct (narrow_min a o) as (M1 & M2 & M3).
  assert (T : forall x y z, ~ lex_lt x y -> ~ lex_lt y z -> ~ lex_lt x z).
  { intros x y z X Y Z. destruct (lex_total x y) as [P|[P|P]]; [contradiction|subst; contradiction|].
    apply Y. eapply lex_trans; eauto. }
  split; [split|]; try (eapply T; eauto; fail).
  unfold narrow_down in B; simpl in B. destruct (is_valid (r_max o)) eqn:Vo; simpl in B; auto.
  destruct (ltv (r_max o) (r_max a)) eqn:L; auto. apply ltv_spec in L.
  destruct B as [B|B]; [apply valid_unbounded in B; congruence|]. right. eapply lex_trans; eauto.
Qed.
(** C27 as stated is false: a range without maximum does not take over the other's maximum, so a module
    version that one of two dependencies excludes is accepted. *)
Theorem narrow_down_intersection_refuted : exists a o v, natural v /\ natural (r_min a) /\ natural (r_max a)
  /\ natural (r_min o) /\ natural (r_max o)
  /\ range_ok (narrow_down a o) v = true /\ range_ok o v = false
  /\ range_ok (narrow_down o a) v = false.
Proof.
  exists (Build_range (Build_version 1 0 0 0) invalid_version),
         (Build_range (Build_version 1 0 0 0) (Build_version 2 0 0 0)), (Build_version 3 0 0 0).
  repeat split; simpl; try lia.
Qed.
Example narrow_down_case :
  ~ unbounded (r_max (Build_range (Build_version 1 0 0 0) (Build_version 3 0 0 0)))
  /\ in_range (narrow_down (Build_range (Build_version 1 0 0 0) (Build_version 3 0 0 0))
       (Build_range (Build_version 1 5 0 0) (Build_version 2 0 0 0))) (Build_version 1 6 0 0).
Proof.
  split; [intros [=]|]. unfold in_range, narrow_down, lex_lt; simpl. split; [lia|]. right. lia.
Qed.

Print Assumptions version_order.
Print Assumptions version_parse.
Print Assumptions version_roundtrip.
Print Assumptions parsed_natural.
Print Assumptions range_check.
Print Assumptions narrow_down_intersection_partial.
Print Assumptions narrow_down_narrows.
Print Assumptions narrow_down_intersection_refuted.
