(** C54: settings that are exported and imported again are the same. *)
From Coq Require Import List Bool Arith NArith ZArith Lia.
From Verif Require Import Str JobLimitsModel SettingsModel SettingsTheorems JsLiteralModel JsSpec JsLiteralTheorems ConfigModel.
Import ListNotations.
Local Open Scope N_scope.

(** ** Specification *)

(** What can be seen of a stored value: a list of strings is a list; what numbers and booleans are wrapped in is not seen. *)
Inductive seen_value := SStr (s : str) | SNum (z : Z) | SBool (b : bool) | SList (l : list seen_value) | SHash.
Fixpoint seen_inner (v : value) : seen_value :=
  match v with
  | VStr s => SStr s
  | VStrs l => SList (map SStr l)
  | VList l => SList (map seen_inner l)
  | VNum z => SNum z
  | VBool b => SBool b
  | VHash _ => SHash
  end.
Definition seen (v : value) : seen_value := match v with VHash [([], w)] => seen_inner w | v => seen_inner v end.
Definition same_value (u v : option value) : Prop := option_map seen u = option_map seen v.

(** Values that can be exported: strings on one line, integers of 32 bits, booleans, lists of them. *)
Fixpoint exportable_inner (v : value) : Prop :=
  match v with
  | VStr s => one_line s
  | VStrs l => Forall one_line l
  | VList l => fold_right (fun w P => exportable_inner w /\ P) True l
  | VNum z => (Z.abs z < 2 ^ 31)%Z
  | VBool _ => True
  | VHash _ => False
  end.
Definition exportable (v : value) : Prop := match v with VHash [([], w)] => exportable_inner w | v => exportable_inner v end.

(** Names of settings that can be exported: on one line, no colon, no space at the ends, no number sign at the start, and not the name of the profile that
    cannot be set. *)
Definition exportable_key (k : str) : Prop :=
  ~ In 10 k /\ ~ In 13 k /\ ~ In 58 k /\ match k with [] => False | c :: _ => char_space c = false /\ c <> 35 end /\ char_space (last k 0) = false
  /\ ~ (exists r, k = profiles_prefix ++ none_name ++ r).

(** The settings that are written to. *)
Definition target (s : settings) : store := if write_user s then user s else system s.
Definition other (s : settings) : store := if write_user s then system s else user s.
Definition target_in (s : settings) (sc : scopes) : Prop := if write_user s then in_user sc = true else in_system sc = true.
Definition only_target (s : settings) : scopes := {| in_user := write_user s; in_system := negb (write_user s) |}.

(** ** Values as text and back *)

Section Induction.
  Variable P : value -> Prop.
  Hypothesis HStr : forall s, P (VStr s).
  Hypothesis HStrs : forall l, P (VStrs l).
  Hypothesis HList : forall l, Forall P l -> P (VList l).
  Hypothesis HNum : forall z, P (VNum z).
  Hypothesis HBool : forall b, P (VBool b).
  Hypothesis HHash : forall l, P (VHash l).
  Fixpoint value_rect' (v : value) : P v :=
    match v with
    | VStr s => HStr s
    | VStrs l => HStrs l
    | VNum z => HNum z
    | VBool b => HBool b
    | VHash l => HHash l
    | VList l => HList l ((fix go l := match l return Forall P l with [] => Forall_nil P | w :: l => Forall_cons w (value_rect' w) (go l) end) l)
    end.
End Induction.

Lemma to_variant_fine v : exportable_inner v -> well_formed (to_variant v) /\ all_one_line (to_variant v) /\ no_proto (to_variant v).
Proof.
  induction v as [s|l|l IH|z|b|l] using value_rect'; cbn; intros H; try tauto.
  - assert (A : Forall (fun w => well_formed w /\ all_one_line w /\ no_proto w) (map QStr l)).
    { apply Forall_map. eapply Forall_impl; [|exact H]. cbn. tauto. }
    clear H. induction A as [|w m Hw _ IHl]; cbn in *; tauto.
  - induction IH as [|v l Hv _ IHl]; cbn in H |- *; [tauto|]. destruct H as [H1 H2]. specialize (Hv H1). specialize (IHl H2). tauto.
Qed.

Fixpoint of_all (l : list js) : option (list value) :=
  match l with
  | [] => Some []
  | x :: l => match of_js x, of_all l with Some v, Some vs => Some (v :: vs) | _, _ => None end
  end.
Lemma of_js_arr l : of_js (JArr l) = option_map VList (of_all l).
Proof. reflexivity. Qed.

Lemma of_meaning v : exportable_inner v -> exists w, of_js (meaning (to_variant v)) = Some w /\ seen_inner w = seen_inner v /\ (forall l, w <> VHash l) /\
  (forall z, meaning (to_variant v) <> JFloat z).
Proof.
  induction v as [s|l|l IH|z|b|l] using value_rect'; intros H; cbn [to_variant meaning].
  - exists (VStr s). repeat split; discriminate.
  - exists (VList (map VStr l)). rewrite of_js_arr. repeat split; try discriminate.
    + replace (of_all (map meaning (map QStr l))) with (Some (map VStr l)); [reflexivity|]. clear H. induction l as [|s l IH]; [reflexivity|]. cbn. now rewrite <- IH.
    + cbn. f_equal. rewrite map_map. reflexivity.
  - rewrite of_js_arr. cbn in H.
    assert (A : exists ws, of_all (map meaning (map to_variant l)) = Some ws /\ map seen_inner ws = map seen_inner l).
    { induction IH as [|v l Hv _ IHl]; [exists []; split; reflexivity|]. cbn in H. destruct (Hv (proj1 H)) as (w & E & S1 & _). destruct (IHl (proj2 H)) as (ws & E' & S2).
      exists (w :: ws). cbn. rewrite E, E'. split; [reflexivity|]. now rewrite S1, S2. }
    destruct A as (ws & E & S1). exists (VList ws). rewrite E. repeat split; try discriminate. cbn. now rewrite S1.
  - exists (VNum z). cbn [exportable_inner] in H. unfold js_number. rewrite (proj2 (Z.ltb_lt _ _) H). repeat split; discriminate.
  - exists (VBool b). repeat split; discriminate.
  - destruct H.
Qed.

Lemma to_settings_seen w : (forall l, w <> VHash l) -> seen (to_settings w) = seen_inner w.
Proof. destruct w; intros H; try reflexivity. now destruct (H l). Qed.

Lemma from_settings_inner v : exportable v -> exportable_inner (from_settings v) /\ seen_inner (from_settings v) = seen v.
Proof.
  destruct v as [s|l|l|z|b|l]; try (intros H; split; [exact H|reflexivity]).
  destruct l as [|[[|c k] w] [|? ?]]; cbn; tauto.
Qed.

Lemma representation_back v : exportable v -> exists w, to_settings_value (representation (Some v)) = Some w /\ seen w = seen v.
Proof.
  intros H. destruct (from_settings_inner v H) as [H1 H2]. destruct (to_variant_fine _ H1) as (A & B & C). destruct (of_meaning _ H1) as (w & E & S1 & N1 & N2).
  pose proof (proj2 (js_literal_exact _ A) (conj B C)) as E0. unfold to_settings_value, to_value, representation. rewrite E0.
  exists (to_settings w). rewrite to_settings_seen, S1, H2 by auto. split; [|reflexivity].
  destruct (meaning (to_variant (from_settings v))) eqn:M; try (rewrite E; reflexivity). now destruct (N2 z).
Qed.

(** *** The text of a value is on one line, without spaces at the ends *)

Lemma escaped_In c s : In c (escaped s) -> In c s \/ c = 92.
Proof. induction s as [|d s IH]; cbn; [tauto|]. destruct ((d =? 92) || (d =? 34)); cbn; intuition. Qed.
Lemma js_str_In c s : In c (js_str s) -> In c s \/ c = 92 \/ c = 34.
Proof. unfold js_str. cbn. rewrite in_app_iff. cbn. intros [H|[H|[H|[]]]]; auto. apply escaped_In in H. tauto. Qed.
Lemma dec_In c n : In c (dec n) -> 48 <= c <= 57.
Proof. intros H. pose proof (dec_digits n) as D. rewrite Forall_forall in D. apply D in H. unfold is_digit in H. rewrite andb_true_iff, !N.leb_le in H. exact H. Qed.
Lemma literal_one_line v : exportable_inner v -> one_line (js_literal (to_variant v)).
Proof.
  assert (K : forall s, one_line s -> one_line (js_str s)).
  { intros s [H1 H2]. split; intros C; apply js_str_In in C as [C|[C|C]]; try (now discriminate C); tauto. }
  assert (J : forall a b, one_line a -> one_line b -> one_line (a ++ b)).
  { unfold one_line. intros a b [A1 A2] [B1 B2]. rewrite !in_app_iff. tauto. }
  assert (T : forall c a, c <> 10 -> c <> 13 -> one_line a -> one_line (c :: a)).
  { unfold one_line. intros c a C1 C2 [A1 A2]. cbn. intuition. }
  assert (Z0 : one_line []) by (split; intros []).
  assert (L : forall l, Forall (fun v => one_line (js_literal v)) l -> one_line (js_literal (QList l))).
  { intros l H. rewrite literal_list. apply T; try discriminate. apply J; [|apply T; try discriminate; exact Z0]. destruct H as [|v0 l H1 H2]; [exact Z0|].
    apply J; [exact H1|]. clear H1. induction H2 as [|w l H _ IH]; cbn [list_tail]; [exact Z0|]. apply T; try discriminate. apply T; try discriminate. now apply J. }
  assert (D : forall n, one_line (dec n)).
  { intros n. split; intros C; apply dec_In in C; lia. }
  induction v as [s|l|l IH|z|b|l] using value_rect'; intros H.
  - now apply K.
  - cbn [to_variant]. apply L. apply Forall_map. eapply Forall_impl; [|exact H]. exact K.
  - cbn [to_variant]. apply L. apply Forall_map. cbn in H. induction IH as [|v l Hv _ IHl]; constructor; [apply Hv, H|apply IHl, H].
  - change (one_line (js_int z)). unfold js_int. destruct z; try apply D. apply T; try discriminate. apply D.
  - destruct b; split; cbn; intuition discriminate.
  - destruct H.
Qed.

Lemma last_app_one {A} (l : list A) c d : last (l ++ [c]) d = c.
Proof. induction l as [|x l IH]; [reflexivity|]. cbn. destruct (l ++ [c]) eqn:E; [destruct l; discriminate|exact IH]. Qed.
Lemma last_cons {A} (c : A) l d : l <> [] -> last (c :: l) d = last l d.
Proof. destruct l; [congruence|reflexivity]. Qed.
Lemma last_In {A} (l : list A) d : l <> [] -> In (last l d) l.
Proof. induction l as [|c l IH]; [congruence|]. intros _. destruct l as [|e l]; [now left|]. right. apply IH. discriminate. Qed.

Definition solid (s : str) : Prop := match s with [] => False | c :: _ => char_space c = false end /\ char_space (last s 0) = false.
Lemma digit_solid c : 48 <= c <= 57 -> char_space c = false.
Proof.
  intros H. unfold char_space. rewrite !orb_false_iff, !andb_false_iff, !N.eqb_neq, !N.leb_gt. lia.
Qed.
Lemma dec_solid n : solid (dec n).
Proof.
  split.
  - destruct (dec_starts n) as (c & t & E & _). rewrite E. apply digit_solid, (dec_In c n). rewrite E. now left.
  - apply digit_solid, (dec_In _ n), last_In, dec_nonempty.
Qed.
Lemma literal_solid v : exportable_inner v -> solid (js_literal (to_variant v)).
Proof.
  assert (B : forall c s d, char_space c = false -> char_space d = false -> solid (c :: s ++ [d])).
  { intros c s d H1 H2. split; [exact H1|]. change (c :: s ++ [d]) with ((c :: s) ++ [d]). now rewrite last_app_one. }
  destruct v as [s|l|l|z|b|l]; intros H; cbn [to_variant].
  - now apply B.
  - rewrite literal_list. now apply B.
  - rewrite literal_list. now apply B.
  - change (solid (js_int z)). unfold js_int. destruct z as [|p|p]; try apply dec_solid. split; [reflexivity|].
    rewrite last_cons by apply dec_nonempty. apply dec_solid.
  - destruct b; split; reflexivity.
  - destruct H.
Qed.

Lemma drop_solid s : match s with [] => False | c :: _ => char_space c = false end -> drop_spaces s = s.
Proof. destruct s as [|c s]; [intros []|]. cbn. now intros ->. Qed.
Lemma trimmed_solid s : solid s -> trimmed s = s.
Proof.
  intros [H1 H2]. unfold trimmed. rewrite (drop_solid s H1), drop_solid, rev_involutive; [reflexivity|].
  destruct s as [|c s]; [destruct H1|]. destruct (@exists_last _ (c :: s) ltac:(discriminate)) as (t & d & E). rewrite E in *. rewrite rev_app_distr. cbn. now rewrite last_app_one in H2.
Qed.
Lemma trimmed_space s : trimmed (32 :: s) = trimmed s.
Proof. reflexivity. Qed.

(** ** Lines *)

Lemma split_colon_key k r : ~ In 58 k -> split_colon (k ++ 58 :: r) = Some (k, r).
Proof. induction k as [|c k IH]; intros H; [reflexivity|]. cbn in H |- *. rewrite (proj2 (N.eqb_neq c 58)) by intuition. rewrite IH by tauto. reflexivity. Qed.
Lemma lines_one s rest : forall cur, ~ In 10 s -> lines_from cur (s ++ 10 :: rest) = strip_cr (cur ++ s) :: lines_from [] rest.
Proof.
  induction s as [|c s IH]; intros cur H.
  - cbn. now rewrite app_nil_r.
  - cbn in H |- *. rewrite (proj2 (N.eqb_neq c 10)) by intuition. rewrite IH by tauto. now rewrite <- app_assoc.
Qed.
Lemma strip_cr_same s : last s 0 <> 13 -> strip_cr s = s.
Proof.
  intros H. unfold strip_cr. destruct s as [|c s]; [reflexivity|]. destruct (@exists_last _ (c :: s) ltac:(discriminate)) as (t & d & E). rewrite E in *.
  rewrite last_app_one in H. rewrite rev_app_distr. cbn [rev app]. destruct d as [|p]; [reflexivity|].
  do 4 (destruct p as [p|p|]; try reflexivity). congruence.
Qed.

(** ** The settings after the import *)

Lemma remove_target s k : target (remove_key s k) = take_away (target s) (internal k) /\ other (remove_key s k) = other s /\ write_user (remove_key s k) = write_user s.
Proof. unfold remove_key, on_target, target, other. destruct (write_user s); cbn; auto. Qed.
Lemma remove_all ks : forall s, let s' := fold_left remove_key ks s in
  other s' = other s /\ write_user s' = write_user s /\
  (forall k, find_value (target s') k <> None -> find_value (target s) k <> None /\ ~ In k (map internal ks)).
Proof.
  induction ks as [|x ks IH]; intros s; cbn [fold_left map].
  - repeat split; auto.
  - destruct (IH (remove_key s x)) as (A & B & C). destruct (remove_target s x) as (T1 & T2 & T3). cbn in *.
    rewrite A, B, T2, T3. split; [reflexivity|]. split; [reflexivity|]. intros k Hk. apply C in Hk as [Hk1 Hk2]. rewrite T1, find_take in Hk1.
    destruct (str_eqb k (internal x)) eqn:E; cbn [orb] in Hk1; [congruence|]. apply str_eqb_neq in E.
    destruct (starts_with (internal x ++ [47]) k); [congruence|]. split; [exact Hk1|]. intros [H|H]; congruence.
Qed.
Lemma without_keys_spec s sc : clean_settings s -> target_in s sc -> other (without_keys s sc) = other s /\ write_user (without_keys s sc) = write_user s /\
  forall k, no_char 47 k -> find_value (target (without_keys s sc)) (internal k) = None.
Proof.
  intros C T. destruct (remove_all (all_keys s sc) s) as (A & B & D). repeat split; auto. intros k Hk.
  change (fold_left remove_key (all_keys s sc) s) with (without_keys s sc) in D. destruct (find_value (target (without_keys s sc)) (internal k)) as [v|] eqn:E; [exfalso|reflexivity].
  destruct (D (internal k)) as [D1 D2]; [congruence|]. apply D2. apply in_map. destruct (all_keys_exact s sc C) as (_ & _ & K). apply K. split; [exact Hk|]. apply get_value_some.
  unfold target, target_in in *. destruct (write_user s); auto.
Qed.

Lemma set_target s k v s' : set_value s k v = Some s' -> target s' = put (target s) (internal k) v /\ other s' = other s /\ write_user s' = write_user s.
Proof. unfold set_value. destruct (starts_with _ k); [discriminate|]. intros [= <-]. unfold on_target, target, other. destruct (write_user s); cbn; auto. Qed.
Lemma set_allowed s k v : ~ (exists r, k = profiles_prefix ++ none_name ++ r) -> exists s', set_value s k v = Some s'.
Proof.
  intros H. unfold set_value. destruct (starts_with (profiles_prefix ++ none_name) k) eqn:E; [|eauto]. apply starts_with_spec in E as (t & ->). destruct H. exists t. now rewrite app_assoc.
Qed.

Lemma import_line_export s k v : exportable_key k -> exportable v -> exists w, seen w = seen v /\
  import_line (Some s) (strip_cr (k ++ [58; 32] ++ representation (Some v))) = set_value s k w.
Proof.
  intros (K1 & K2 & K3 & K4 & K5 & K6) V. destruct (representation_back v V) as (w & E & S1). exists w. split; [exact S1|].
  destruct (from_settings_inner v V) as [V1 _]. pose proof (literal_solid _ V1) as L. pose proof (literal_one_line _ V1) as O. change (solid (representation (Some v))) in L. change (one_line (representation (Some v))) in O.
  assert (N0 : representation (Some v) <> []) by (intros Z0; rewrite Z0 in L; destruct L as [[] _]).
  rewrite strip_cr_same.
  2:{ rewrite app_assoc. intros X. apply (proj2 O). rewrite <- X. destruct (exists_last N0) as (t & d & E0). rewrite E0 at 1. rewrite app_assoc, last_app_one, E0. apply in_app_iff. right. now left. }
  unfold import_line. cbn [app]. rewrite split_colon_key by exact K3. rewrite trimmed_space, (trimmed_solid _ L), E.
  rewrite (trimmed_solid k) by (split; [destruct k; tauto|exact K5]).
  destruct k as [|c k]; [destruct K4|]. cbn [app starts_with]. rewrite (proj2 (N.eqb_neq 35 c)) by (intros Q; apply (proj2 K4); now symmetry). reflexivity.
Qed.

Lemma import_lines s0 sc ks : forall s, NoDup ks -> (forall k, In k ks -> no_char 47 k /\ exportable_key k /\ exists v, get_value s0 k sc None = Some v /\ exportable v) ->
  exists s', fold_left import_line (lines (flat_map (export_line s0 sc) ks)) (Some s) = Some s' /\ other s' = other s /\ write_user s' = write_user s /\
  forall k, no_char 47 k -> (In k ks -> same_value (find_value (target s') (internal k)) (get_value s0 k sc None))
    /\ (~ In k ks -> find_value (target s') (internal k) = find_value (target s) (internal k)).
Proof.
  induction ks as [|x ks IH]; intros s N H.
  - exists s. repeat split; auto. intros [].
  - inversion N as [|? ? N1 N2]; subst. destruct (H x (or_introl eq_refl)) as (X1 & X2 & v & X3 & X4).
    destruct (import_line_export s x v X2 X4) as (w & S1 & E1). destruct (set_allowed s x w) as (s1 & E2); [apply X2|].
    destruct (set_target _ _ _ _ E2) as (T1 & T2 & T3).
    destruct (IH s1 N2) as (s' & E & A & B & C). { intros k Hk. apply H. now right. }
    exists s'. split; [|split; [congruence|split; [congruence|]]].
    + cbn [flat_map]. unfold export_line at 1. rewrite X3. unfold lines.
      replace ((x ++ [58; 32] ++ representation (Some v) ++ [10]) ++ flat_map (export_line s0 sc) ks) with ((x ++ [58; 32] ++ representation (Some v)) ++ 10 :: flat_map (export_line s0 sc) ks)
        by (rewrite <- !app_assoc; reflexivity).
      rewrite lines_one.
      * rewrite app_nil_l. cbn [fold_left]. rewrite E1, E2. exact E.
      * destruct (from_settings_inner v X4) as [V1 _]. pose proof (literal_one_line _ V1) as O. intros Q. rewrite !in_app_iff in Q. destruct Q as [Q|[Q|Q]].
        -- now apply X2 in Q.
        -- cbn in Q. intuition discriminate.
        -- now apply O in Q.
    + intros k Hk. destruct (C k Hk) as [C1 C2]. split.
      * intros [->|I]; [|auto]. rewrite C2 by exact N1. rewrite T1, find_put, str_eqb_refl, X3. unfold same_value. cbn. now rewrite S1.
      * intros Q. rewrite C2 by (intros Q2; apply Q; now right). rewrite T1, find_put.
        destruct (str_eqb (internal x) (internal k)) eqn:Ek; [|reflexivity]. apply str_eqb_eq, internal_inj in Ek; auto. subst. destruct Q. now left.
Qed.

(** C54: importing what was exported succeeds and, for every name, leaves in the settings written to exactly the value that the export
    looked at; the settings not written to are untouched. *)
Theorem export_import s sc : clean_settings s -> target_in s sc ->
  (forall k v, no_char 47 k -> get_value s k sc None = Some v -> exportable_key k /\ exportable v) ->
  exists s', import_text s sc (export_text s sc) = Some s' /\ other s' = other s /\ write_user s' = write_user s /\
  forall k, no_char 47 k -> same_value (find_value (target s') (internal k)) (get_value s k sc None).
Proof.
  intros C T H. destruct (all_keys_exact s sc C) as (_ & N & K). destruct (without_keys_spec s sc C T) as (A & B & D).
  destruct (import_lines s sc (all_keys s sc) (without_keys s sc) N) as (s' & E & A' & B' & F).
  { intros k Hk. apply K in Hk as [Hk1 Hk2]. destruct (get_value s k sc None) as [v|] eqn:Ev; [|congruence]. destruct (H k v Hk1 Ev). eauto. }
  exists s'. split; [exact E|]. split; [congruence|]. split; [congruence|]. intros k Hk. destruct (F k Hk) as [F1 F2].
  destruct (in_dec str_dec k (all_keys s sc)) as [I|I]; [auto|]. rewrite F2, D by auto.
  destruct (get_value s k sc None) as [v|] eqn:Ev; [|reflexivity]. destruct I. apply K. split; [exact Hk|congruence].
Qed.

(** C54: with one scope only, every value is afterwards the same as before. *)
Theorem export_import_same s : clean_settings s ->
  (forall k v, no_char 47 k -> get_value s k (only_target s) None = Some v -> exportable_key k /\ exportable v) ->
  exists s', import_text s (only_target s) (export_text s (only_target s)) = Some s' /\ other s' = other s /\
  forall k, no_char 47 k -> same_value (get_value s' k (only_target s) None) (get_value s k (only_target s) None).
Proof.
  intros C H. destruct (export_import s (only_target s)) as (s' & E & A & B & D); auto.
  - unfold target_in, only_target. destruct (write_user s); reflexivity.
  - exists s'. split; [exact E|]. split; [exact A|]. intros k Hk. specialize (D k Hk). unfold same_value in *. rewrite <- D. f_equal.
    unfold get_value, only_target, target. rewrite B. destruct (write_user s); cbn; [destruct (find_value (user s') (internal k)) as [[]|]; reflexivity|destruct (find_value (system s') (internal k)); reflexivity].
Qed.

(** By default the values of both scopes are exported and imported, and then lists of the system settings are there twice. *)
Theorem import_scopes_refuted : exists s s' k, clean_settings s /\ import_text s all_scopes (export_text s all_scopes) = Some s' /\
  get_value s k all_scopes None = Some (VStrs [[97]; [98]]) /\ get_value s' k all_scopes None = Some (VList [VStr [97]; VStr [98]; VStr [98]]).
Proof.
  exists (mkSettings [([120], VStrs [[97]])] [([120], VStrs [[98]])] true).
  exists (mkSettings [([120], VList [VStr [97]; VStr [98]])] [([120], VStrs [[98]])] true). exists [120].
  split; [|split; [|split]]; try reflexivity. split; intros k v [[= <- _]|[]]; intros [C|[]]; discriminate.
Qed.
(** A value with a line feed in it is not restored. *)
Theorem export_import_refuted : exists s s' k, clean_settings s /\ import_text s user_scope (export_text s user_scope) = Some s' /\
  get_value s k user_scope None = Some (VStr [97; 10; 98]) /\ get_value s' k user_scope None = Some (VStr [34; 97]).
Proof.
  exists (mkSettings [([120], VStr [97; 10; 98])] [] true). exists (mkSettings [([120], VStr [34; 97])] [] true). exists [120].
  split; [|split; [|split]]; try reflexivity. split; intros k v; [intros [[= <- _]|[]]; intros [C|[]]; discriminate|intros []].
Qed.
(** A JSON file has no settings below a name with a value, and numbers are stored differently after importing one. *)
Theorem json_children_refuted : exists s s' k, clean_settings s /\ import_json s user_scope (to_json 5 s user_scope []) = Some s' /\
  get_value s k user_scope None = Some (VStr [98]) /\ get_value s' k user_scope None = None.
Proof.
  exists (mkSettings [([120], VStr [97]); ([120; 47; 121], VStr [98])] [] true). exists (mkSettings [([120], VStr [97])] [] true). exists [120; 46; 121].
  split; [|split; [|split]]; try reflexivity. split; intros k v; [intros [[= <- _]|[[= <- _]|[]]]; intros C; cbn in C; intuition discriminate|intros []].
Qed.
Theorem json_number_refuted : exists s s' k, import_json s user_scope (to_json 5 s user_scope []) = Some s' /\
  set_value (mkSettings [] [] true) k (to_settings (VNum 5)) = Some s /\ get_value s' k user_scope None <> get_value s k user_scope None.
Proof.
  exists (mkSettings [([120], VHash [([], VNum 5)])] [] true). exists (mkSettings [([120], VNum 5)] [] true). exists [120].
  split; [|split]; try reflexivity. discriminate.
Qed.

(** ** Examples *)
Module Demo.
  Definition s := mkSettings [([120; 47; 121], VStrs [[97]; [98; 58; 34]]); ([120; 47; 122], VHash [([], VNum (-7))]); ([113], VStr [])] [([113], VStr [99])] true.
  Example text : export_text s user_scope = [113; 58; 32; 34; 34; 10; 120; 46; 121; 58; 32; 91; 34; 97; 34; 44; 32; 34; 98; 58; 92; 34; 34; 93; 10; 120; 46; 122; 58; 32; 45; 55; 10].
  Proof. reflexivity. Qed.
  Example back : import_text s user_scope (export_text s user_scope) = Some (mkSettings
    [([113], VStr []); ([120; 47; 121], VList [VStr [97]; VStr [98; 58; 34]]); ([120; 47; 122], VHash [([], VNum (-7))])] [([113], VStr [99])] true).
  Proof. reflexivity. Qed.
  Example hypotheses : clean_settings s /\ target_in s user_scope /\ exportable_key [120; 46; 121] /\ exportable (VHash [([], VNum (-7))]) /\ exportable (VStrs [[97]; [98; 58; 34]]).
  Proof.
    split; [|split; [reflexivity|split; [|split; [reflexivity|]]]].
    - split; intros k v H; cbn in H; intuition; repeat match goal with H : (_, _) = (_, _) |- _ => injection H as <- _ end; intros C; cbn in C; intuition discriminate.
    - unfold exportable_key. cbn. repeat split; try (intuition discriminate). intros (r & E). discriminate.
    - cbn. repeat constructor; cbn; intuition discriminate.
  Qed.
End Demo.

Print Assumptions export_import.
Print Assumptions export_import_same.
Print Assumptions import_scopes_refuted.
Print Assumptions export_import_refuted.
Print Assumptions json_children_refuted.
Print Assumptions json_number_refuted.
