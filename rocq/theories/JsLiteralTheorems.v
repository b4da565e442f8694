(** C44: what the JavaScript literals mean that values are written as. *)
From Coq Require Import List Bool Arith NArith ZArith Lia.
From Verif Require Import Str JsLiteralModel JsSpec.
Import ListNotations.
Local Open Scope N_scope.

(** ** Specification *)

(** Strings without line feeds and carriage returns. *)
Definition one_line (s : str) : Prop := ~ In 10 s /\ ~ In 13 s.

(** The number that JavaScript has for an integer: whole numbers below 2^53 are exact. *)
Definition js_number (z : Z) : js :=
  if (Z.abs z <? 2 ^ 31)%Z then JInt z else JFloat (Z.sgn z * Z.of_N (round_double (Z.abs_N z))).

(** The JavaScript value that stands for a value. *)
Fixpoint meaning (v : variant) : js :=
  match v with
  | QInvalid | QOther _ => JUndefined
  | QBool b => JBool b
  | QInt z => js_number z
  | QUInt n => js_number (Z.of_N n)
  | QStr s | QText s => JStr s
  | QList l => JArr (map meaning l)
  | QMap l => JObj (map (fun e => (fst e, meaning (snd e))) l)
  end.

(** All strings in a value are on one line; no key of a map is __proto__; the keys of a map differ, as in every QVariantMap; all
    types in it can be written. *)
Fixpoint all_one_line (v : variant) : Prop :=
  match v with
  | QStr s | QText s => one_line s
  | QList l => fold_right (fun w P => all_one_line w /\ P) True l
  | QMap l => fold_right (fun e P => one_line (fst e) /\ all_one_line (snd e) /\ P) True l
  | _ => True
  end.
Fixpoint no_proto (v : variant) : Prop :=
  match v with
  | QList l => fold_right (fun w P => no_proto w /\ P) True l
  | QMap l => fold_right (fun e P => fst e <> proto /\ no_proto (snd e) /\ P) True l
  | _ => True
  end.
Fixpoint well_formed (v : variant) : Prop :=
  match v with
  | QOther _ => False
  | QList l => fold_right (fun w P => well_formed w /\ P) True l
  | QMap l => NoDup (map fst l) /\ fold_right (fun e P => well_formed (snd e) /\ P) True l
  | _ => True
  end.

(** ** Proofs *)

Section Induction.
  Variable P : variant -> Prop.
  Hypothesis HInvalid : P QInvalid.
  Hypothesis HBool : forall b, P (QBool b).
  Hypothesis HInt : forall z, P (QInt z).
  Hypothesis HUInt : forall n, P (QUInt n).
  Hypothesis HStr : forall s, P (QStr s).
  Hypothesis HList : forall l, Forall P l -> P (QList l).
  Hypothesis HMap : forall l, Forall (fun e => P (snd e)) l -> P (QMap l).
  Hypothesis HText : forall s, P (QText s).
  Hypothesis HOther : forall s, P (QOther s).
  Fixpoint variant_rect' (v : variant) : P v :=
    match v with
    | QInvalid => HInvalid
    | QBool b => HBool b
    | QInt z => HInt z
    | QUInt n => HUInt n
    | QStr s => HStr s
    | QText s => HText s
    | QOther s => HOther s
    | QList l => HList l ((fix go l := match l return Forall P l with [] => Forall_nil P | w :: l => Forall_cons w (variant_rect' w) (go l) end) l)
    | QMap l => HMap l ((fix go l := match l return Forall (fun e => P (snd e)) l with
                                     | [] => Forall_nil _ | e :: l => Forall_cons e (variant_rect' (snd e)) (go l) end) l)
    end.
End Induction.

(** *** Strings *)

Definition lined (s : str) : bool := memN 10 s || memN 13 s.
Lemma lined_spec s : lined s = false <-> one_line s.
Proof. unfold lined, one_line. now rewrite orb_false_iff, !memN_notIn. Qed.

Lemma string_rest_escaped s rest : string_rest (escaped s ++ 34 :: rest) = if lined s then SyntaxError else Ok (s, rest).
Proof.
  induction s as [|c s IH]; [reflexivity|]. unfold lined in *. cbn [escaped memN existsb].
  change (existsb (N.eqb 10) s) with (memN 10 s). change (existsb (N.eqb 13) s) with (memN 13 s).
  destruct (N.eqb_spec c 92) as [->|E1].
  { cbn [orb app string_rest]. change (escape 92) with (@Ok str [92]). rewrite IH. cbn. destruct (memN 10 s || memN 13 s); reflexivity. }
  destruct (N.eqb_spec c 34) as [->|E2].
  { cbn [orb app string_rest]. change (escape 34) with (@Ok str [34]). rewrite IH. cbn. destruct (memN 10 s || memN 13 s); reflexivity. }
  cbn [orb app string_rest]. rewrite IH. rewrite (proj2 (N.eqb_neq c 34) E2), (proj2 (N.eqb_neq c 92) E1), (N.eqb_sym 10 c), (N.eqb_sym 13 c).
  destruct (c =? 10), (c =? 13), (memN 10 s), (memN 13 s); reflexivity.
Qed.

(** *** Numbers *)

Lemma dec_fuel_head fuel : forall n, 0 < n -> n < 2 ^ N.of_nat fuel -> exists c t, dec_fuel fuel n = c :: t /\ c <> 48.
Proof.
  induction fuel as [|fuel IH]; intros n H0 H.
  - change (2 ^ N.of_nat 0) with 1 in H. lia.
  - cbn [dec_fuel]. destruct (N.ltb_spec n 10).
    + exists (48 + n), []. split; [reflexivity|lia].
    + rewrite Nat2N.inj_succ, N.pow_succ_r' in H. destruct (IH (n / 10)) as (c & t & E & D).
      * apply N.div_str_pos. lia.
      * apply N.div_lt_upper_bound; lia.
      * rewrite E. exists c, (t ++ [48 + n mod 10]). split; [reflexivity|exact D].
Qed.
Lemma dec_head n : n = 0 /\ dec n = [48] \/ exists c t, dec n = c :: t /\ c <> 48.
Proof.
  destruct (N.eq_dec n 0) as [->|H]; [left; split; reflexivity|right]. apply dec_fuel_head; [lia|apply dec_bound].
Qed.
Lemma ends_not_digit s : ends s = true -> match s with [] => True | c :: _ => is_digit c = false end.
Proof. destruct s as [|c s]; cbn; auto. unfold is_name. destruct (is_digit c); [discriminate|reflexivity]. Qed.

Lemma number_here_dec n rest : ends rest = true -> number_here (dec n ++ rest) = Ok (number n, rest).
Proof.
  intros H. unfold number_here. rewrite (span_app is_digit (dec n) rest (dec_digits n) (ends_not_digit _ H)), H.
  destruct (dec_head n) as [[-> E]|(c & t & E & D)].
  - reflexivity.
  - rewrite E at 1. rewrite (proj2 (N.eqb_neq c 48) D). cbn [andb negb orb]. now rewrite undec_dec.
Qed.

Lemma ltb_of_N a b : (a <? b) = (Z.of_N a <? Z.of_N b)%Z.
Proof. unfold Z.ltb, N.ltb. now rewrite N2Z.inj_compare. Qed.
Lemma number_js n : number n = js_number (Z.of_N n).
Proof.
  unfold number, js_number. rewrite Zabs2N.id, Z.abs_eq by lia.
  replace (Z.of_N n <? 2 ^ 31)%Z with (n <? 2 ^ 31).
  - destruct (n <? 2 ^ 31) eqn:E; [reflexivity|]. f_equal. destruct n; [discriminate|]. change (Z.sgn (Z.of_N (N.pos p))) with 1%Z. now rewrite Z.mul_1_l.
  - change (2 ^ 31)%Z with (Z.of_N (2 ^ 31)). apply ltb_of_N.
Qed.
Lemma number_neg p : negated (number (Npos p)) = js_number (Z.neg p).
Proof.
  unfold number, js_number. change (Z.abs_N (Z.neg p)) with (Npos p). change (Z.abs (Z.neg p)) with (Z.of_N (Npos p)).
  replace (Z.of_N (N.pos p) <? 2 ^ 31)%Z with (N.pos p <? 2 ^ 31) by (change (2 ^ 31)%Z with (Z.of_N (2 ^ 31)); apply ltb_of_N).
  destruct (N.pos p <? 2 ^ 31); [reflexivity|]. generalize (round_double (N.pos p)). intros m. cbn [negated Z.sgn]. replace (-1 * Z.of_N m)%Z with (- Z.of_N m)%Z by lia. reflexivity.
Qed.

(** *** The first character *)

Definition starter (c : N) : bool := (c =? 34) || (c =? 91) || (c =? 123) || (c =? 45) || is_digit c || (c =? 116) || (c =? 102) || (c =? 117) || (c =? 85).
Lemma dec_starts n : exists c t, dec n = c :: t /\ is_digit c = true.
Proof. destruct (dec n) as [|c t] eqn:E; [destruct (dec_nonempty n E)|]. exists c, t. split; auto. pose proof (dec_digits n) as H. rewrite E in H. now inversion H. Qed.
Lemma literal_starts v : exists c t, js_literal v = c :: t /\ starter c = true.
Proof.
  unfold starter. destruct v as [|b|z|n|s|l|l|s|s]; try (now (eexists; eexists; split; [reflexivity|reflexivity])).
  - destruct b; eexists; eexists; split; reflexivity.
  - change (js_literal (QInt z)) with (js_int z). unfold js_int. destruct z; [| |eexists; eexists; split; reflexivity].
    + eexists; eexists; split; reflexivity.
    + destruct (dec_starts (Z.to_N (Z.pos p))) as (c & t & -> & D). exists c, t. rewrite D, !orb_true_r. now split.
  - destruct (dec_starts n) as (c & t & E & D). exists c, t. change (js_literal (QUInt n)) with (dec n). rewrite E, D, !orb_true_r. now split.
Qed.
Lemma starter_facts c : starter c = true -> is_space c = false /\ c <> 93 /\ c <> 125.
Proof.
  unfold starter, is_space, is_digit. rewrite !orb_true_iff, !andb_true_iff, !N.eqb_eq, !N.leb_le. intros H.
  repeat split; try lia. rewrite !orb_false_iff, !N.eqb_neq. lia.
Qed.
Lemma literal_after v c r : c = 93 \/ c = 125 -> after c (skip (js_literal v ++ r)) = None.
Proof.
  intros Hc. destruct (literal_starts v) as (d & t & -> & D). apply starter_facts in D as (D1 & D2 & D3).
  cbn [app skip]. rewrite D1. cbn [after]. rewrite (proj2 (N.eqb_neq d c)); [reflexivity|]. destruct Hc; congruence.
Qed.

(** *** Lists and maps *)

Fixpoint list_tail (l : list variant) : str := match l with [] => [] | v :: l => 44 :: 32 :: js_literal v ++ list_tail l end.
Fixpoint map_tail (l : list (str * variant)) : str := match l with [] => [] | (k, v) :: l => 44 :: js_str k ++ 58 :: js_literal v ++ map_tail l end.

Lemma literal_list l : js_literal (QList l) = 91 :: match l with [] => [] | v :: l => js_literal v ++ list_tail l end ++ [93].
Proof.
  cbn [js_literal]. do 2 f_equal.
  assert (G : forall l acc, acc <> [] -> fold_left (fun res child => (match res with [] => [] | _ => res ++ [44; 32] end) ++ js_literal child) l acc = acc ++ list_tail l).
  { clear l. induction l as [|v l IH]; intros acc Ha; cbn [fold_left list_tail]; [now rewrite app_nil_r|].
    rewrite IH.
    - destruct acc; [congruence|]. rewrite <- !app_assoc. reflexivity.
    - destruct acc; [congruence|]. discriminate. }
  destruct l as [|v l]; [reflexivity|]. cbn [fold_left app]. rewrite G; [reflexivity|].
  destruct (literal_starts v) as (c & t & -> & _). discriminate.
Qed.
Lemma literal_map l : js_literal (QMap l) = 123 :: match l with [] => [] | (k, v) :: l => js_str k ++ 58 :: js_literal v ++ map_tail l end ++ [125].
Proof.
  cbn [js_literal]. do 2 f_equal. destruct l as [|[k v] l]; [reflexivity|]. cbn [app]. f_equal. cbn [app]. do 2 f_equal.
  induction l as [|[k' v'] l IH]; [reflexivity|]. cbn [map_tail app]. rewrite IH. reflexivity.
Qed.

(** What evaluating finds: a syntax error, or the value, without properties __proto__. *)
Fixpoint clean (v : variant) : bool :=
  match v with
  | QStr s | QText s => negb (lined s)
  | QList l => forallb clean l
  | QMap l => forallb (fun e => negb (lined (fst e)) && clean (snd e)) l
  | _ => true
  end.
Fixpoint found (v : variant) : js :=
  match v with
  | QList l => JArr (map found l)
  | QMap l => JObj (filter (fun e => negb (str_eqb (fst e) proto)) (map (fun e => (fst e, found (snd e))) l))
  | v => meaning v
  end.

Definition parses (v : variant) : Prop := well_formed v -> forall fuel rest, ends rest = true -> (length (js_literal v) <= fuel)%nat ->
  expression fuel (js_literal v ++ rest) = if clean v then Ok (found v, rest) else SyntaxError.

Lemma expression_space fuel s : expression fuel (32 :: s) = expression fuel s.
Proof. destruct fuel; reflexivity. Qed.

Lemma elements_spec l : forall x fuel done rest, Forall parses (x :: l) -> Forall well_formed (x :: l) ->
  (length (js_literal x ++ list_tail l) < fuel)%nat ->
  elements fuel (js_literal x ++ list_tail l ++ 93 :: rest) done
  = if forallb clean (x :: l) then Ok (JArr (done ++ map found (x :: l)), rest) else SyntaxError.
Proof.
  induction l as [|y l IH]; intros x fuel done rest HP HW HF; (destruct fuel as [|fuel]; [lia|]); cbn [elements];
    inversion HP as [|? ? P1 P2]; inversion HW as [|? ? W1 W2]; subst; rewrite app_length in HF.
  - cbn [list_tail app]. rewrite (P1 W1 fuel (93 :: rest) eq_refl) by (cbn [length list_tail] in HF; lia). cbn [forallb map].
    destruct (clean x); [|reflexivity]. reflexivity.
  - cbn [list_tail app]. rewrite (P1 W1 fuel) by (reflexivity || lia). cbn [forallb map]. destruct (clean x); [|reflexivity].
    cbn [skip]. change (is_space 44) with false. cbn [after N.eqb Pos.eqb andb]. change (44 =? 44) with true. cbn [after].
    cbn [list_tail length] in HF. rewrite app_length in HF.
    assert (K : elements fuel (32 :: (js_literal y ++ list_tail l) ++ 93 :: rest) (done ++ [found x])
      = elements fuel (js_literal y ++ list_tail l ++ 93 :: rest) (done ++ [found x])).
    { destruct fuel as [|fuel]; [lia|]. cbn [elements]. now rewrite expression_space, <- app_assoc. }
    rewrite K, IH; auto; [|rewrite app_length; lia]. cbn [forallb map]. rewrite <- app_assoc. reflexivity.
Qed.

Lemma set_property_new l k v : ~ In k (map fst l) -> set_property l k v = l ++ [(k, v)].
Proof.
  induction l as [|[k' v'] l IH]; intros H; [reflexivity|]. cbn in H |- *. destruct (str_eqb k' k) eqn:E.
  - apply str_eqb_eq in E. tauto.
  - rewrite IH; tauto.
Qed.
Definition own (l : list (str * js)) := filter (fun e => negb (str_eqb (fst e) proto)) l.
Lemma property_own done k v : ~ In k (map fst done) -> property done k v = done ++ own [(k, v)].
Proof.
  intros H. unfold property, own. cbn. destruct (str_eqb k proto); cbn; [now rewrite app_nil_r|]. now apply set_property_new.
Qed.
Definition found_entry (e : str * variant) : str * js := (fst e, found (snd e)).
Definition clean_entry (e : str * variant) : bool := negb (lined (fst e)) && clean (snd e).

Lemma string_rest_key k r : string_rest (escaped k ++ [34] ++ r) = if lined k then SyntaxError else Ok (k, r).
Proof. apply string_rest_escaped. Qed.

Lemma properties_spec l : forall k v fuel done rest, Forall (fun e => parses (snd e)) ((k, v) :: l) -> Forall (fun e => well_formed (snd e)) ((k, v) :: l) ->
  NoDup (map fst ((k, v) :: l)) -> (forall k', In k' (map fst ((k, v) :: l)) -> ~ In k' (map fst done)) ->
  (length (js_str k ++ 58%N :: js_literal v ++ map_tail l) < fuel)%nat ->
  properties fuel ((js_str k ++ 58 :: js_literal v ++ map_tail l) ++ 125 :: rest) done
  = if forallb clean_entry ((k, v) :: l) then Ok (JObj (done ++ own (map found_entry ((k, v) :: l))), rest) else SyntaxError.
Proof.
  induction l as [|[k' v'] l IH]; intros k v fuel done rest HP HW HN HD HF; (destruct fuel as [|fuel]; [lia|]); cbn [properties];
    inversion HP as [|? ? P1 P2]; inversion HW as [|? ? W1 W2]; subst; cbn [snd] in *;
    unfold js_str in HF |- *; cbn [app skip]; change (is_space 34) with false; cbn [after]; change (34 =? 34) with true; cbv iota;
    rewrite <- !app_assoc; rewrite string_rest_key; cbn [forallb]; unfold clean_entry at 1; cbn [fst snd]; (destruct (lined k); [reflexivity|]);
    cbn [app negb andb skip]; change (is_space 58) with false; cbn [after]; change (58 =? 58) with true; cbv iota;
    cbn [app length] in HF; rewrite !app_length in HF; cbn [length] in HF; rewrite app_length in HF; cbn [length] in HF; rewrite <- ?app_assoc.
  - cbn [map_tail app]. rewrite (P1 W1 fuel (125 :: rest) eq_refl) by lia. destruct (clean v); [|reflexivity]. cbn.
    rewrite property_own; [reflexivity|]. apply HD. now left.
  - cbn [map_tail app]. rewrite (P1 W1 fuel) by (reflexivity || lia). destruct (clean v); [|reflexivity].
    cbn [skip]. change (is_space 44) with false. cbn [after]. change (44 =? 44) with true. cbv iota.
    cbn [map_tail length] in HF. inversion HN as [|? ? N1 N2]; subst.
    assert (D : forall k0, In k0 (map fst ((k', v') :: l)) -> ~ In k0 (map fst (property done k (found v)))).
    { intros k0 Hk H. rewrite property_own in H by (apply HD; now left). rewrite map_app, in_app_iff in H. destruct H as [H|H].
      - revert H. apply HD. now right.
      - unfold own in H. cbn in H. destruct (str_eqb k proto); cbn in H; [exact H|]. destruct H as [<-|[]]. contradiction. }
    specialize (IH k' v' fuel (property done k (found v)) rest P2 W2 N2 D).
    rewrite IH.
    + rewrite property_own by (apply HD; now left). cbn [andb forallb]. destruct (clean_entry (k', v') && forallb clean_entry l); [|reflexivity]. rewrite <- app_assoc. do 4 f_equal.
      cbn [map]. unfold own, found_entry. cbn. destruct (str_eqb k proto), (str_eqb k' proto); reflexivity.
    + lia.
Qed.

Lemma fold_Forall {A} (P : A -> Prop) l : fold_right (fun w Q => P w /\ Q) True l <-> Forall P l.
Proof. induction l as [|a l IH]; cbn; split; auto; intros H; [constructor; tauto|inversion H; tauto]. Qed.

Lemma word_digit c t a w : is_digit c = true -> is_digit a = false -> word_here (a :: w) (c :: t) = None.
Proof. intros H1 H2. cbn. destruct (N.eqb_spec a c); [congruence|reflexivity]. Qed.
Lemma expression_dec fuel n rest : ends rest = true -> expression (S fuel) (dec n ++ rest) = Ok (js_number (Z.of_N n), rest).
Proof.
  intros H. destruct (dec_starts n) as (c & t & E & D).
  assert (B : 48 <= c <= 57) by (unfold is_digit in D; rewrite andb_true_iff, !N.leb_le in D; exact D).
  rewrite <- number_js, <- (number_here_dec n rest H), E. cbn [expression app skip].
  assert (Hs : is_space c = false) by (unfold is_space; rewrite !orb_false_iff, !N.eqb_neq; lia). rewrite Hs. cbn [after].
  rewrite (proj2 (N.eqb_neq c 34)), (proj2 (N.eqb_neq c 91)), (proj2 (N.eqb_neq c 123)), (proj2 (N.eqb_neq c 45)) by lia.
  now rewrite !word_digit by auto.
Qed.
Lemma expression_str fuel s rest : expression (S fuel) (js_str s ++ rest) = if lined s then SyntaxError else Ok (JStr s, rest).
Proof.
  unfold js_str. cbn [expression app skip]. change (is_space 34) with false. cbn [after]. change (34 =? 34) with true. cbv iota.
  rewrite <- app_assoc, string_rest_key. destruct (lined s); reflexivity.
Qed.

Lemma parses_all v : parses v.
Proof.
  induction v as [|b|z|n|s|l IH|l IH|s|s] using variant_rect'; intros HW fuel rest HE HF.
  - destruct fuel as [|fuel]; [cbn in HF; lia|]. cbn. rewrite HE. reflexivity.
  - destruct fuel as [|fuel]; [destruct b; cbn in HF; lia|]. destruct b; cbn; rewrite HE; reflexivity.
  - destruct fuel as [|fuel]; [destruct (literal_starts (QInt z)) as (c & t & E & _); rewrite E in HF; cbn in HF; lia|].
    cbn [js_literal clean found meaning]. unfold js_int. destruct z as [|p|p].
    + now apply expression_dec.
    + now apply (expression_dec fuel (Npos p)).
    + cbn [expression app skip]. change (is_space 45) with false. cbn [after]. change (45 =? 34) with false. change (45 =? 91) with false.
      change (45 =? 123) with false. change (45 =? 45) with true. cbv iota. rewrite number_here_dec by auto. now rewrite number_neg.
  - destruct fuel as [|fuel]; [destruct (literal_starts (QUInt n)) as (c & t & E & _); rewrite E in HF; cbn in HF; lia|].
    now apply expression_dec.
  - destruct fuel as [|fuel]; [cbn in HF; lia|]. cbn [js_literal clean found meaning]. rewrite expression_str. destruct (lined s); reflexivity.
  - cbn [well_formed] in HW. apply fold_Forall in HW. rewrite literal_list in HF |- *. destruct fuel as [|fuel]; [cbn in HF; lia|].
    cbn [app length] in HF. cbn [expression app skip]. change (is_space 91) with false. cbn [after].
    change (91 =? 34) with false. change (91 =? 91) with true. cbv iota. destruct l as [|v l].
    + reflexivity.
    + rewrite <- app_assoc, <- app_assoc. rewrite literal_after by auto.
      change ([93] ++ rest) with (93 :: rest). rewrite elements_spec; auto. rewrite app_length in HF. cbn [length] in HF. lia.
  - cbn [well_formed] in HW. destruct HW as [HN HW]. apply (fold_Forall (fun e => well_formed (snd e))) in HW. rewrite literal_map in HF |- *. destruct fuel as [|fuel]; [cbn in HF; lia|].
    cbn [app length] in HF. cbn [expression app skip]. change (is_space 123) with false. cbn [after].
    change (123 =? 34) with false. change (123 =? 91) with false. change (123 =? 123) with true. cbv iota. destruct l as [|[k v] l].
    + reflexivity.
    + replace (after 125 (skip (((js_str k ++ 58 :: js_literal v ++ map_tail l) ++ [125]) ++ rest))) with (@None str) by reflexivity.
      rewrite <- app_assoc. change ([125] ++ rest) with (125 :: rest). rewrite properties_spec; auto.
      rewrite app_length in HF. cbn [length] in HF. lia.
  - destruct fuel as [|fuel]; [cbn in HF; lia|]. cbn [js_literal clean found meaning]. rewrite expression_str. destruct (lined s); reflexivity.
  - destruct HW.
Qed.

Lemma eval_literal v : well_formed v -> js_eval (js_literal v) = if clean v then Ok (found v) else SyntaxError.
Proof.
  intros H. unfold js_eval. pose proof (parses_all v H (S (length (js_literal v))) [] eq_refl ltac:(lia)) as E.
  rewrite app_nil_r in E. rewrite E. destruct (clean v); reflexivity.
Qed.

Lemma clean_spec v : clean v = true <-> all_one_line v.
Proof.
  induction v as [|b|z|n|s|l IH|l IH|s|s] using variant_rect'; cbn; try tauto.
  - rewrite negb_true_iff. apply lined_spec.
  - induction IH as [|v l Hv _ IHl]; cbn; [tauto|]. now rewrite andb_true_iff, Hv, IHl.
  - induction IH as [|v l Hv _ IHl]; cbn; [tauto|]. now rewrite !andb_true_iff, negb_true_iff, lined_spec, Hv, IHl, and_assoc.
  - rewrite negb_true_iff. apply lined_spec.
Qed.
Lemma found_meaning v : found v = meaning v <-> no_proto v.
Proof.
  induction v as [|b|z|n|s|l IH|l IH|s|s] using variant_rect'; cbn; try tauto.
  - assert (G : map found l = map meaning l <-> fold_right (fun w P => no_proto w /\ P) True l).
    { induction IH as [|v l Hv _ IHl]; cbn; [tauto|]. rewrite <- Hv, <- IHl. split; [intros [= -> ->]; auto|intros [-> ->]; auto]. }
    rewrite <- G. split; [now intros [=]|congruence].
  - assert (L : forall l, (length (filter (fun e : str * js => negb (str_eqb (fst e) proto)) l) <= length l)%nat).
    { clear. induction l as [|e l IHl]; cbn; [lia|]. destruct (negb _); cbn; lia. }
    assert (G : filter (fun e : str * js => negb (str_eqb (fst e) proto)) (map (fun e => (fst e, found (snd e))) l) = map (fun e => (fst e, meaning (snd e))) l
      <-> fold_right (fun e P => fst e <> proto /\ no_proto (snd e) /\ P) True l).
    { induction IH as [|[k v] l Hv _ IHl]; cbn [map filter fold_right fst snd] in *; [tauto|].
      rewrite <- IHl, <- Hv, <- str_eqb_neq. destruct (str_eqb k proto); cbn [negb].
      - split; [|intros [? ?]; discriminate]. intros E. apply (f_equal (@length _)) in E.
        cbn in E. rewrite map_length in E. specialize (L (map (fun e => (fst e, found (snd e))) l)). rewrite map_length in L. lia.
      - split; [intros [= -> ->]; auto|intros (_ & -> & ->); auto]. }
    rewrite <- G. split; [now intros [=]|congruence].
Qed.

(** ** Theorems *)

(** C44: a string written as a literal evaluates to the same string, unless it has a line feed or carriage return: then it cannot be
    evaluated at all. *)
Theorem js_string_exact s : (one_line s -> js_eval (js_str s) = Ok (JStr s)) /\ (~ one_line s -> js_eval (js_str s) = SyntaxError).
Proof.
  rewrite <- lined_spec. change (js_str s) with (js_literal (QStr s)). rewrite eval_literal by exact I. cbn.
  destruct (lined s); split; intros H; auto; congruence.
Qed.

(** C44: any value that can be written, including nested lists and maps, evaluates to itself exactly if the strings in it, also the
    keys of maps, have no line feeds and carriage returns and no key is __proto__. *)
Theorem js_literal_exact v : well_formed v -> (js_eval (js_literal v) = Ok (meaning v) <-> all_one_line v /\ no_proto v).
Proof.
  intros H. rewrite eval_literal by auto. rewrite <- clean_spec, <- found_meaning. destruct (clean v); split; try tauto; intros E.
  - split; congruence.
  - destruct E as [_ ->]. reflexivity.
  - discriminate.
  - destruct E; discriminate.
Qed.
Lemma round_double_id n : n <= 2 ^ 53 -> round_double n = n.
Proof.
  intros H. unfold round_double. destruct (N.ltb_spec n (2 ^ 53)) as [|H']; [reflexivity|].
  assert (n = 2 ^ 53) by lia. subst. reflexivity.
Qed.
(** C44: an integer evaluates to itself if it has at most 53 bits. *)
Theorem js_integer_exact z : (Z.abs z <= 2 ^ 53)%Z -> js_eval (js_int z) = Ok (JInt z) \/ js_eval (js_int z) = Ok (JFloat z).
Proof.
  intros H. change (js_int z) with (js_literal (QInt z)). rewrite eval_literal by exact I. cbn [clean found meaning]. unfold js_number.
  destruct (Z.ltb_spec (Z.abs z) (2 ^ 31)); [now left|right]. do 2 f_equal.
  rewrite round_double_id.
  - rewrite N2Z.inj_abs_N, Z.mul_comm. apply Z.abs_sgn.
  - apply N2Z.inj_le. rewrite N2Z.inj_abs_N. exact H.
Qed.
(** The overload for string lists writes the same text as the one for any value. *)
Theorem js_strs_same l : js_strs l = js_literal (QList (map QStr l)).
Proof.
  rewrite literal_list. unfold js_strs. destruct l as [|s l]; [reflexivity|]. cbn [map]. do 3 f_equal.
  induction l as [|t l IH]; [reflexivity|]. cbn [strs_tail map list_tail]. now rewrite IH.
Qed.

(** A string with a line feed in it does not survive. *)
Theorem js_literal_refuted : exists s, js_eval (js_str s) = SyntaxError.
Proof. exists [97; 10; 98]. reflexivity. Qed.
(** Nor does an integer of 64 bits, or the key __proto__; a double comes back as a string. *)
Theorem js_number_refuted : exists z, js_eval (js_int z) = Ok (JFloat (z - 1)).
Proof. exists (2 ^ 53 + 1)%Z. vm_compute. reflexivity. Qed.
Theorem js_proto_refuted : exists v, well_formed v /\ all_one_line v /\ js_eval (js_literal v) = Ok (JObj []) /\ v <> QMap [].
Proof. exists (QMap [(proto, QInt 1)]). split; [cbn; repeat constructor; auto|]. split; [cbn; unfold one_line; cbn; intuition discriminate|]. split; [reflexivity|discriminate]. Qed.
Theorem js_text_is_string s : one_line s -> js_eval (js_literal (QText s)) = Ok (JStr s).
Proof. apply js_string_exact. Qed.

(** ** Examples *)
Module Demo.
  Definition v := QMap [([97], QList [QInt (-5); QStr [34; 92; 110]; QInvalid; QList []]); ([98; 34], QMap [([], QBool true)]); ([99], QUInt 4294967296)].
  Example literal : js_literal v = [123; 34; 97; 34; 58; 91; 45; 53; 44; 32; 34; 92; 34; 92; 92; 110; 34; 44; 32; 117; 110; 100; 101; 102; 105; 110; 101; 100; 44; 32; 91; 93; 93; 44;
    34; 98; 92; 34; 34; 58; 123; 34; 34; 58; 116; 114; 117; 101; 125; 44; 34; 99; 34; 58; 52; 50; 57; 52; 57; 54; 55; 50; 57; 54; 125].
  Proof. reflexivity. Qed.
  Example hypotheses : well_formed v /\ all_one_line v /\ no_proto v.
  Proof.
    split; [|split]; [cbn| |].
    - repeat split; repeat constructor; cbn; intuition discriminate.
    - cbn. unfold one_line. cbn. intuition discriminate.
    - cbn. intuition discriminate.
  Qed.
  Example evaluated : js_eval (js_literal v) = Ok (JObj [([97], JArr [JInt (-5); JStr [34; 92; 110]; JUndefined; JArr []]); ([98; 34], JObj [([], JBool true)]); ([99], JFloat 4294967296)]).
  Proof. reflexivity. Qed.
  Example strings : js_strs [[97]; [98]] = [91; 34; 97; 34; 44; 32; 34; 98; 34; 93].
  Proof. reflexivity. Qed.
End Demo.

Print Assumptions js_string_exact.
Print Assumptions js_literal_exact.
Print Assumptions js_integer_exact.
Print Assumptions js_strs_same.
Print Assumptions js_literal_refuted.
Print Assumptions js_number_refuted.
Print Assumptions js_proto_refuted.
Print Assumptions js_text_is_string.
