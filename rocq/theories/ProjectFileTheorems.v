(** Changes to project files (C103 to C105). *)

From Coq Require Import String Ascii.
From Coq Require Import List Bool Arith NArith Lia Permutation Sorted.
From Verif Require Import Str JsLiteralModel ProjectFileModel.
From Verif Require JsSpec.
Import ListNotations.
Local Open Scope N_scope.

(** * Specification *)

(** The rest of a JavaScript string literal after its opening quote [q]: its value and
    what follows. *)
Fixpoint quoted (q : N) (s : str) : option (str * str) :=
  match s with
  | [] => None
  | c :: s =>
      if c =? q then Some ([], s)
      else if c =? 92 then
        match s with
        | [] => None
        | e :: s =>
            match JsSpec.escape e, quoted q s with
            | JsSpec.Ok a, Some (b, r) => Some (a ++ b, r)
            | _, _ => None
            end
        end
      else if (c =? 10) || (c =? 13) then None
      else option_map (fun p => (c :: fst p, snd p)) (quoted q s)
  end.

(** The text of a string literal, and its value. *)
Definition literal (t v : str) : Prop :=
  exists q b, (q = 34 \/ q = 39) /\ t = q :: b /\ quoted q b = Some (v, []).

Definition blank (w : str) : Prop := Forall (fun c => In c [32; 9; 10; 13]) w.

(** The text of an array literal of strings, after its opening bracket. *)
Inductive elements : list str -> str -> Prop :=
| Closed w : blank w -> elements [] (w ++ [93])
| Last w t v w' : blank w -> literal t v -> blank w' -> elements [v] (w ++ t ++ w' ++ [93])
| More w t v w' vs r : blank w -> literal t v -> blank w' -> elements vs r ->
    elements (v :: vs) (w ++ t ++ w' ++ 44 :: r).

Definition array_of (vs : list str) (t : str) : Prop := exists r, t = 91 :: r /\ elements vs r.

(** A string without line breaks, and one without quotes and backslashes, too. *)
Definition single_line (s : str) : Prop := ~ In 10 s /\ ~ In 13 s.
Definition plain (s : str) : Prop := single_line s /\ ~ In 34 s /\ ~ In 92 s.

(** The order of strings. *)
Inductive in_order : str -> str -> Prop :=
| OrderNil s : in_order [] s
| OrderLess x y a b : x < y -> in_order (x :: a) (y :: b)
| OrderSame x a b : in_order a b -> in_order (x :: a) (x :: b).

(** The elements of an array literal whose elements are string literals. *)
Definition strings (l : list element) (vs : list str) : Prop :=
  Forall2 (fun e v => e_value e = Some v /\ literal (e_text e) v) l vs.

Inductive subsequence {A : Type} : list A -> list A -> Prop :=
| SubNil : subsequence [] []
| SubKeep x a b : subsequence a b -> subsequence (x :: a) (x :: b)
| SubSkip x a b : subsequence a b -> subsequence a (x :: b).

(** All lines of a text end as on Windows; as on Unix. *)
Definition windows_lines (t : str) : Prop := forall a b, t = a ++ 10 :: b -> exists a', a = a' ++ [13].
Definition unix_lines (t : str) : Prop := forall a b, t = a ++ 10 :: b -> forall a', a <> a' ++ [13].

(** The same text in a file whose lines end so. *)
Fixpoint windows_text (t : str) : str :=
  match t with
  | [] => []
  | c :: r => (if c =? 10 then [13; 10] else [c]) ++ windows_text r
  end.

(** * Proofs: reading *)

Lemma quoted_app q s : forall v r x, quoted q s = Some (v, r) -> quoted q (s ++ x) = Some (v, r ++ x).
Proof.
  remember (length s) as n eqn:E. assert (L : (length s <= n)%nat) by lia. clear E. revert s L.
  induction n as [|n IH]; intros [|c s] L v r x H; simpl in L; try lia; try discriminate.
  cbn [app quoted] in *. destruct (c =? q); [injection H as <- <-; reflexivity|].
  destruct (c =? 92).
  - destruct s as [|e s]; [discriminate|]. cbn [app]. destruct (JsSpec.escape e); try discriminate.
    destruct (quoted q s) as [[b r']|] eqn:Q; [|discriminate]. injection H as <- <-.
    simpl in L. rewrite (IH s ltac:(lia) _ _ x Q). reflexivity.
  - destruct ((c =? 10) || (c =? 13)); [discriminate|].
    destruct (quoted q s) as [[b r']|] eqn:Q; [|discriminate]. cbn in H. injection H as <- <-.
    rewrite (IH s ltac:(lia) _ _ x Q). reflexivity.
Qed.

Lemma literal_unique t v t' v' r r' : literal t v -> literal t' v' -> t ++ r = t' ++ r' -> v = v' /\ r = r'.
Proof.
  intros (q & b & _ & -> & Q) (q' & b' & _ & -> & Q') E. cbn [app] in E. injection E as <- E.
  apply (quoted_app _ _ _ _ r) in Q. apply (quoted_app _ _ _ _ r') in Q'. rewrite E in Q. rewrite Q in Q'.
  injection Q' as -> H. auto.
Qed.

Definition shown (s : str) : Prop := match s with [] => False | c :: _ => ~ In c [32; 9; 10; 13] end.

Lemma blank_unique w : forall w' a b, blank w -> blank w' -> shown a -> shown b -> w ++ a = w' ++ b -> a = b.
Proof.
  induction w as [|c w IH]; intros [|d w'] a b B B' A1 A2 E; cbn [app] in E.
  - exact E.
  - subst a. inversion B'; subst. cbn in A1. contradiction.
  - subst b. inversion B; subst. cbn in A2. contradiction.
  - injection E as -> E. inversion B; inversion B'; subst. eapply IH; eauto.
Qed.

Lemma shown_quote t v r : literal t v -> shown (t ++ r).
Proof. intros (q & b & [-> | ->] & -> & _); cbn; intuition discriminate. Qed.
Lemma shown_close r : shown (93 :: r).
Proof. cbn. intuition discriminate. Qed.
Lemma shown_comma r : shown (44 :: r).
Proof. cbn. intuition discriminate. Qed.

Lemma literal_head t v r : literal t v -> t ++ r <> [93].
Proof. intros (q & b & [-> | ->] & -> & _) E; discriminate. Qed.

Theorem elements_unique vs t : elements vs t -> forall vs', elements vs' t -> vs = vs'.
Proof.
  intro H. induction H as [w B|w t v w' B L B'|w t v w' vs r B L B' H IH]; intros vs' H'.
  - inversion H' as [w2 B2 E0 E|w2 t2 v2 w2' B2 L2 B2' E0 E|w2 t2 v2 w2' vs2 r2 B2 L2 B2' H2 E0 E]; subst; [reflexivity|..]; exfalso.
    + apply blank_unique in E; auto using shown_close; [|eapply shown_quote; eauto]. exact (literal_head _ _ _ L2 E).
    + apply blank_unique in E; auto using shown_close; [|eapply shown_quote; eauto]. exact (literal_head _ _ _ L2 E).
  - inversion H' as [w2 B2 E0 E|w2 t2 v2 w2' B2 L2 B2' E0 E|w2 t2 v2 w2' vs2 r2 B2 L2 B2' H2 E0 E]; subst.
    + exfalso. symmetry in E. apply blank_unique in E; auto using shown_close; [|eapply shown_quote; eauto]. exact (literal_head _ _ _ L E).
    + apply blank_unique in E; auto; try (eapply shown_quote; eauto). destruct (literal_unique _ _ _ _ _ _ L2 L E) as [-> _]. reflexivity.
    + exfalso. apply blank_unique in E; auto; try (eapply shown_quote; eauto). destruct (literal_unique _ _ _ _ _ _ L2 L E) as [_ E2].
      apply blank_unique in E2; auto using shown_close, shown_comma. discriminate.
  - inversion H' as [w2 B2 E0 E|w2 t2 v2 w2' B2 L2 B2' E0 E|w2 t2 v2 w2' vs2 r2 B2 L2 B2' H2 E0 E]; subst.
    + exfalso. symmetry in E. apply blank_unique in E; auto using shown_close; [|eapply shown_quote; eauto]. exact (literal_head _ _ _ L E).
    + exfalso. apply blank_unique in E; auto; try (eapply shown_quote; eauto). destruct (literal_unique _ _ _ _ _ _ L2 L E) as [_ E2].
      apply blank_unique in E2; auto using shown_close, shown_comma. discriminate.
    + apply blank_unique in E; auto; try (eapply shown_quote; eauto). destruct (literal_unique _ _ _ _ _ _ L2 L E) as [-> E2].
      apply blank_unique in E2; auto using shown_comma. injection E2 as E2. subst r2. rewrite (IH vs2 H2). reflexivity.
Qed.

(** A text is an array of at most one list of strings. *)
Corollary array_unique vs vs' t : array_of vs t -> array_of vs' t -> vs = vs'.
Proof. intros (r & -> & H) (r' & E & H'). injection E as <-. eapply elements_unique; eauto. Qed.

(** ** What is written *)

Lemma quoted_escaped s r : single_line s -> quoted 34 (escaped s ++ 34 :: r) = Some (s, r).
Proof.
  induction s as [|c s IH]; intros [A1 A2]; [reflexivity|].
  assert (P : quoted 34 (escaped s ++ 34 :: r) = Some (s, r)) by (apply IH; split; intro X; [apply A1|apply A2]; right; exact X).
  cbn [escaped]. destruct (N.eqb_spec c 92) as [->|E1].
  { cbn [orb app quoted]. change (JsSpec.escape 92) with (@JsSpec.Ok str [92]). rewrite P. reflexivity. }
  destruct (N.eqb_spec c 34) as [->|E2].
  { cbn [orb app quoted]. change (JsSpec.escape 34) with (@JsSpec.Ok str [34]). rewrite P. reflexivity. }
  cbn [orb app quoted]. rewrite (proj2 (N.eqb_neq c 34) E2), (proj2 (N.eqb_neq c 92) E1).
  rewrite (proj2 (N.eqb_neq c 10)), (proj2 (N.eqb_neq c 13)); [|intros ->; apply A2; left; reflexivity|intros ->; apply A1; left; reflexivity].
  cbn [orb]. rewrite P. reflexivity.
Qed.

Lemma js_str_literal s : single_line s -> literal (js_str s) s.
Proof. intro H. exists 34, (escaped s ++ [34]). split; [left; reflexivity|]. split; [reflexivity|]. apply quoted_escaped. exact H. Qed.

Lemma escaped_plain s : ~ In 34 s -> ~ In 92 s -> escaped s = s.
Proof.
  induction s as [|c s IH]; intros A1 A2; [reflexivity|]. cbn [escaped].
  rewrite (proj2 (N.eqb_neq c 92)), (proj2 (N.eqb_neq c 34)); [|intros ->; apply A1; left; reflexivity|intros ->; apply A2; left; reflexivity].
  cbn [orb]. rewrite IH; [reflexivity|..]; intro X; [apply A1|apply A2]; right; exact X.
Qed.

Lemma plain_literal s : plain s -> literal (34 :: s ++ [34]) s.
Proof.
  intros (S1 & A1 & A2). pose proof (js_str_literal s S1) as L. unfold js_str in L. rewrite escaped_plain in L by assumption. exact L.
Qed.

Lemma blank_spaces n : blank (spaces n).
Proof. induction n as [|n IH]; constructor; [left; reflexivity|exact IH]. Qed.

Lemma blank_lf w : blank w -> blank (10 :: w).
Proof. intro H. constructor; [right; right; left; reflexivity|exact H]. Qed.

Lemma lines_elements a b ts vs : Forall2 literal ts vs -> elements vs (10 :: flat_map (file_line a) ts ++ spaces b ++ [93]).
Proof.
  intro F. assert (G : forall w, blank w -> elements vs (w ++ flat_map (file_line a) ts ++ spaces b ++ [93])).
  { induction F as [|t v ts vs L F IH]; intros w B.
    - cbn [flat_map app]. rewrite app_assoc. apply Closed. apply Forall_app. split; [exact B|apply blank_spaces].
    - cbn [flat_map]. unfold file_line at 1.
      replace (w ++ ((spaces a ++ t ++ [44; 10]) ++ flat_map (file_line a) ts) ++ spaces b ++ [93])
        with ((w ++ spaces a) ++ t ++ [] ++ 44 :: (10 :: []) ++ flat_map (file_line a) ts ++ spaces b ++ [93])
        by (rewrite <- !app_assoc; reflexivity).
      apply More; [apply Forall_app; split; [exact B|apply blank_spaces]|exact L|constructor|].
      apply IH. apply blank_lf. constructor. }
  apply (G [10]). apply blank_lf. constructor.
Qed.

Lemma complete_array a b ts vs : Forall2 literal ts vs -> array_of vs (complete b (flat_map (file_line a) ts)).
Proof. intro F. eexists. split; [reflexivity|]. apply lines_elements. exact F. Qed.

Lemma file_lines_map a l : file_lines a l = flat_map (file_line a) (List.map js_str l).
Proof. unfold file_lines. induction l as [|x l IH]; [reflexivity|]. cbn [flat_map List.map]. rewrite IH. reflexivity. Qed.

Lemma js_literals l : Forall single_line l -> Forall2 literal (List.map js_str l) l.
Proof. induction 1; constructor; auto using js_str_literal. Qed.

(** ** Order *)

Lemma before_or_same_spec a : forall b, before_or_same a b = true <-> in_order a b.
Proof.
  induction a as [|x a IH]; intros [|y b]; cbn [before_or_same].
  - split; [constructor|reflexivity].
  - split; [constructor|reflexivity].
  - split; [discriminate|]. intro H. inversion H.
  - destruct (N.ltb_spec x y) as [L|L].
    + split; [intros _; constructor; exact L|reflexivity].
    + destruct (N.eqb_spec x y) as [->|NE].
      * rewrite IH. split; [apply OrderSame|]. intro H. inversion H; subst; [lia|assumption].
      * split; [discriminate|]. intro H. inversion H; subst; [lia|congruence].
Qed.

Lemma order_total a : forall b, in_order a b \/ in_order b a.
Proof.
  induction a as [|x a IH]; intros [|y b]; [left; constructor|left; constructor|right; constructor|].
  destruct (N.lt_trichotomy x y) as [L|[->|L]]; [left; constructor; exact L| |right; constructor; exact L].
  destruct (IH b); [left|right]; apply OrderSame; assumption.
Qed.

Lemma order_trans a : forall b c, in_order a b -> in_order b c -> in_order a c.
Proof.
  induction a as [|x a IH]; intros b c H1 H2; [constructor|].
  inversion H1; subst; inversion H2; subst; try (apply OrderLess; lia). apply OrderSame. eapply IH; eauto.
Qed.

Lemma insert_sorted_perm x l : Permutation (insert_sorted x l) (x :: l).
Proof.
  induction l as [|y l IH]; [reflexivity|]. cbn [insert_sorted]. destruct (before_or_same x y); [reflexivity|].
  rewrite IH. apply perm_swap.
Qed.

Lemma sorted_perm l : Permutation (sorted l) l.
Proof. induction l as [|x l IH]; [reflexivity|]. cbn [sorted fold_right]. rewrite insert_sorted_perm. constructor. exact IH. Qed.

Lemma insert_sorted_sorted x l : StronglySorted in_order l -> StronglySorted in_order (insert_sorted x l).
Proof.
  induction l as [|y l IH]; intro H; cbn [insert_sorted]; [repeat constructor|].
  inversion H as [|? ? S1 F]; subst. destruct (before_or_same x y) eqn:E.
  - apply before_or_same_spec in E. constructor; [exact H|]. constructor; [exact E|].
    eapply Forall_impl; [|exact F]. intros z Z. eapply order_trans; eauto.
  - constructor; [apply IH; exact S1|]. apply (Permutation_Forall (Permutation_sym (insert_sorted_perm x l))).
    constructor; [|exact F]. destruct (order_total x y) as [O|O]; [|exact O]. apply before_or_same_spec in O. congruence.
Qed.

Lemma sorted_sorted l : StronglySorted in_order (sorted l).
Proof. induction l as [|x l IH]; [constructor|]. apply insert_sorted_sorted. exact IH. Qed.

Lemma forall_sorted (P : str -> Prop) l : Forall P l -> Forall P (sorted l).
Proof. intro F. exact (Permutation_Forall (Permutation_sym (sorted_perm l)) F). Qed.

(** * C103: adding files *)

Lemma split_at_spec first l : exists a b, split_at first l = (a, b) /\ l = a ++ b
  /\ Forall (fun x => in_order x first) a /\ match b with [] => True | x :: _ => ~ in_order x first end.
Proof.
  induction l as [|x l IH]; [exists [], []; repeat split; constructor|]. cbn [split_at].
  destruct (before_or_same x first) eqn:E.
  - destruct IH as (a & b & -> & -> & F & B). exists (x :: a), b. repeat split; auto. constructor; [apply before_or_same_spec; exact E|exact F].
  - exists [], (x :: l). repeat split; [constructor|]. intro X. apply before_or_same_spec in X. congruence.
Qed.

Lemma strings_texts l vs : strings l vs -> Forall2 literal (List.map e_text l) vs.
Proof. induction 1 as [|e v l vs [_ H] F IH]; constructor; auto. Qed.

(** The new right-hand side is an array of the old files, in their order, with the new
    ones, sorted, among them: after the first files whose texts are not greater than
    that of the first new one. *)
Theorem files_added_to_array indent files l old :
  strings l old -> Forall single_line files -> files <> [] ->
  exists rhs front new back lf lb,
    added_rhs indent files (ArrayLiteral l) = Some rhs /\ array_of (front ++ new ++ back) rhs
    /\ old = front ++ back /\ Permutation new files /\ StronglySorted in_order new
    /\ l = lf ++ lb /\ length lf = length front
    /\ (forall e, In e lf -> exists f, hd_error new = Some f /\ in_order (e_text e) (js_str f))
    /\ (forall e f, hd_error lb = Some e -> hd_error new = Some f -> ~ in_order (e_text e) (js_str f)).
Proof.
  intros SL F NE. unfold added_rhs.
  destruct (split_at_spec (js_str (hd [] (sorted files))) (List.map e_text l)) as (a & b & E & Eab & Fa & Fb). rewrite E.
  assert (SPL : exists lf lb, l = lf ++ lb /\ a = List.map e_text lf /\ b = List.map e_text lb).
  { clear - Eab. revert l Eab. induction a as [|x a IH]; intros l E.
    - exists [], l. auto.
    - destruct l as [|e l]; [discriminate|]. injection E as <- E. destruct (IH l E) as (lf & lb & -> & -> & ->).
      exists (e :: lf), lb. auto. }
  destruct SPL as (lf & lb & -> & -> & ->). apply Forall2_app_inv_l in SL. destruct SL as (front & back & S1 & S2 & ->).
  assert (H0 : exists f r, sorted files = f :: r).
  { destruct (sorted files) as [|f r] eqn:Es; [|eauto]. exfalso. apply NE. apply Permutation_nil. rewrite <- Es. apply sorted_perm. }
  destruct H0 as (f & r & Hs).
  eexists. exists front, (sorted files), back, lf, lb. split; [reflexivity|]. repeat split.
  - rewrite file_lines_map, <- !flat_map_app. apply complete_array.
    apply Forall2_app; [apply strings_texts; exact S1|]. apply Forall2_app; [apply js_literals, forall_sorted, F|apply strings_texts; exact S2].
  - apply sorted_perm.
  - apply sorted_sorted.
  - clear - S1. induction S1; cbn; congruence.
  - intros e I1. exists f. rewrite Hs. split; [reflexivity|]. rewrite Hs in Fa. rewrite Forall_forall in Fa. apply Fa. apply in_map. exact I1.
  - intros e f' I1 I2. rewrite Hs in I2, Fb. injection I2 as <-. destruct lb as [|e' lb]; [discriminate|]. injection I1 as ->. exact Fb.
Qed.

(** All elements stay as they are written, also those that are not string literals. *)
Theorem texts_kept indent files l : files <> [] ->
  exists rhs front new back, added_rhs indent files (ArrayLiteral l) = Some rhs
    /\ List.map e_text l = front ++ back /\ Permutation new files
    /\ rhs = [91; 10] ++ flat_map (fun t => spaces (indent + 8) ++ t ++ [44; 10]) (front ++ List.map js_str new ++ back)
             ++ spaces (indent + 4) ++ [93].
Proof.
  intros NE. unfold added_rhs.
  destruct (split_at_spec (js_str (hd [] (sorted files))) (List.map e_text l)) as (a & b & E & Eab & _). rewrite E.
  eexists. exists a, (sorted files), b. split; [reflexivity|]. split; [exact Eab|]. split; [apply sorted_perm|].
  unfold complete. rewrite file_lines_map, <- !flat_map_app. replace (indent + 4 + 4)%nat with (indent + 8)%nat by lia. reflexivity.
Qed.

(** A single string becomes an array of it and the new files. *)
Theorem files_added_to_string indent files v :
  single_line v -> Forall single_line files ->
  exists rhs new, added_rhs indent files (StringLiteral v) = Some rhs /\ array_of new rhs
    /\ Permutation new (v :: files) /\ StronglySorted in_order new.
Proof.
  intros Sv F. eexists. exists (sorted (sorted files ++ [v])). split; [reflexivity|]. repeat split.
  - rewrite file_lines_map. apply complete_array. apply js_literals. apply forall_sorted. apply Forall_app. split; [apply forall_sorted, F|auto].
  - rewrite sorted_perm. rewrite Permutation_app_comm. cbn [app]. constructor. apply sorted_perm.
  - apply sorted_sorted.
Qed.

(** With any other expression, there is an array of the new files to which it is
    concatenated. *)
Theorem files_added_to_expression indent files t : Forall single_line files ->
  exists rhs a new, added_rhs indent files (OtherExpression t) = Some rhs
    /\ rhs = a ++ [46; 99; 111; 110; 99; 97; 116; 40] ++ t ++ [41]
    /\ array_of new a /\ Permutation new files /\ StronglySorted in_order new.
Proof.
  intro F. eexists. eexists. exists (sorted files). split; [reflexivity|]. split; [reflexivity|].
  split; [|split; [apply sorted_perm|apply sorted_sorted]].
  rewrite file_lines_map. apply complete_array, js_literals, forall_sorted, F.
Qed.

(** A file name with a line break makes a text that is no array. *)
Theorem file_with_line_break_refuted : exists files rhs,
  files <> [] /\ added_rhs 0 files (ArrayLiteral []) = Some rhs /\ forall vs, ~ array_of vs rhs.
Proof.
  exists [[97; 10; 98]]. eexists. split; [discriminate|]. split; [vm_compute; reflexivity|].
  intros vs (r & E & H). injection E as <-.
  assert (X : forall w t v x, blank w -> literal t v -> w ++ t ++ x = 10 :: spaces 8 ++ [34; 97; 10; 98; 34; 44; 10; 32; 32; 32; 32; 93] -> False).
  { intros w t v x B L E. apply (blank_unique w (10 :: spaces 8)) in E; auto.
    - destruct L as (q & b & Hq & -> & Q). injection E as -> E. apply (quoted_app _ _ _ _ x) in Q. rewrite E in Q. cbn in Q. discriminate.
    - apply blank_lf, blank_spaces.
    - eapply shown_quote; eauto.
    - cbn. intuition discriminate. }
  inversion H as [w B E0 E|w t v w' B L B' E0 E|w t v w' vs' r B L B' H' E0 E]; subst.
  - assert (Y : [93] = [34; 97; 10; 98; 34; 44; 10; 32; 32; 32; 32; 93]).
    { apply (blank_unique w (10 :: spaces 8)); auto using shown_close; [apply blank_lf, blank_spaces|cbn; intuition discriminate]. }
    discriminate.
  - exact (X _ _ _ _ B L E).
  - exact (X _ _ _ _ B L E).
Qed.

(** * C103: removing files *)

Lemma remove_one_some x l r : remove_one x l = Some r -> Permutation l (x :: r).
Proof.
  revert r. induction l as [|y l IH]; intros r H; [discriminate|]. cbn [remove_one] in H. destruct (str_eqb y x) eqn:E.
  - apply str_eqb_eq in E. subst y. injection H as <-. reflexivity.
  - destruct (remove_one x l) as [r'|] eqn:R; [|discriminate]. injection H as <-. rewrite (IH r' eq_refl). apply perm_swap.
Qed.
Lemma remove_one_none x l : remove_one x l = None -> ~ In x l.
Proof.
  induction l as [|y l IH]; intro H; [tauto|]. cbn [remove_one] in H. destruct (str_eqb y x) eqn:E; [discriminate|].
  destruct (remove_one x l) as [r'|] eqn:R; [discriminate|]. intros [->|I1]; [rewrite str_eqb_refl in E; discriminate|]. exact (IH eq_refl I1).
Qed.

Lemma remaining_spec l vs : strings l vs -> forall remove,
  exists new rest, remaining l remove = Some (new, rest)
    /\ (exists gone, Permutation remove (gone ++ rest) /\ Permutation vs (gone ++ new)) /\ subsequence new vs
    /\ (forall x, In x rest -> In x new -> False)
    /\ (NoDup vs -> forall x, In x new <-> In x vs /\ ~ In x remove).
Proof.
  induction 1 as [|e v l vs [Ev _] F IH]; intro remove.
  - exists [], remove. split; [reflexivity|]. split; [exists []; split; reflexivity|]. split; [constructor|]. split; [intros x _ []|]. intros _ x. simpl. tauto.
  - cbn [remaining]. rewrite Ev. destruct (remove_one v remove) as [remove'|] eqn:R.
    + destruct (IH remove') as (new & rest & E & (gone & P1 & P2) & Sub & D & N0). exists new, rest. split; [exact E|].
      pose proof (remove_one_some _ _ _ R) as P. split; [exists (v :: gone); split; [rewrite P, P1; reflexivity|cbn; constructor; exact P2]|].
      split; [apply SubSkip; exact Sub|]. split; [exact D|].
      intros ND x. inversion ND as [|? ? A1 A2]; subst. rewrite (N0 A2 x). split.
      * intros [I1 I2]. split; [right; exact I1|]. intro I3. apply (Permutation_in _ P) in I3. destruct I3 as [<-|I3]; contradiction.
      * intros [[<-|I1] I2]; [exfalso; apply I2; apply (Permutation_in _ (Permutation_sym P)); left; reflexivity|].
        split; [exact I1|]. intro I3. apply I2. apply (Permutation_in _ (Permutation_sym P)). right. exact I3.
    + destruct (IH remove) as (new & rest & E & (gone & P1 & P2) & Sub & D & N0). rewrite E. cbn [option_map fst snd].
      apply remove_one_none in R. exists (v :: new), rest. split; [reflexivity|]. split.
      { exists gone. split; [exact P1|]. rewrite P2. apply Permutation_middle. }
      split; [apply SubKeep; exact Sub|]. split.
      { intros x I1 [<-|I2]; [|eapply D; eauto]. apply R. apply (Permutation_in _ (Permutation_sym P1)). apply in_or_app. right. exact I1. }
      intros ND x. inversion ND as [|? ? A1 A2]; subst. specialize (N0 A2 x). simpl. rewrite N0. split.
      * intros [<-|[I1 I2]]; [auto|auto].
      * intros [[<-|I1] I2]; [left; reflexivity|right; auto].
Qed.

(** Removing succeeds if and only if all files are there (as often as they are given). *)
Theorem files_removed_if_there indent files l old : strings l old ->
  ((exists rhs, removed_rhs indent files (ArrayLiteral l) = Some rhs) <-> exists new, Permutation old (files ++ new)).
Proof.
  intro SL. destruct (remaining_spec l old SL files) as (new & rest & E & (gone & P1 & P2) & _ & D & _).
  unfold removed_rhs. rewrite E. split.
  - intros (rhs & H). destruct rest as [|x rest]; [|discriminate]. rewrite app_nil_r in P1. exists new. rewrite P1. exact P2.
  - intros (new' & P). destruct rest as [|x rest]; [eauto|]. exfalso.
    (* x is given more often than it is there *)
    assert (C : forall y, count_occ str_dec old y = (count_occ str_dec gone y + count_occ str_dec new y)%nat).
    { intro y. rewrite <- count_occ_app. apply Permutation_count_occ. exact P2. }
    assert (C' : forall y, count_occ str_dec files y = (count_occ str_dec gone y + count_occ str_dec (x :: rest) y)%nat).
    { intro y. rewrite <- count_occ_app. apply Permutation_count_occ. exact P1. }
    assert (C'' : forall y, count_occ str_dec old y = (count_occ str_dec files y + count_occ str_dec new' y)%nat).
    { intro y. rewrite <- count_occ_app. apply Permutation_count_occ. exact P. }
    specialize (C x). specialize (C' x). specialize (C'' x).
    assert (In x (x :: rest)) as I0 by (left; reflexivity).
    pose proof (proj1 (count_occ_In str_dec (x :: rest) x) I0).
    pose proof (proj1 (count_occ_not_In str_dec new x) (fun Y => D x I0 Y)). lia.
Qed.

(** Then the new right-hand side is an array of the others, in their order, if their
    names have no quotes and backslashes. *)
Theorem files_removed_partial indent files l old rhs :
  strings l old -> removed_rhs indent files (ArrayLiteral l) = Some rhs ->
  (forall f, In f old -> plain f) ->
  exists new, array_of new rhs /\ Permutation old (files ++ new) /\ subsequence new old
    /\ (NoDup old -> forall f, In f new <-> In f old /\ ~ In f files).
Proof.
  intros SL H PL. destruct (remaining_spec l old SL files) as (new & rest & E & (gone & P1 & P2) & Sub & D & N0).
  unfold removed_rhs in H. rewrite E in H. destruct rest as [|x rest]; [|discriminate]. injection H as <-.
  rewrite app_nil_r in P1. exists new. split; [|split; [rewrite P1; exact P2|split; [exact Sub|exact N0]]].
  replace (flat_map (fun f => file_line (indent + 4 + 4) (34 :: f ++ [34])) new)
    with (flat_map (file_line (indent + 4 + 4)) (List.map (fun f => 34 :: f ++ [34]) new))
    by (clear; induction new as [|y new IH]; [reflexivity|]; cbn [List.map flat_map]; rewrite IH; reflexivity).
  apply complete_array. assert (PN : Forall plain new).
  { apply Forall_forall. intros f I1. apply PL. apply (Permutation_in _ (Permutation_sym P2)). apply in_or_app. right. exact I1. }
  clear - PN. induction PN; constructor; auto using plain_literal.
Qed.

Theorem string_removed indent files v : 
  (removed_rhs indent files (StringLiteral v) = Some [91; 93] <-> files = [v])
  /\ (forall rhs, removed_rhs indent files (StringLiteral v) = Some rhs -> array_of [] rhs).
Proof.
  unfold removed_rhs. split.
  - destruct files as [|f [|g files]]; try (split; discriminate). destruct (str_eqb v f) eqn:E.
    + apply str_eqb_eq in E. subst f. split; reflexivity.
    + split; [discriminate|]. intro H. injection H as ->. rewrite str_eqb_refl in E. discriminate.
  - intros rhs H. destruct files as [|f [|g files]]; try discriminate. destruct (str_eqb v f); [|discriminate]. injection H as <-.
    exists [93]. split; [reflexivity|]. apply (Closed []). constructor.
Qed.

(** Removing one file changes the name of another one: the array of a file and of one
    with a backslash in its name. *)
Theorem files_removed_refuted : exists l old files rhs new,
  strings l old /\ removed_rhs 0 files (ArrayLiteral l) = Some rhs /\ array_of new rhs
  /\ ~ Permutation old (files ++ new).
Proof.
  exists [Element (js_str [97]) (Some [97]); Element (js_str [98; 92; 116]) (Some [98; 92; 116])].
  exists [[97]; [98; 92; 116]], [[97]]. eexists. exists [[98; 9]]. split.
  { repeat constructor; apply js_str_literal; split; cbn; intuition discriminate. }
  split; [vm_compute; reflexivity|]. split.
  - eexists. split; [reflexivity|].
    apply (More (10 :: spaces 8) [34; 98; 92; 116; 34] [98; 9] [] [] (10 :: spaces 4 ++ [93])).
    + apply blank_lf, blank_spaces.
    + exists 34, [98; 92; 116; 34]. split; [left; reflexivity|]. split; reflexivity.
    + constructor.
    + apply (Closed (10 :: spaces 4)). apply blank_lf, blank_spaces.
  - intro P. assert (X : In [98; 92; 116] ([[97]] ++ [[98; 9]])) by (apply (Permutation_in _ P); right; left; reflexivity).
    cbn in X. intuition discriminate.
Qed.

(** What was added can be removed; then the files are the old ones. *)
Theorem add_then_remove indent files l old rhs l' new :
  strings l old -> (forall f, In f old -> plain f) -> (forall f, In f files -> plain f) -> files <> [] ->
  NoDup files -> NoDup old -> (forall f, In f files -> ~ In f old) ->
  added_rhs indent files (ArrayLiteral l) = Some rhs -> strings l' new -> array_of new rhs ->
  exists rhs', removed_rhs indent files (ArrayLiteral l') = Some rhs' /\ array_of old rhs'.
Proof.
  intros SL PO PF NE NF NO DJ A1 SL' AN.
  destruct (files_added_to_array indent files l old SL) as (rhs0 & front & added & back & lf & lb & E & AO & Eo & P & _).
  - apply Forall_forall. intros f I1. apply PF. exact I1.
  - exact NE.
  - rewrite A1 in E. injection E as <-. pose proof (array_unique _ _ _ AN AO) as ->.
    assert (PP : Permutation (front ++ added ++ back) (files ++ old)).
    { rewrite Eo, <- P. rewrite !app_assoc. apply Permutation_app_tail. apply Permutation_app_comm. }
    destruct (proj2 (files_removed_if_there indent files l' _ SL')) as (rhs' & R); [exists old; exact PP|].
    exists rhs'. split; [exact R|].
    destruct (files_removed_partial indent files l' _ rhs' SL' R) as (new & AN' & _ & Sub & MEM).
    + intros f I1. apply (Permutation_in _ PP) in I1. apply in_app_or in I1. destruct I1; auto.
    + assert (ND : NoDup (front ++ added ++ back)).
      { apply (Permutation_NoDup (Permutation_sym PP)). clear - NF NO DJ.
        induction files as [|x files IH]; [exact NO|]. inversion NF; subst. cbn. constructor.
        - intro X. apply in_app_or in X. destruct X as [X|X]; [contradiction|]. exact (DJ x (or_introl eq_refl) X).
        - apply IH; [assumption|]. intros f I1. apply DJ. right. exact I1. }
      specialize (MEM ND).
      (* the subsequence of the elements not in files is the old list *)
      assert (U : forall (whole a : list str), subsequence a whole -> NoDup whole ->
                (forall f, In f a <-> In f whole /\ ~ In f files) -> forall b, subsequence b whole ->
                (forall f, In f b <-> In f whole /\ ~ In f files) -> a = b).
      { clear. induction whole as [|x whole IH]; intros a SA ND MA b SB MB.
        - inversion SA; inversion SB; reflexivity.
        - inversion ND as [|? ? A1 A2]; subst.
          assert (T : forall c, subsequence c whole -> forall y, In y c -> In y whole).
          { clear. intros c SC. induction SC; intros y H0; [exact H0|destruct H0; [left; auto|right; auto]|right; auto]. }
          assert (MM : forall c, subsequence c whole -> (forall f, In f c <-> In f (x :: whole) /\ ~ In f files) ->
                    In x files /\ forall f, In f c <-> In f whole /\ ~ In f files).
          { intros c SC MC. assert (NX : ~ In x c) by (intro X; apply A1; eapply T; eauto). split.
            - destruct (in_dec str_dec x files) as [I0|I0]; [exact I0|]. exfalso. apply NX. apply MC. split; [left; reflexivity|exact I0].
            - intro f. rewrite MC. simpl. split; [|tauto]. intros [[<-|I1] I2]; [|tauto]. exfalso. apply NX. apply MC. split; [left; reflexivity|exact I2]. }
          assert (MK : forall c, subsequence c whole -> (forall f, In f (x :: c) <-> In f (x :: whole) /\ ~ In f files) ->
                    ~ In x files /\ forall f, In f c <-> In f whole /\ ~ In f files).
          { intros c SC MC. assert (NX : ~ In x c) by (intro X; apply A1; eapply T; eauto). split.
            - apply (MC x). left. reflexivity.
            - intro f. specialize (MC f). simpl in MC. split; [|intros [I1 I2]].
              + intro I1. destruct (proj1 MC (or_intror I1)) as [[<-|I2] I3]; [contradiction|auto].
              + destruct (proj2 MC (conj (or_intror I1) I2)) as [<-|I3]; [contradiction|exact I3]. }
          inversion SA as [|x1 a' w1 SA'|x1 a' w1 SA']; subst; inversion SB as [|x2 b' w2 SB'|x2 b' w2 SB']; subst.
          + f_equal. destruct (MK _ SA' MA) as [_ Ma]. destruct (MK _ SB' MB) as [_ Mb]. eapply IH; eauto.
          + exfalso. destruct (MK _ SA' MA) as [X _]. destruct (MM _ SB' MB) as [Y _]. contradiction.
          + exfalso. destruct (MM _ SA' MA) as [X _]. destruct (MK _ SB' MB) as [Y _]. contradiction.
          + destruct (MM _ SA' MA) as [_ Ma]. destruct (MM _ SB' MB) as [_ Mb]. eapply IH; eauto. }
      replace old with new; [exact AN'|]. eapply (U _ _ Sub ND MEM).
      * rewrite Eo. assert (SUBAPP : forall (p q m : list str), subsequence (p ++ q) (p ++ m ++ q)).
        { clear. intros p q m. induction p as [|x p IH]; [|apply SubKeep; exact IH]. cbn [app].
          induction m as [|y m IH]; [|apply SubSkip; exact IH]. cbn [app]. induction q; constructor; assumption. }
        apply SUBAPP.
      * intro f. split.
        -- intro I1. split; [apply (Permutation_in _ (Permutation_sym PP)); apply in_or_app; right; exact I1|]. intro I2. exact (DJ f I2 I1).
        -- intros [I1 I2]. apply (Permutation_in _ PP) in I1. apply in_app_or in I1. destruct I1; [contradiction|assumption].
Qed.

(** * C104: the rest of the file *)

Lemma place_lt t : forall l c, t <> [] -> let '(a, b) := place l c t in (l < a \/ (l = a /\ c < b))%nat.
Proof.
  induction t as [|x t IH]; intros l c NE; [congruence|]. cbn [place]. destruct t as [|y t].
  - destruct (x =? 10); cbn [place]; lia.
  - destruct (x =? 10).
    + specialize (IH (S l) 1%nat ltac:(discriminate)). destruct (place (S l) 1 (y :: t)) as [a b]. lia.
    + specialize (IH l (S c) ltac:(discriminate)). destruct (place l (S c) (y :: t)) as [a b]. lia.
Qed.

Lemma place_app a : forall l c b, place l c (a ++ b) = place (fst (place l c a)) (snd (place l c a)) b.
Proof.
  induction a as [|x a IH]; intros l c b; [reflexivity|]. cbn [app place]. destruct (x =? 10); apply IH.
Qed.

Lemma find_item_spec front : forall before i back,
  (forall j, In j front -> i_before j <> []) ->
  find_item (fst (place 1 1 (before ++ flat_map item_text front))) (snd (place 1 1 (before ++ flat_map item_text front))) before (front ++ i :: back)
  = Some (before ++ flat_map item_text front, i, back).
Proof.
  induction front as [|j front IH]; intros before i back NE.
  - cbn [flat_map app find_item]. rewrite app_nil_r. destruct (place 1 1 before) as [a b]. cbn [fst snd]. rewrite !Nat.eqb_refl. reflexivity.
  - cbn [flat_map app find_item]. rewrite app_assoc.
    assert (NT : item_text j ++ flat_map item_text front <> []).
    { unfold item_text. specialize (NE j (or_introl eq_refl)). destruct (i_before j); [congruence|discriminate]. }
    pose proof (place_lt _ (fst (place 1 1 before)) (snd (place 1 1 before)) NT) as L.
    rewrite <- place_app in L. rewrite app_assoc in L.
    destruct (place 1 1 before) as [a b] eqn:P. destruct (place 1 1 ((before ++ item_text j) ++ flat_map item_text front)) as [x y] eqn:P2.
    cbn [fst snd] in *. replace ((a =? x)%nat && (b =? y)%nat)%bool with false.
    + pose proof (IH (before ++ item_text j) i back (fun k I1 => NE k (or_intror I1))) as H. rewrite P2 in H. exact H.
    + symmetry. apply andb_false_iff. destruct L as [L|[-> L]]; [left; apply Nat.eqb_neq; lia|right; apply Nat.eqb_neq; lia].
Qed.

(** Adding and removing change only the right-hand side of the binding of the item
    whose place is given (or insert it), at most with a semicolon. *)
Theorem only_binding_changed head front i back files add :
  (forall j, In j front -> i_before j <> []) -> files <> [] ->
  let before := head ++ flat_map item_text front in
  let after := flat_map item_text back in
  let d := Document head (front ++ i :: back) in
  let '(line, column) := place 1 1 before in
  let result := if add : bool then add_files line column files d else remove_files line column files d in
  match i_rhs i with
  | Some (old, st) =>
      document_text d = before ++ i_before i ++ old ++ i_after i ++ after
      /\ match (if add then added_rhs (column - 1) files st else removed_rhs (column - 1) files st) with
         | Some rhs => exists semicolon, In semicolon [[]; [59]]
             /\ result = Some (before ++ i_before i ++ rhs ++ semicolon ++ i_after i ++ after)
         | None => result = None
         end
  | None =>
      document_text d = before ++ i_before i ++ i_after i ++ after
      /\ (add = false -> result = None)
      /\ (add = true -> Forall single_line files -> exists w rhs semicolon new,
            blank w /\ w <> [] /\ In semicolon [[]; [59]] /\ array_of new rhs /\ Permutation new files /\ StronglySorted in_order new
            /\ result = Some (before ++ i_before i ++ w ++ [102; 105; 108; 101; 115; 58; 32] ++ rhs ++ semicolon ++ i_after i ++ after))
  end.
Proof.
  intros NE NF before after d. destruct (place 1 1 before) as [line column] eqn:P.
  pose proof (find_item_spec front head i back NE) as FI. fold before in FI. rewrite P in FI. cbn [fst snd] in FI.
  assert (DT : document_text d = before ++ item_text i ++ after).
  { unfold document_text, d, before, after. cbn [d_head d_items]. rewrite flat_map_app. cbn [flat_map]. rewrite <- !app_assoc. reflexivity. }
  destruct files as [|f files]; [congruence|].
  unfold add_files, remove_files. subst d. cbn [d_head d_items]. rewrite FI. fold after. unfold item_text in DT.
  destruct (i_rhs i) as [[old st]|] eqn:R.
  - split; [rewrite DT, <- !app_assoc; reflexivity|]. destruct add.
    + destruct (added_rhs (column - 1) (f :: files) st) as [rhs|]; [|reflexivity]. exists (if i_same_line i then [59] else []).
      split; [destruct (i_same_line i); [right; left; reflexivity|left; reflexivity]|].
      cbn [option_map]. unfold changed, with_semicolon. destruct (i_same_line i); rewrite <- !app_assoc; reflexivity.
    + destruct (removed_rhs (column - 1) (f :: files) st) as [rhs|]; [|reflexivity]. exists (if i_same_line i then [59] else []).
      split; [destruct (i_same_line i); [right; left; reflexivity|left; reflexivity]|].
      cbn [option_map]. unfold changed, with_semicolon. destruct (i_same_line i); rewrite <- !app_assoc; reflexivity.
  - split; [rewrite DT, <- !app_assoc; reflexivity|]. split; [intros ->; reflexivity|]. intros -> F.
    exists ((if i_same_line i then 32 else 10) :: spaces (column - 1 + 4)).
    exists (complete (column - 1 + 4) (file_lines (column - 1 + 8) (sorted (f :: files)))).
    exists (if (i_same_line i && i_members i)%bool then [59] else []). exists (sorted (f :: files)).
    split; [constructor; [destruct (i_same_line i); simpl; tauto|apply blank_spaces]|]. split; [discriminate|].
    split; [destruct (i_same_line i && i_members i)%bool; [right; left; reflexivity|left; reflexivity]|].
    split; [rewrite file_lines_map; apply complete_array, js_literals, forall_sorted, F|].
    split; [apply sorted_perm|]. split; [apply sorted_sorted|].
    cbn [option_map]. unfold with_binding, with_semicolon, files_name.
    destruct (i_same_line i), (i_members i); cbn [andb]; repeat (progress (cbn [app]; rewrite <- ?app_assoc)); reflexivity.
Qed.

(** ** Line endings *)

Lemma windows_text_app a b : windows_text (a ++ b) = windows_text a ++ windows_text b.
Proof. induction a as [|c a IH]; [reflexivity|]. cbn [app windows_text]. rewrite IH, app_assoc. reflexivity. Qed.

Lemma add_returns_spec t : add_returns t = windows_text t.
Proof. induction t as [|c t IH]; [reflexivity|]. cbn [add_returns windows_text]. rewrite IH. destruct (c =? 10); reflexivity. Qed.

Lemma count_windows t : forall before, fst (count_endings before t) = 0%nat ->
  forall a b, t = a ++ 10 :: b -> (a = [] /\ before = 13) \/ exists a', a = a' ++ [13].
Proof.
  induction t as [|c t IH]; intros before H a b E; [destruct a; discriminate|].
  cbn [count_endings] in H. specialize (IH c). destruct (count_endings c t) as [lf crlf]. cbn [fst] in IH.
  assert (L : lf = 0%nat /\ (c = 10 -> before = 13)).
  { destruct (N.eqb_spec c 10); destruct (N.eqb_spec before 13); cbn [fst] in H; subst; try discriminate; split; auto; congruence. }
  destruct L as [L1 L2]. destruct a as [|x a]; cbn [app] in E; injection E as -> E.
  - left. split; [reflexivity|]. apply L2. reflexivity.
  - right. destruct (IH L1 a b E) as [[-> ->]|(a' & ->)]; [exists []; reflexivity|exists (x :: a'); reflexivity].
Qed.

Lemma count_unix t : forall before, snd (count_endings before t) = 0%nat ->
  forall a b, t = a ++ 10 :: b -> (a = [] -> before <> 13) /\ forall a', a <> a' ++ [13].
Proof.
  induction t as [|c t IH]; intros before H a b E; [destruct a; discriminate|].
  cbn [count_endings] in H. specialize (IH c). destruct (count_endings c t) as [lf crlf]. cbn [snd] in IH.
  assert (L : crlf = 0%nat /\ (c = 10 -> before <> 13)).
  { destruct (N.eqb_spec c 10); destruct (N.eqb_spec before 13); cbn [snd] in H; subst; try discriminate; split; auto; congruence. }
  destruct L as [L1 L2]. destruct a as [|x a]; cbn [app] in E; injection E as -> E.
  - split; [intros _; apply L2; reflexivity|]. intros [|? ?]; discriminate.
  - split; [discriminate|]. destruct (IH L1 a b E) as [I1 I2]. intros [|y a'] X; cbn [app] in X.
    + injection X as -> X. apply (I1 X). reflexivity.
    + injection X as _ X. exact (I2 a' X).
Qed.

Lemma count_windows_conv t : forall before, (forall a b, t = a ++ 10 :: b -> (a = [] /\ before = 13) \/ exists a', a = a' ++ [13]) ->
  fst (count_endings before t) = 0%nat.
Proof.
  induction t as [|c t IH]; intros before H; [reflexivity|]. cbn [count_endings]. specialize (IH c).
  assert (I1 : fst (count_endings c t) = 0%nat).
  { apply IH. intros a b E. destruct (H (c :: a) b) as [[X _]|([|y a'] & X)]; [rewrite E; reflexivity|discriminate|..]; cbn [app] in X.
    - injection X as -> X. left. split; [exact X|reflexivity].
    - injection X as _ X. right. eauto. }
  destruct (count_endings c t) as [lf crlf]. cbn [fst] in I1. subst lf.
  destruct (N.eqb_spec c 10) as [->|NE]; [|reflexivity]. destruct (H [] t eq_refl) as [[_ ->]|([|? ?] & X)]; [reflexivity|discriminate|discriminate].
Qed.

Lemma count_unix_conv t : forall before, (forall a b, t = a ++ 10 :: b -> (a = [] -> before <> 13) /\ forall a', a <> a' ++ [13]) ->
  snd (count_endings before t) = 0%nat.
Proof.
  induction t as [|c t IH]; intros before H; [reflexivity|]. cbn [count_endings]. specialize (IH c).
  assert (I1 : snd (count_endings c t) = 0%nat).
  { apply IH. intros a b E. destruct (H (c :: a) b) as [_ X]; [rewrite E; reflexivity|]. split.
    - intros -> ->. exact (X [] eq_refl).
    - intros a' ->. exact (X (c :: a') eq_refl). }
  destruct (count_endings c t) as [lf crlf]. cbn [snd] in I1. subst crlf.
  destruct (N.eqb_spec c 10) as [->|NE]; [|reflexivity]. destruct (H [] t eq_refl) as [X _].
  destruct (N.eqb_spec before 13) as [->|]; [exfalso; apply X; reflexivity|reflexivity].
Qed.

Lemma count_some t : forall before, In 10 t -> (fst (count_endings before t) + snd (count_endings before t) > 0)%nat.
Proof.
  induction t as [|c t IH]; intros before I1; [destruct I1|]. cbn [count_endings]. specialize (IH c).
  destruct (count_endings c t) as [lf crlf]. cbn [fst snd] in IH. destruct (N.eqb_spec c 10) as [->|NE].
  - destruct (before =? 13); cbn; lia.
  - destruct I1 as [->|I1]; [congruence|]. cbn. auto.
Qed.

Lemma count_none t : forall before, ~ In 10 t -> count_endings before t = (0, 0)%nat.
Proof.
  induction t as [|c t IH]; intros before N1; [reflexivity|]. cbn [count_endings]. rewrite IH by (intro X; apply N1; right; exact X).
  destruct (N.eqb_spec c 10) as [->|NE]; [exfalso; apply N1; left; reflexivity|reflexivity].
Qed.

(** The guess: a file with line feeds is as on Windows or Unix if and only if all of its
    lines are. *)
Theorem guess_windows t : In 10 t -> (guess_ending t = WindowsEndings <-> windows_lines t).
Proof.
  intro I1. unfold guess_ending. pose proof (count_some t 0 I1) as S1. pose proof (count_windows t 0) as W. pose proof (count_windows_conv t 0) as V.
  destruct (count_endings 0 t) as [lf crlf]. cbn [fst snd] in *. split.
  - intro H. destruct lf; [|destruct crlf; discriminate]. intros a b E. destruct (W eq_refl a b E) as [[_ X]|X]; [discriminate|exact X].
  - intro H. destruct lf; [destruct crlf; [lia|reflexivity]|]. exfalso.
    assert (X : S lf = 0%nat) by (apply V; intros a b E; right; eapply H; eauto). discriminate.
Qed.

Theorem guess_unix t : In 10 t -> (guess_ending t = UnixEndings <-> unix_lines t).
Proof.
  intro I1. unfold guess_ending. pose proof (count_some t 0 I1) as S1. pose proof (count_unix t 0) as W. pose proof (count_unix_conv t 0) as V.
  destruct (count_endings 0 t) as [lf crlf]. cbn [fst snd] in *. split.
  - intro H. destruct crlf; [|destruct lf; discriminate]. intros a b E. apply (W eq_refl a b E).
  - intro H. destruct crlf; [destruct lf; [lia|reflexivity]|]. exfalso.
    assert (X : S crlf = 0%nat) by (apply V; intros a b E; split; [intros _; discriminate|]; eapply H; eauto). discriminate.
Qed.

Lemma drop_returns_windows t : windows_lines t -> windows_text (drop_returns t) = t.
Proof.
  remember (length t) as n eqn:E. assert (L : (length t <= n)%nat) by lia. clear E. revert t L.
  induction n as [|n IH]; intros [|c t] L W; simpl in L; try lia; try reflexivity.
  destruct t as [|d t].
  - cbn. destruct (N.eqb_spec c 10) as [->|]; [|reflexivity]. destruct (W [] [] eq_refl) as ([|? ?] & X); discriminate.
  - change (drop_returns (c :: d :: t)) with (if (c =? 13) && (d =? 10) then 10 :: drop_returns t else c :: drop_returns (d :: t)).
    destruct ((c =? 13) && (d =? 10)) eqn:E.
    + apply andb_true_iff in E. destruct E as [E1 E2]. apply N.eqb_eq in E1, E2. subst. cbn [windows_text N.eqb]. change (10 =? 10) with true.
      simpl in L. rewrite IH; [reflexivity|lia|]. intros a b Eab. destruct (W (13 :: 10 :: a) b) as (a' & Ea); [rewrite Eab; reflexivity|].
      destruct a' as [|x [|y a']]; cbn [app] in Ea; try discriminate. injection Ea as <- <- Ea. exists a'. exact Ea.
    + cbn [windows_text]. destruct (N.eqb_spec c 10) as [->|NC].
      { destruct (W [] (d :: t) eq_refl) as ([|? ?] & X); discriminate. }
      rewrite IH; [reflexivity|simpl in *; lia|]. intros a b Eab. destruct (W (c :: a) b) as (a' & Ea); [rewrite Eab; reflexivity|].
      destruct a' as [|x a']; cbn [app] in Ea; [|injection Ea as _ Ea; eauto]. injection Ea as -> ->. cbn [app] in Eab. injection Eab as -> ->.
      discriminate.
Qed.

(** If the lines of a file all end in the same way, an update that replaces a part of its
    text replaces this part of the file and nothing else; the new lines end in the same
    way. The file is not written if the update fails. *)
Theorem rest_of_file_kept windows raw edit : In 10 raw ->
  (unix_lines raw -> apply_update windows edit raw = edit raw)
  /\ (windows_lines raw -> exists t, raw = windows_text t
      /\ apply_update windows edit raw = option_map windows_text (edit t)
      /\ (forall front old back new, t = front ++ old ++ back -> edit t = Some (front ++ new ++ back) ->
            raw = windows_text front ++ windows_text old ++ windows_text back
            /\ apply_update windows edit raw = Some (windows_text front ++ windows_text new ++ windows_text back))).
Proof.
  intro I1. split.
  - intro U. apply guess_unix in U; [|exact I1]. unfold apply_update. rewrite U. cbn [to_unix]. destruct (edit raw); reflexivity.
  - intro W. pose proof (drop_returns_windows raw W) as D. pose proof (proj2 (guess_windows raw I1) W) as G.
    assert (AU : apply_update windows edit raw = option_map windows_text (edit (drop_returns raw))).
    { unfold apply_update. rewrite G. cbn [to_unix]. destruct (edit (drop_returns raw)) as [x|]; [|reflexivity].
      cbn [option_map from_unix]. rewrite add_returns_spec. reflexivity. }
    exists (drop_returns raw). split; [auto|]. split; [exact AU|].
    intros front old back new E H. rewrite AU, H. cbn [option_map]. rewrite !windows_text_app. split; [|reflexivity].
    rewrite <- D at 1. rewrite E, !windows_text_app. reflexivity.
Qed.

(** The lines of the result end in the same way. *)
Theorem endings_kept windows raw edit out : In 10 raw -> In 10 out ->
  apply_update windows edit raw = Some out ->
  (windows_lines raw -> windows_lines out)
  /\ (unix_lines raw -> (forall t, edit raw = Some t -> unix_lines t) -> unix_lines out).
Proof.
  intros I1 I2 H. split.
  - intro W. destruct (rest_of_file_kept windows raw edit I1) as [_ R]. destruct (R W) as (t & _ & E & _). rewrite E in H.
    destruct (edit t) as [x|]; [|discriminate]. injection H as <-. clear.
    induction x as [|c x IH]; intros a b E; [destruct a; discriminate|]. cbn [windows_text] in E. destruct (N.eqb_spec c 10) as [->|NC].
    + destruct a as [|y [|z a]]; cbn [app] in E.
      * discriminate.
      * injection E as <- _. exists []. reflexivity.
      * injection E as <- <- E. destruct (IH a b E) as (a' & ->). exists (13 :: 10 :: a'). reflexivity.
    + destruct a as [|y a]; cbn [app] in E; injection E as E0 E; [congruence|]. destruct (IH a b E) as (a' & ->). exists (y :: a'). reflexivity.
  - intros U K. destruct (rest_of_file_kept windows raw edit I1) as [R _]. rewrite (R U) in H. exact (K out H).
Qed.

(** In a file without line feeds, or with lines of both kinds, the lines of the result
    end as on the host. *)
Theorem endings_of_host windows raw : ~ In 10 raw \/ (~ windows_lines raw /\ ~ unix_lines raw) ->
  exists t, (~ In 10 raw -> t = raw) /\ (forall front back, t = front ++ 10 :: back -> exists front' back', raw = front' ++ 10 :: back')
    /\ forall edit, apply_update windows edit raw
        = option_map (fun new => if windows then windows_text new else new) (edit t).
Proof.
  intro H. assert (G : guess_ending raw = UnknownEndings \/ guess_ending raw = MixedEndings).
  { destruct (in_dec N.eq_dec 10 raw) as [I1|I1].
    - destruct H as [H|[H1 H2]]; [contradiction|]. right.
      assert (X1 : guess_ending raw <> WindowsEndings) by (intro X; apply H1; apply guess_windows; assumption).
      assert (X2 : guess_ending raw <> UnixEndings) by (intro X; apply H2; apply guess_unix; assumption).
      assert (X3 : guess_ending raw <> UnknownEndings).
      { unfold guess_ending. pose proof (count_some raw 0 I1). destruct (count_endings 0 raw) as [[|?] [|?]]; cbn in *; try discriminate; lia. }
      destruct (guess_ending raw); congruence.
    - left. unfold guess_ending. rewrite count_none by exact I1. reflexivity. }
  assert (D : forall t, ~ In 10 t -> drop_returns t = t).
  { induction t as [|c t IH]; intro N1; [reflexivity|]. destruct t as [|d t]; [reflexivity|].
    change (drop_returns (c :: d :: t)) with (if (c =? 13) && (d =? 10) then 10 :: drop_returns t else c :: drop_returns (d :: t)).
    destruct (N.eqb_spec d 10) as [->|NE]; [exfalso; apply N1; right; left; reflexivity|]. rewrite andb_false_r.
    rewrite IH; [reflexivity|]. intro X. apply N1. right. exact X. }
  exists (drop_returns raw). split; [apply D|]. split.
  - intros front back E. destruct (in_dec N.eq_dec 10 raw) as [I1|I1]; [apply in_split; exact I1|].
    rewrite D in E by exact I1. eauto.
  - intro edit. unfold apply_update. destruct G as [-> | ->]; cbn [to_unix from_unix];
      (destruct (edit (drop_returns raw)); [|reflexivity]); cbn [option_map from_unix]; destruct windows; rewrite ?add_returns_spec; reflexivity.
Qed.

(** In a file with lines of both kinds, all lines change. *)
Theorem rest_of_file_refuted : exists raw out,
  apply_update false (fun t => Some t) raw = Some out /\ out <> raw.
Proof. exists [97; 13; 10; 98; 10]. eexists. split; [vm_compute; reflexivity|discriminate]. Qed.

(** ** Places that are out of date *)

(** A file with three groups. A file is added to the first one. The same request for the
    third one, at the place it had before, changes the second one. *)
Definition group_item (name before rhs : str) (l : list element) (rest : str) : item :=
  Item before (Some (rhs, ArrayLiteral l)) rest false false.

Definition txt (s : String.string) : str := List.map N_of_ascii (list_ascii_of_string s).
Arguments txt s%string.
Definition lf : str := [10].
Definition one (s : str) : element := Element (js_str s) (Some s).

Definition g_a : item := group_item (txt "A") (app (txt "Group {") (app lf (txt "name: 'A'; files: "))) (app (txt "[") (app (js_str (txt "a")) (txt "]"))) [one (txt "a")] (app lf (app (txt "}") lf)).
Definition g_b : item := group_item (txt "B") (app (txt "Group {") (app lf (txt "name: 'B'; files: "))) (app (txt "[") (app (js_str (txt "b")) (txt "]"))) [one (txt "b")] (app lf (app (txt "}") lf)).
Definition g_c : item := group_item (txt "C") (app (txt "Group {") (app lf (txt "name: 'C'; files: "))) (app (txt "[") (app (js_str (txt "c")) (txt "]"))) [one (txt "c")] (app lf (app (txt "}") lf)).

(** The first one after the change. *)
Definition g_a' : item :=
  group_item (txt "A") (i_before g_a) (complete 4 (file_lines 8 [txt "a"; txt "x"])) [one (txt "a"); one (txt "x")] (i_after g_a).

Definition file_head : str := app (txt "Product {") lf.

Theorem stale_place_refuted : exists head items items' a b c place_a place_c,
  items = [a; b; c]
  /\ place_a = place 1 1 head /\ place_c = place 1 1 (head ++ item_text a ++ item_text b)
  /\ add_files (fst place_a) (snd place_a) [txt "x"] (Document head items) = Some (document_text (Document head items'))
  /\ tl items' = [b; c]
  /\ exists out rhs a', hd_error items' = Some a'
     /\ add_files (fst place_c) (snd place_c) [txt "y"] (Document head items') = Some out
     /\ out = head ++ item_text a' ++ (i_before b ++ rhs ++ i_after b) ++ item_text c
     /\ array_of [txt "b"; txt "y"] rhs.
Proof.
  exists file_head, [g_a; g_b; g_c], [g_a'; g_b; g_c], g_a, g_b, g_c. do 2 eexists.
  split; [reflexivity|]. split; [reflexivity|]. split; [reflexivity|]. split; [vm_compute; reflexivity|]. split; [reflexivity|].
  exists (file_head ++ item_text g_a' ++ (i_before g_b ++ complete 4 (file_lines 8 [txt "b"; txt "y"]) ++ i_after g_b) ++ item_text g_c).
  exists (complete 4 (file_lines 8 [txt "b"; txt "y"])), g_a'.
  split; [reflexivity|]. split; [vm_compute; reflexivity|]. split; [reflexivity|].
  rewrite file_lines_map. apply complete_array, js_literals. repeat constructor; cbn; intuition discriminate.
Qed.

(** * C105: new groups and dependencies *)

Theorem new_names_partial indent name : plain name ->
  (exists a t b, group_text indent name = a ++ txt "name: " ++ t ++ b /\ literal t name)
  /\ (exists a t b, depends_text indent name = a ++ txt "name: " ++ t ++ b /\ literal t name).
Proof.
  intro P. pose proof (plain_literal name P) as L. split.
  - unfold group_text. exists (spaces (indent + 4) ++ group_start ++ spaces (indent + 4) ++ spaces (indent + 4)).
    exists (34 :: name ++ [34]). eexists. split; [|exact L]. rewrite <- !app_assoc. do 4 f_equal. unfold name_start. cbn [app].
    change (txt "name: ") with [110; 97; 109; 101; 58; 32]. cbn [app]. rewrite <- app_assoc. reflexivity.
  - unfold depends_text. exists (spaces (indent + 4) ++ txt "Depends { "). exists (34 :: name ++ [34]). eexists. split; [|exact L].
    rewrite <- !app_assoc. f_equal. cbn [app]. change (txt "Depends { ") with [68; 101; 112; 101; 110; 100; 115; 32; 123; 32].
    change (txt "name: ") with [110; 97; 109; 101; 58; 32]. cbn [app]. rewrite <- app_assoc. reflexivity.
Qed.

(** With a quote in the name, the literal has another value, and the rest of the name is
    part of the item. *)
Theorem new_names_refuted : exists name v rest,
  In 34 name /\ (exists a, group_text 0 name = a ++ txt "name: " ++ 34 :: rest)
  /\ (exists r, quoted 34 rest = Some (v, r)) /\ v <> name.
Proof.
  exists [97; 34; 98], [97]. eexists. split; [right; left; reflexivity|]. split; [|split; [|discriminate]].
  - exists (spaces 4 ++ group_start ++ spaces 8). vm_compute. reflexivity.
  - eexists. vm_compute. reflexivity.
Qed.

Module Demo.

Example added : added_rhs 0 [txt "d"; txt "b"] (ArrayLiteral [one (txt "a"); one (txt "c")])
  = Some (app (txt "[") (app lf (app (flat_map (fun f => app (txt "        ") (app (js_str f) (app (txt ",") lf))) [txt "a"; txt "b"; txt "d"; txt "c"]) (txt "    ]")))).
Proof. vm_compute. reflexivity. Qed.

Example literals : strings [one (txt "a"); Element [39; 99; 39] (Some (txt "c"))] [txt "a"; txt "c"].
Proof.
  repeat constructor.
  - apply js_str_literal. split; cbn; intuition discriminate.
  - exists 39, [99; 39]. split; [right; reflexivity|]. split; reflexivity.
Qed.

Example removed : removed_rhs 0 [txt "a"] (ArrayLiteral [one (txt "a"); one (txt "c")])
  = Some (app (txt "[") (app lf (app (txt "        ") (app (js_str (txt "c")) (app (txt ",") (app lf (txt "    ]"))))))).
Proof. vm_compute. reflexivity. Qed.

Example not_there : removed_rhs 0 [txt "b"] (ArrayLiteral [one (txt "a"); one (txt "c")]) = None.
Proof. reflexivity. Qed.

Example spaced_array : array_of [txt "a"; txt "c"] (app (txt "[ 'a' ,") (app lf (txt "'c' ]"))).
Proof.
  eexists. split; [reflexivity|].
  apply (More (txt " ") (txt "'a'") (txt "a") (txt " ") [txt "c"] (app lf (txt "'c' ]"))).
  - repeat constructor.
  - exists 39, [97; 39]. split; [right; reflexivity|]. split; reflexivity.
  - repeat constructor.
  - apply (Last lf (txt "'c'") (txt "c") (txt " ")).
    + constructor; [right; right; left; reflexivity|constructor].
    + exists 39, [99; 39]. split; [right; reflexivity|]. split; reflexivity.
    + repeat constructor.
Qed.

Example second_group : add_files 5 1 [txt "y"] (Document file_head [g_a; g_b; g_c])
  = Some (file_head ++ item_text g_a ++ i_before g_b ++ complete 4 (file_lines 8 [txt "b"; txt "y"]) ++ i_after g_b ++ item_text g_c).
Proof. vm_compute. reflexivity. Qed.

Example windows_file :
  apply_update false (fun t => Some (t ++ [100; 10])) [97; 13; 10; 98; 13; 10] = Some [97; 13; 10; 98; 13; 10; 100; 13; 10].
Proof. reflexivity. Qed.

Example group : group_text 0 (txt "g") =
  app (txt "    Group {") (app lf (app (txt "        name: ") (app (js_str (txt "g")) (app lf (app (txt "        files: []") (app lf (txt "    }"))))))).
Proof. vm_compute. reflexivity. Qed.

End Demo.

Print Assumptions array_unique.
Print Assumptions files_added_to_array.
Print Assumptions texts_kept.
Print Assumptions files_added_to_string.
Print Assumptions files_added_to_expression.
Print Assumptions file_with_line_break_refuted.
Print Assumptions files_removed_if_there.
Print Assumptions files_removed_partial.
Print Assumptions string_removed.
Print Assumptions files_removed_refuted.
Print Assumptions add_then_remove.
Print Assumptions only_binding_changed.
Print Assumptions guess_windows.
Print Assumptions guess_unix.
Print Assumptions rest_of_file_kept.
Print Assumptions endings_kept.
Print Assumptions endings_of_host.
Print Assumptions rest_of_file_refuted.
Print Assumptions stale_place_refuted.
Print Assumptions new_names_partial.
Print Assumptions new_names_refuted.
