(** Edits recorded in a change set are applied to the text the caller saw, and clashing edits are reported. *)
From Coq Require Import List Bool ZArith Lia.
From Verif Require Import Str ChangeSetModel.
Import ListNotations.
Local Open Scope Z_scope.

(** ** Specification *)

(** The part of the text from [from] up to, and not including, [upto] becomes [by]; an empty part is an insertion. *)
Record change := { from : Z; upto : Z; new : str }.
Definition between (s : str) (a b : Z) : str := firstn (Z.to_nat (b - a)) (skipn (Z.to_nat a) s).

(** What a request asks for, in terms of the text as it is before any edit. *)
Definition changes (s : str) (r : request) : list change :=
  match r with
  | RReplace a b t => [{| from := a; upto := b; new := t |}]
  | RRemove a b => [{| from := a; upto := b; new := [] |}]
  | RInsert p t => [{| from := p; upto := p; new := t |}]
  | RMove a b p => [{| from := a; upto := b; new := [] |}; {| from := p; upto := p; new := between s a b |}]
  | RCopy a b p => [{| from := p; upto := p; new := between s a b |}]
  | RFlip a b c d => [{| from := a; upto := b; new := between s c d |}; {| from := c; upto := d; new := between s a b |}]
  end.

(** All changes at once, in one pass over the original text: at each position come the texts inserted there, in the order of the
    requests, then the new text of a part beginning there, then the character itself unless it is in such a part. *)
Definition inserted (cs : list change) (i : Z) : str :=
  flat_map (fun c => if (from c =? i) && (upto c =? i) then new c else []) cs.
Definition replacing (cs : list change) (i : Z) : str :=
  flat_map (fun c => if (from c =? i) && (i <? upto c) then new c else []) cs.
Definition replaced (cs : list change) (i : Z) : bool := existsb (fun c => (from c <=? i) && (i <? upto c)) cs.
Definition at_position (cs : list change) (s : str) (i : nat) : str :=
  inserted cs (Z.of_nat i) ++ replacing cs (Z.of_nat i)
  ++ (if replaced cs (Z.of_nat i) then [] else match nth_error s i with Some c => [c] | None => [] end).
Definition all_at_once (cs : list change) (s : str) : str := flat_map (at_position cs s) (seq 0 (S (length s))).

(** The parts of the text a request is about; an empty part is a position. *)
Definition parts (r : request) : list (Z * Z) :=
  match r with
  | RReplace a b _ | RRemove a b => [(a, b)]
  | RInsert p _ => [(p, p)]
  | RMove a b p | RCopy a b p => [(a, b); (p, p)]
  | RFlip a b c d => [(a, b); (c, d)]
  end.

(** Two parts have a character in common, or one is a position in the interior of the other. *)
Definition clash (x y : Z * Z) : Prop :=
  (exists i, fst x <= i < snd x /\ fst y <= i < snd y)
  \/ (fst x = snd x /\ fst y < fst x < snd y) \/ (fst y = snd y /\ fst x < fst y < snd x).

(** A request with an inverted range makes no sense. *)
Definition oriented (r : request) : Prop := Forall (fun x => fst x <= snd x) (parts r).
Definition within (s : str) (r : request) : Prop :=
  Forall (fun x => 0 <= fst x /\ fst x <= snd x /\ snd x <= Z.of_nat (length s)) (parts r).

(** The second change is an insertion at the beginning of the part the first one replaces. *)
Definition inserts_at_start (x y : change) : Prop := from x < upto x /\ from y = from x /\ upto y = from x.

(** ** Lists of pairs *)

Lemma fop_app {A} (R : A -> A -> Prop) l1 l2 :
  ForallOrdPairs R (l1 ++ l2) <->
  ForallOrdPairs R l1 /\ ForallOrdPairs R l2 /\ (forall a b, In a l1 -> In b l2 -> R a b).
Proof.
  induction l1 as [|x l1 IH]; cbn [app].
  - split; [intros H; split; [constructor|split; [exact H|intros ? ? []]] | now intros (_ & H & _)].
  - split.
    + intros H. inversion H as [|? ? F O]; subst. apply IH in O. destruct O as (O1 & O2 & O3).
      apply Forall_app in F. destruct F as [F1 F2]. split; [now constructor|split; [exact O2|]].
      intros a b [->|Ha] Hb; [rewrite Forall_forall in F2; now apply F2 | now apply O3].
    + intros (H1 & H2 & H3). inversion H1 as [|? ? F O]; subst. constructor.
      * apply Forall_app. split; [exact F|]. rewrite Forall_forall. intros b Hb. apply H3; [now left|exact Hb].
      * apply IH. split; [exact O|split; [exact H2|]]. intros a b Ha Hb. apply H3; [now right|exact Hb].
Qed.

Lemma fop_impl {A} (R S : A -> A -> Prop) l : (forall a b, In a l -> In b l -> R a b -> S a b) ->
  ForallOrdPairs R l -> ForallOrdPairs S l.
Proof.
  intros H O. induction O as [|x l F O IH]; constructor.
  - rewrite Forall_forall in *. intros b Hb. apply H; [now left|now right|now apply F].
  - apply IH. intros a b Ha Hb. apply H; now right.
Qed.

Lemma fop_map {A B} (f : A -> B) (R : B -> B -> Prop) l :
  ForallOrdPairs R (map f l) <-> ForallOrdPairs (fun a b => R (f a) (f b)) l.
Proof.
  induction l as [|x l IH]; cbn; [split; constructor|].
  split; intros H; inversion H as [|? ? F O]; subst; constructor; try (now apply IH);
    rewrite Forall_forall in *; intros b Hb; [now apply F, in_map|].
  apply in_map_iff in Hb. destruct Hb as (y & <- & Hy). now apply F.
Qed.

(** ** Overlaps *)

Lemma overlaps_spec pa la pb lb : 0 <= la -> 0 <= lb ->
  overlaps pa la pb lb = true <-> clash (pa, pa + la) (pb, pb + lb).
Proof.
  intros Ha Hb. unfold overlaps, clash; cbn [fst snd].
  destruct (Z.ltb_spec 0 lb) as [L|L].
  - rewrite !orb_true_iff, !andb_true_iff, !Z.ltb_lt, !Z.leb_le. split.
    + intros [[[H1 H2]|[H1 H2]]|[H1 H2]].
      * destruct (Z.eq_dec la 0); [lia|]. left. exists (Z.max pa pb). lia.
      * left. exists pb. lia.
      * destruct (Z.eq_dec la 0); [right; left; lia|]. left. exists pa. lia.
    + intros [(i & H1 & H2)|[[H1 H2]|[H1 H2]]]; lia.
  - rewrite andb_true_iff, !Z.ltb_lt. split.
    + intros [H1 H2]. right; right. lia.
    + intros [(i & H1 & H2)|[[H1 H2]|[H1 H2]]]; lia.
Qed.

Lemma inside_spec p pos len : 0 <= len -> inside p pos len = true <-> clash (pos, pos + len) (p, p).
Proof.
  intros L. rewrite <- (Z.add_0_r p) at 3. rewrite <- overlaps_spec; [|lia|lia].
  unfold inside, overlaps. now rewrite Z.ltb_irrefl.
Qed.

(** The operation recorded for a request. *)
Definition op_of (r : request) : op :=
  match r with
  | RReplace a b t => Replace a (b - a) t
  | RRemove a b => Remove a (b - a)
  | RMove a b p => Move a (b - a) p
  | RFlip a b c d => Flip a (b - a) c (d - c)
  | RCopy a b p => Copy a (b - a) p
  | RInsert p t => Insert p t
  end.

Ltac oriented_inv H := unfold oriented in H; cbn [parts] in H;
  repeat match type of H with
  | Forall _ [] => clear H
  | Forall _ (_ :: _) => let a := fresh "Q" in apply Forall_cons_iff in H; destruct H as [a H]; cbn [fst snd] in a
  end.

Lemma range_eq a b : (a, b) = (a, a + (b - a)).
Proof. f_equal. lia. Qed.
Lemma point_eq a : (a, a) = (a, a + 0).
Proof. f_equal. lia. Qed.

Lemma overlaps_op_spec x r : fst x <= snd x -> oriented r ->
  overlaps_op (fst x) (snd x - fst x) (op_of r) = true <-> exists y, In y (parts r) /\ clash x y.
Proof.
  intros L O. destruct x as [a b]; cbn [fst snd] in *.
  assert (OR : forall c d, c <= d -> overlaps a (b - a) c (d - c) = true <-> clash (a, b) (c, d))
    by (intros c d Hcd; rewrite overlaps_spec by lia; now rewrite <- !range_eq).
  assert (IN : forall p, inside p a (b - a) = true <-> clash (a, b) (p, p))
    by (intros p; rewrite inside_spec by lia; now rewrite <- range_eq).
  destruct r; oriented_inv O; cbn [op_of overlaps_op parts]; rewrite ?orb_true_iff, ?OR, ?IN by lia;
    (split; [intros H; repeat match type of H with _ \/ _ => destruct H as [H|H] end; eexists; (split; [|exact H]); cbn; tauto
            |intros (y & I0 & C); cbn in I0; intuition (subst; tauto)]).
Qed.

Definition recorded (rs : list request) : list op := map op_of rs.

Lemma has_overlap_spec c rs x : operations c = recorded rs -> fst x <= snd x -> Forall oriented rs ->
  has_overlap c (fst x) (snd x - fst x) = true <-> exists y, In y (flat_map parts rs) /\ clash x y.
Proof.
  intros E L O. unfold has_overlap. rewrite E. unfold recorded. rewrite existsb_exists. split.
  - intros (o & I0 & H). apply in_map_iff in I0. destruct I0 as (r & <- & Ir).
    rewrite Forall_forall in O. apply (proj1 (overlaps_op_spec x r L (O r Ir))) in H. destruct H as (y & Iy & C).
    exists y. split; [apply in_flat_map; eauto|exact C].
  - intros (y & Iy & C). apply in_flat_map in Iy. destruct Iy as (r & Ir & Iy).
    exists (op_of r). split; [now apply in_map|]. rewrite Forall_forall in O.
    apply (overlaps_op_spec x r L (O r Ir)). eauto.
Qed.

Lemma clash_sym x y : clash x y -> clash y x.
Proof. unfold clash. intros [(i & A & B)|[A|A]]; [left; exists i; tauto|tauto|tauto]. Qed.

(** Whether a request clashes with earlier ones or with itself. *)
Definition bad (c : changeset) (r : request) : bool :=
  match r with
  | RReplace a b _ | RRemove a b => has_overlap c a (b - a)
  | RInsert p _ => has_overlap c p 0
  | RMove a b p | RCopy a b p => has_overlap c a (b - a) || has_overlap c p 0 || overlaps a (b - a) p 0
  | RFlip a b c' d => has_overlap c a (b - a) || has_overlap c c' (d - c') || overlaps a (b - a) c' (d - c')
  end.
Lemma perform_eq c r : perform c r = push c (bad c r) (op_of r).
Proof. destruct r; reflexivity. Qed.

Lemma fop_parts r : oriented r ->
  ForallOrdPairs (fun x y => ~ clash x y) (parts r) <->
  match r with
  | RMove a b p | RCopy a b p => ~ clash (a, b) (p, p)
  | RFlip a b c d => ~ clash (a, b) (c, d)
  | _ => True
  end.
Proof.
  intros _. destruct r; cbn [parts]; (split; [intros H; inversion H as [|? ? F _]; subst; try exact I;
    now inversion F | intros H; repeat constructor; exact H]).
Qed.

Lemma bad_spec c rs r : operations c = recorded rs -> Forall oriented rs -> oriented r ->
  bad c r = false <->
  ForallOrdPairs (fun x y => ~ clash x y) (parts r)
  /\ (forall x y, In x (flat_map parts rs) -> In y (parts r) -> ~ clash x y).
Proof.
  intros E O Or.
  assert (HO : forall a b, a <= b -> has_overlap c a (b - a) = false <->
                 (forall x, In x (flat_map parts rs) -> ~ clash x (a, b))).
  { intros a b L. rewrite <- not_true_iff_false.
    rewrite (has_overlap_spec c rs (a, b) E L O). cbn [fst snd]. split.
    - intros H x Ix C. apply H. exists x. split; [exact Ix|now apply clash_sym].
    - intros H (y & Iy & C). apply (H y Iy). now apply clash_sym. }
  assert (HP : forall p, has_overlap c p 0 = false <-> (forall x, In x (flat_map parts rs) -> ~ clash x (p, p))).
  { intros p. rewrite <- HO by lia. now rewrite Z.sub_diag. }
  assert (OV : forall a b x y, a <= b -> x <= y -> overlaps a (b - a) x (y - x) = false <-> ~ clash (a, b) (x, y)).
  { intros a b x y L1 L2. rewrite <- not_true_iff_false, overlaps_spec by lia. now rewrite <- !range_eq. }
  assert (OP : forall a b p, a <= b -> overlaps a (b - a) p 0 = false <-> ~ clash (a, b) (p, p)).
  { intros a b p L. rewrite <- OV by lia. now rewrite Z.sub_diag. }
  rewrite (fop_parts r Or).
  destruct r; pose proof Or as Q'; oriented_inv Q'; cbn [bad parts];
    rewrite ?orb_false_iff, ?HO, ?HP, ?OV, ?OP by lia;
    (split; [intros H; split; [tauto|]; intros x y Ix Iy; cbn in Iy; intuition (subst; eauto)
            |intros [H1 H2]; repeat split; try exact H1; intros x Ix; apply H2; cbn; auto]).
Qed.

Lemma perform_all_snoc c rs r : perform_all c (rs ++ [r]) = fst (perform (perform_all c rs) r).
Proof. unfold perform_all. now rewrite fold_left_app. Qed.
Lemma operations_all rs : operations (perform_all empty rs) = recorded rs.
Proof.
  induction rs as [|r rs IH] using rev_ind; [reflexivity|].
  rewrite perform_all_snoc, perform_eq. cbn. rewrite IH. unfold recorded. now rewrite map_app.
Qed.

(** ** Theorems *)

(** C37, first half.  An error is reported exactly if two of the parts named by the requests clash. *)
Theorem clashes_reported rs : Forall oriented rs ->
  error (perform_all empty rs) = false <-> ForallOrdPairs (fun x y => ~ clash x y) (flat_map parts rs).
Proof.
  induction rs as [|r rs IH] using rev_ind; intros O; [split; [constructor|reflexivity]|].
  apply Forall_app in O. destruct O as [O Or]. inversion Or as [|? ? Or' _]; subst.
  rewrite perform_all_snoc, perform_eq. cbn [push fst error]. rewrite orb_false_iff, (IH O).
  rewrite (bad_spec _ rs r (operations_all rs) O Or'). rewrite flat_map_app. cbn [flat_map]. rewrite app_nil_r, fop_app.
  tauto.
Qed.

(** The call that brings the clash returns false, and so do all later ones. *)
Theorem clash_result rs r : Forall oriented rs -> oriented r ->
  snd (perform (perform_all empty rs) r) = true <->
  ForallOrdPairs (fun x y => ~ clash x y) (flat_map parts (rs ++ [r])).
Proof.
  intros O Or. rewrite <- clashes_reported by (apply Forall_app; split; [exact O|now repeat constructor]).
  rewrite perform_all_snoc, perform_eq. cbn. destruct (error _ || _); cbn; split; congruence.
Qed.

(** ** Applying *)

(** The second edit is entirely before or entirely after the first. *)
Definition after (r c : edit) : Prop :=
  (e_pos c < e_pos r /\ e_pos c + e_len c <= e_pos r) \/ (e_pos r + e_len r <= e_pos c).
Definition in_text (s : str) (e : edit) : Prop :=
  0 <= e_pos e /\ 0 <= e_len e /\ e_pos e + e_len e <= Z.of_nat (length s).
Definition change_of (e : edit) : change := {| from := e_pos e; upto := e_pos e + e_len e; new := e_text e |}.

Lemma shift_before r c : 0 <= e_len r -> e_pos c < e_pos r -> shift r c = c.
Proof.
  intros L H. unfold shift. destruct (Z.leb_spec (e_pos r) (e_pos c)); [lia|].
  destruct (Z.ltb_spec (e_pos r) (e_pos c)); [lia|]. now destruct c.
Qed.
Lemma shift_after r c : 0 <= e_len r -> e_pos r + e_len r <= e_pos c ->
  shift r c = {| e_pos := e_pos c + Z.of_nat (length (e_text r)) - e_len r; e_len := e_len c; e_text := e_text c |}.
Proof.
  intros L H. unfold shift. destruct (Z.leb_spec (e_pos r) (e_pos c)); [|lia].
  destruct (Z.ltb_spec (e_pos r) (e_pos c + Z.of_nat (length (e_text r)))); f_equal; lia.
Qed.

Section Step.
  Variables (r : edit) (s : str).
  Hypothesis G : in_text s r.
  Let p := Z.to_nat (e_pos r).
  Let l := Z.to_nat (e_len r).
  Let t := e_text r.
  Let s' := replace_at s (e_pos r) (e_len r) (e_text r).

  Lemma s'_eq : s' = firstn p s ++ t ++ skipn (p + l) s.
  Proof.
    destruct G as (G1 & G2 & G3). unfold s', replace_at.
    destruct (Z.ltb_spec (e_pos r) 0); [lia|]. destruct (Z.ltb_spec (Z.of_nat (length s)) (e_pos r)); [lia|].
    cbn [orb]. destruct (Z.ltb_spec (Z.of_nat (length s) - e_pos r) (e_len r)); [lia|].
    unfold p, l, t. now rewrite Z2Nat.inj_add by lia.
  Qed.
  Lemma pl_len : (p + l <= length s)%nat.
  Proof. destruct G as (G1 & G2 & G3). unfold p, l. lia. Qed.
  Lemma s'_len : length s' = (p + length t + (length s - (p + l)))%nat.
  Proof. rewrite s'_eq. rewrite !app_length, firstn_length, skipn_length. pose proof pl_len. lia. Qed.

  Lemma nth_before i : (i < p)%nat -> nth_error s' i = nth_error s i.
  Proof.
    intros H. pose proof pl_len. rewrite s'_eq, nth_error_app1 by (rewrite firstn_length; lia).
    rewrite <- (firstn_skipn p s) at 2. now rewrite nth_error_app1 by (rewrite firstn_length; lia).
  Qed.
  Lemma nth_new i : (i < length t)%nat -> nth_error s' (p + i) = nth_error t i.
  Proof.
    intros H. pose proof pl_len. rewrite s'_eq, nth_error_app2 by (rewrite firstn_length; lia).
    rewrite firstn_length, Nat.min_l by lia. replace (p + i - p)%nat with i by lia. now rewrite nth_error_app1.
  Qed.
  Lemma nth_after k : nth_error s' (p + length t + k) = nth_error s (p + l + k).
  Proof.
    pose proof pl_len. rewrite s'_eq, nth_error_app2 by (rewrite firstn_length; lia).
    rewrite firstn_length, Nat.min_l by lia. rewrite nth_error_app2 by lia.
    replace (p + length t + k - p - length t)%nat with k by lia.
    rewrite <- (firstn_skipn (p + l) s) at 2. rewrite nth_error_app2 by (rewrite firstn_length; lia).
    f_equal. rewrite firstn_length. lia.
  Qed.

  (** What the other edits contribute. *)
  Variable R : list edit.
  Hypothesis GR : Forall (in_text s) R.
  Hypothesis AR : Forall (after r) R.

  Let C := map change_of R.
  Let C' := map change_of (map (shift r) R).

  Lemma before_eq i : (i < p)%nat -> at_position C' s' i = at_position C s i.
  Proof.
    intros H. unfold at_position. rewrite nth_before by exact H.
    assert (E : inserted C' (Z.of_nat i) = inserted C (Z.of_nat i) /\ replacing C' (Z.of_nat i) = replacing C (Z.of_nat i)
                /\ replaced C' (Z.of_nat i) = replaced C (Z.of_nat i)).
    { destruct G as (G1 & G2 & G3). unfold C, C', inserted, replacing, replaced. clear C C'.
      induction R as [|c R' IH]; [repeat split|]. inversion GR as [|? ? GC GR']; subst. inversion AR as [|? ? AC AR']; subst.
      destruct (IH GR' AR') as (I1 & I2 & I3). cbn [map flat_map existsb]. rewrite I1, I2, I3.
      destruct AC as [[A1 A2]|A].
      - rewrite shift_before by lia. repeat split.
      - rewrite shift_after by lia. cbn [change_of from upto new e_pos e_len e_text].
        assert (N : Z.of_nat i < e_pos r) by (unfold p in H; lia). destruct GC as (_ & GC & _).
        assert (E1 : (e_pos c + Z.of_nat (length (e_text r)) - e_len r =? Z.of_nat i) = false) by (apply Z.eqb_neq; lia).
        assert (E2 : (e_pos c =? Z.of_nat i) = false) by (apply Z.eqb_neq; lia).
        assert (E3 : (e_pos c + Z.of_nat (length (e_text r)) - e_len r <=? Z.of_nat i) = false) by (apply Z.leb_gt; lia).
        assert (E4 : (e_pos c <=? Z.of_nat i) = false) by (apply Z.leb_gt; lia).
        rewrite E1, E2, E3, E4. repeat split. }
    destruct E as (E1 & E2 & E3). now rewrite E1, E2, E3.
  Qed.

  Lemma after_eq k : at_position C' s' (p + length t + k) = at_position C s (p + l + k).
  Proof.
    unfold at_position. rewrite nth_after.
    set (i' := Z.of_nat (p + length t + k)). set (i := Z.of_nat (p + l + k)).
    assert (Hi : i' = i + Z.of_nat (length (e_text r)) - e_len r).
    { unfold i', i, p, l, t. destruct G as (G1 & G2 & G3). lia. }
    assert (Hl : e_pos r + e_len r <= i) by (unfold i, p, l; destruct G as (G1 & G2 & G3); lia).
    assert (E : inserted C' i' = inserted C i /\ replacing C' i' = replacing C i /\ replaced C' i' = replaced C i).
    { clearbody i i'. destruct G as (G1 & G2 & G3). unfold C, C', inserted, replacing, replaced. clear C C'.
      induction R as [|c R' IH]; [repeat split|]. inversion GR as [|? ? GC GR']; subst. inversion AR as [|? ? AC AR']; subst.
      destruct (IH GR' AR') as (I1 & I2 & I3). cbn [map flat_map existsb]. rewrite I1, I2, I3.
      destruct AC as [[A1 A2]|A]; destruct GC as (_ & GC & _).
      - rewrite shift_before by lia. cbn [change_of from upto new].
        set (i' := i + Z.of_nat (length (e_text r)) - e_len r).
        assert (Hi' : e_pos r <= i') by (unfold i'; lia). clearbody i'.
        assert (E1 : (e_pos c =? i') = false) by (apply Z.eqb_neq; lia).
        assert (E2 : (e_pos c =? i) = false) by (apply Z.eqb_neq; lia).
        assert (E3 : (i' <? e_pos c + e_len c) = false) by (apply Z.ltb_ge; lia).
        assert (E4 : (i <? e_pos c + e_len c) = false) by (apply Z.ltb_ge; lia).
        rewrite E1, E2, E3, E4, !andb_false_r. repeat split.
      - rewrite shift_after by lia. cbn [change_of from upto new e_pos e_len e_text].
        assert (E1 : (e_pos c + Z.of_nat (length (e_text r)) - e_len r =? i + Z.of_nat (length (e_text r)) - e_len r) = (e_pos c =? i))
          by (destruct (Z.eqb_spec (e_pos c) i); [apply Z.eqb_eq; lia|apply Z.eqb_neq; lia]).
        assert (E2 : (e_pos c + Z.of_nat (length (e_text r)) - e_len r + e_len c =? i + Z.of_nat (length (e_text r)) - e_len r)
                     = (e_pos c + e_len c =? i))
          by (destruct (Z.eqb_spec (e_pos c + e_len c) i); [apply Z.eqb_eq; lia|apply Z.eqb_neq; lia]).
        assert (E3 : (i + Z.of_nat (length (e_text r)) - e_len r <? e_pos c + Z.of_nat (length (e_text r)) - e_len r + e_len c)
                     = (i <? e_pos c + e_len c))
          by (destruct (Z.ltb_spec i (e_pos c + e_len c)); [apply Z.ltb_lt; lia|apply Z.ltb_ge; lia]).
        assert (E4 : (e_pos c + Z.of_nat (length (e_text r)) - e_len r <=? i + Z.of_nat (length (e_text r)) - e_len r)
                     = (e_pos c <=? i))
          by (destruct (Z.leb_spec (e_pos c) i); [apply Z.leb_le; lia|apply Z.leb_gt; lia]).
        rewrite E1, E2, E3, E4. repeat split. }
    destruct E as (E1 & E2 & E3). now rewrite E1, E2, E3.
  Qed.

  (** No other edit has to do with the positions of the new text, nor with those of the old one. *)
  Lemma quiet i (L : list edit) : Forall (fun c => e_pos c + e_len c <= i /\ e_pos c < i \/ i < e_pos c) L ->
    inserted (map change_of L) i = [] /\ replacing (map change_of L) i = [] /\ replaced (map change_of L) i = false.
  Proof.
    unfold inserted, replacing, replaced. induction 1 as [|c L HC _ (I1 & I2 & I3)]; [repeat split|].
    cbn [map flat_map existsb change_of from upto new]. rewrite I1, I2, I3.
    assert (E1 : (e_pos c =? i) = false) by (apply Z.eqb_neq; lia).
    assert (E2 : (e_pos c <=? i) && (i <? e_pos c + e_len c) = false)
      by (destruct (Z.leb_spec (e_pos c) i); [|reflexivity]; apply Z.ltb_ge; lia).
    rewrite E1, E2. repeat split.
  Qed.

  Lemma new_eq i : (i < length t)%nat ->
    at_position C' s' (p + i) = match nth_error t i with Some c => [c] | None => [] end.
  Proof.
    intros H. unfold at_position. rewrite nth_new by exact H.
    destruct (quiet (Z.of_nat (p + i)) (map (shift r) R)) as (E1 & E2 & E3).
    { apply Forall_map. rewrite Forall_forall in *. intros c Hc. pose proof (AR c Hc) as AC. pose proof (GR c Hc) as (_ & GC & _).
      destruct G as (G1 & G2 & G3). unfold p, t in *. destruct AC as [[A1 A2]|A].
      - rewrite shift_before by lia. lia.
      - rewrite shift_after by lia. cbn. lia. }
    fold C' in E1, E2, E3. now rewrite E1, E2, E3.
  Qed.

  Lemma old_eq i : (i < l)%nat ->
    at_position (change_of r :: C) s (p + i) = if (i =? 0)%nat then t else [].
  Proof.
    intros H. unfold at_position.
    destruct (quiet (Z.of_nat (p + i)) R) as (E1 & E2 & E3).
    { rewrite Forall_forall in *. intros c Hc. pose proof (AR c Hc) as AC. destruct G as (G1 & G2 & G3).
      unfold p, l in *. destruct AC as [[A1 A2]|A]; lia. }
    fold C in E1, E2, E3. unfold inserted, replacing, replaced in *. cbn [flat_map existsb change_of from upto new].
    rewrite E1, E2, E3, !app_nil_r.
    destruct G as (G1 & G2 & G3). unfold p, l in *.
    assert (B1 : (e_pos r + e_len r =? Z.of_nat (Z.to_nat (e_pos r) + i)) = false) by (apply Z.eqb_neq; lia).
    assert (B2 : (Z.of_nat (Z.to_nat (e_pos r) + i) <? e_pos r + e_len r) = true) by (apply Z.ltb_lt; lia).
    assert (B3 : (e_pos r <=? Z.of_nat (Z.to_nat (e_pos r) + i)) = true) by (apply Z.leb_le; lia).
    rewrite B1, B2, B3, andb_false_r, andb_true_r. cbn [orb andb app]. rewrite app_nil_r.
    destruct (Nat.eqb_spec i 0) as [->|N].
    - rewrite Nat.add_0_r. rewrite Z2Nat.id by lia. now rewrite Z.eqb_refl.
    - assert (B4 : (e_pos r =? Z.of_nat (Z.to_nat (e_pos r) + i)) = false) by (apply Z.eqb_neq; lia). now rewrite B4.
  Qed.

  Lemma outside_eq i : (i < p \/ p + l <= i)%nat ->
    at_position (change_of r :: C) s i = (if (l =? 0)%nat && (i =? p)%nat then t else []) ++ at_position C s i.
  Proof.
    intros H. unfold at_position, inserted, replacing, replaced. cbn [flat_map existsb change_of from upto new].
    destruct G as (G1 & G2 & G3). unfold p, l in *.
    assert (B2 : (e_pos r =? Z.of_nat i) && (Z.of_nat i <? e_pos r + e_len r) = false).
    { destruct (Z.eqb_spec (e_pos r) (Z.of_nat i)); [|reflexivity]. apply Z.ltb_ge. lia. }
    assert (B3 : (e_pos r <=? Z.of_nat i) && (Z.of_nat i <? e_pos r + e_len r) = false).
    { destruct (Z.leb_spec (e_pos r) (Z.of_nat i)); [|reflexivity]. apply Z.ltb_ge. lia. }
    assert (B1 : (e_pos r =? Z.of_nat i) && (e_pos r + e_len r =? Z.of_nat i)
                 = (Z.to_nat (e_len r) =? 0)%nat && (i =? Z.to_nat (e_pos r))%nat).
    { apply eq_true_iff_eq. rewrite !andb_true_iff, !Z.eqb_eq, !Nat.eqb_eq. lia. }
    rewrite B1, B2, B3. cbn [orb app]. unfold t. now rewrite <- app_assoc.
  Qed.

  Lemma flat_map_ext_seq (f g : nat -> str) a n : (forall i, (a <= i < a + n)%nat -> f i = g i) ->
    flat_map f (seq a n) = flat_map g (seq a n).
  Proof.
    revert a. induction n as [|n IH]; intros a H; [reflexivity|]. cbn. rewrite H by lia. f_equal. apply IH. intros i Hi. apply H. lia.
  Qed.
  Lemma flat_map_shift (f g : nat -> str) a b n : (forall k, (k < n)%nat -> f (a + k)%nat = g (b + k)%nat) ->
    flat_map f (seq a n) = flat_map g (seq b n).
  Proof.
    revert a b. induction n as [|n IH]; intros a b H; [reflexivity|]. cbn.
    rewrite <- (Nat.add_0_r a) at 1. rewrite <- (Nat.add_0_r b) at 1. rewrite H by lia. f_equal.
    apply IH. intros k Hk. replace (S a + k)%nat with (a + S k)%nat by lia. replace (S b + k)%nat with (b + S k)%nat by lia.
    apply H. lia.
  Qed.
  Lemma flat_map_nth (u : str) : flat_map (fun i => match nth_error u i with Some c => [c] | None => [] end) (seq 0 (length u)) = u.
  Proof.
    induction u as [|c u IH]; [reflexivity|]. cbn [length seq flat_map nth_error app]. f_equal.
    rewrite <- seq_shift. rewrite flat_map_concat_map, map_map. cbn [nth_error]. rewrite <- flat_map_concat_map. exact IH.
  Qed.

  Lemma step_eq : all_at_once C' s' = all_at_once (change_of r :: C) s.
  Proof.
    pose proof pl_len as PL. unfold all_at_once. rewrite s'_len.
    replace (S (p + length t + (length s - (p + l)))) with (p + (length t + (S (length s) - (p + l))))%nat by lia.
    replace (S (length s)) with (p + (l + (S (length s) - (p + l))))%nat at 2 by lia.
    rewrite !seq_app, !flat_map_app. cbn [Nat.add].
    assert (E1 : flat_map (at_position C' s') (seq 0 p) = flat_map (at_position (change_of r :: C) s) (seq 0 p)).
    { apply flat_map_ext_seq. intros i Hi. rewrite outside_eq by lia.
      replace (i =? p)%nat with false by (symmetry; apply Nat.eqb_neq; lia). rewrite andb_false_r. apply before_eq. lia. }
    rewrite E1. f_equal.
    assert (E2 : flat_map (at_position C' s') (seq p (length t)) = t).
    { rewrite <- (flat_map_nth t) at 2. apply flat_map_shift. intros k Hk. apply new_eq. exact Hk. }
    rewrite E2.
    assert (E3 : flat_map (at_position C' s') (seq (p + length t) (S (length s) - (p + l)))
                 = flat_map (at_position C s) (seq (p + l) (S (length s) - (p + l)))).
    { apply flat_map_shift. intros k Hk. apply after_eq. }
    rewrite E3. destruct l as [|m] eqn:El.
    - cbn [seq flat_map app]. rewrite Nat.add_0_r in *.
      replace (S (length s) - p)%nat with (S (length s - p)) by lia. cbn [seq flat_map].
      rewrite outside_eq by lia. rewrite El, !Nat.eqb_refl. cbn [andb]. rewrite <- app_assoc. f_equal. f_equal.
      apply flat_map_ext_seq. intros i Hi. rewrite outside_eq by lia.
      replace (i =? p)%nat with false by (symmetry; apply Nat.eqb_neq; lia). now rewrite andb_false_r.
    - f_equal.
      + cbn [seq flat_map]. rewrite <- (Nat.add_0_r p) at 1. rewrite old_eq by lia. cbn [Nat.eqb].
        transitivity (t ++ flat_map (fun _ => @nil N) (seq (S p) m)).
        * assert (Z0 : forall n a, flat_map (fun _ => @nil N) (seq a n) = []) by (induction n; intros a; cbn; auto).
          now rewrite Z0, app_nil_r.
        * f_equal. apply flat_map_ext_seq. intros i Hi. replace i with (p + (i - p))%nat by lia.
          rewrite old_eq by lia. replace (i - p =? 0)%nat with false by (symmetry; apply Nat.eqb_neq; lia). reflexivity.
      + apply flat_map_ext_seq. intros i Hi. rewrite outside_eq by lia. now rewrite El.
  Qed.

  Lemma shift_in_text : Forall (in_text s') (map (shift r) R).
  Proof.
    apply Forall_map. rewrite Forall_forall in *. intros c Hc. pose proof (AR c Hc) as AC. pose proof (GR c Hc) as (C1 & C2 & C3).
    pose proof s'_len as L. pose proof pl_len as PL. destruct G as (G1 & G2 & G3). unfold in_text, p, l, t in *. rewrite L.
    destruct AC as [[A1 A2]|A].
    - rewrite shift_before by lia. lia.
    - rewrite shift_after by lia. cbn. lia.
  Qed.

  Lemma shift_after_each : ForallOrdPairs after R -> ForallOrdPairs after (map (shift r) R).
  Proof.
    intros O. apply fop_map. apply (fop_impl after); [|exact O]. intros a b Ha Hb AB.
    rewrite Forall_forall in *. pose proof (AR a Ha) as Aa. pose proof (AR b Hb) as Ab.
    pose proof (GR a Ha) as (_ & Ga & _). pose proof (GR b Hb) as (_ & Gb & _).
    destruct G as (G1 & G2 & G3). unfold after in AB |- *.
    destruct Aa as [[A1 A2]|A]; destruct Ab as [[B1 B2]|B].
    - rewrite !shift_before by lia. exact AB.
    - rewrite (shift_before r a), (shift_after r b) by lia. cbn. lia.
    - rewrite (shift_after r a), (shift_before r b) by lia. cbn. lia.
    - rewrite (shift_after r a), (shift_after r b) by lia. cbn. lia.
  Qed.
End Step.

Lemma all_at_once_nil s : all_at_once [] s = s.
Proof.
  unfold all_at_once. rewrite <- (Nat.add_1_r (length s)), seq_app, flat_map_app. cbn [seq flat_map Nat.add].
  unfold at_position at 2. cbn [inserted replacing replaced flat_map existsb app].
  replace (nth_error s (length s)) with (@None N) by (symmetry; apply nth_error_None; lia). rewrite app_nil_r.
  apply flat_map_nth.
Qed.

Lemma run_exact fuel rs s : (length rs <= fuel)%nat -> Forall (in_text s) rs -> ForallOrdPairs after rs ->
  run fuel rs s = all_at_once (map change_of rs) s.
Proof.
  revert rs s. induction fuel as [|fuel IH]; intros rs s L G O.
  - destruct rs; [|cbn in L; lia]. cbn. symmetry. apply all_at_once_nil.
  - destruct rs as [|r rs]; [cbn; symmetry; apply all_at_once_nil|]. cbn [run map].
    inversion G as [|? ? Gr GR]; subst. inversion O as [|? ? Ar OR]; subst. rewrite IH.
    + exact (step_eq r s Gr rs GR Ar).
    + rewrite map_length. cbn in L. lia.
    + exact (shift_in_text r s Gr rs GR Ar).
    + exact (shift_after_each r s Gr rs GR Ar OR).
Qed.

(** ** From requests to edits *)

Lemma mid_between s a b : 0 <= a -> a <= b -> b <= Z.of_nat (length s) -> mid s a (b - a) = between s a b.
Proof.
  intros H1 H2 H3. unfold mid, between. destruct (Z.ltb_spec (Z.of_nat (length s)) a); [lia|].
  destruct (Z.ltb_spec a 0); [lia|]. destruct (Z.ltb_spec (b - a) 0); [lia|].
  destruct (Z.ltb_spec (Z.of_nat (length s) - a) (b - a)); [lia|]. reflexivity.
Qed.

Ltac within_inv H := unfold within in H; cbn [parts] in H;
  repeat match type of H with
  | Forall _ [] => clear H
  | Forall _ (_ :: _) => let a := fresh "Q" in apply Forall_cons_iff in H; destruct H as [a H]; cbn [fst snd] in a
  end.

Lemma convert_changes s r : within s r -> map change_of (convert s (op_of r)) = changes s r.
Proof.
  intros W. destruct r; within_inv W; cbn [op_of convert changes map change_of e_pos e_len e_text];
    unfold change_of; cbn [e_pos e_len e_text]; rewrite ?mid_between by lia;
    repeat (apply f_equal2); try reflexivity; f_equal; lia.
Qed.

Lemma convert_in_text s r : within s r -> Forall (in_text s) (convert s (op_of r)).
Proof.
  intros W. destruct r; within_inv W; cbn [op_of convert]; repeat constructor; cbn; lia.
Qed.

Lemma convert_parts s r e : within s r -> In e (convert s (op_of r)) -> In (e_pos e, e_pos e + e_len e) (parts r).
Proof.
  intros W I0. destruct r; within_inv W; cbn [op_of convert] in I0; cbn in I0;
    repeat destruct I0 as [I0|I0]; subst; try contradiction; cbn; rewrite <- ?range_eq, <- ?point_eq; auto.
Qed.

Lemma convert_fop s r : within s r -> ForallOrdPairs (fun x y => ~ clash x y) (parts r) ->
  ForallOrdPairs (fun a b => ~ clash (e_pos a, e_pos a + e_len a) (e_pos b, e_pos b + e_len b)) (convert s (op_of r)).
Proof.
  intros W O. destruct r; within_inv W; cbn [op_of convert parts] in *; repeat constructor; cbn [e_pos e_len];
    inversion O as [|? ? F _]; subst; rewrite <- ?range_eq, <- ?point_eq; now inversion F.
Qed.

Lemma edits_fop s rs : Forall (within s) rs -> ForallOrdPairs (fun x y => ~ clash x y) (flat_map parts rs) ->
  ForallOrdPairs (fun a b => ~ clash (e_pos a, e_pos a + e_len a) (e_pos b, e_pos b + e_len b))
    (flat_map (convert s) (recorded rs)).
Proof.
  intros W. induction W as [|r rs Wr W IH]; cbn [recorded map flat_map]; [constructor|].
  rewrite !fop_app. intros (O1 & O2 & O3). split; [now apply convert_fop|split; [now apply IH|]].
  intros a b Ha Hb. apply O3; [now apply (convert_parts s)|].
  apply in_flat_map in Hb. destruct Hb as (o & Io & Hb). apply in_map_iff in Io. destruct Io as (r' & <- & Ir).
  apply in_flat_map. exists r'. split; [exact Ir|]. rewrite Forall_forall in W. apply (convert_parts s); auto.
Qed.

(** C37, second half.  Edits for which no error was reported are applied all at once to the text as it was, provided that none inserts
    text at the beginning of a part that an earlier one replaces or removes. *)
Theorem edits_exact rs s :
  Forall (within s) rs ->
  error (perform_all empty rs) = false ->
  ForallOrdPairs (fun x y => ~ inserts_at_start x y) (flat_map (changes s) rs) ->
  apply (perform_all empty rs) s = all_at_once (flat_map (changes s) rs) s.
Proof.
  intros W E C. apply clashes_reported in E.
  2:{ eapply Forall_impl; [|exact W]. intros r Wr. unfold oriented. eapply Forall_impl; [|exact Wr]. cbn. lia. }
  assert (EC : map change_of (flat_map (convert s) (recorded rs)) = flat_map (changes s) rs).
  { clear C E. induction W as [|r rs Wr W IH]; [reflexivity|]. cbn [recorded map flat_map]. rewrite map_app.
    rewrite convert_changes by exact Wr. f_equal. exact IH. }
  assert (EI : Forall (in_text s) (flat_map (convert s) (recorded rs))).
  { clear C E EC. induction W as [|r rs Wr W IH]; cbn; [constructor|]. apply Forall_app. split; [now apply convert_in_text|exact IH]. }
  unfold apply. rewrite operations_all, <- EC. apply run_exact; [apply Nat.le_refl|exact EI|].
  rewrite <- EC in C. apply fop_map in C. pose proof (edits_fop s rs W E) as D.
  assert (B : ForallOrdPairs (fun a b => ~ clash (e_pos a, e_pos a + e_len a) (e_pos b, e_pos b + e_len b)
               /\ ~ inserts_at_start (change_of a) (change_of b)) (flat_map (convert s) (recorded rs))).
  { revert C D. generalize (flat_map (convert s) (recorded rs)) as L. clear. induction L as [|a L IH]; intros C D; [constructor|].
    inversion C as [|? ? C1 C2]; subst. inversion D as [|? ? D1 D2]; subst. constructor; [|now apply IH].
    rewrite Forall_forall in *. intros b Hb. split; auto. }
  revert B. apply fop_impl. intros a b Ha Hb [N1 N2]. rewrite Forall_forall in EI.
  destruct (EI a Ha) as (A1 & A2 & A3). destruct (EI b Hb) as (B1 & B2 & B3).
  unfold after. unfold clash, inserts_at_start in *. cbn [fst snd change_of from upto] in *.
  destruct (Z_lt_le_dec (e_pos b) (e_pos a)) as [L|L].
  - left. split; [exact L|]. destruct (Z_le_gt_dec (e_pos b + e_len b) (e_pos a)) as [|M]; [assumption|exfalso].
    destruct (Z.eq_dec (e_len a) 0) as [Z0|Z0].
    + apply N1. right; left. lia.
    + apply N1. left. exists (e_pos a). lia.
  - right. destruct (Z_le_gt_dec (e_pos a + e_len a) (e_pos b)) as [|M]; [assumption|exfalso].
    destruct (Z.eq_dec (e_len b) 0) as [Z0|Z0].
    + destruct (Z.eq_dec (e_pos a) (e_pos b)) as [Q|Q]; [apply N2; lia|apply N1; right; right; lia].
    + apply N1. left. exists (e_pos b). lia.
Qed.

(** The condition on insertions cannot be dropped: replacing the first three characters and then inserting at the beginning loses
    the insertion, though no error is reported.  *)
Theorem edits_exact_refuted : exists rs s,
  Forall (within s) rs /\ error (perform_all empty rs) = false
  /\ apply (perform_all empty rs) s <> all_at_once (flat_map (changes s) rs) s.
Proof.
  exists [RReplace 0 3 [120%N]; RInsert 0 [121%N]], [97%N; 98%N; 99%N; 100%N].
  split; [repeat constructor; cbn; lia|]. split; [reflexivity|]. vm_compute. discriminate.
Qed.

(** Removed parts are affected as well: the text inserted at the end comes before the one inserted at the start. *)
Theorem edits_after_removal_refuted : exists a b p q t u s,
  let rs := [RRemove a b; RInsert p t; RInsert q u] in
  Forall (within s) rs /\ error (perform_all empty rs) = false /\ q < p
  /\ apply (perform_all empty rs) s = t ++ u /\ all_at_once (flat_map (changes s) rs) s = u ++ t /\ t <> u.
Proof.
  exists 0, 1, 1, 0, [120%N], [121%N], [97%N]. cbn zeta. split; [repeat constructor; cbn; lia|].
  repeat split; discriminate.
Qed.

(** ** Examples *)
Module Demo.
  (** abcdefgh; move bc behind f, replace e, copy a to the end, flip d and g. *)
  Definition text : str := [97; 98; 99; 100; 101; 102; 103; 104]%N.
  Definition rs : list request := [RMove 1 3 6; RReplace 4 5 [88; 89]%N; RCopy 0 1 8; RFlip 3 4 6 7].
  Example hyp1 : Forall (within text) rs. Proof. repeat constructor; cbn; lia. Qed.
  Example hyp2 : error (perform_all empty rs) = false. Proof. reflexivity. Qed.
  Example hyp3 : ForallOrdPairs (fun x y => ~ inserts_at_start x y) (flat_map (changes text) rs).
  Proof. repeat constructor; unfold inserts_at_start; cbn; lia. Qed.
  (** agXYfbcdha *)
  Example result : apply (perform_all empty rs) text = [97; 103; 88; 89; 102; 98; 99; 100; 104; 97]%N. Proof. reflexivity. Qed.
  Example clashing : error (perform_all empty [RReplace 2 5 []; RInsert 3 []]) = true. Proof. reflexivity. Qed.
  Example oriented_ok : Forall oriented rs. Proof. repeat constructor; cbn; lia. Qed.
End Demo.

Print Assumptions clashes_reported.
Print Assumptions clash_result.
Print Assumptions edits_exact.
Print Assumptions edits_exact_refuted.
Print Assumptions edits_after_removal_refuted.
