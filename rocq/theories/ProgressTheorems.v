(** What users see of the progress of a build. *)
From Coq Require Import List ZArith NArith Bool Lia Arith.
From Verif Require Import ProgressModel.
Import ListNotations.
Local Open Scope Z_scope.

(** * Specification *)

(** A terminal: the finished lines, and the current one, in front of the cursor (backwards) and
    from the cursor on. *)
Record term := { lines : list (list N); before : list N; after : list N }.

Definition blank : term := {| lines := []; before := []; after := [] |}.

(** 8 is backspace, which only moves the cursor, and 10 ends a line. *)
Definition put (t : term) (c : N) : term :=
  if N.eqb c 8 then
    match before t with
    | [] => t
    | x :: r => {| lines := lines t; before := r; after := x :: after t |}
    end
  else if N.eqb c 10 then
    {| lines := lines t ++ [rev (before t) ++ after t]; before := []; after := [] |}
  else {| lines := lines t; before := c :: before t; after := tl (after t) |}.

Definition screen (l : list N) : term := fold_left put l blank.

(** A number in decimal digits without zeros in front. *)
Definition number (ds : list N) (p : Z) : Prop :=
  fold_left (fun a d => 10 * a + (Z.of_N d - 48)) ds 0 = p /\
  (forall d, In d ds -> (48 <= d <= 57)%N) /\ ds <> [] /\ (hd 48%N ds = 48%N -> ds = [48%N]).

(** The line for a percentage: the task, a colon and a blank, then one hash sign for each two
    percent, a blank, the number and a percent sign; at the beginning there is no blank. *)
Definition bar (task : list N) (p : Z) (line : list N) : Prop :=
  (p = 0 /\ line = task ++ [58; 32; 48; 37]%N) \/
  (0 < p /\ exists ds, number ds p /\
     line = task ++ [58; 32]%N ++ repeat 35%N (Z.to_nat (p / 2)) ++ [32]%N ++ ds ++ [37]%N).

(** Ordinary characters. *)
Definition printable (l : list N) : Prop := forall c, In c l -> c <> 8%N /\ c <> 10%N.

(** The greatest of the values up to the maximum. *)
Fixpoint best (m : Z) (vs : list Z) : Z :=
  match vs with
  | [] => 0
  | v :: r => if v <=? m then Z.max v (best m r) else best m r
  end.

(** What the jobs have reported: the value of each job that came last, and all efforts. *)
Definition last_value (j : N) (l : list event) : Z :=
  fold_left (fun a e => match e with
                        | Progress k v => if N.eqb k j then v else a
                        | NewTask _ => a
                        end) l 0.

Definition done_of (jobs : list N) (l : list event) : Z :=
  fold_right Z.add 0 (map (fun j => last_value j l) jobs).

Fixpoint started (l : list event) : nat :=
  match l with
  | [] => 0
  | NewTask _ :: r => S (started r)
  | Progress _ _ :: r => started r
  end.

Fixpoint all_effort (l : list event) : Z :=
  match l with
  | [] => 0
  | NewTask t :: r => t + all_effort r
  | Progress _ _ :: r => all_effort r
  end.

(** No job goes back. *)
Definition steady (l : list event) : Prop :=
  forall l1 j v l2, l = l1 ++ Progress j v :: l2 -> last_value j l1 <= v.

(** * The terminal *)

Lemma put_plain : forall l d b a, printable l ->
  fold_left put l {| lines := d; before := b; after := a |} =
  {| lines := d; before := rev l ++ b; after := skipn (length l) a |}.
Proof.
  induction l as [|c r IH]; intros d b a H; [reflexivity|].
  destruct (H c (or_introl eq_refl)) as [H8 H10]. cbn [fold_left].
  unfold put at 2. apply N.eqb_neq in H8. apply N.eqb_neq in H10. rewrite H8, H10.
  cbn [lines before after]. rewrite IH; [|intros x Q; apply H; right; exact Q].
  cbn [rev length]. rewrite <- app_assoc. cbn [app].
  destruct a as [|x a]; cbn [tl skipn]; [|reflexivity]. rewrite skipn_nil. reflexivity.
Qed.

Lemma put_back : forall s d b a,
  fold_left put (repeat 8%N (length s)) {| lines := d; before := rev s ++ b; after := a |} =
  {| lines := d; before := b; after := s ++ a |}.
Proof.
  induction s as [|x s IH] using rev_ind; intros d b a; [reflexivity|].
  rewrite app_length, Nat.add_comm. cbn [length Nat.add repeat fold_left].
  rewrite rev_app_distr. cbn [rev app]. unfold put at 2. cbn. rewrite IH, <- app_assoc. reflexivity.
Qed.

Lemma repeat_printable : forall c k, c <> 8%N -> c <> 10%N -> printable (repeat c k).
Proof. intros c k A B x H. apply repeat_spec in H. subst x. split; assumption. Qed.

Lemma rev_repeat : forall (c : N) k, rev (repeat c k) = repeat c k.
Proof.
  intros c. induction k as [|k IH]; [reflexivity|]. cbn [repeat rev]. rewrite IH.
  rewrite <- (repeat_cons k c). reflexivity.
Qed.

Lemma put_erase : forall s d b,
  fold_left put (repeat 8%N (length s) ++ repeat 32%N (length s) ++ repeat 8%N (length s))
    {| lines := d; before := rev s ++ b; after := [] |} =
  {| lines := d; before := b; after := repeat 32%N (length s) |}.
Proof.
  intros s d b. rewrite !fold_left_app, put_back, app_nil_r.
  rewrite put_plain by (apply repeat_printable; discriminate).
  rewrite repeat_length, skipn_all, rev_repeat.
  rewrite <- (rev_repeat 32%N (length s)) at 1.
  pose proof (put_back (repeat 32%N (length s)) d b []) as E. rewrite repeat_length in E.
  rewrite E, app_nil_r. reflexivity.
Qed.

(** * Digits *)

Definition digits_ok (p : Z) : bool :=
  (fold_left (fun a d => 10 * a + (Z.of_N d - 48)) (digits p) 0 =? p) &&
  forallb (fun d => (48 <=? d)%N && (d <=? 57)%N) (digits p) &&
  (negb (N.eqb (hd 48%N (digits p)) 48) || (p =? 0)) &&
  Nat.eqb (length (digits p)) (if (p <? 10)%Z then 1 else if (p <? 100)%Z then 2 else 3).

Lemma digits_number : forall p, 0 <= p <= 100 -> number (digits p) p /\
  length (digits p) = (if (p <? 10)%Z then 1 else if (p <? 100)%Z then 2 else 3)%nat.
Proof.
  intros p H.
  assert (T : forallb digits_ok (map Z.of_nat (seq 0 101)) = true) by (vm_compute; reflexivity).
  rewrite forallb_forall in T. specialize (T p).
  assert (Q : In p (map Z.of_nat (seq 0 101))).
  { apply in_map_iff. exists (Z.to_nat p). split; [lia|]. apply in_seq. lia. }
  apply T in Q. unfold digits_ok in Q. rewrite !andb_true_iff in Q.
  destruct Q as [[[Q1 Q2] Q3] Q4]. apply Z.eqb_eq in Q1. apply Nat.eqb_eq in Q4.
  split; [|exact Q4]. split; [exact Q1|]. split; [|split].
  - intros d Hd. rewrite forallb_forall in Q2. specialize (Q2 d Hd).
    apply andb_true_iff in Q2. destruct Q2 as [A B]. apply N.leb_le in A. apply N.leb_le in B. lia.
  - intros E. rewrite E in Q4. destruct (p <? 10); [|destruct (p <? 100)]; discriminate.
  - intros E. rewrite E in Q3. cbn in Q3. apply Z.eqb_eq in Q3. subst p. reflexivity.
Qed.

Lemma digits_printable : forall p, 0 <= p <= 100 -> printable (digits p).
Proof.
  intros p H c Hc. destruct (digits_number p H) as [[_ [D _]] _]. specialize (D c Hc). lia.
Qed.

(** * The bar *)

Definition tail (p : Z) : list N :=
  if p =? 0 then [48; 37]%N else [32]%N ++ digits p ++ [37]%N.

Definition line_of (task : list N) (p : Z) : list N :=
  task ++ [58; 32]%N ++ repeat 35%N (Z.to_nat (p * 50 / 100)) ++ tail p.

Lemma half : forall p, p * 50 / 100 = p / 2.
Proof.
  intros p. replace 100 with (2 * 50) by reflexivity. apply Z.div_mul_cancel_r; lia.
Qed.

Lemma line_bar : forall task p, 0 <= p <= 100 -> bar task p (line_of task p).
Proof.
  intros task p H. unfold line_of, tail. destruct (Z.eqb_spec p 0) as [E|E].
  - left. split; [exact E|]. rewrite E. reflexivity.
  - right. split; [lia|]. exists (digits p). split; [apply digits_number; exact H|].
    rewrite half. reflexivity.
Qed.

Record shows (task : list N) (ls : list (list N)) (m : Z) (o : obs) : Prop := {
  s_max : omax o = m;
  s_val : 0 <= oval o <= m;
  s_pct : opct o = 100 * oval o / m;
  s_hash : ohash o = opct o * 50 / 100;
  s_out : screen (out o) =
    if oval o =? m then {| lines := ls ++ [line_of task (opct o)]; before := []; after := [] |}
    else {| lines := ls; before := rev (line_of task (opct o)); after := [] |} }.

Lemma pct_range : forall m v, 0 < m -> 0 <= v <= m -> 0 <= 100 * v / m <= 100.
Proof.
  intros m v M V. split; [apply Z.div_pos; lia|].
  apply Z.div_le_upper_bound; nia.
Qed.

Lemma pct_full : forall m v, 0 < m -> 0 <= v < m -> 100 * v / m < 100.
Proof. intros m v M V. apply Z.div_lt_upper_bound; nia. Qed.

Lemma out_steps : forall ls task p q, printable task -> 0 <= p < 100 -> p < q <= 100 ->
  fold_left put
    ((let k := if p =? 0 then 2%nat else if p <? 10 then 3%nat else 4%nat in
      repeat 8%N k ++ repeat 32%N k ++ repeat 8%N k) ++
     repeat 35%N (Z.to_nat (q * 50 / 100 - p * 50 / 100)) ++ [32]%N ++ digits q ++ [37]%N)
    {| lines := ls; before := rev (line_of task p); after := [] |} =
  {| lines := ls; before := rev (line_of task q); after := [] |}.
Proof.
  intros ls task p q Pr P Q.
  assert (Lp : length (tail p) = if p =? 0 then 2%nat else if p <? 10 then 3%nat else 4%nat).
  { unfold tail. destruct (p =? 0); [reflexivity|]. rewrite !app_length.
    rewrite (proj2 (digits_number p ltac:(lia))). cbn [length].
    destruct (Z.ltb_spec p 10); [reflexivity|]. destruct (Z.ltb_spec p 100); [reflexivity|lia]. }
  cbv zeta. rewrite <- Lp, fold_left_app.
  set (stem := fun x => task ++ [58; 32]%N ++ repeat 35%N (Z.to_nat (x * 50 / 100))).
  assert (Lo : forall x, line_of task x = stem x ++ tail x).
  { intros x. unfold line_of, stem. rewrite <- !app_assoc. reflexivity. }
  rewrite (Lo p), rev_app_distr, put_erase.
  rewrite put_plain.
  2:{ intros c H. apply in_app_or in H. destruct H as [H|H].
      - apply repeat_spec in H. subst c. split; discriminate.
      - apply in_app_or in H. destruct H as [[H|[]]|H]; [subst c; split; discriminate|].
        apply in_app_or in H. destruct H as [H|[H|[]]]; [|subst c; split; discriminate].
        apply (digits_printable q); [lia|exact H]. }
  f_equal.
  - rewrite (Lo q). rewrite <- rev_app_distr. f_equal.
    unfold tail. replace (q =? 0) with false by (symmetry; apply Z.eqb_neq; lia).
    unfold stem. rewrite <- !app_assoc. do 2 f_equal. rewrite app_assoc. f_equal.
    rewrite <- repeat_app. f_equal.
    assert (p * 50 / 100 <= q * 50 / 100) by (apply Z.div_le_mono; lia).
    assert (0 <= p * 50 / 100) by (apply Z.div_pos; lia). lia.
  - apply skipn_all2. rewrite repeat_length, !app_length, repeat_length, Lp.
    rewrite (proj2 (digits_number q ltac:(lia))). cbn [length].
    destruct (Z.eqb_spec p 0); [destruct (q <? 10); [|destruct (q <? 100)]; lia|].
    destruct (Z.ltb_spec p 10); destruct (Z.ltb_spec q 10); try lia;
      destruct (Z.ltb_spec q 100); lia.
Qed.

Lemma set_value_shows : forall task ls m o v, printable task -> 0 < m -> shows task ls m o ->
  shows task ls m (set_value v o) /\
  oval (set_value v o) = if v <=? m then Z.max v (oval o) else oval o.
Proof.
  intros task ls m o v Pr M [S1 S2 S3 S4 S5]. unfold set_value. rewrite S1.
  destruct (Z.ltb_spec m v) as [A|A]; cbn [orb].
  { split; [constructor; assumption|]. destruct (Z.leb_spec v m); [lia|reflexivity]. }
  replace (v <=? m) with true by (symmetry; apply Z.leb_le; lia).
  destruct (Z.leb_spec v (oval o)) as [B|B].
  { split; [constructor; assumption|]. lia. }
  set (p := 100 * v / m).
  assert (Hp : 0 <= p <= 100) by (apply pct_range; lia).
  assert (Ho : 0 <= opct o < 100).
  { rewrite S3. split; [apply Z.div_pos; lia|apply pct_full; lia]. }
  assert (Hle : opct o <= p) by (rewrite S3; apply Z.div_le_mono; lia).
  assert (Nf : (oval o =? m) = false) by (apply Z.eqb_neq; lia).
  rewrite Nf in S5.
  destruct (Z.eqb_spec p (opct o)) as [E|E].
  - cbn [oval]. split; [|lia]. constructor; cbn [omax oval opct ohash out].
    + reflexivity.
    + lia.
    + symmetry. exact E.
    + exact S4.
    + destruct (Z.eqb_spec v m) as [F|F]; [|exact S5]. exfalso.
      assert (p = 100) by (unfold p; rewrite F; apply Z.div_mul; lia). lia.
  - assert (Ob : out (write_percentage (update_bar (set_pct p (erase
        {| omax := m; oval := v; opct := opct o; ohash := ohash o; out := out o |})))) =
      out o ++ ((let k := if opct o =? 0 then 2%nat else if opct o <? 10 then 3%nat else 4%nat in
        repeat 8%N k ++ repeat 32%N k ++ repeat 8%N k) ++
        repeat 35%N (Z.to_nat (p * 50 / 100 - opct o * 50 / 100)) ++ [32]%N ++ digits p ++ [37]%N)
      /\ ohash (update_bar (set_pct p (erase
        {| omax := m; oval := v; opct := opct o; ohash := ohash o; out := out o |}))) = p * 50 / 100).
    { unfold write_percentage, update_bar, set_pct, erase, write.
      cbn [omax oval opct ohash out]. rewrite S4.
      assert (L : opct o * 50 / 100 <= p * 50 / 100) by (apply Z.div_le_mono; lia).
      destruct (Z.ltb_spec (opct o * 50 / 100) (p * 50 / 100)) as [G|G];
        cbn [omax oval opct ohash out].
      - split; [|reflexivity]. rewrite <- !app_assoc. reflexivity.
      - split; [|lia].
        replace (Z.to_nat (p * 50 / 100 - opct o * 50 / 100)) with 0%nat by lia.
        cbn [repeat app]. rewrite <- !app_assoc. reflexivity. }
    assert (Fields : forall o', omax (write_percentage (update_bar o')) = omax o' /\
       oval (write_percentage (update_bar o')) = oval o' /\
       opct (write_percentage (update_bar o')) = opct o' /\
       ohash (write_percentage (update_bar o')) = ohash (update_bar o')).
    { intros o'. unfold write_percentage, update_bar, write.
      destruct (ohash o' <? opct o' * 50 / 100); repeat split. }
    destruct (Fields (set_pct p (erase
        {| omax := m; oval := v; opct := opct o; ohash := ohash o; out := out o |})))
      as [F1 [F2 [F3 F4]]]. cbn [set_pct erase write omax oval opct] in F1, F2, F3.
    destruct Ob as [O1 O2]. rewrite O2 in F4. cbv zeta. rewrite ?S1.
    set (o2 := write_percentage (update_bar (set_pct p (erase
        {| omax := m; oval := v; opct := opct o; ohash := ohash o; out := out o |})))) in *.
    assert (Sc : screen (out o2) =
        {| lines := ls; before := rev (line_of task p); after := [] |}).
    { unfold screen in *. rewrite O1, fold_left_app, S5. apply out_steps; [exact Pr|exact Ho|lia]. }
    destruct (Z.eqb_spec v m) as [F|F].
    + split; [|cbn [write oval]; rewrite F2; lia].
      constructor; cbn [write omax oval opct ohash out].
      * exact F1.
      * rewrite F2. lia.
      * rewrite F3, F2. reflexivity.
      * rewrite F4, F3. reflexivity.
      * rewrite F2, F3. replace (v =? m) with true by (symmetry; apply Z.eqb_eq; exact F).
        unfold screen in *. rewrite fold_left_app, Sc. cbn. rewrite app_nil_r, rev_involutive. reflexivity.
    + split; [|rewrite F2; lia]. constructor.
      * exact F1.
      * rewrite F2. lia.
      * rewrite F3, F2. reflexivity.
      * rewrite F4, F3. reflexivity.
      * rewrite F2, F3. replace (v =? m) with false by (symmetry; apply Z.eqb_neq; exact F).
        exact Sc.
Qed.

Lemma initialize_again : forall task m o ls, printable task -> 0 < m ->
  screen (out o) = {| lines := ls; before := []; after := [] |} ->
  shows task ls m (initialize task m o) /\ oval (initialize task m o) = 0.
Proof.
  intros task m o ls Pr M E. unfold initialize, set_maximum.
  replace (m =? 0) with false by (symmetry; apply Z.eqb_neq; lia).
  split; [|reflexivity]. constructor; cbn [omax oval opct ohash out].
  - reflexivity.
  - lia.
  - reflexivity.
  - reflexivity.
  - replace (0 =? m) with false by (symmetry; apply Z.eqb_neq; lia).
    unfold screen in *. rewrite fold_left_app, E, put_plain.
    + rewrite app_nil_r, skipn_nil. reflexivity.
    + intros c H. apply in_app_or in H. destruct H as [H|H]; [apply Pr; exact H|].
      cbn in H. destruct H as [<-|[<-|[<-|[<-|[]]]]]; split; discriminate.
Qed.

Lemma initialize_shows : forall task m, printable task -> 0 < m ->
  shows task [] m (initialize task m no_output) /\ oval (initialize task m no_output) = 0.
Proof. intros task m Pr M. apply initialize_again; [exact Pr|exact M|reflexivity]. Qed.

Lemma values_show : forall task ls m vs o, printable task -> 0 < m -> shows task ls m o ->
  let o' := fold_left (fun o v => set_value v o) vs o in
  shows task ls m o' /\ oval o' = Z.max (oval o) (best m vs).
Proof.
  intros task ls m. induction vs as [|v r IH]; intros o Pr M Sh; cbn [fold_left best].
  - split; [exact Sh|]. pose proof (s_val _ _ _ _ Sh). lia.
  - destruct (set_value_shows task ls m o v Pr M Sh) as [S1 S2].
    destruct (IH (set_value v o) Pr M S1) as [T1 T2]. split; [exact T1|].
    rewrite T2, S2. destruct (v <=? m); lia.
Qed.

(** * Theorems *)

(** C139. At any time the terminal has exactly one line for the task, with the percentage that the
    greatest value so far is of the maximum, and nothing else; when the maximum is reached, the
    line is ended. *)
Theorem progress_shown : forall task m vs, printable task -> 0 < m ->
  let o := fold_left (fun o v => set_value v o) vs (initialize task m no_output) in
  exists line, bar task (100 * best m vs / m) line /\
    screen (out o) = if best m vs =? m then {| lines := [line]; before := []; after := [] |}
                     else {| lines := []; before := rev line; after := [] |}.
Proof.
  intros task m vs Pr M. cbv zeta. destruct (initialize_shows task m Pr M) as [S1 S2].
  destruct (values_show task [] m vs _ Pr M S1) as [T1 T2]. rewrite S2 in T2.
  set (o := fold_left (fun o v => set_value v o) vs (initialize task m no_output)) in *.
  assert (B : 0 <= best m vs) by (clear; induction vs as [|v r IH]; cbn; [lia|]; destruct (v <=? m); lia).
  rewrite Z.max_r in T2 by exact B.
  destruct T1 as [A1 A2 A3 A4 A5]. rewrite T2 in *.
  exists (line_of task (opct o)). split; [|exact A5].
  rewrite <- A3. apply line_bar. rewrite A3. apply pct_range; lia.
Qed.

(** C139. The same for a further task, after lines that have been ended. *)
Theorem next_progress_shown : forall task m vs o ls, printable task -> 0 < m ->
  screen (out o) = {| lines := ls; before := []; after := [] |} ->
  exists line, bar task (100 * best m vs / m) line /\
    screen (out (fold_left (fun o v => set_value v o) vs (initialize task m o))) =
      if best m vs =? m then {| lines := ls ++ [line]; before := []; after := [] |}
      else {| lines := ls; before := rev line; after := [] |}.
Proof.
  intros task m vs o0 ls Pr M E0. destruct (initialize_again task m o0 ls Pr M E0) as [S1 S2].
  destruct (values_show task ls m vs _ Pr M S1) as [T1 T2]. rewrite S2 in T2.
  set (o := fold_left (fun o v => set_value v o) vs (initialize task m o0)) in *.
  assert (B : 0 <= best m vs) by (clear; induction vs as [|v r IH]; cbn; [lia|]; destruct (v <=? m); lia).
  rewrite Z.max_r in T2 by exact B.
  destruct T1 as [A1 A2 A3 A4 A5]. rewrite T2 in *.
  exists (line_of task (opct o)). split; [|exact A5].
  rewrite <- A3. apply line_bar. rewrite A3. apply pct_range; lia.
Qed.

(** ** Any sequence of calls *)

Inductive call := SetMaximum (m : Z) | SetValue (v : Z).

Definition do_call (o : obs) (c : call) : obs :=
  match c with SetMaximum m => set_maximum m o | SetValue v => set_value v o end.

Definition hashes (l : list N) : nat := count_occ N.eq_dec l 35%N.

Lemma hashes_app : forall a b, hashes (a ++ b) = (hashes a + hashes b)%nat.
Proof. intros a b. unfold hashes. apply count_occ_app. Qed.

Lemma hashes_repeat : forall c k, hashes (repeat c k) = if N.eqb c 35 then k else 0%nat.
Proof.
  intros c. induction k as [|k IH]; [destruct (N.eqb c 35); reflexivity|].
  unfold hashes in *. cbn [repeat count_occ]. rewrite IH.
  destruct (N.eq_dec c 35) as [E|E]; destruct (N.eqb_spec c 35) as [F|F]; congruence.
Qed.

Lemma hashes_digits : forall p, 0 <= p <= 100 -> hashes (digits p) = 0%nat.
Proof.
  intros p H. unfold hashes. apply count_occ_not_In. intros Q.
  destruct (digits_number p H) as [[_ [D _]] _]. specialize (D _ Q). lia.
Qed.

Record counted (b : nat) (o : obs) : Prop := {
  c_count : (hashes (out o) = b + Z.to_nat (ohash o))%nat;
  c_hash : 0 <= ohash o <= 50;
  c_val : 0 <= oval o;
  c_pct : 0 <= opct o <= 100 }.

Lemma counted_write : forall b o l, counted b o -> hashes l = 0%nat -> counted b (write l o).
Proof.
  intros b o l [C1 C2 C3 C4] H. constructor; cbn [write out ohash oval opct]; try assumption.
  rewrite hashes_app. lia.
Qed.

Lemma counted_draw : forall b o p, counted b o -> 0 <= p <= 100 ->
  counted b (write_percentage (update_bar (set_pct p o))).
Proof.
  intros b o p [C1 C2 C3 C4] P. unfold write_percentage. 
  assert (Q : counted b (update_bar (set_pct p o)) /\ opct (update_bar (set_pct p o)) = p).
  { unfold update_bar, set_pct. cbn [omax oval opct ohash out].
    assert (H : 0 <= p * 50 / 100 <= 50).
    { rewrite half. split; [apply Z.div_pos; lia|]. apply Z.div_le_upper_bound; lia. }
    destruct (Z.ltb_spec (ohash o) (p * 50 / 100)) as [G|G]; (split; [|reflexivity]);
      constructor; cbn [omax oval opct ohash out]; try lia.
    rewrite hashes_app, hashes_repeat. cbn [N.eqb Pos.eqb]. lia. }
  destruct Q as [Q E]. apply counted_write; [exact Q|]. rewrite E, !hashes_app, hashes_digits by exact P.
  reflexivity.
Qed.

Lemma counted_call : forall b o c, counted b o -> counted b (do_call o c).
Proof.
  intros b o [m|v] C; cbn [do_call].
  - unfold set_maximum. destruct C as [C1 C2 C3 C4].
    destruct (m =? 0); [|constructor; assumption].
    apply counted_write; [|reflexivity]. apply counted_draw; [constructor; assumption|lia].
  - unfold set_value. destruct (Z.ltb_spec (omax o) v) as [A|A]; cbn [orb]; [exact C|].
    destruct (Z.leb_spec v (oval o)) as [B|B]; [exact C|]. destruct C as [C1 C2 C3 C4].
    destruct ((100 * v) / omax o =? opct o); [constructor; cbn [out ohash oval opct]; try assumption; lia|].
    assert (P : 0 <= 100 * v / omax o <= 100) by (apply pct_range; lia).
    assert (W : counted b (write_percentage (update_bar (set_pct (100 * v / omax o) (erase
       {| omax := omax o; oval := v; opct := opct o; ohash := ohash o; out := out o |}))))).
    { apply counted_draw; [|exact P]. unfold erase. apply counted_write.
      - constructor; cbn [out ohash oval opct]; try assumption. lia.
      - rewrite !hashes_app, !hashes_repeat. reflexivity. }
    destruct (v =? omax o); [apply counted_write; [exact W|reflexivity]|exact W].
Qed.

(** C139. Whatever the values are, and also if the maximum changes, a bar never gets more than
    50 hash signs. *)
Theorem bar_not_too_long : forall task m cs o,
  (hashes (out (fold_left do_call cs (initialize task m o))) <=
   hashes (out o) + hashes task + 50)%nat.
Proof.
  intros task m cs o.
  assert (T : counted (hashes (out o) + hashes task)
                (fold_left do_call cs (initialize task m o))).
  { assert (C : counted (hashes (out o) + hashes task) (initialize task m o)).
    { unfold initialize. apply (counted_call _ _ (SetMaximum m)).
      constructor; cbn [out ohash oval opct]; try lia. rewrite !hashes_app.
      replace (hashes [58; 32; 48; 37]%N) with 0%nat by reflexivity. lia. }
    revert C. generalize (initialize task m o). induction cs as [|c r IH]; intros o' C; [exact C|].
    apply IH. apply counted_call. exact C. }
  destruct T as [C1 C2 C3 C4]. rewrite C1. lia.
Qed.

(** ** Several jobs *)

Lemma last_snoc : forall j l e, last_value j (l ++ [e]) =
  match e with Progress k v => if N.eqb k j then v else last_value j l | NewTask _ => last_value j l end.
Proof. intros j l e. unfold last_value. rewrite fold_left_app. reflexivity. Qed.

Lemma started_app : forall a b, started (a ++ b) = (started a + started b)%nat.
Proof. induction a as [|[t|j v] r IH]; intros b; cbn; rewrite ?IH; reflexivity. Qed.

Lemma effort_app : forall a b, all_effort (a ++ b) = all_effort a + all_effort b.
Proof. induction a as [|[t|j v] r IH]; intros b; cbn; rewrite ?IH; lia. Qed.

Lemma done_task : forall jobs l t, done_of jobs (l ++ [NewTask t]) = done_of jobs l.
Proof.
  intros jobs l t. unfold done_of. f_equal. apply map_ext. intros j. apply last_snoc.
Qed.

Lemma done_other : forall jobs l k v, ~ In k jobs ->
  done_of jobs (l ++ [Progress k v]) = done_of jobs l.
Proof.
  intros jobs l k v H. unfold done_of. f_equal. apply map_ext_in. intros j Hj.
  rewrite last_snoc. destruct (N.eqb_spec k j) as [E|E]; [subst k; contradiction|reflexivity].
Qed.

Lemma done_progress : forall jobs l k v, NoDup jobs -> In k jobs ->
  done_of jobs (l ++ [Progress k v]) = done_of jobs l + (v - last_value k l).
Proof.
  intros jobs l k v Nd. induction jobs as [|j r IH]; intros H; [inversion H|].
  apply NoDup_cons_iff in Nd. destruct Nd as [N1 N2]. unfold done_of in *. cbn [map fold_right].
  rewrite last_snoc. destruct (N.eqb_spec k j) as [E|E].
  - subst k. pose proof (done_other r l j v N1) as D. unfold done_of in D. rewrite D. lia.
  - destruct H as [H|H]; [exfalso; apply E; symmetry; exact H|]. rewrite IH by assumption. lia.
Qed.

Lemma effort_cons : forall j k v l, effort j ((k, v) :: l) = if N.eqb k j then v else effort j l.
Proof. intros j k v l. unfold effort. cbn. destruct (N.eqb k j); reflexivity. Qed.

Record sums (task : list N) (needed : nat) (jobs : list N) (l : list event) (s : front) : Prop := {
  u_total : total s = all_effort l;
  u_current : current s = done_of jobs l;
  u_retrieved : retrieved s = started l;
  u_efforts : forall j, effort j (efforts s) = last_value j l;
  u_positive : 0 <= done_of jobs l;
  u_quiet : (started l < needed)%nat -> observer s = no_output;
  u_shows : started l = needed -> 0 < all_effort l -> done_of jobs l <= all_effort l ->
    shows task [] (all_effort l) (observer s) /\ oval (observer s) = done_of jobs l }.

Lemma run_sums : forall task needed jobs, printable task -> (0 < needed)%nat -> NoDup jobs ->
  forall l, (forall j v, In (Progress j v) l -> In j jobs) -> steady l ->
  (started l <= needed)%nat -> sums task needed jobs l (run task needed l).
Proof.
  intros task needed jobs Pr Nz Nd. induction l as [|e l IH] using rev_ind; intros Hj St Le.
  - assert (Z0 : done_of jobs [] = 0).
    { unfold done_of. clear. induction jobs as [|j r IH]; [reflexivity|]. cbn. exact IH. }
    constructor; cbn [run fold_left total current retrieved efforts observer].
    + reflexivity.
    + symmetry. exact Z0.
    + reflexivity.
    + reflexivity.
    + lia.
    + reflexivity.
    + cbn. lia.
  - destruct IH as [U1 U2 U3 U4 U5 U6 U7].
    { intros j v H. apply (Hj j v). apply in_or_app. left. exact H. }
    { intros l1 j v l2 E. apply (St l1 j v (l2 ++ [e])). rewrite E, <- app_assoc. reflexivity. }
    { rewrite started_app in Le. lia. }
    unfold run in *. rewrite fold_left_app. cbn [fold_left].
    set (s := fold_left (handle task needed) l
      {| total := 0; current := 0; retrieved := 0; efforts := []; observer := no_output |}) in *.
    rewrite started_app in Le. destruct e as [t|k v]; cbn [handle].
    + cbn [started] in Le. constructor; cbn [total current retrieved efforts observer].
      * rewrite effort_app, U1. cbn. lia.
      * rewrite done_task. exact U2.
      * rewrite started_app, U3. cbn. lia.
      * intros j. rewrite last_snoc. apply U4.
      * rewrite done_task. exact U5.
      * rewrite started_app. cbn [started]. intros H.
        replace (Nat.eqb (S (retrieved s)) needed) with false
          by (symmetry; apply Nat.eqb_neq; lia). apply U6. lia.
      * rewrite started_app, effort_app, done_task. cbn [started all_effort]. intros H P D.
        replace (Nat.eqb (S (retrieved s)) needed) with true
          by (symmetry; apply Nat.eqb_eq; lia).
        rewrite U6 by lia. rewrite U1, U2. rewrite Z.add_0_r in *.
        destruct (initialize_shows task (all_effort l + t) Pr P) as [I1 I2].
        destruct (Z.ltb_spec 0 (done_of jobs l)) as [Q|Q].
        -- destruct (set_value_shows task _ _ _ (done_of jobs l) Pr P I1) as [V1 V2].
           split; [exact V1|]. rewrite V2, I2.
           destruct (Z.leb_spec (done_of jobs l) (all_effort l + t)); lia.
        -- split; [exact I1|]. rewrite I2. lia.
    + cbn [started] in Le.
      assert (Hk : In k jobs) by (apply (Hj k v); apply in_or_app; right; left; reflexivity).
      assert (Hv : last_value k l <= v) by (apply (St l k v []); reflexivity).
      constructor; cbn [total current retrieved efforts observer].
      * rewrite effort_app, U1. cbn. lia.
      * rewrite done_progress by assumption. rewrite U2, U4. reflexivity.
      * rewrite started_app, U3. cbn. lia.
      * intros j. rewrite effort_cons, last_snoc, U4. reflexivity.
      * rewrite done_progress by assumption. lia.
      * rewrite started_app. cbn [started]. intros H.
        replace (Nat.eqb (retrieved s) needed) with false
          by (symmetry; apply Nat.eqb_neq; lia). apply U6. lia.
      * rewrite started_app, effort_app, done_progress by assumption. cbn [started all_effort].
        rewrite Z.add_0_r, Nat.add_0_r. intros H P D.
        replace (Nat.eqb (retrieved s) needed) with true
          by (symmetry; apply Nat.eqb_eq; lia).
        destruct (U7 H P ltac:(lia)) as [V1 V2]. rewrite U2, U4.
        destruct (set_value_shows task _ _ _ (done_of jobs l + (v - last_value k l)) Pr P V1) as [W1 W2].
        split; [exact W1|]. rewrite W2, V2.
        destruct (Z.leb_spec (done_of jobs l + (v - last_value k l)) (all_effort l)); lia.
Qed.

(** C139. If several projects are built at once, nothing is shown until all of them have said how
    much there is to do. *)
Theorem build_progress_waits : forall task needed jobs l, printable task -> (0 < needed)%nat ->
  NoDup jobs -> (forall j v, In (Progress j v) l -> In j jobs) -> steady l ->
  (started l < needed)%nat -> screen (out (observer (run task needed l))) = blank.
Proof.
  intros task needed jobs l Pr Nz Nd Hj St Le.
  rewrite (u_quiet _ _ _ _ _ (run_sums task needed jobs Pr Nz Nd l Hj St ltac:(lia)) Le).
  reflexivity.
Qed.

(** C139. From then on the bar shows how much of the sum of all efforts all jobs together have
    done, including what was done before. *)
Theorem build_progress_shown : forall task needed jobs l, printable task -> (0 < needed)%nat ->
  NoDup jobs -> (forall j v, In (Progress j v) l -> In j jobs) -> steady l ->
  started l = needed -> 0 < all_effort l -> done_of jobs l <= all_effort l ->
  exists line, bar task (100 * done_of jobs l / all_effort l) line /\
    screen (out (observer (run task needed l))) =
      if done_of jobs l =? all_effort l then {| lines := [line]; before := []; after := [] |}
      else {| lines := []; before := rev line; after := [] |}.
Proof.
  intros task needed jobs l Pr Nz Nd Hj St E P D.
  pose proof (run_sums task needed jobs Pr Nz Nd l Hj St ltac:(lia)) as U.
  destruct (u_shows _ _ _ _ _ U E P D) as [[A1 A2 A3 A4 A5] V]. rewrite V in *.
  exists (line_of task (opct (observer (run task needed l)))). split; [|exact A5].
  rewrite <- A3. apply line_bar. rewrite A3. apply pct_range; lia.
Qed.

(** * What does not hold *)

(** C139. If there is nothing to do, the 0% from the beginning stays in front of the bar. *)
Theorem progress_of_nothing_refuted : exists task line, printable task /\
  screen (out (initialize task 0 no_output)) =
    {| lines := [line]; before := []; after := [] |} /\
  forall p, ~ bar task p line.
Proof.
  exists [], ([58; 32; 48; 37]%N ++ repeat 35%N 50 ++ [32; 49; 48; 48; 37]%N).
  split; [intros c []|]. split; [vm_compute; reflexivity|].
  intros p [[_ H]|[_ [ds [_ H]]]]; [discriminate|].
  destruct (Z.to_nat (p / 2)); discriminate.
Qed.

(** C139. If the maximum grows while a project is resolved, so that the percentage falls back to
    zero, a blank that is left over shifts what comes later. *)
Theorem progress_growing_maximum_refuted : exists task m v m' vs line, printable task /\
  0 < m < m' /\ 0 < v <= m /\ 
  screen (out (fold_left (fun o v => set_value v o) vs
     (set_maximum m' (set_value v (initialize task m no_output))))) =
    {| lines := []; before := rev line; after := [] |} /\
  forall p, ~ bar task p line.
Proof.
  exists [], 100, 1, 1000, [2; 10], [58; 32; 32; 32; 49; 37]%N.
  split; [intros c []|]. split; [lia|]. split; [lia|]. split; [vm_compute; reflexivity|].
  intros p [[_ H]|[_ [ds [[_ [D _]] H]]]]; [discriminate|].
  destruct (Z.to_nat (p / 2)) as [|k]; [|discriminate]. cbn in H. injection H as H.
  destruct ds as [|d ds]; [discriminate|]. injection H as H _.
  specialize (D d (or_introl eq_refl)). lia.
Qed.

Module Demo.
  Definition task : list N := [66]%N.

  Lemma task_ok : printable task.
  Proof. intros c [<-|[]]. split; discriminate. Qed.

  (** 3 of 8, a value that is too large, and then all. *)
  Example bar_37 : screen (out (fold_left (fun o v => set_value v o) [1; 3; 9; 2]
      (initialize task 8 no_output))) =
    {| lines := []; before := rev ([66; 58; 32]%N ++ repeat 35%N 18 ++ [32; 51; 55; 37]%N); after := [] |}.
  Proof. vm_compute. reflexivity. Qed.

  Example shown_use : exists line, bar task 37 line /\
    screen (out (fold_left (fun o v => set_value v o) [1; 3; 9; 2] (initialize task 8 no_output))) =
    {| lines := []; before := rev line; after := [] |}.
  Proof.
    destruct (progress_shown task 8 [1; 3; 9; 2] task_ok ltac:(lia)) as [line [B E]].
    exists line. split; [exact B|exact E].
  Qed.

  (** Two tasks; the second one starts anew although the first one got far. *)
  Example second_task : exists line, bar task 10 line /\
    screen (out (set_value 1 (initialize task 10 (set_value 8 (initialize task 8 no_output))))) =
    {| lines := [task ++ [58; 32]%N ++ repeat 35%N 50 ++ [32; 49; 48; 48; 37]%N]; before := rev line; after := [] |}.
  Proof.
    destruct (next_progress_shown task 10 [1] (set_value 8 (initialize task 8 no_output))
      [task ++ [58; 32]%N ++ repeat 35%N 50 ++ [32; 49; 48; 48; 37]%N] task_ok ltac:(lia))
      as [line [B E]]; [vm_compute; reflexivity|].
    exists line. split; [exact B|exact E].
  Qed.

  Example growing : hashes (out (fold_left do_call [SetValue 50; SetMaximum 1000; SetValue 60;
      SetValue 900] (initialize task 100 no_output))) = 45%nat.
  Proof. vm_compute. reflexivity. Qed.

  Definition events : list event :=
    [NewTask 4; Progress 1 1; Progress 1 2; NewTask 6; Progress 2 1; Progress 1 4]%N.

  Lemma events_steady : steady events.
  Proof.
    intros l1 j v l2 E. unfold events in E.
    do 6 (destruct l1 as [|? l1]; [first [discriminate|injection E as <- <- _; vm_compute; discriminate]|];
      injection E as <- E); destruct l1; discriminate.
  Qed.

  Example build_use : exists line, bar task 50 line /\
    screen (out (observer (run task 2 events))) = {| lines := []; before := rev line; after := [] |}.
  Proof.
    destruct (build_progress_shown task 2 [1; 2]%N events task_ok) as [line [B E]].
    - lia.
    - repeat constructor; cbn; intuition discriminate.
    - intros j v H. cbn in H.
      repeat (destruct H as [H|H]; [first [discriminate|injection H as <- _; cbn; auto]|]). destruct H.
    - exact events_steady.
    - reflexivity.
    - reflexivity.
    - vm_compute. discriminate.
    - exists line. split; [exact B|exact E].
  Qed.
End Demo.

Print Assumptions progress_shown.
Print Assumptions build_progress_waits.
Print Assumptions build_progress_shown.
Print Assumptions progress_of_nothing_refuted.
Print Assumptions progress_growing_maximum_refuted.
Print Assumptions next_progress_shown.
Print Assumptions bar_not_too_long.
