(** Scripts for environments: each one runs once, after those of the modules
    that its module needs; where that fails. *)

From Coq Require Import String Ascii.
From Coq Require Import List Bool Arith Lia Relations.
From Verif Require Import Str EnvScriptsModel.
Import ListNotations.
Open Scope list_scope.

(** ** Specification *)

(** Module i has a dependency on module j. *)
Definition needs (ms : list module) (i j : nat) : Prop :=
  exists m m' n, nth_error ms i = Some m /\ In n (m_deps m)
                 /\ nth_error ms j = Some m' /\ m_name m' = Some n.

Record well_formed (ms : list module) : Prop := {
  w_named : forall m, In m ms -> exists n, m_name m = Some n;
  w_distinct : forall i j m m', nth_error ms i = Some m -> nth_error ms j = Some m' ->
                 m_name m = m_name m' -> i = j;
  w_there : forall m n, In m ms -> In n (m_deps m) -> exists m', In m' ms /\ m_name m' = Some n;
  w_acyclic : exists rank : nat -> nat, forall i j, needs ms i j -> rank j < rank i }.

Definition scripted (ms : list module) (i : nat) : Prop :=
  exists m, nth_error ms i = Some m /\ m_script m = true.

(** The scripts one after the other. *)
Fixpoint all_effects {env} (effect : nat -> env -> option env) (l : list nat) (e : env) : option env :=
  match l with
  | [] => Some e
  | i :: r => match effect i e with Some e' => all_effects effect r e' | None => None end
  end.

(** ** Children and roots *)

Lemma find_some n k ms j : find_module n k ms = Some j ->
  exists i m, j = k + i /\ nth_error ms i = Some m /\ text (m_name m) = n.
Proof.
  revert k. induction ms as [|m r IH]; simpl; intros k H; [discriminate|].
  destruct (find_module n (S k) r) as [x|] eqn:F.
  - injection H as <-. destruct (IH _ F) as [i [m' [A [B C]]]].
    exists (S i), m'. split; [lia|]. auto.
  - destruct (str_eqb (text (m_name m)) n) eqn:E; [|discriminate]. injection H as <-.
    apply str_eqb_eq in E. exists 0, m. split; [lia|]. auto.
Qed.

Lemma find_there n k ms m : In m ms -> text (m_name m) = n -> exists j, find_module n k ms = Some j.
Proof.
  revert k. induction ms as [|x r IH]; simpl; intros k H E; [destruct H|].
  destruct H as [->|H].
  - destruct (find_module n (S k) r); [eauto|]. rewrite E, str_eqb_refl. eauto.
  - destruct (IH (S k) H E) as [j ->]. eauto.
Qed.

Lemma all_some_map {X Y} (f : X -> option Y) l :
  (forall x, In x l -> exists y, f x = Some y) ->
  exists r, all_some (List.map f l) = Some r /\ length r = length l.
Proof.
  induction l as [|x l IH]; simpl; intro H; [exists []; auto|].
  destruct (H x (or_introl eq_refl)) as [y ->].
  destruct IH as [r [-> L]]; [intros; apply H; auto|]. exists (y :: r). simpl. auto.
Qed.

Lemma all_some_nth {X} (l : list (option X)) r : all_some l = Some r ->
  forall i x, nth_error r i = Some x <-> nth_error l i = Some (Some x).
Proof.
  revert r. induction l as [|[x|] l IH]; simpl; intros r H; [|destruct (all_some l) as [y|]|]; try discriminate.
  - injection H as <-. intros [|i] x; simpl; split; discriminate.
  - injection H as <-. intros [|i] z; simpl; [split; intro E; congruence|]. apply IH. reflexivity.
Qed.

Section Graph.

Variable ms : list module.
Hypothesis W : well_formed ms.

Definition nm (i : nat) : str := match nth_error ms i with Some m => text (m_name m) | None => [] end.

Lemma nm_inj i j : i < length ms -> j < length ms -> nm i = nm j -> i = j.
Proof.
  intros A B. unfold nm.
  destruct (nth_error ms i) as [m|] eqn:E; [|apply nth_error_None in E; lia].
  destruct (nth_error ms j) as [m'|] eqn:E'; [|apply nth_error_None in E'; lia].
  intro H. apply (w_distinct ms W i j m m' E E').
  destruct (w_named ms W m (nth_error_In _ _ E)) as [n N1].
  destruct (w_named ms W m' (nth_error_In _ _ E')) as [n' N2].
  rewrite N1, N2 in *. simpl in H. congruence.
Qed.

Lemma children_exist : exists c, children_of ms = Some c /\ length c = length ms.
Proof.
  unfold children_of. apply all_some_map. intros m Hm.
  destruct (all_some_map (fun n => find_module n 0 ms) (m_deps m)) as [r [E _]]; [|eauto].
  intros n Hn. destruct (w_there ms W m n Hm Hn) as [m' [A B]].
  apply (find_there n 0 ms m' A). rewrite B. reflexivity.
Qed.

Lemma children_spec c : children_of ms = Some c ->
  forall i j, In j (nth i c []) <-> needs ms i j.
Proof.
  intros H i j. unfold children_of in H. pose proof (all_some_nth _ _ H) as Q.
  assert (D : forall m, nth_error ms i = Some m -> exists l, nth i c [] = l
            /\ all_some (List.map (fun n => find_module n 0 ms) (m_deps m)) = Some l).
  { intros m Hm. destruct children_exist as [c' [H' L]]. unfold children_of in H'.
    assert (c' = c) by congruence. subst c'.
    assert (Li : i < length c) by (rewrite L; apply nth_error_Some; congruence).
    destruct (nth_error c i) as [l|] eqn:E; [|apply nth_error_None in E; lia].
    exists l. split; [apply nth_error_nth; exact E|].
    apply Q in E. rewrite nth_error_map, Hm in E. simpl in E. congruence. }
  split.
  - intro J. destruct (nth_error ms i) as [m|] eqn:Hm.
    + destruct (D m eq_refl) as [l [E A]]. rewrite E in J.
      apply In_nth_error in J. destruct J as [k J]. pose proof (all_some_nth _ _ A k j) as B.
      apply B in J. rewrite nth_error_map in J.
      destruct (nth_error (m_deps m) k) as [n|] eqn:K; [|discriminate]. simpl in J.
      assert (F : find_module n 0 ms = Some j) by congruence.
      destruct (find_some _ _ _ _ F) as [x [m' [-> [M1 M2]]]]. simpl.
      destruct (w_named ms W m' (nth_error_In _ _ M1)) as [n' N1].
      exists m, m', n. split; [exact Hm|]. split; [apply (nth_error_In _ _ K)|].
      split; [exact M1|]. rewrite N1 in *. simpl in M2. congruence.
    + exfalso. destruct children_exist as [c' [H' L]]. unfold children_of in H'.
      assert (c' = c) by congruence. subst c'. apply nth_error_None in Hm.
      rewrite nth_overflow in J by lia. exact J.
  - intros [m [m' [n [A [B [C N1]]]]]]. destruct (D m A) as [l [E F]]. rewrite E.
    apply In_nth_error in B. destruct B as [k B].
    destruct (find_there n 0 ms m' (nth_error_In _ _ C)) as [y Y]; [rewrite N1; reflexivity|].
    assert (y = j).
    { destruct (find_some _ _ _ _ Y) as [x [m2 [-> [M1 M2]]]]. simpl.
      apply nm_inj; [apply nth_error_Some; congruence|apply nth_error_Some; congruence|].
      unfold nm. rewrite M1, C, N1. exact M2. }
    subst y. apply (nth_error_In l k). apply (all_some_nth _ _ F k j).
    rewrite nth_error_map, B. simpl. congruence.
Qed.

Lemma roots_spec c : children_of ms = Some c -> length c = length ms ->
  forall i, In i (roots c) <-> i < length ms /\ forall p, ~ needs ms p i.
Proof.
  intros H L i. unfold roots. rewrite filter_In, in_seq, L, negb_true_iff. split.
  - intros [A B]. split; [lia|]. intros p Hp. apply (children_spec c H) in Hp.
    assert (X : existsb (fun l => existsb (Nat.eqb i) l) c = true).
    { apply existsb_exists. exists (nth p c []). split.
      - apply nth_In. destruct (Nat.lt_ge_cases p (length c)) as [Q|Q]; [exact Q|].
        rewrite nth_overflow in Hp by exact Q. destruct Hp.
      - apply existsb_exists. exists i. split; [exact Hp|apply Nat.eqb_refl]. }
    congruence.
  - intros [A B]. split; [lia|]. destruct (existsb _ c) eqn:X; [|reflexivity]. exfalso.
    apply existsb_exists in X. destruct X as [l [X Y]]. apply existsb_exists in Y.
    destruct Y as [j [Y E]]. apply Nat.eqb_eq in E. subst j.
    apply In_nth with (d := []) in X. destruct X as [p [_ X]]. apply (B p).
    apply (children_spec c H). rewrite X. exact Y.
Qed.

(** ** Sorting *)

Variable c : list (list nat).
Hypothesis HC : children_of ms = Some c.

Definition ordered (seen : list str) (a : list nat) : Prop :=
  forall a1 x a2, a = a1 ++ x :: a2 -> forall y, needs ms x y -> In (nm y) seen \/ In y a1.

Record sorted (l : list nat) (seen : list str) (a : list nat) (seen' : list str) : Prop := {
  s_nodup : NoDup a;
  s_new : forall i, In i a -> i < length ms /\ ~ In (nm i) seen;
  s_seen : forall s, In s seen' <-> In s seen \/ exists i, In i a /\ nm i = s;
  s_all : forall i, In i l -> In (nm i) seen';
  s_ordered : ordered seen a }.

Lemma ordered_app seen a seen1 b : ordered seen a -> ordered seen1 b ->
  (forall s, In s seen1 -> In s seen \/ exists i, In i a /\ nm i = s) ->
  (forall i, In i a -> i < length ms) ->
  ordered seen (a ++ b).
Proof.
  intros A B S1 LA a1 x a2 E y N0.
  assert (Ly : y < length ms) by (destruct N0 as [? [m' [? [_ [_ [Q _]]]]]]; apply nth_error_Some; congruence).
  destruct (Nat.lt_ge_cases (length a1) (length a)) as [Q|Q].
  - assert (E1 : a = a1 ++ x :: firstn (length a - length a1 - 1) a2).
    { pose proof (f_equal (firstn (length a)) E) as E2.
      rewrite firstn_app, Nat.sub_diag, firstn_all, firstn_O, app_nil_r in E2.
      rewrite firstn_app in E2. rewrite firstn_all2 in E2 by lia.
      destruct (length a - length a1) as [|k] eqn:K; [lia|]. simpl in E2. simpl.
      rewrite Nat.sub_0_r. exact E2. }
    exact (A _ _ _ E1 y N0).
  - assert (E1 : a1 = a ++ skipn (length a) a1).
    { pose proof (f_equal (firstn (length a)) E) as E2.
      rewrite firstn_app, Nat.sub_diag, firstn_all, firstn_O, app_nil_r in E2.
      rewrite firstn_app in E2. replace (length a - length a1) with 0 in E2 by lia.
      rewrite firstn_O, app_nil_r in E2. rewrite E2 at 1. symmetry. apply firstn_skipn. }
    rewrite E1, <- app_assoc in E. apply app_inv_head in E.
    destruct (B _ _ _ E y N0) as [X|X].
    + destruct (S1 _ X) as [Y|[i [Y Z]]]; [left; exact Y|right].
      rewrite E1. apply in_or_app. left. apply nm_inj in Z; [subst; exact Y|auto|exact Ly].
    + right. rewrite E1. apply in_or_app. right. exact X.
Qed.

Variable rank : nat -> nat.
Hypothesis RK : forall i j, needs ms i j -> rank j < rank i.

Lemma memS_spec s l : memS s l = true <-> In s l.
Proof.
  unfold memS. rewrite existsb_exists. split.
  - intros [x [A B]]. apply str_eqb_eq in B. subst. exact A.
  - intro A. exists s. split; [exact A|apply str_eqb_refl].
Qed.

Lemma sort_ok fuel : forall l seen,
  (forall i, In i l -> i < length ms) -> (forall i, In i l -> rank i + 2 <= fuel) -> 1 <= fuel ->
  exists a seen', top_sort fuel ms c l seen = Some (a, seen') /\ sorted l seen a seen'.
Proof.
  induction fuel as [|f IH]; [intros; lia|].
  intros l seen LT RL _. revert seen. induction l as [|i r IHr]; intros seen.
  - exists [], seen. split; [reflexivity|]. constructor.
    + constructor.
    + intros i [].
    + intro s. split; [auto|]. intros [X|[i [[] _]]]. exact X.
    + intros i [].
    + intros a1 x a2 E. destruct a1; discriminate.
  - assert (Li : i < length ms) by (apply LT; left; reflexivity).
    destruct (nth_error ms i) as [m|] eqn:Hm; [|apply nth_error_None in Hm; lia].
    destruct (w_named ms W m (nth_error_In _ _ Hm)) as [n N1].
    assert (NI : nm i = n) by (unfold nm; rewrite Hm, N1; reflexivity).
    assert (Ri : rank i + 2 <= S f) by (apply RL; left; reflexivity).
    assert (CH : forall j, In j (nth i c []) -> j < length ms /\ rank j + 2 <= f).
    { intros j J. apply (children_spec c HC) in J. split.
      - destruct J as [? [m' [? [_ [_ [Q _]]]]]]. apply nth_error_Some. congruence.
      - specialize (RK i j J). lia. }
    destruct (IH (nth i c []) seen) as [a [seen1 [E1 S1]]];
      [intros j J; apply CH; exact J|intros j J; apply CH; exact J|lia|].
    set (bs := if memS n seen1 then ([], seen1) else ([i], n :: seen1)).
    assert (BS : exists b seen2, bs = (b, seen2) /\ sorted [i] seen (a ++ b) seen2).
    { unfold bs. destruct (memS n seen1) eqn:M.
      - apply memS_spec in M. exists [], seen1. split; [reflexivity|]. rewrite app_nil_r.
        destruct S1 as [Q1 Q2 Q3 Q4 Q5]. constructor; auto.
        intros j [<-|[]]. rewrite NI. exact M.
      - assert (NM : ~ In n seen1) by (rewrite <- memS_spec; congruence).
        exists [i], (n :: seen1). split; [reflexivity|]. destruct S1 as [Q1 Q2 Q3 Q4 Q5].
        assert (NA : ~ In i a).
        { intro X. apply NM. apply Q3. right. exists i. auto. }
        constructor.
        + clear - Q1 NA. induction a as [|y a IHa]; simpl; [constructor; [auto|constructor]|].
          inversion Q1; subst. constructor.
          * rewrite in_app_iff. simpl. intros [X|[X|[]]]; [contradiction|].
            subst. apply NA. left. reflexivity.
          * apply IHa; [assumption|]. intro X. apply NA. right. exact X.
        + intros j J. apply in_app_or in J. destruct J as [J|[<-|[]]]; [apply Q2; exact J|].
          split; [exact Li|]. rewrite NI. intro X. apply NM. apply Q3. left. exact X.
        + intro s. simpl. rewrite Q3. split.
          * intros [<-|[X|[j [X Y]]]]; [right; exists i|left; exact X|right; exists j];
              (split; [apply in_or_app; simpl; auto|auto]).
          * intros [X|[j [X Y]]]; [auto|]. apply in_app_or in X.
            destruct X as [X|[<-|[]]]; [right; right; exists j; auto|left; congruence].
        + intros j [<-|[]]. left. congruence.
        + apply (ordered_app seen a seen1 [i]); [exact Q5| |intros s X; apply Q3; exact X|
            intros j J; apply Q2; exact J].
          intros a1 x a2 E y N0. destruct a1 as [|z a1]; [|destruct a1; discriminate].
          injection E as <- _. left. apply Q4. apply (children_spec c HC). exact N0. }
    destruct BS as [b [seen2 [EB SB]]].
    destruct (IHr ltac:(intros j J; apply LT; right; exact J)
                  ltac:(intros j J; apply RL; right; exact J) seen2) as [d [seen3 [E3 S3]]].
    exists ((a ++ b) ++ d), seen3. split.
    + simpl. rewrite Hm, N1, E1. fold bs. rewrite EB.
      simpl in E3. rewrite E3. rewrite <- app_assoc. reflexivity.
    + destruct SB as [P1 P2 P3 P4 P5], S3 as [R1 R2 R3 R4 R5]. constructor.
      * clear IH IHr E1 S1. set (ab := a ++ b) in *. clearbody ab.
        assert (Dj : forall x, In x ab -> ~ In x d).
        { intros x X Y. destruct (R2 x Y) as [_ Z]. apply Z. apply P3. right. exists x. auto. }
        clear - P1 R1 Dj. induction ab as [|x ab IHa]; simpl; [exact R1|].
        inversion P1; subst. constructor.
        -- rewrite in_app_iff. intros [X|X]; [contradiction|]. apply (Dj x); simpl; auto.
        -- apply IHa; [assumption|]. intros y Y. apply Dj. right. exact Y.
      * intros j J. apply in_app_or in J. destruct J as [J|J]; [apply P2; exact J|].
        destruct (R2 j J) as [X Y]. split; [exact X|]. intro Z. apply Y. apply P3. left. exact Z.
      * intro s. rewrite R3, P3. split.
        -- intros [[X|[j [X Y]]]|[j [X Y]]]; [auto|right; exists j|right; exists j];
             (split; [apply in_or_app; auto|exact Y]).
        -- intros [X|[j [X Y]]]; [auto|]. apply in_app_or in X.
           destruct X as [X|X]; [left; right; exists j; auto|right; exists j; auto].
      * intros j [<-|J]; [|apply R4; exact J]. apply R3. left. apply P4. left. reflexivity.
      * apply (ordered_app seen (a ++ b) seen2 d); [exact P5|exact R5|intros s X; apply P3; exact X|
          intros j J; apply P2; exact J].
Qed.

Lemma rank_bound k : exists B, forall i, i < k -> rank i <= B.
Proof.
  induction k as [|k [B H]]; [exists 0; intros; lia|].
  exists (Nat.max B (rank k)). intros i L.
  destruct (Nat.eq_dec i k) as [->|N0]; [lia|]. specialize (H i ltac:(lia)). lia.
Qed.

Lemma has_parent i : i < length ms -> length c = length ms ->
  In i (roots c) \/ exists p, needs ms p i.
Proof.
  intros L LC. destruct (in_dec Nat.eq_dec i (roots c)) as [X|X]; [left; exact X|right].
  unfold roots in X. rewrite filter_In, in_seq, LC in X.
  destruct (existsb (fun l => existsb (Nat.eqb i) l) c) eqn:Q.
  - apply existsb_exists in Q. destruct Q as [l [Q Y]]. apply existsb_exists in Y.
    destruct Y as [j [Y E]]. apply Nat.eqb_eq in E. subst j.
    apply In_nth with (d := []) in Q. destruct Q as [p [_ Q]]. exists p.
    apply (children_spec c HC). rewrite Q. exact Y.
  - exfalso. apply X. split; [lia|reflexivity].
Qed.

Lemma order_exists : exists F order,
  (forall fuel, F <= fuel -> exists seen, top_sort fuel ms c (roots c) [] = Some (order, seen))
  /\ NoDup order /\ (forall i, In i order <-> i < length ms)
  /\ (forall a x b, order = a ++ x :: b -> forall y, needs ms x y -> In y a).
Proof.
  destruct children_exist as [c' [HC' LC]]. assert (c' = c) by congruence. subst c'.
  destruct (rank_bound (length ms)) as [B HB].
  assert (LR : forall i, In i (roots c) -> i < length ms).
  { intros i X. apply (roots_spec c HC LC) in X. apply X. }
  (* the result does not depend on the fuel *)
  assert (Mono : forall f l seen r, top_sort f ms c l seen = Some r ->
                 forall f', f <= f' -> top_sort f' ms c l seen = Some r).
  { clear. induction f as [|f IH]; intros l seen r E f' L; [discriminate|].
    destruct f' as [|f']; [lia|]. revert seen r E. induction l as [|i l IHl]; intros seen r E.
    - exact E.
    - simpl in *. destruct (nth_error ms i) as [m|]; [|apply IHl; exact E].
      destruct (m_name m) as [n|]; [|apply IHl; exact E].
      destruct (top_sort f ms c (nth i c []) seen) as [[a s1]|] eqn:E1; [|discriminate].
      rewrite (IH _ _ _ E1 f' ltac:(lia)).
      destruct (if memS n s1 then ([], s1) else ([i], n :: s1)) as [b s2].
      match type of E with match ?x with _ => _ end = _ => destruct x as [[d s3]|] eqn:E2; [|discriminate] end.
      rewrite (IHl _ _ E2). exact E. }
  destruct (sort_ok (B + 2) (roots c) [] LR) as [order [seen [E S0]]]; [|lia|].
  { intros i X. specialize (HB i (LR i X)). lia. }
  exists (B + 2), order. split; [|split; [|split]].
  - intros fuel L. exists seen. exact (Mono _ _ _ _ E fuel L).
  - apply S0.
  - intro i. split; [intro X; apply (s_new _ _ _ _ S0 i X)|].
    intro L.
    assert (Cl : forall x y, In x order -> needs ms x y -> In y order).
    { intros x y X N0. apply in_split in X. destruct X as [a [b X]].
      destruct (s_ordered _ _ _ _ S0 a x b X y N0) as [[]|Y]. rewrite X. apply in_or_app. left. exact Y. }
    assert (G : forall k i, i < length ms -> B - rank i < k -> In i order).
    { induction k as [|k IH]; intros j Lj K; [lia|].
      destruct (has_parent j Lj LC) as [R|[p P]].
      - pose proof (s_all _ _ _ _ S0 j R) as X. apply (s_seen _ _ _ _ S0) in X.
        destruct X as [[]|[x [X Y]]]. apply nm_inj in Y; [subst; exact X|apply (s_new _ _ _ _ S0 x X)|exact Lj].
      - assert (Lp : p < length ms) by (destruct P as [m [? [? [Q _]]]]; apply nth_error_Some; congruence).
        apply (Cl p j); [|exact P]. apply IH; [exact Lp|].
        pose proof (RK p j P). pose proof (HB p Lp). lia. }
    apply (G (S B)); [exact L|lia].
  - intros a x b X y N0. destruct (s_ordered _ _ _ _ S0 a x b X y N0) as [[]|Y]. exact Y.
Qed.

End Graph.

(** ** C93 *)

Definition hasb (ms : list module) (i : nat) : bool :=
  match nth_error ms i with Some m => m_script m | None => false end.

Lemma hasb_spec ms i : hasb ms i = true <-> scripted ms i.
Proof.
  unfold hasb, scripted. destruct (nth_error ms i) as [m|].
  - split; [eauto|]. intros [m' [E H]]. congruence.
  - split; [discriminate|]. intros [m' [E H]]. discriminate.
Qed.

Lemma run_filter {env} (effect : nat -> env -> option env) ms l e :
  run_scripts effect ms l e = all_effects effect (filter (hasb ms) l) e.
Proof.
  revert e. induction l as [|i l IH]; simpl; intro e; [reflexivity|].
  unfold hasb at 1. destruct (nth_error ms i) as [m|]; [|apply IH].
  destruct (m_script m); [|apply IH]. simpl. destruct (effect i e); [apply IH|reflexivity].
Qed.

Lemma filter_split {X} (f : X -> bool) l a x b : filter f l = a ++ x :: b ->
  exists a' b', l = a' ++ x :: b' /\ a = filter f a'.
Proof.
  revert a. induction l as [|y l IH]; simpl; intros a E; [destruct a; discriminate|].
  destruct (f y) eqn:F.
  - destruct a as [|z a]; simpl in E.
    + injection E as -> E. exists [], l. auto.
    + injection E as -> E. destruct (IH a E) as [a' [b' [-> ->]]]. exists (z :: a'), b'.
      simpl. rewrite F. auto.
  - destruct (IH a E) as [a' [b' [-> ->]]]. exists (y :: a'), b'. simpl. rewrite F. auto.
Qed.

(** The environment is what the scripts make of the one given, in an order in
    which each script is once, and after those of the modules that its module
    needs, directly or not. If a script throws, there is no environment. *)
Theorem scripts_once_in_order {env} (effect : nat -> env -> option env) ms e :
  well_formed ms -> (exists i, scripted ms i) ->
  exists F order,
    (forall fuel, F <= fuel ->
       setup effect fuel ms e = match all_effects effect order e with
                                | Some e' => Set_to e' | None => Error end)
    /\ NoDup order
    /\ (forall i, In i order <-> scripted ms i)
    /\ (forall a i b j, order = a ++ i :: b -> clos_trans nat (needs ms) i j -> scripted ms j -> In j a).
Proof.
  intros W [i0 I0]. destruct (w_acyclic ms W) as [rank RK].
  destruct (children_exist ms W) as [c [HC LC]].
  destruct (order_exists ms W c HC rank RK) as [F [order [E [ND [Al Or]]]]].
  exists F, (filter (hasb ms) order). split; [|split; [|split]].
  - intros fuel L. destruct (E fuel L) as [seen Q]. unfold setup.
    assert (X : existsb m_script ms = true).
    { destruct I0 as [m [A B]]. apply existsb_exists. exists m. split; [|exact B].
      apply (nth_error_In _ _ A). }
    rewrite X, HC, Q. simpl. rewrite run_filter. reflexivity.
  - apply NoDup_filter. exact ND.
  - intro i. rewrite filter_In, Al, hasb_spec. split; [tauto|]. intro H. split; [|exact H].
    destruct H as [m [H _]]. apply nth_error_Some. congruence.
  - intros a i b j X T S0. destruct (filter_split _ _ _ _ _ X) as [a' [b' [Y ->]]].
    apply filter_In. split; [|apply hasb_spec; exact S0].
    clear X S0. apply clos_trans_tn1 in T.
    induction T as [j N0|j k N0 T IH].
    + exact (Or _ _ _ Y j N0).
    + apply in_split in IH. destruct IH as [a1 [a2 ->]].
      rewrite <- app_assoc in Y. simpl in Y. apply in_or_app. left.
      exact (Or _ _ _ Y k N0).
Qed.

(** Without any script, the environment stays as it is. *)
Theorem no_scripts_no_change {env} (effect : nat -> env -> option env) ms e fuel :
  (forall i, ~ scripted ms i) -> setup effect fuel ms e = Unchanged.
Proof.
  intro H. unfold setup. destruct (existsb m_script ms) eqn:X; [|reflexivity]. exfalso.
  apply existsb_exists in X. destruct X as [m [A B]]. apply In_nth_error in A.
  destruct A as [i A]. apply (H i). exists m. auto.
Qed.

(** ** Where it fails *)

Definition txt (s : String.string) : str := List.map Ascii.N_of_ascii (String.list_ascii_of_string s).
Arguments txt s%string.

(** A product that depends on two variants of another product has two modules
    of the same name. The script of only one of them runs. *)
Definition twins : list module :=
  [AModule (Some (txt "qbs")) [] false;
   AModule (Some (txt "lib")) [txt "qbs"] true; AModule (Some (txt "lib")) [txt "qbs"] true].

Theorem same_name_script_lost_refuted : exists ms i,
  scripted ms i
  /\ (forall m, In m ms -> exists n, m_name m = Some n)
  /\ (forall m n, In m ms -> In n (m_deps m) -> exists m', In m' ms /\ m_name m' = Some n)
  /\ (exists rank : nat -> nat, forall i j, needs ms i j -> rank j < rank i)
  /\ forall env (effect effect' : nat -> env -> option env) e fuel,
       (forall j x, j <> i -> effect j x = effect' j x) ->
       setup effect fuel ms e = setup effect' fuel ms e.
Proof.
  exists twins, 2. split; [exists (AModule (Some (txt "lib")) [txt "qbs"] true); split; reflexivity|].
  split; [|split; [|split]].
  - intros m [<-|[<-|[<-|[]]]]; simpl; eauto.
  - intros m n H D. exists (AModule (Some (txt "qbs")) [] false). split; [left; reflexivity|].
    destruct H as [<-|[<-|[<-|[]]]]; simpl in D; [destruct D| |]; destruct D as [<-|[]]; reflexivity.
  - exists (fun i => i). intros i j [m [m' [n [A [B [D E]]]]]].
    assert (i <> 0).
    { intros ->. injection A as <-. destruct B. }
    assert (n = txt "qbs").
    { destruct i as [|[|[|i]]]; [congruence| | |destruct i; discriminate];
        (injection A as <-; destruct B as [<-|[]]; reflexivity). }
    subst n. destruct j as [|[|[|j]]]; [lia| | |destruct j; discriminate];
      (injection D as <-; discriminate).
  - intros env effect effect' e fuel H. unfold setup. simpl.
    destruct fuel as [|[|[|f]]]; try reflexivity. simpl.
    rewrite (H 1); [reflexivity|discriminate].
Qed.

(** ** Examples *)

Module Demo.

(** qbs; cpp needs qbs; core needs cpp; gui needs core and cpp. Only qbs, core
    and gui have scripts. *)
Definition ms : list module :=
  [AModule (Some (txt "gui")) [txt "core"; txt "cpp"] true;
   AModule (Some (txt "core")) [txt "cpp"] true;
   AModule (Some (txt "cpp")) [txt "qbs"] false;
   AModule (Some (txt "qbs")) [] true].

Example ms_ok : well_formed ms /\ exists i, scripted ms i.
Proof.
  split; [|exists 0; eexists; split; reflexivity]. constructor.
  - intros m H. simpl in H. intuition; subst; simpl; eauto.
  - intros i j m m' A B C.
    destruct i as [|[|[|[|i]]]]; try (destruct i; discriminate);
      destruct j as [|[|[|[|j]]]]; try (destruct j; discriminate);
      injection A as <-; injection B as <-; try reflexivity; discriminate.
  - intros m n H D. simpl in H.
    destruct H as [<-|[<-|[<-|[<-|[]]]]]; simpl in D; intuition; subst n;
      first [exists (nth 1 ms (AModule None [] false)); split; [simpl; auto|reflexivity]
            |exists (nth 2 ms (AModule None [] false)); split; [simpl; auto|reflexivity]
            |exists (nth 3 ms (AModule None [] false)); split; [simpl; auto|reflexivity]].
  - exists (fun i => 4 - i). intros i j [m [m' [n [A [B [C D]]]]]].
    destruct i as [|[|[|[|i]]]]; try (destruct i; discriminate);
      injection A as <-; simpl in B;
      destruct j as [|[|[|[|j]]]]; try (destruct j; discriminate);
      injection C as <-; injection D as <-;
      repeat match goal with H : _ \/ _ |- _ => destruct H | H : False |- _ => destruct H end;
      try discriminate; simpl; lia.
Qed.

(** Each script adds its number. *)
Example ms_result : setup (fun i e => Some (e ++ [i])) 9 ms [] = Set_to [3; 1; 0].
Proof. vm_compute. reflexivity. Qed.

End Demo.

Print Assumptions scripts_once_in_order.
Print Assumptions no_scripts_no_change.
Print Assumptions same_name_script_lost_refuted.
