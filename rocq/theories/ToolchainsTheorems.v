(** Canonical lists of toolchains (C98). *)

From Coq Require Import String Ascii.
From Coq Require Import List Bool Arith NArith Lia Permutation.
From Verif Require Import Str ToolchainsModel.
Import ListNotations.

Definition txt (s : String.string) : str := List.map Ascii.N_of_ascii (String.list_ascii_of_string s).
Arguments txt s%string.

(** * Specification *)

(** A toolchain belongs to a family; see the table in the documentation of
    qbs.toolchain. *)
Inductive family : str -> str -> Prop :=
| XcodeClang : family (txt "xcode") (txt "clang")
| ClangLlvm : family (txt "clang") (txt "llvm")
| LlvmGcc : family (txt "llvm") (txt "gcc")
| MingwGcc : family (txt "mingw") (txt "gcc")
| EmscriptenGcc : family (txt "emscripten") (txt "gcc")
| ClangClMsvc : family (txt "clang-cl") (txt "msvc").

Inductive belongs : str -> str -> Prop :=
| Self : forall a, belongs a a
| Via : forall a b c, family a b -> belongs b c -> belongs a c.

(** Capital letters do not matter. *)
Definition small (c : N) : N :=
  if (64 <? c)%N && (c <? 91)%N then (c + 32)%N else c.
Definition small_letters (s : str) : str := List.map small s.

(** The documented table, and what the code does for the undocumented one. *)
Definition table : list (str * list str) :=
  [ (txt "clang", [txt "clang"; txt "llvm"; txt "gcc"]);
    (txt "clang-cl", [txt "clang-cl"; txt "msvc"]);
    (txt "cosmic", [txt "cosmic"]);
    (txt "dmc", [txt "dmc"]);
    (txt "gcc", [txt "gcc"]);
    (txt "iar", [txt "iar"]);
    (txt "keil", [txt "keil"]);
    (txt "llvm", [txt "llvm"; txt "gcc"]);
    (txt "mingw", [txt "mingw"; txt "gcc"]);
    (txt "msvc", [txt "msvc"]);
    (txt "qcc", [txt "qcc"]);
    (txt "sdcc", [txt "sdcc"]);
    (txt "watcom", [txt "watcom"]);
    (txt "xcode", [txt "xcode"; txt "clang"; txt "llvm"; txt "gcc"]) ].

(** The toolchains with a fixed order. *)
Definition ordered : list str :=
  [txt "xcode"; txt "clang"; txt "llvm"; txt "mingw"; txt "gcc"; txt "clang-cl"; txt "msvc"; txt "emscripten"].

Inductive subsequence {X : Type} : list X -> list X -> Prop :=
| SubNil : forall l, subsequence [] l
| SubTake : forall x l k, subsequence l k -> subsequence (x :: l) (x :: k)
| SubSkip : forall x l k, subsequence l k -> subsequence l (x :: k).

(** The first occurrences of elements. *)
Inductive firsts : list str -> list str -> Prop :=
| FirstsNil : firsts [] []
| FirstsNew : forall l k x, firsts l k -> ~ In x l -> firsts (l ++ [x]) (k ++ [x])
| FirstsOld : forall l k x, firsts l k -> In x l -> firsts (l ++ [x]) k.

Definition before (a b : str) (l : list str) : Prop :=
  exists l1 l2 l3, l = l1 ++ a :: l2 ++ b :: l3.

(** * Proofs *)

Lemma lower_small s : lower s = small_letters s.
Proof.
  unfold lower, small_letters. apply map_ext. intro c. unfold lower_char, small.
  destruct (N.leb_spec 65 c), (N.leb_spec c 90), (N.ltb_spec 64 c), (N.ltb_spec c 91); simpl; try reflexivity; lia.
Qed.

Lemma lower_lower s : lower (lower s) = lower s.
Proof.
  unfold lower. rewrite map_map. apply map_ext. intro c. unfold lower_char.
  destruct (N.leb_spec 65 c), (N.leb_spec c 90); simpl;
    repeat match goal with |- context [N.leb ?a ?b] => destruct (N.leb_spec a b) end; simpl; try reflexivity; lia.
Qed.

Lemma NoDup_app_intro (l k : list str) :
  NoDup l -> NoDup k -> (forall x, In x l -> ~ In x k) -> NoDup (l ++ k).
Proof.
  induction l as [|a l IH]; intros H1 H2 H3; [exact H2|]. inversion H1 as [|? ? A1 A2]; subst. simpl. constructor.
  - intro I1. apply in_app_or in I1. destruct I1 as [I1|I1]; [contradiction|]. exact (H3 a (or_introl eq_refl) I1).
  - apply IH; auto. intros x I1. apply H3. right. exact I1.
Qed.

Lemma contains_spec l s : contains l s = true <-> In s l.
Proof.
  unfold contains. rewrite existsb_exists. split.
  - intros (t & I1 & E). apply str_eqb_eq in E. subst. exact I1.
  - intro I1. exists s. split; [exact I1|apply str_eqb_refl].
Qed.

Lemma contains_false l s : contains l s = false <-> ~ In s l.
Proof. rewrite <- contains_spec. destruct (contains l s); split; congruence. Qed.

(** What a single name stands for. *)
Definition parents (n : str) : list str :=
  if str_eqb n xcode then [clang; llvm; gcc]
  else if str_eqb n clang then [llvm; gcc]
  else if str_eqb n llvm || str_eqb n mingw || str_eqb n emscripten then [gcc]
  else if str_eqb n clang_cl then [msvc]
  else [].

Lemma canonical_name_spec n : canonical_name 8 n = lower n :: parents (lower n).
Proof.
  reflexivity.
Qed.

Lemma belongs_gcc x : belongs gcc x -> x = gcc.
Proof. intro H. inversion H as [|? ? ? F B]; subst; [reflexivity|]. inversion F. Qed.
Lemma belongs_msvc x : belongs msvc x -> x = msvc.
Proof. intro H. inversion H as [|? ? ? F B]; subst; [reflexivity|]. inversion F. Qed.
Lemma belongs_llvm x : belongs llvm x -> x = llvm \/ x = gcc.
Proof. intro H. inversion H as [|? ? ? F B]; subst; [auto|]. inversion F; subst. right. apply belongs_gcc. assumption. Qed.
Lemma belongs_clang x : belongs clang x -> x = clang \/ x = llvm \/ x = gcc.
Proof. intro H. inversion H as [|? ? ? F B]; subst; [auto|]. inversion F; subst. right. apply belongs_llvm. assumption. Qed.

Lemma parents_belongs n x : In x (n :: parents n) <-> belongs n x.
Proof.
  split.
  - intros [<-|I1]; [constructor|]. unfold parents in I1.
    destruct (str_eqb n xcode) eqn:E1.
    { apply str_eqb_eq in E1. subst n. destruct I1 as [<-|[<-|[<-|[]]]].
      - eapply Via; [apply XcodeClang|constructor].
      - eapply Via; [apply XcodeClang|]. eapply Via; [apply ClangLlvm|constructor].
      - eapply Via; [apply XcodeClang|]. eapply Via; [apply ClangLlvm|]. eapply Via; [apply LlvmGcc|constructor]. }
    destruct (str_eqb n clang) eqn:E2.
    { apply str_eqb_eq in E2. subst n. destruct I1 as [<-|[<-|[]]].
      - eapply Via; [apply ClangLlvm|constructor].
      - eapply Via; [apply ClangLlvm|]. eapply Via; [apply LlvmGcc|constructor]. }
    destruct (str_eqb n llvm || str_eqb n mingw || str_eqb n emscripten) eqn:E3.
    { destruct I1 as [<-|[]]. apply orb_true_iff in E3. destruct E3 as [E3|E3]; [apply orb_true_iff in E3; destruct E3 as [E3|E3]|];
        apply str_eqb_eq in E3; subst n.
      - eapply Via; [apply LlvmGcc|constructor].
      - eapply Via; [apply MingwGcc|constructor].
      - eapply Via; [apply EmscriptenGcc|constructor]. }
    destruct (str_eqb n clang_cl) eqn:E4; [|destruct I1].
    apply str_eqb_eq in E4. subst n. destruct I1 as [<-|[]]. eapply Via; [apply ClangClMsvc|constructor].
  - intro B. inversion B as [|? b ? F B']; subst; [left; reflexivity|]. right.
    inversion F; subst.
    + apply belongs_clang in B'. vm_compute parents. destruct B' as [->|[->| ->]]; simpl; auto.
    + apply belongs_llvm in B'. vm_compute parents. destruct B' as [->| ->]; simpl; auto.
    + apply belongs_gcc in B'. subst. vm_compute parents. left. reflexivity.
    + apply belongs_gcc in B'. subst. vm_compute parents. left. reflexivity.
    + apply belongs_gcc in B'. subst. vm_compute parents. left. reflexivity.
    + apply belongs_msvc in B'. subst. vm_compute parents. left. reflexivity.
Qed.

Lemma in_remove l : forall seen x, In x (remove_duplicates seen l) <-> In x l /\ ~ In x seen.
Proof.
  induction l as [|s l IH]; intros seen x; simpl; [tauto|].
  destruct (contains seen s) eqn:C.
  - apply contains_spec in C. rewrite IH. split; [tauto|]. intros [[->|I1] N1]; [contradiction|auto].
  - apply contains_false in C. simpl. rewrite IH. simpl. split.
    + intros [->|[I1 N1]]; [auto|]. tauto.
    + intros [[->|I1] N1]; [auto|]. destruct (str_dec s x) as [->|NE]; [auto|]. right. split; [exact I1|]. tauto.
Qed.

Lemma nodup_remove l : forall seen, NoDup (remove_duplicates seen l).
Proof.
  induction l as [|s l IH]; intro seen; simpl; [constructor|].
  destruct (contains seen s); [auto|]. constructor; [|auto]. rewrite in_remove. simpl. tauto.
Qed.

Lemma remove_snoc l x : forall seen,
  remove_duplicates seen (l ++ [x]) =
  remove_duplicates seen l ++ (if contains (l ++ seen) x then [] else [x]).
Proof.
  induction l as [|s l IH]; intro seen; simpl.
  - destruct (contains seen x); reflexivity.
  - destruct (contains seen s) eqn:C.
    + rewrite IH. f_equal.
      assert (E : str_eqb x s || contains (l ++ seen) x = contains (l ++ seen) x).
      { destruct (str_eqb x s) eqn:E; [|reflexivity]. apply str_eqb_eq in E. subst. simpl. symmetry.
        apply contains_spec. apply in_or_app. right. apply contains_spec. exact C. }
      rewrite E. reflexivity.
    + rewrite IH. simpl. f_equal. f_equal.
      assert (E : contains (l ++ s :: seen) x = str_eqb x s || contains (l ++ seen) x).
      { unfold contains. rewrite !existsb_app. simpl. destruct (existsb (str_eqb x) l), (str_eqb x s), (existsb (str_eqb x) seen); reflexivity. }
      rewrite E. reflexivity.
Qed.

Lemma remove_firsts l : firsts l (remove_duplicates [] l).
Proof.
  induction l as [|x l IH] using rev_ind; [constructor|].
  rewrite remove_snoc, app_nil_r. destruct (contains l x) eqn:C.
  - rewrite app_nil_r. apply FirstsOld; [exact IH|]. apply contains_spec. exact C.
  - apply FirstsNew; [exact IH|]. apply contains_false. exact C.
Qed.

(** Sorting. *)
Lemma index_inj : forall l a b, In a l -> In b l -> index_of l a = index_of l b -> a = b.
Proof.
  induction l as [|t l IH]; intros a b I1 I2 E; [destruct I1|]. simpl in E.
  destruct (str_eqb t a) eqn:Ea, (str_eqb t b) eqn:Eb; try discriminate.
  - apply str_eqb_eq in Ea, Eb. congruence.
  - injection E as E. apply IH; [| |exact E].
    + destruct I1 as [->|I1]; [rewrite str_eqb_refl in Ea; discriminate|exact I1].
    + destruct I2 as [->|I2]; [rewrite str_eqb_refl in Eb; discriminate|exact I2].
Qed.

Local Arguments index_of : simpl never.

Lemma insert_perm s l : Permutation (insert_by_index s l) (s :: l).
Proof.
  induction l as [|t l IH]; simpl; [reflexivity|]. destruct (index_of known s <=? index_of known t); [reflexivity|].
  apply Permutation_trans with (t :: s :: l); [apply perm_skip; exact IH|apply perm_swap].
Qed.

Lemma sort_perm l : Permutation (sort_known l) l.
Proof.
  induction l as [|s l IH]; simpl; [reflexivity|].
  eapply Permutation_trans; [apply insert_perm|]. apply perm_skip. exact IH.
Qed.

Fixpoint sorted (l : list str) : Prop :=
  match l with
  | [] => True
  | s :: r => (forall t, In t r -> index_of known s <= index_of known t) /\ sorted r
  end.

Lemma insert_sorted s l : sorted l -> sorted (insert_by_index s l).
Proof.
  induction l as [|t l IH]; simpl; [intros _; split; [intros ? []|exact Logic.I]|].
  intros [H1 H2]. destruct (index_of known s <=? index_of known t) eqn:E.
  - apply Nat.leb_le in E. simpl. split; [|auto]. intros u [<-|I1]; [exact E|]. pose proof (H1 u I1). lia.
  - apply Nat.leb_gt in E. simpl. split; [|auto]. intros u I1. apply (Permutation_in _ (insert_perm s l)) in I1.
    destruct I1 as [<-|I1]; [lia|auto].
Qed.

Lemma sort_sorted l : sorted (sort_known l).
Proof. induction l as [|s l IH]; simpl; [exact Logic.I|]. apply insert_sorted. exact IH. Qed.

(** Sorted lists of known names with the same elements are the same. *)
Lemma sorted_unique : forall l k, sorted l -> sorted k -> NoDup l -> NoDup k ->
  (forall x, In x l -> In x known) -> (forall x, In x l <-> In x k) -> l = k.
Proof.
  induction l as [|a l IH]; intros [|b k] S1 S2 N1 N2 K E.
  - reflexivity.
  - exfalso. apply (E b). left. reflexivity.
  - exfalso. apply (E a). left. reflexivity.
  - destruct S1 as [A1 A2], S2 as [B1 B2]. inversion N1 as [|? ? C1 C2]; subst. inversion N2 as [|? ? D1 D2]; subst.
    assert (a = b).
    { assert (Ia : In a (b :: k)) by (apply E; left; reflexivity).
      assert (Ib : In b (a :: l)) by (apply E; left; reflexivity).
      destruct Ia as [->|Ia]; [reflexivity|]. destruct Ib as [->|Ib]; [reflexivity|].
      pose proof (A1 _ Ib). pose proof (B1 _ Ia).
      apply (index_inj known); [apply K; left; reflexivity|apply K; right; exact Ib|lia]. }
    subst b. f_equal. apply IH; auto.
    + intros x I1. apply K. right. exact I1.
    + intro x. specialize (E x). simpl in E. split; intro I1.
      * destruct (proj1 E (or_intror I1)) as [->|I2]; [contradiction|exact I2].
      * destruct (proj2 E (or_intror I1)) as [->|I2]; [contradiction|exact I2].
Qed.

Lemma known_sorted f : sorted (filter f known) /\ NoDup (filter f known).
Proof.
  split; [|apply NoDup_filter].
  - assert (G : forall l, sorted l -> sorted (filter f l)).
    { induction l as [|t l IH]; simpl; [auto|]. intros [H1 H2]. destruct (f t); [|auto]. simpl. split; [|auto].
      intros u I1. apply filter_In in I1. apply H1. apply I1. }
    apply G. cbn [sorted known In].
    repeat split; intros t H; repeat (destruct H as [<-|H]; [apply Nat.leb_le; vm_compute; reflexivity|]); destruct H.
  - repeat constructor; intro H; vm_compute in H; intuition discriminate.
Qed.

Lemma sort_is_filter l : NoDup l -> (forall x, In x l -> In x known) ->
  sort_known l = filter (contains l) known.
Proof.
  intros ND K. apply sorted_unique.
  - apply sort_sorted.
  - apply known_sorted.
  - apply (Permutation_NoDup (Permutation_sym (sort_perm l))). exact ND.
  - apply known_sorted.
  - intros x I1. apply K. apply (Permutation_in _ (sort_perm l)). exact I1.
  - intro x. rewrite filter_In, contains_spec. split.
    + intro I1. apply (Permutation_in _ (sort_perm l)) in I1. auto.
    + intros [_ I1]. apply (Permutation_in _ (Permutation_sym (sort_perm l))). exact I1.
Qed.

(** The names and their families, in order. *)
Definition expanded (names : list str) : list str := flat_map (canonical_name 8) names.

Definition unknown (s : str) : bool := negb (contains known s).

Lemma canonical_form names :
  canonical names = filter unknown (remove_duplicates [] (expanded names)) ++ filter (contains (expanded names)) known.
Proof.
  unfold canonical. fold (expanded names). set (all := remove_duplicates [] (expanded names)).
  change (fun s => negb (contains known s)) with unknown. f_equal.
  rewrite sort_is_filter.
  - apply filter_ext_in. intros x I1.
    destruct (contains (expanded names) x) eqn:E.
    + apply contains_spec in E. apply contains_spec. apply filter_In. split; [|apply contains_spec; exact I1].
      apply in_remove. auto.
    + apply contains_false. apply contains_false in E. intro I2. apply filter_In in I2. destruct I2 as [I2 _].
      apply in_remove in I2. tauto.
  - apply NoDup_filter. apply nodup_remove.
  - intros x I1. apply filter_In in I1. destruct I1 as [_ I1]. apply contains_spec. exact I1.
Qed.

Lemma in_expanded names x : In x (expanded names) <-> exists n, In n names /\ belongs (small_letters n) x.
Proof.
  unfold expanded. rewrite in_flat_map. split.
  - intros (n & I1 & I2). exists n. split; [exact I1|]. rewrite canonical_name_spec in I2.
    apply parents_belongs in I2. rewrite <- lower_small. exact I2.
  - intros (n & I1 & B). exists n. split; [exact I1|]. rewrite canonical_name_spec. apply parents_belongs.
    rewrite lower_small. exact B.
Qed.

Lemma in_canonical names x : In x (canonical names) <-> In x (expanded names).
Proof.
  rewrite canonical_form, in_app_iff, !filter_In, in_remove, contains_spec. unfold unknown.
  rewrite negb_true_iff, contains_false. split; [tauto|].
  intro I1. destruct (contains known x) eqn:K.
  - apply contains_spec in K. auto.
  - apply contains_false in K. left. split; [split; [exact I1|intros []]|exact K].
Qed.

(** C98. The list has exactly the toolchains given and their families, each one
    once. *)
Theorem toolchains_exact names :
  NoDup (canonical names)
  /\ forall x, In x (canonical names) <-> exists n, In n names /\ belongs (small_letters n) x.
Proof.
  split.
  - rewrite canonical_form. apply NoDup_app_intro.
    + apply NoDup_filter. apply nodup_remove.
    + apply known_sorted.
    + intros x I1 I2. apply filter_In in I1. apply filter_In in I2. destruct I1 as [_ I1], I2 as [I2 _].
      unfold unknown in I1. apply negb_true_iff in I1. apply contains_false in I1. contradiction.
  - intro x. rewrite in_canonical. apply in_expanded.
Qed.

(** Names without a family come first, in the order in which they are given; then
    the others, in a fixed order. *)
Theorem toolchains_order names :
  exists others fixed, canonical names = others ++ fixed
    /\ subsequence fixed ordered
    /\ (forall x, In x others -> ~ In x ordered)
    /\ firsts (filter (fun s => negb (existsb (str_eqb s) ordered)) (List.map small_letters names)) others.
Proof.
  exists (filter unknown (remove_duplicates [] (expanded names))), (filter (contains (expanded names)) known).
  split; [apply canonical_form|]. split; [|split].
  - change ordered with known. induction known as [|t k IH]; simpl; [constructor|].
    destruct (contains (expanded names) t); [apply SubTake; exact IH|apply SubSkip; exact IH].
  - intros x I1. apply filter_In in I1. destruct I1 as [_ I1]. unfold unknown in I1. apply negb_true_iff in I1.
    apply contains_false in I1. exact I1.
  - change (fun s => negb (existsb (str_eqb s) ordered)) with unknown.
    (* filtering and removing duplicates commute *)
    assert (FR : forall l seen, filter unknown (remove_duplicates seen l) = remove_duplicates seen (filter unknown l)).
    { induction l as [|s l IH]; intro seen; simpl; [reflexivity|].
      destruct (contains seen s) eqn:C.
      - rewrite IH. destruct (unknown s); simpl; [rewrite C|]; reflexivity.
      - simpl. destruct (unknown s) eqn:U; simpl; [rewrite C, IH; reflexivity|].
        rewrite IH. assert (G : forall k sn, (forall x, In x k -> x <> s) -> remove_duplicates (s :: sn) k = remove_duplicates sn k).
        { assert (G' : forall k sn sn', (forall x, In x k -> contains sn x = contains sn' x) -> remove_duplicates sn k = remove_duplicates sn' k).
          { induction k as [|y k IHk]; intros sn sn' H; simpl; [reflexivity|].
            rewrite (H y (or_introl eq_refl)). destruct (contains sn' y).
            - apply IHk. intros x I1. apply H. right. exact I1.
            - f_equal. apply IHk. intros x I1. unfold contains in *. simpl. rewrite (H x (or_intror I1)). reflexivity. }
          intros k sn H. apply G'. intros x I1. unfold contains. simpl.
          destruct (str_eqb x s) eqn:E; [|reflexivity]. apply str_eqb_eq in E. exfalso. exact (H x I1 E). }
        apply G. intros x I1 ->. apply filter_In in I1. destruct I1 as [_ I1]. congruence. }
    rewrite FR.
    assert (FE : filter unknown (expanded names) = filter unknown (List.map small_letters names)).
    { unfold expanded. induction names as [|n names IH]; [reflexivity|]. cbn [flat_map List.map].
      rewrite filter_app, IH, canonical_name_spec, lower_small. cbn [filter].
      assert (P : filter unknown (parents (small_letters n)) = []).
      { unfold parents. repeat match goal with |- context [if ?c then _ else _] => destruct c end; reflexivity. }
      rewrite P. destruct (unknown (small_letters n)); reflexivity. }
    rewrite FE. apply remove_firsts.
Qed.

Lemma belongs_lower n x : belongs (lower n) x -> lower x = x.
Proof.
  intro B. inversion B as [|? b ? F B']; subst; [apply lower_lower|].
  assert (K : In x (lower n :: parents (lower n))) by (apply parents_belongs; exact B).
  destruct K as [<-|K]; [apply lower_lower|]. unfold parents in K.
  repeat match type of K with context [if ?c then _ else _] => destruct c end; simpl in K;
    repeat match goal with H : _ \/ _ |- _ => destruct H | H : False |- _ => destruct H end; subst; reflexivity.
Qed.

Lemma belongs_trans a b c : belongs a b -> belongs b c -> belongs a c.
Proof. induction 1 as [a|a b' b F B IH]; intro H; [exact H|]. eapply Via; eauto. Qed.

(** A canonical list is accepted as such: it is its own canonical list. *)
Theorem toolchains_idempotent names : canonical (canonical names) = canonical names.
Proof.
  assert (SAME : forall x, In x (expanded (canonical names)) <-> In x (expanded names)).
  { intro x. rewrite !in_expanded. split.
    - intros (n & I1 & B). apply in_canonical in I1. apply in_expanded in I1. destruct I1 as (n0 & I1 & B0).
      exists n0. split; [exact I1|]. rewrite <- lower_small in *. rewrite (belongs_lower _ _ B0) in B. eapply belongs_trans; eauto.
    - intros (n & I1 & B). exists x. split; [apply in_canonical; apply in_expanded; eauto|].
      rewrite <- lower_small in *. rewrite (belongs_lower _ _ B). constructor. }
  rewrite (canonical_form (canonical names)), (canonical_form names). f_equal.
  - rewrite <- canonical_form.
    set (u := filter unknown (remove_duplicates [] (expanded names))).
    assert (FE : forall l, (forall x, In x l -> lower x = x) ->
              filter unknown (remove_duplicates [] (expanded l)) = filter unknown (remove_duplicates [] l)).
    { intros l H. destruct (toolchains_order l) as (o & f & E & _ & N1 & F1).
      assert (FR : forall l seen, filter unknown (remove_duplicates seen l) = remove_duplicates seen (filter unknown l)).
      { clear. induction l as [|s l IH]; intro seen; simpl; [reflexivity|].
        destruct (contains seen s) eqn:C.
        - rewrite IH. destruct (unknown s); simpl; [rewrite C|]; reflexivity.
        - simpl. destruct (unknown s) eqn:U; simpl; [rewrite C, IH; reflexivity|].
          rewrite IH.
          assert (G' : forall k sn sn', (forall x, In x k -> contains sn x = contains sn' x) -> remove_duplicates sn k = remove_duplicates sn' k).
          { induction k as [|y k IHk]; intros sn sn' H; simpl; [reflexivity|].
            rewrite (H y (or_introl eq_refl)). destruct (contains sn' y).
            - apply IHk. intros x I1. apply H. right. exact I1.
            - f_equal. apply IHk. intros x I1. unfold contains in *. simpl. rewrite (H x (or_intror I1)). reflexivity. }
          apply G'. intros x I1. unfold contains. simpl. destruct (str_eqb x s) eqn:E; [|reflexivity].
          apply str_eqb_eq in E. subst. apply filter_In in I1. destruct I1 as [_ I1]. congruence. }
      rewrite !FR. f_equal.
      clear - H. unfold expanded. induction l as [|n l IH]; [reflexivity|]. cbn [flat_map].
      rewrite filter_app, canonical_name_spec, IH by (intros x I1; apply H; right; exact I1).
      rewrite (H n (or_introl eq_refl)). cbn [filter].
      assert (P : filter unknown (parents n) = []).
      { unfold parents. repeat match goal with |- context [if ?c then _ else _] => destruct c end; reflexivity. }
      rewrite P. destruct (unknown n); reflexivity. }
    rewrite FE.
    + (* no duplicates in the canonical list *)
      assert (ND : remove_duplicates [] (canonical names) = canonical names).
      { assert (G : forall l seen, NoDup l -> (forall x, In x l -> ~ In x seen) -> remove_duplicates seen l = l).
        { induction l as [|s l IH]; intros seen N1 H; simpl; [reflexivity|]. inversion N1 as [|? ? A1 A2]; subst.
          assert (C : contains seen s = false) by (apply contains_false; apply H; left; reflexivity). rewrite C.
          f_equal. apply IH; [exact A2|]. intros x I1 [<-|I2]; [contradiction|]. exact (H x (or_intror I1) I2). }
        apply G; [apply toolchains_exact|intros x _ []]. }
      rewrite ND, canonical_form, filter_app.
      assert (Z : filter unknown (filter (contains (expanded names)) known) = []).
      { assert (G : forall l, (forall x, In x l -> In x known) -> filter unknown l = []).
        { induction l as [|s l IH]; intro H; simpl; [reflexivity|].
          assert (U : unknown s = false) by (unfold unknown; apply negb_false_iff; apply contains_spec; apply H; left; reflexivity).
          rewrite U. apply IH. intros x I1. apply H. right. exact I1. }
        apply G. intros x I1. apply filter_In in I1. apply I1. }
      rewrite Z, app_nil_r. subst u.
      assert (G : forall l, filter unknown (filter unknown l) = filter unknown l).
      { induction l as [|s l IH]; simpl; [reflexivity|]. destruct (unknown s) eqn:U; simpl; [rewrite U, IH; reflexivity|exact IH]. }
      apply G.
    + intros x I1. apply in_canonical in I1. apply in_expanded in I1. destruct I1 as (n & _ & B).
      rewrite <- lower_small in B. exact (belongs_lower _ _ B).
  - rewrite <- canonical_form. apply filter_ext. intro x. destruct (contains (expanded names) x) eqn:E.
    + apply contains_spec. apply SAME. apply contains_spec. exact E.
    + apply contains_false. apply contains_false in E. rewrite SAME. exact E.
Qed.

(** The documented table. *)
Theorem toolchains_documented : forall t l, In (t, l) table -> canonical [t] = l.
Proof.
  intros t l I1. unfold table in I1. cbn [In] in I1.
  repeat (destruct I1 as [I1|I1]; [injection I1 as <- <-; vm_compute; reflexivity|]). destruct I1.
Qed.

Lemma subsequence_before a b l k : subsequence l k -> NoDup k -> before a b k -> In a l -> In b l -> before a b l.
Proof.
  induction 1 as [k|x l k S1 IH|x l k S1 IH]; intros ND (l1 & l2 & l3 & E) Ia Ib.
  - destruct Ia.
  - inversion ND as [|? ? A1 A2]; subst. destruct l1 as [|y l1]; simpl in E; injection E as -> E.
    + destruct Ib as [->|Ib].
      * exfalso. apply A1. rewrite E. apply in_or_app. right. left. reflexivity.
      * apply in_split in Ib. destruct Ib as (k1 & k2 & ->). exists [], k1, k2. reflexivity.
    + assert (N1 : forall z, In z (l1 ++ a :: l2 ++ b :: l3) -> z <> y) by (intros z Iz ->; apply A1; rewrite E; exact Iz).
      destruct Ia as [->|Ia]; [exfalso; apply (N1 a); [apply in_or_app; right; left; reflexivity|reflexivity]|].
      destruct Ib as [->|Ib]; [exfalso; apply (N1 b); [apply in_or_app; right; right; apply in_or_app; right; left; reflexivity|reflexivity]|].
      destruct (IH A2) as (k1 & k2 & k3 & ->); auto; [exists l1, l2, l3; exact E|]. exists (y :: k1), k2, k3. reflexivity.
  - inversion ND as [|? ? A1 A2]; subst. apply IH; auto.
    assert (Sub : forall z, In z l -> In z k).
    { clear - S1. induction S1 as [k|y l k S1 IH|y l k S1 IH]; intros z Iz; [destruct Iz|destruct Iz as [->|Iz]; [left; reflexivity|right; auto]|right; auto]. }
    destruct l1 as [|y l1]; simpl in E; injection E as -> E.
    + exfalso. apply A1. apply Sub. exact Ia.
    + exists l1, l2, l3. exact E.
Qed.

(** A toolchain comes before its family, except for emscripten. *)
Theorem toolchains_special_first_partial names a b :
  In a (canonical names) -> family a b -> a <> txt "emscripten" -> before a b (canonical names).
Proof.
  intros Ia F NE.
  assert (Ib : In b (canonical names)).
  { apply in_canonical. apply in_canonical in Ia. apply in_expanded in Ia. destruct Ia as (n & I1 & B).
    apply in_expanded. exists n. split; [exact I1|]. eapply belongs_trans; [exact B|]. eapply Via; [exact F|constructor]. }
  destruct (toolchains_order names) as (o & f & E & S1 & N1 & _).
  assert (O : In a ordered /\ In b ordered /\ before a b ordered).
  { destruct F; try contradiction; (split; [vm_compute; tauto|split; [vm_compute; tauto|]]).
    - exists [], [], (skipn 2 ordered). reflexivity.
    - exists (firstn 1 ordered), [], (skipn 3 ordered). reflexivity.
    - exists (firstn 2 ordered), [txt "mingw"], (skipn 5 ordered). reflexivity.
    - exists (firstn 3 ordered), [], (skipn 5 ordered). reflexivity.
    - exists (firstn 5 ordered), [], (skipn 7 ordered). reflexivity. }
  destruct O as (Oa & Ob & OB). rewrite E in Ia, Ib |- *.
  assert (Fa : In a f) by (apply in_app_or in Ia; destruct Ia as [Ia|Ia]; [exfalso; exact (N1 _ Ia Oa)|exact Ia]).
  assert (Fb : In b f) by (apply in_app_or in Ib; destruct Ib as [Ib|Ib]; [exfalso; exact (N1 _ Ib Ob)|exact Ib]).
  destruct (subsequence_before a b f ordered S1) as (l1 & l2 & l3 & ->); auto.
  - apply (known_sorted (fun _ => true)).
  - exists (o ++ l1), l2, l3. rewrite <- app_assoc. reflexivity.
Qed.

(** emscripten comes behind gcc. *)
Theorem toolchains_special_first_refuted :
  exists names a b, In a (canonical names) /\ family a b /\ ~ before a b (canonical names).
Proof.
  exists [txt "emscripten"], (txt "emscripten"), (txt "gcc"). split; [vm_compute; tauto|]. split; [apply EmscriptenGcc|].
  intros (l1 & l2 & l3 & E). vm_compute in E.
  destruct l1 as [|x [|y l1]]; simpl in E; try discriminate.
  - injection E as _ E. destruct l2; discriminate.
  - injection E as _ _ E. destruct l1; discriminate.
Qed.

(** * Examples *)

Module Demo.

Example mixed : canonical [txt "GCC"; txt "Tasking"; txt "clang"; txt "foo"; txt "tasking"]
  = [txt "tasking"; txt "foo"; txt "clang"; txt "llvm"; txt "gcc"].
Proof. vm_compute. reflexivity. Qed.

End Demo.

Print Assumptions toolchains_exact.
Print Assumptions toolchains_order.
Print Assumptions toolchains_idempotent.
Print Assumptions toolchains_documented.
Print Assumptions toolchains_special_first_partial.
Print Assumptions toolchains_special_first_refuted.
