(** C25: the set container behaves like a mathematical set.

    Specification: programs building sets out of constructors and operations
    ([sexpr]) are given a meaning as predicates ([denote]); the model's value
    of such a program ([eval]) must have exactly these elements. *)
From Coq Require Import List Bool Arith Lia Sorted PeanoNat.
From Verif Require Import SetModel SetProofs.
Import ListNotations.

Section Spec.
  Context {T : Type}.

  (** Ways a client can obtain a set. *)
  Inductive sexpr : Type :=
  | Empty
  | InitList (l : list T)                (* Set{...} *)
  | Range (l : list T)                   (* Set(first, last) *)
  | Insert (e : sexpr) (v : T)
  | Remove (e : sexpr) (v : T)
  | Unite (e1 e2 : sexpr)                (* unite, +=, |=, +, | *)
  | Subtract (e1 e2 : sexpr)             (* subtract, -= *)
  | Minus (e1 e2 : sexpr)                (* binary - *)
  | Intersect (e1 e2 : sexpr)            (* intersect, &= *)
  | And (e1 e2 : sexpr)                  (* binary & *)
  | Filtered (p : T -> bool) (e : sexpr)
  | StoreLoad (e : sexpr).               (* store followed by load *)

  (** What elements a mathematician expects. *)
  Fixpoint denote (e : sexpr) (x : T) : Prop :=
    match e with
    | Empty => False
    | InitList l => In x l
    | Range l => In x l
    | Insert e v => x = v \/ denote e x
    | Remove e v => denote e x /\ x <> v
    | Unite a b => denote a x \/ denote b x
    | Subtract a b => denote a x /\ ~ denote b x
    | Minus a b => denote a x /\ ~ denote b x
    | Intersect a b => denote a x /\ denote b x
    | And a b => denote a x /\ denote b x
    | Filtered p e => denote e x /\ p x = true
    | StoreLoad e => denote e x
    end.

  (** No range constructor is given duplicates. *)
  Fixpoint ranges_distinct (e : sexpr) : Prop :=
    match e with
    | Empty | InitList _ => True
    | Range l => NoDup l
    | Insert e _ | Remove e _ | Filtered _ e | StoreLoad e => ranges_distinct e
    | Unite a b | Subtract a b | Minus a b | Intersect a b | And a b =>
        ranges_distinct a /\ ranges_distinct b
    end.

  Variable ltb : T -> T -> bool.

  (** Running the program on the model. *)
  Fixpoint eval (e : sexpr) : list T :=
    match e with
    | Empty => []
    | InitList l => of_init_list ltb l
    | Range l => of_range ltb l
    | Insert e v => fst (insert ltb (eval e) v)
    | Remove e v => fst (remove ltb (eval e) v)
    | Unite a b => unite ltb (eval a) (eval b)
    | Subtract a b => subtract ltb (eval a) (eval b)
    | Minus a b => minus ltb (eval a) (eval b)
    | Intersect a b => intersect ltb (eval a) (eval b)
    | And a b => inter ltb (eval a) (eval b)
    | Filtered p e => filtered p (eval e)
    | StoreLoad e => load ltb false (fun x => x) (store (eval e))
    end.

  Hypothesis Hst : strict_total ltb.

  Lemma eval_correct e : ranges_distinct e ->
    StronglySorted (fun x y => ltb x y = true) (eval e) /\
    (forall x, In x (eval e) <-> denote e x).
  Proof.
    induction e; cbn [eval denote ranges_distinct]; intros R.
    - split; [constructor|tauto].
    - split; [apply of_init_list_sorted; auto|intros; apply of_init_list_In; auto].
    - split; [apply of_range_sorted; auto|intros; apply of_range_In; auto].
    - destruct (IHe R) as [S I]. destruct (insert_spec _ Hst _ v S) as (A & B & _).
      split; auto. intros x. rewrite B, I. tauto.
    - destruct (IHe R) as [S I]. destruct (remove_spec _ Hst _ v S) as (A & B & _).
      split; auto. intros x. rewrite B, I. tauto.
    - destruct R as [R1 R2]. destruct (IHe1 R1) as [S1 I1], (IHe2 R2) as [S2 I2].
      destruct (unite_spec _ Hst _ _ S1 S2) as (A & B). split; auto.
      intros x. rewrite B, I1, I2. tauto.
    - destruct R as [R1 R2]. destruct (IHe1 R1) as [S1 I1], (IHe2 R2) as [S2 I2].
      destruct (subtract_spec _ Hst _ _ S1 S2) as (A & B). split; auto.
      intros x. rewrite B, I1, I2. tauto.
    - destruct R as [R1 R2]. destruct (IHe1 R1) as [S1 I1], (IHe2 R2) as [S2 I2].
      destruct (minus_spec _ Hst _ _ S1 S2) as (A & B). split; auto.
      intros x. rewrite B, I1, I2. tauto.
    - destruct R as [R1 R2]. destruct (IHe1 R1) as [S1 I1], (IHe2 R2) as [S2 I2].
      rewrite intersect_inter.
      destruct (inter_spec _ Hst _ _ S1 S2) as (A & B). split; auto.
      intros x. rewrite B, I1, I2. tauto.
    - destruct R as [R1 R2]. destruct (IHe1 R1) as [S1 I1], (IHe2 R2) as [S2 I2].
      destruct (inter_spec _ Hst _ _ S1 S2) as (A & B). split; auto.
      intros x. rewrite B, I1, I2. tauto.
    - destruct (IHe R) as [S I]. destruct (filtered_spec _ p _ S) as (A & B).
      split; auto. intros x. rewrite B, I. tauto.
    - rewrite load_store_value. auto.
  Qed.

  Lemma size_correct_lemma e : ranges_distinct e ->
    exists elems, NoDup elems /\ (forall x, In x elems <-> denote e x) /\
                  length (eval e) = length elems.
  Proof.
    intros R. destruct (eval_correct e R) as [S I].
    exists (eval e). split; [|split]; auto. eapply ssorted_NoDup; eauto.
  Qed.

  Lemma queries_lemma e e' v : ranges_distinct e -> ranges_distinct e' ->
    (contains ltb (eval e) v = true <-> denote e v) /\
    ((exists i, find ltb (eval e) v = Some i /\ nth_error (eval e) i = Some v)
       <-> denote e v) /\
    (contains_set ltb (eval e) (eval e') = true <-> (forall x, denote e' x -> denote e x)) /\
    (intersects ltb (eval e) (eval e') = true <-> (exists x, denote e x /\ denote e' x)) /\
    (equal ltb (eval e) (eval e') = true <-> (forall x, denote e x <-> denote e' x)) /\
    (snd (insert ltb (eval e) v) = true <-> ~ denote e v) /\
    (snd (remove ltb (eval e) v) = true <-> denote e v).
  Proof.
    intros R R'. destruct (eval_correct e R) as [S I], (eval_correct e' R') as [S' I'].
    refine (conj _ (conj _ (conj _ (conj _ (conj _ (conj _ _)))))).
    - rewrite contains_spec by auto. apply I.
    - pose proof (find_spec _ Hst _ v S) as F. destruct (find ltb (eval e) v) as [i|].
      + split; [intros _|intros _; exists i; auto]. apply I. eapply nth_error_In; eauto.
      + split; [intros (i & E & _); discriminate|]. rewrite <- I. tauto.
    - rewrite contains_set_spec by auto.
      split; intros H x; [rewrite <- I, <- I'|rewrite I, I']; auto.
    - rewrite intersects_spec by auto.
      split; intros (x & A & B); exists x; split; try apply I; try apply I'; auto.
    - rewrite equal_spec by auto.
      split; intros H x; [rewrite <- I, <- I'|rewrite I, I']; auto.
    - destruct (insert_spec _ Hst _ v S) as (_ & _ & B). rewrite B, I. tauto.
    - destruct (remove_spec _ Hst _ v S) as (_ & _ & B). rewrite B, I. tauto.
  Qed.

  (** Iteration visits each element exactly once, in increasing order. *)
  Lemma iteration_lemma e : ranges_distinct e ->
    NoDup (eval e) /\ forall i j x y, i < j -> nth_error (eval e) i = Some x ->
      nth_error (eval e) j = Some y -> ltb x y = true.
  Proof.
    intros R. destruct (eval_correct e R) as [S I]. split; [eapply ssorted_NoDup; eauto|].
    clear I. revert S. generalize (eval e). induction l as [|a l IH]; intros S i j x y L Hi Hj.
    - destruct i; discriminate.
    - apply StronglySorted_inv in S as [S1 S2]. destruct j; [lia|]. simpl in Hj.
      destruct i; simpl in Hi.
      + inversion Hi; subst. rewrite Forall_forall in S2. apply S2. eapply nth_error_In; eauto.
      + eapply IH; [auto| |eauto|eauto]. lia.
  Qed.
End Spec.

(** The order on natural numbers used for the concrete examples. *)
Lemma nat_strict_total : strict_total Nat.ltb.
Proof.
  constructor.
  - intros. apply Nat.ltb_irrefl.
  - intros x y z H1 H2. apply Nat.ltb_lt in H1, H2. apply Nat.ltb_lt. lia.
  - intros x y H1 H2. apply Nat.ltb_ge in H1, H2. lia.
Qed.

(** C25, part 1: whatever program of set operations is run, the result has
    exactly the expected elements. *)
Theorem set_operations_agree_with_sets :
  forall (T : Type) (ltb : T -> T -> bool) (e : sexpr),
    strict_total ltb -> ranges_distinct e ->
    forall x, In x (eval ltb e) <-> denote e x.
Proof. exact (fun T ltb e H R => proj2 (eval_correct ltb H e R)). Qed.
Print Assumptions set_operations_agree_with_sets.

(** C25, part 2: all queries give the set-theoretic answers. *)
Theorem set_queries_agree_with_sets :
  forall (T : Type) (ltb : T -> T -> bool) (e e' : sexpr) (v : T),
    strict_total ltb -> ranges_distinct e -> ranges_distinct e' ->
    (contains ltb (eval ltb e) v = true <-> denote e v) /\
    ((exists i, find ltb (eval ltb e) v = Some i /\ nth_error (eval ltb e) i = Some v)
       <-> denote e v) /\
    (contains_set ltb (eval ltb e) (eval ltb e') = true <-> (forall x, denote e' x -> denote e x)) /\
    (intersects ltb (eval ltb e) (eval ltb e') = true <-> (exists x, denote e x /\ denote e' x)) /\
    (equal ltb (eval ltb e) (eval ltb e') = true <-> (forall x, denote e x <-> denote e' x)) /\
    (snd (insert ltb (eval ltb e) v) = true <-> ~ denote e v) /\
    (snd (remove ltb (eval ltb e) v) = true <-> denote e v).
Proof. exact (fun T ltb e e' v H R R' => queries_lemma ltb H e e' v R R'). Qed.
Print Assumptions set_queries_agree_with_sets.

(** C25, part 3: the size is the cardinality. *)
Theorem set_size_is_cardinality :
  forall (T : Type) (ltb : T -> T -> bool) (e : sexpr),
    strict_total ltb -> ranges_distinct e ->
    exists elems, NoDup elems /\ (forall x, In x elems <-> denote e x) /\
                  length (eval ltb e) = length elems.
Proof. exact (fun T ltb e H R => size_correct_lemma ltb H e R). Qed.
Print Assumptions set_size_is_cardinality.

(** C25, part 4: iteration yields each element once, in increasing order. *)
Theorem set_iteration_increasing :
  forall (T : Type) (ltb : T -> T -> bool) (e : sexpr),
    strict_total ltb -> ranges_distinct e ->
    NoDup (eval ltb e) /\ forall i j x y, i < j -> nth_error (eval ltb e) i = Some x ->
      nth_error (eval ltb e) j = Some y -> ltb x y = true.
Proof. exact (fun T ltb e H R => iteration_lemma ltb H e R). Qed.
Print Assumptions set_iteration_increasing.

(** C25, part 5: a set of pointers stored and loaded again (so that all
    addresses change) is again a valid set, with the images of the elements. *)
Theorem set_of_pointers_survives_relocation :
  forall (T : Type) (ltb : T -> T -> bool) (e : sexpr) (relocate : T -> T),
    strict_total ltb -> ranges_distinct e ->
    (forall x y, denote e x -> denote e y -> relocate x = relocate y -> x = y) ->
    StronglySorted (fun x y => ltb x y = true) (load ltb true relocate (store (eval ltb e))) /\
    (forall y, In y (load ltb true relocate (store (eval ltb e))) <->
               exists x, denote e x /\ relocate x = y).
Proof.
  exact (fun T ltb e f H R Inj =>
    let EC := eval_correct ltb H e R in
    let LS := load_store_relocated ltb H f (eval ltb e) (proj1 EC)
      (fun x y Hx Hy => Inj x y (proj1 (proj2 EC x) Hx) (proj1 (proj2 EC y) Hy)) in
    conj (proj1 LS) (fun y => conj
      (fun Hy => match proj1 (proj2 LS y) Hy with
                 | ex_intro _ x (conj A B) => ex_intro _ x (conj (proj1 (proj2 EC x) A) B) end)
      (fun Hy => match Hy with
                 | ex_intro _ x (conj A B) =>
                     proj2 (proj2 LS y) (ex_intro _ x (conj (proj2 (proj2 EC x) A) B)) end))).
Qed.
Print Assumptions set_of_pointers_survives_relocation.

(** The hypotheses are satisfiable by a non-trivial program. *)
Example set_program_example :
  let e := Unite (Subtract (InitList [5; 3; 5; 1; 9]) (Range [9; 2]))
                 (Remove (Insert (InitList [7; 0; 7]) 4) 7) in
  ranges_distinct e /\ eval Nat.ltb e = [0; 1; 3; 4; 5].
Proof. split; [|vm_compute; reflexivity]. simpl. repeat split; repeat constructor; simpl; intuition discriminate. Qed.

(** The distinctness hypothesis on ranges cannot be dropped: the range
    constructor keeps duplicates.  After constructing from 1, 1 the container
    has size two, is not equal to the set of the same elements, and still
    contains 1 after removing it. *)
Theorem set_range_constructor_refuted :
  exists l : list nat,
    let e := Range l in
    length (eval Nat.ltb e) <> 1 /\
    (forall x, denote e x <-> x = 1) /\
    equal Nat.ltb (eval Nat.ltb e) (eval Nat.ltb (InitList l)) = false /\
    contains Nat.ltb (eval Nat.ltb (Remove e 1)) 1 = true.
Proof.
  exists [1; 1]. simpl. repeat split; try discriminate; intuition.
Qed.
Print Assumptions set_range_constructor_refuted.
