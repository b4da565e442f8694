(** The parameters of dependencies: which values win, and when there is an error
    (C97). *)

From Coq Require Import String Ascii.
From Coq Require Import List Bool Arith NArith ZArith Lia Permutation.
From Verif Require Import Str ParametersModel.
Import ListNotations.

Definition txt (s : String.string) : str := List.map Ascii.N_of_ascii (String.list_ascii_of_string s).
Arguments txt s%string.

(** * Specification *)

(** A map sets a parameter, given by its path, to a value. *)
Inductive sets : value -> path -> option N -> Prop :=
| SetsHere : forall x, sets (Leaf x) [] x
| SetsBelow : forall m k w q x, In (k, w) m -> sets w q x -> sets (Node m) (k :: q) x.

(** A path is the name of a module (or a part of one) in a map. *)
Inductive names_module : value -> path -> Prop :=
| NamesHere : forall m, names_module (Node m) []
| NamesBelow : forall m k w q, In (k, w) m -> names_module w q -> names_module (Node m) (k :: q).

(** Maps have one value for a key. *)
Inductive is_map : value -> Prop :=
| LeafOk : forall x, is_map (Leaf x)
| NodeOk : forall m, NoDup (List.map fst m) -> (forall k w, In (k, w) m -> is_map w) -> is_map (Node m).

(** The parameters given by active places, and how near these are. *)
Definition given (places : list place) (q : path) (x : option N) (depth : Z) : Prop :=
  exists p, In p places /\ p_active p = true /\ sets (Node (p_parameters p)) q x /\ p_depth p = depth.

(** The value of a parameter: the one of the nearest place, or the default. *)
Definition chosen (defaults : tree) (places : list place) (q : path) (x : option N) : Prop :=
  (exists d, given places q x d /\ forall y e, given places q y e -> (d <= e)%Z)
  \/ ((forall y e, ~ given places q y e) /\ sets (Node defaults) q x).

(** Sensible input: maps; nothing is undefined; no path is a parameter in one
    map and a module in another one; depths are those of chains. *)
Record sensible (defaults : tree) (places : list place) : Prop := {
  maps : forall t, (t = defaults \/ exists p, In p places /\ p_parameters p = t) -> is_map (Node t);
  defined : forall t q, (t = defaults \/ exists p, In p places /\ p_parameters p = t) -> ~ sets (Node t) q None;
  no_clash : forall t t' q x, (t = defaults \/ exists p, In p places /\ p_parameters p = t) ->
    (t' = defaults \/ exists p, In p places /\ p_parameters p = t') ->
    sets (Node t) q x -> ~ names_module (Node t') q;
  depths : forall p, In p places -> (0 <= p_depth p <= 2147483647)%Z }.

(** A place that sets a parameter to another value than a farther one (or the
    defaults) is the only active one with parameters at its distance. *)
Definition override (defaults : tree) (places : list place) (q : path) (x : option N) (d : Z) : Prop :=
  given places q x d
  /\ ((exists y e, given places q y e /\ y <> x /\ (d < e)%Z) \/ (exists y, sets (Node defaults) q y /\ y <> x)).

Definition overriding_alone (defaults : tree) (places : list place) : Prop :=
  forall q x d l1 p l2, override defaults places q x d ->
    places = l1 ++ p :: l2 -> p_active p = true -> p_depth p = d -> sets (Node (p_parameters p)) q x ->
    forall p', In p' (l1 ++ l2) -> p_active p' = true -> p_parameters p' <> [] -> p_depth p' <> d.

(** * Merging of values *)

Fixpoint value_rect' (P : value -> Prop) (HL : forall v, P (Leaf v))
  (HN : forall m, (forall k w, In (k, w) m -> P w) -> P (Node m)) (v : value) : P v :=
  match v with
  | Leaf x => HL x
  | Node m => HN m
      ((fix go (m : list (str * value)) : forall k w, In (k, w) m -> P w :=
         match m return forall k w, In (k, w) m -> P w with
         | [] => fun k w H => match H with end
         | (k', w') :: r => fun k w H =>
             match H with
             | or_introl E => match f_equal snd E in _ = z return P z with eq_refl => value_rect' P HL HN w' end
             | or_intror H' => go r k w H'
             end
         end) m)
  end.

Lemma lookup_in k m w : lookup k m = Some w -> In (k, w) m.
Proof.
  induction m as [|[k' v] m IH]; simpl; [discriminate|].
  destruct (str_eqb k' k) eqn:E; intro H; [|auto].
  apply str_eqb_eq in E. inversion H. subst. auto.
Qed.

Lemma in_lookup k m w : NoDup (List.map fst m) -> In (k, w) m -> lookup k m = Some w.
Proof.
  induction m as [|[k' v] m IH]; simpl; [intros _ []|].
  intros H [E|H1].
  - inversion E. subst. rewrite str_eqb_refl. reflexivity.
  - inversion H as [|? ? A1 A2]; subst. destruct (str_eqb k' k) eqn:E; [|auto].
    apply str_eqb_eq in E. subst. exfalso. apply A1. apply in_map_iff. exists (k, w). auto.
Qed.

Lemma in_store k v m k' w : NoDup (List.map fst m) ->
  (In (k', w) (store k v m) <-> (k' = k /\ w = v) \/ (k' <> k /\ In (k', w) m)).
Proof.
  induction m as [|[k0 u] m IH]; intro H; simpl.
  - split; [intros [E|[]]; inversion E; auto|intros [[-> ->]|[_ []]]; auto].
  - inversion H as [|? ? A1 A2]; subst. destruct (str_eqb k0 k) eqn:E.
    + apply str_eqb_eq in E. subst k0. simpl. split.
      * intros [E|I1]; [inversion E; auto|]. right. split; [|auto].
        intros ->. apply A1. apply in_map_iff. exists (k, w). auto.
      * intros [[-> ->]|[NE [E|I1]]]; auto. inversion E. subst. contradiction.
    + simpl. rewrite (IH A2). assert (NE : k0 <> k) by (intros ->; rewrite str_eqb_refl in E; discriminate).
      split.
      * intros [E1|[I1|I1]]; [inversion E1; subst; right; auto|auto|right; tauto].
      * intros [I1|[I1 [E1|I2]]]; auto.
Qed.

Lemma store_keys k v m k' : In k' (List.map fst (store k v m)) -> k' = k \/ In k' (List.map fst m).
Proof.
  induction m as [|[k0 u] m IH]; simpl; [intuition|].
  destruct (str_eqb k0 k); simpl; intuition.
Qed.

Lemma store_nodup k v m : NoDup (List.map fst m) -> NoDup (List.map fst (store k v m)).
Proof.
  induction m as [|[k0 u] m IH]; intro H; simpl.
  - constructor; [auto|constructor].
  - inversion H as [|? ? A1 A2]; subst. destruct (str_eqb k0 k) eqn:E; simpl.
    + apply str_eqb_eq in E. subst. constructor; auto.
    + constructor; [|auto]. intro I1. destruct (store_keys _ _ _ _ I1) as [->|I2]; [|auto].
      rewrite str_eqb_refl in E. discriminate.
Qed.

Definition osets (o : option value) (q : path) (x : option N) : Prop := exists w, o = Some w /\ sets w q x.

Definition clash_free (a b : value) : Prop :=
  (forall q x, sets a q x -> ~ names_module b q) /\ (forall q x, sets b q x -> ~ names_module a q).

Lemma sets_node m k q x : is_map (Node m) -> (sets (Node m) (k :: q) x <-> osets (lookup k m) q x).
Proof.
  intro M. inversion M as [|? ND _]; subst. split.
  - intro H. inversion H as [|? ? w ? ? I1 S1]; subst. exists w. split; [apply in_lookup; auto|auto].
  - intros (w & L & S1). apply SetsBelow with (w := w); [apply lookup_in; auto|auto].
Qed.

Lemma sets_nil m x : ~ sets (Node m) [] x.
Proof. intro H. inversion H. Qed.

Definition new_conflict (at_path : path) (old : option value) (new : value) (c : conflict) : Prop :=
  exists q x y, c = (at_path ++ q, Some (Leaf y), x) /\ sets new q x /\ osets old q y /\ x <> y.

Definition cleared (at_path : path) (new : value) (c : conflict) : Prop :=
  exists q x, fst (fst c) = at_path ++ q /\ sets new q x.

Lemma path_eqb_spec : forall a b, path_eqb a b = true <-> a = b.
Proof.
  induction a as [|x a IH]; intros [|y b]; simpl; try (split; [discriminate|intro; discriminate]); [tauto|].
  rewrite andb_true_iff, IH. split.
  - intros [E ->]. apply str_eqb_eq in E. subst. reflexivity.
  - intro E. inversion E. split; [apply str_eqb_refl|reflexivity].
Qed.

Definition merged (same : bool) (at_path : path) (old : option value) (new : value)
  (conflicts : list conflict) (v : value) (conflicts' : list conflict) : Prop :=
  is_map v
  /\ (forall q x, sets v q x <-> sets new q x \/ (osets old q x /\ forall y, ~ sets new q y))
  /\ (forall q, names_module v q <-> names_module new q \/ (exists o, old = Some o /\ names_module o q))
  /\ (same = true -> forall c, In c conflicts' <-> In c conflicts \/ new_conflict at_path old new c)
  /\ (same = false -> forall c, In c conflicts' <-> In c conflicts /\ ~ cleared at_path new c).

Definition mergeable (old : option value) (new : value) : Prop :=
  is_map new /\ (forall q, ~ sets new q None)
  /\ (forall o, old = Some o -> is_map o /\ clash_free o new /\ forall q, ~ sets o q None).

Lemma same_value_spec y x : same_value (Leaf y) x = true <-> y = x.
Proof.
  destruct y as [a|], x as [b|]; simpl; try (split; [discriminate|intro; discriminate]); [|tauto].
  rewrite N.eqb_eq. split; [intros ->; reflexivity|intro E; inversion E; reflexivity].
Qed.

Lemma names_node m k q : is_map (Node m) ->
  (names_module (Node m) (k :: q) <-> exists w, lookup k m = Some w /\ names_module w q).
Proof.
  intro M. inversion M as [|? ND _]; subst. split.
  - intro H. inversion H as [|? ? w ? I1 S1]; subst. exists w. split; [apply in_lookup; auto|auto].
  - intros (w & L & S1). apply NamesBelow with (w := w); [apply lookup_in; auto|auto].
Qed.

Lemma merge_leaf same at_path old v conflicts :
  mergeable old (Leaf v) ->
  let '(w, conflicts') := merge_value same at_path old (Leaf v) conflicts in
  merged same at_path old (Leaf v) conflicts w conflicts'.
Proof.
  intros [_ [_ MO]]. cbn [merge_value].
  assert (LEAF : forall o, old = Some o -> exists y, o = Leaf (Some y)).
  { intros o E. destruct (MO o E) as (M1 & [C1 C2] & D). destruct o as [[y|]|m].
    - eauto.
    - exfalso. exact (D [] (SetsHere None)).
    - exfalso. exact (C2 [] v (SetsHere v) (NamesHere m)). }
  split; [constructor|]. split; [|split; [|split]].
  - intros q x. split; [auto|]. intros [H|[(w & E & S1) H]]; [exact H|].
    destruct (LEAF w E) as (y & ->). inversion S1. subst. exfalso. exact (H v (SetsHere v)).
  - intro q. split; [auto|]. intros [H|(o & E & H)]; [exact H|].
    destruct (LEAF o E) as (y & ->). inversion H.
  - intros -> c. destruct old as [o|].
    + destruct (LEAF o eq_refl) as (y & ->). cbn [valid andb].
      destruct (same_value (Leaf (Some y)) v) eqn:E; cbn [negb].
      * apply same_value_spec in E. subst v. split; [auto|].
        intros [H|(q & x & z & _ & S1 & (w & W & S2) & NE)]; [exact H|].
        inversion W. subst w. inversion S1; subst. inversion S2; subst. contradiction.
      * assert (NE : Some y <> v) by (intros <-; assert (same_value (Leaf (Some y)) (Some y) = true) by (apply same_value_spec; reflexivity); congruence).
        rewrite in_app_iff. split.
        -- intros [H|[<-|[]]]; [auto|]. right. exists [], v, (Some y). rewrite app_nil_r.
           split; [reflexivity|]. split; [constructor|]. split; [|auto]. exists (Leaf (Some y)). split; [reflexivity|constructor].
        -- intros [H|(q & x & z & -> & S1 & (w & W & S2) & _)]; [auto|]. right. left.
           inversion W. subst w. inversion S1; subst. inversion S2; subst. rewrite app_nil_r. reflexivity.
    + split; [auto|]. intros [H|(q & x & z & _ & _ & (w & W & _) & _)]; [exact H|discriminate].
  - intros -> c. rewrite filter_In, negb_true_iff. split.
    + intros [I1 E]. split; [exact I1|]. intros (q & x & F & S1). inversion S1. subst. rewrite app_nil_r in F.
      assert (path_eqb at_path (fst (fst c)) = true) by (apply path_eqb_spec; auto). congruence.
    + intros [I1 NC]. split; [exact I1|]. apply not_true_is_false. intro E. apply path_eqb_spec in E.
      apply NC. exists [], v. rewrite app_nil_r. split; [auto|constructor].
Qed.

Lemma is_map_inv m : is_map (Node m) -> NoDup (List.map fst m) /\ forall k w, In (k, w) m -> is_map w.
Proof. intro H. inversion H. auto. Qed.

Lemma clash_below m m' k w w' : clash_free (Node m) (Node m') -> In (k, w) m -> In (k, w') m' -> clash_free w w'.
Proof.
  intros [C1 C2] I1 I2. split; intros q x S1 N1.
  - apply (C1 (k :: q) x); [econstructor; eauto|econstructor; eauto].
  - apply (C2 (k :: q) x); [econstructor; eauto|econstructor; eauto].
Qed.

Definition go same at_path :=
  fix go (m : tree) (current : tree) (conflicts : list conflict) : tree * list conflict :=
    match m with
    | [] => (current, conflicts)
    | (k, v) :: r =>
        let '(w, conflicts) := merge_value same (at_path ++ [k]) (lookup k current) v conflicts in
        go r (store k w current) conflicts
    end.

(** One entry of a map, then the others. *)
Lemma merge_go same at_path : forall m,
  (forall k w, In (k, w) m -> forall p old conflicts, mergeable old w ->
     let '(v, conflicts') := merge_value same p old w conflicts in merged same p old w conflicts v conflicts') ->
  forall current conflicts, mergeable (Some (Node current)) (Node m) ->
  let '(r, conflicts') := go same at_path m current conflicts in
  merged same at_path (Some (Node current)) (Node m) conflicts (Node r) conflicts'.
Proof.
  induction m as [|[k v] m IH]; intros IHV current conflicts [MN [DN MO]].
  - cbn [go]. destruct (MO _ eq_refl) as (MC & _ & _). split; [exact MC|]. split; [|split; [|split]].
    + intros q x. split.
      * intro H. right. split; [eexists; eauto|]. intros y S1. inversion S1 as [|? ? ? ? ? I1]; subst. destruct I1.
      * intros [S1|[(w & E & S1) _]]; [inversion S1 as [|? ? ? ? ? I1]; subst; destruct I1|inversion E; subst; exact S1].
    + intro q. split; [intro H; right; eauto|].
      intros [H|(o & E & H)]; [|inversion E; subst; exact H].
      inversion H as [|? ? ? ? I1]; subst; [constructor|destruct I1].
    + intros _ c. split; [auto|]. intros [H|(q & x & y & _ & S1 & _)]; [exact H|].
      inversion S1 as [|? ? ? ? ? I1]; subst. destruct I1.
    + intros _ c. split; [|tauto]. intro H. split; [exact H|]. intros (q & x & _ & S1).
      inversion S1 as [|? ? ? ? ? I1]; subst. destruct I1.
  - cbn [go]. destruct (MO _ eq_refl) as (MC & CF & DEF).
    destruct (is_map_inv _ MN) as [ND SUB]. cbn [List.map fst] in ND. inversion ND as [|? ? NK NDm]; subst.
    destruct (is_map_inv _ MC) as [NDc SUBc].
    assert (MV : mergeable (lookup k current) v).
    { split; [apply (SUB k); left; reflexivity|]. split; [intros q S1; apply (DN (k :: q)); econstructor; [left; reflexivity|exact S1]|].
      intros o L. apply lookup_in in L.
      split; [eauto|]. split; [eapply clash_below; eauto; left; reflexivity|].
      intros q S1. apply (DEF (k :: q)). econstructor; eauto. }
    pose proof (IHV k v (or_introl eq_refl) (at_path ++ [k]) (lookup k current) conflicts MV) as STEP.
    destruct (merge_value same (at_path ++ [k]) (lookup k current) v conflicts) as [w conflicts1].
    destruct STEP as (W1 & W2 & W2' & W3 & W4).
    assert (MM : is_map (Node m)).
    { constructor; [exact NDm|]. intros k' w' I1. apply (SUB k'). right. exact I1. }
    assert (MS : is_map (Node (store k w current))).
    { constructor; [apply store_nodup; exact NDc|]. intros k' w' I1. apply in_store in I1; [|exact NDc].
      destruct I1 as [[-> ->]|[_ I1]]; eauto. }
    (* what the map sets after this entry *)
    assert (ST : forall k' q x, sets (Node (store k w current)) (k' :: q) x
                 <-> (k' = k /\ sets w q x) \/ (k' <> k /\ sets (Node current) (k' :: q) x)).
    { intros k' q x. split.
      - intro S1. inversion S1 as [|? ? u ? ? I1 S2]; subst. apply in_store in I1; [|exact NDc].
        destruct I1 as [[-> ->]|[NE I1]]; [auto|]. right. split; [exact NE|]. econstructor; eauto.
      - intros [[-> S1]|[NE S1]].
        + apply SetsBelow with (w := w); [apply in_store; auto|exact S1].
        + inversion S1 as [|? ? u ? ? I1 S2]; subst. apply SetsBelow with (w := u); [|exact S2].
          apply in_store; auto. }
    assert (NT : forall k' q, names_module (Node (store k w current)) (k' :: q)
                 <-> (k' = k /\ names_module w q) \/ (k' <> k /\ names_module (Node current) (k' :: q))).
    { intros k' q. split.
      - intro S1. inversion S1 as [|? ? u ? I1 S2]; subst. apply in_store in I1; [|exact NDc].
        destruct I1 as [[-> ->]|[NE I1]]; [auto|]. right. split; [exact NE|]. econstructor; eauto.
      - intros [[-> S1]|[NE S1]].
        + apply NamesBelow with (w := w); [apply in_store; auto|exact S1].
        + inversion S1 as [|? ? u ? I1 S2]; subst. apply NamesBelow with (w := u); [|exact S2].
          apply in_store; auto. }
    assert (NOT : forall q y, ~ sets (Node m) (k :: q) y).
    { intros q y S1. inversion S1 as [|? ? u ? ? I1 S2]; subst. apply NK. apply in_map_iff. exists (k, u). auto. }
    assert (NOTN : forall q, ~ names_module (Node m) (k :: q)).
    { intros q S1. inversion S1 as [|? ? u ? I1 S2]; subst. apply NK. apply in_map_iff. exists (k, u). auto. }
    assert (CONS : forall k' q y, sets (Node ((k, v) :: m)) (k' :: q) y
                   <-> (k' = k /\ sets v q y) \/ (k' <> k /\ sets (Node m) (k' :: q) y)).
    { intros k' q y. split.
      - intro S1. inversion S1 as [|? ? u ? ? I1 S2]; subst. destruct I1 as [E|I1].
        + inversion E. subst. auto.
        + right. split; [|econstructor; eauto]. intros ->. apply NK. apply in_map_iff. exists (k, u). auto.
      - intros [[-> S1]|[NE S1]]; [econstructor; [left; reflexivity|auto]|].
        inversion S1 as [|? ? u ? ? I1 S2]; subst. econstructor; [right; eauto|auto]. }
    assert (CONSN : forall k' q, names_module (Node ((k, v) :: m)) (k' :: q)
                   <-> (k' = k /\ names_module v q) \/ (k' <> k /\ names_module (Node m) (k' :: q))).
    { intros k' q. split.
      - intro S1. inversion S1 as [|? ? u ? I1 S2]; subst. destruct I1 as [E|I1].
        + inversion E. subst. auto.
        + right. split; [|econstructor; eauto]. intros ->. apply NK. apply in_map_iff. exists (k, u). auto.
      - intros [[-> S1]|[NE S1]]; [econstructor; [left; reflexivity|auto]|].
        inversion S1 as [|? ? u ? I1 S2]; subst. econstructor; [right; eauto|auto]. }
    assert (SPLIT : forall k' : str, k' = k \/ k' <> k).
    { intro k'. destruct (str_eqb k' k) eqn:E; [left; apply str_eqb_eq; exact E|right; intros ->; rewrite str_eqb_refl in E; discriminate]. }
    assert (MG : mergeable (Some (Node (store k w current))) (Node m)).
    { split; [exact MM|]. split.
      { intros [|k' q] S1; [inversion S1|]. apply (DN (k' :: q)). inversion S1 as [|? ? u ? ? I1 S2]; subst.
        econstructor; [right; eauto|exact S2]. }
      intros o E. injection E as <-. split; [exact MS|]. destruct CF as [C1 C2]. split; [split|].
      - intros [|k' q] x S1 N1; [inversion S1|]. apply ST in S1. destruct S1 as [[-> S1]|[NE S1]].
        + exact (NOTN q N1).
        + apply (C1 (k' :: q) x S1). apply CONSN. right. auto.
      - intros [|k' q] x S1 N1; [inversion S1|]. apply NT in N1. destruct N1 as [[-> N1]|[NE N1]].
        + exact (NOT q x S1).
        + apply (C2 (k' :: q) x); [|exact N1]. apply CONS. right. auto.
      - intros [|k' q] S1; [inversion S1|]. apply ST in S1. destruct S1 as [[-> S1]|[NE S1]].
        + apply W2 in S1. destruct S1 as [S1|[(o & L & S1) _]].
          * apply (DN (k :: q)). apply CONS. auto.
          * apply lookup_in in L. apply (DEF (k :: q)). econstructor; eauto.
        + exact (DEF _ S1). }
    assert (IHV' : forall k0 w0, In (k0, w0) m -> forall p old conflicts0, mergeable old w0 ->
              let '(v0, conflicts') := merge_value same p old w0 conflicts0 in merged same p old w0 conflicts0 v0 conflicts')
      by (intros k0 w0 I1; apply (IHV k0 w0); right; exact I1).
    specialize (IH IHV' (store k w current) conflicts1 MG).
    destruct (go same at_path m (store k w current) conflicts1) as [r conflicts'].
    destruct IH as (R1 & R2 & R2' & R3 & R4).
    assert (CUR : forall q x, sets (Node current) (k :: q) x <-> osets (lookup k current) q x)
      by (intros; apply sets_node; exact MC).
    split; [exact R1|]. split; [|split; [|split]].
    + intros [|k' q] x.
      { split; [intro S1; inversion S1|]. intros [S1|[(o & E & S1) _]]; [inversion S1|]. injection E as <-. inversion S1. }
      rewrite R2. rewrite CONS. unfold osets at 1. split.
      * intros [S1|[(o & E & S1) NS]].
        -- destruct (SPLIT k') as [->|NE]; [exfalso; exact (NOT _ _ S1)|]. left. right. auto.
        -- injection E as <-. apply ST in S1. destruct S1 as [[-> S1]|[NE S1]].
           ++ apply W2 in S1. destruct S1 as [S1|[S1 NS1]]; [left; left; auto|].
              right. split; [exists (Node current); split; [reflexivity|apply CUR; exact S1]|].
              intros y S2. apply CONS in S2. destruct S2 as [[_ S2]|[NE _]]; [exact (NS1 y S2)|contradiction].
           ++ right. split; [exists (Node current); auto|]. intros y S2. apply CONS in S2.
              destruct S2 as [[E _]|[_ S2]]; [contradiction|exact (NS y S2)].
      * intros [[[-> S1]|[NE S1]]|[(o & E & S1) NS]].
        -- right. split; [|apply NOT]. exists (Node (store k w current)). split; [reflexivity|].
           apply ST. left. split; [reflexivity|]. apply W2. auto.
        -- left. exact S1.
        -- injection E as <-. right. split.
           ++ exists (Node (store k w current)). split; [reflexivity|]. apply ST.
              destruct (SPLIT k') as [->|NE]; [|right; auto]. left. split; [reflexivity|].
              apply W2. right. split; [apply CUR; exact S1|]. intros y S2. apply (NS y). apply CONS. auto.
           ++ intros y S2. apply (NS y). apply CONS. destruct (SPLIT k') as [->|NE]; [exfalso; exact (NOT _ _ S2)|auto].
    + intros [|k' q].
      { split; [intros _; left; constructor|intros _; constructor]. }
      rewrite R2', CONSN. split.
      * intros [S1|(o & E & S1)].
        -- destruct (SPLIT k') as [->|NE]; [exfalso; exact (NOTN _ S1)|]. left. right. auto.
        -- injection E as <-. apply NT in S1. destruct S1 as [[-> S1]|[NE S1]].
           ++ apply W2' in S1. destruct S1 as [S1|(o & L & S1)]; [auto|].
              right. exists (Node current). split; [reflexivity|]. apply names_node; [exact MC|]. eauto.
           ++ right. exists (Node current). auto.
      * intros [[[-> S1]|[NE S1]]|(o & E & S1)].
        -- right. exists (Node (store k w current)). split; [reflexivity|]. apply NT. left. split; [reflexivity|]. apply W2'. auto.
        -- left. exact S1.
        -- injection E as <-. right. exists (Node (store k w current)). split; [reflexivity|]. apply NT.
           destruct (SPLIT k') as [->|NE]; [|right; auto]. left. split; [reflexivity|]. apply W2'. right.
           apply names_node in S1; [|exact MC]. destruct S1 as (o & L & S1). eauto.
    + intros E c. rewrite (R3 E), (W3 E). split.
      * intros [[H|H]|H]; [auto| |].
        -- right. destruct H as (q & x & y & -> & S1 & S2 & NE). exists (k :: q), x, y.
           rewrite <- app_assoc. split; [reflexivity|]. split; [apply CONS; auto|]. split; [|exact NE].
           exists (Node current). split; [reflexivity|]. apply CUR. exact S2.
        -- right. destruct H as (q & x & y & -> & S1 & (o & E1 & S2) & NE). injection E1 as <-.
           destruct q as [|k' q]; [inversion S1|].
           destruct (SPLIT k') as [->|NK']; [exfalso; exact (NOT _ _ S1)|].
           exists (k' :: q), x, y. split; [reflexivity|]. split; [apply CONS; auto|]. split; [|exact NE].
           exists (Node current). split; [reflexivity|]. apply ST in S2. destruct S2 as [[E2 _]|[_ S2]]; [contradiction|exact S2].
      * intros [H|H]; [auto|]. destruct H as (q & x & y & -> & S1 & (o & E1 & S2) & NE). injection E1 as <-.
        destruct q as [|k' q]; [inversion S1|]. apply CONS in S1. destruct S1 as [[-> S1]|[NK' S1]].
        -- left. right. exists q, x, y. rewrite <- app_assoc. split; [reflexivity|]. split; [exact S1|].
           split; [apply CUR; exact S2|exact NE].
        -- right. exists (k' :: q), x, y. split; [reflexivity|]. split; [exact S1|]. split; [|exact NE].
           exists (Node (store k w current)). split; [reflexivity|]. apply ST. auto.
    + intros E c. rewrite (R4 E), (W4 E). split.
      * intros [[H N1] N2]. split; [exact H|]. intros (q & x & F & S1).
        destruct q as [|k' q]; [inversion S1|]. apply CONS in S1. destruct S1 as [[-> S1]|[NK' S1]].
        -- apply N1. exists q, x. rewrite <- app_assoc. auto.
        -- apply N2. exists (k' :: q), x. auto.
      * intros [H N1]. split; [split; [exact H|]|].
        -- intros (q & x & F & S1). apply N1. exists (k :: q), x. rewrite <- app_assoc in F. split; [exact F|]. apply CONS. auto.
        -- intros (q & x & F & S1). apply N1. exists q, x. split; [exact F|]. destruct q as [|k' q]; [inversion S1|].
           apply CONS. destruct (SPLIT k') as [->|NE]; [exfalso; exact (NOT _ _ S1)|auto].
Qed.

Lemma merge_value_merged same : forall new at_path old conflicts, mergeable old new ->
  let '(v, conflicts') := merge_value same at_path old new conflicts in
  merged same at_path old new conflicts v conflicts'.
Proof.
  induction new as [x|m IH] using value_rect'; intros at_path old conflicts M.
  - apply merge_leaf. exact M.
  - assert (E : merge_value same at_path old (Node m) conflicts
                = let '(r, conflicts') := go same at_path m (to_map old) conflicts in (Node r, conflicts')) by reflexivity.
    rewrite E. clear E.
    assert (M' : mergeable (Some (Node (to_map old))) (Node m)).
    { destruct M as (M1 & M2 & M3). split; [exact M1|]. split; [exact M2|]. intros o E. injection E as <-.
      destruct old as [[y|t]|]; simpl.
      - split; [constructor; [constructor|intros ? ? []]|]. split; [split|].
        + intros q x S1. inversion S1 as [|? ? ? ? ? I1]; subst. destruct I1.
        + intros q x S1 N1. destruct (M3 _ eq_refl) as (_ & [C1 _] & _). exact (C1 [] y (SetsHere y) (NamesHere m)).
        + intros q S1. inversion S1 as [|? ? ? ? ? I1]; subst. destruct I1.
      - apply (M3 _ eq_refl).
      - split; [constructor; [constructor|intros ? ? []]|]. split; [split|].
        + intros q x S1. inversion S1 as [|? ? ? ? ? I1]; subst. destruct I1.
        + intros q x S1 N1. inversion N1 as [|? ? ? ? I1]; subst; [inversion S1|destruct I1].
        + intros q S1. inversion S1 as [|? ? ? ? ? I1]; subst. destruct I1. }
    pose proof (merge_go same at_path m (fun k w I1 p o c H => IH k w I1 p o c H) (to_map old) conflicts M') as G.
    destruct (go same at_path m (to_map old) conflicts) as [r conflicts'].
    (* the same for no old value and for an empty one *)
    destruct old as [[y|t]|]; [|exact G|].
    + exfalso. destruct M as (_ & _ & M3). destruct (M3 _ eq_refl) as (_ & [C1 _] & _). exact (C1 [] y (SetsHere y) (NamesHere m)).
    + destruct G as (G1 & G2 & G2' & G3 & G4). cbn [to_map] in *.
      assert (NO : forall q x, ~ osets (Some (Node [])) q x).
      { intros q x (o & E & S1). injection E as <-. inversion S1 as [|? ? ? ? ? I1]; subst. destruct I1. }
      assert (NO' : forall q x, ~ osets None q x) by (intros q x (o & E & _); discriminate).
      split; [exact G1|]. split; [|split; [|split]].
      * intros q x. rewrite G2. split; [intros [S1|[S1 _]]; [auto|exfalso; exact (NO _ _ S1)]|].
        intros [S1|[S1 _]]; [auto|exfalso; exact (NO' _ _ S1)].
      * intro q. rewrite G2'. split.
        -- intros [S1|(o & E & S1)]; [auto|]. injection E as <-. left.
           inversion S1 as [|? ? ? ? I1]; subst; [constructor|destruct I1].
        -- intros [S1|(o & E & S1)]; [auto|discriminate].
      * intros E c. rewrite (G3 E). split.
        -- intros [H|(q & x & y & _ & _ & S1 & _)]; [auto|exfalso; exact (NO _ _ S1)].
        -- intros [H|(q & x & y & _ & _ & S1 & _)]; [auto|exfalso; exact (NO' _ _ S1)].
      * exact G4.
Qed.

Lemma exists_last_or {X : Type} (l : list X) : l = [] \/ exists l' x, l = l' ++ [x].
Proof. destruct l as [|a l]; [auto|]. right. destruct (@exists_last X (a :: l)) as (l' & x & E); [discriminate|]. eauto. Qed.

Lemma option_N_dec (a b : option N) : {a = b} + {a <> b}.
Proof. decide equality. apply N.eq_dec. Qed.

(** Whether a map sets a parameter can be decided. *)
Lemma decide_sets : forall v q, (exists x, sets v q x) \/ (forall x, ~ sets v q x).
Proof.
  induction v as [y|m IH] using value_rect'; intros [|k q].
  - left. exists y. constructor.
  - right. intros x S1. inversion S1.
  - right. intros x S1. inversion S1.
  - induction m as [|[k' w] m IHm].
    + right. intros x S1. inversion S1 as [|? ? ? ? ? I1]; subst. destruct I1.
    + destruct (IHm (fun k0 w0 I1 => IH k0 w0 (or_intror I1))) as [(x & S1)|N1].
      * left. exists x. inversion S1 as [|? ? u ? ? I1 S2]; subst. econstructor; [right; eauto|exact S2].
      * destruct (str_eqb k' k) eqn:E.
        -- apply str_eqb_eq in E. subst k'. destruct (IH k w (or_introl eq_refl) q) as [(x & S1)|N2].
           ++ left. exists x. econstructor; [left; reflexivity|exact S1].
           ++ right. intros x S1. inversion S1 as [|? ? u ? ? I1 S2]; subst. destruct I1 as [E|I1].
              ** inversion E. subst. exact (N2 _ S2).
              ** apply (N1 x). econstructor; eauto.
        -- right. intros x S1. inversion S1 as [|? ? u ? ? I1 S2]; subst. destruct I1 as [E1|I1].
           ** inversion E1. subst. rewrite str_eqb_refl in E. discriminate.
           ** apply (N1 x). econstructor; eauto.
Qed.

Lemma classic_sets m q : (exists x, sets (Node m) q x) \/ (forall x, ~ sets (Node m) q x).
Proof. apply decide_sets. Qed.

(** * Merging of a list of candidates *)

Definition csets (l : list candidate) (q : path) (x : option N) (p : Z) : Prop :=
  exists m, In (m, p) l /\ sets (Node m) q x.

Record good (l : list candidate) : Prop := {
  g_maps : forall m p, In (m, p) l -> is_map (Node m);
  g_defined : forall m p q, In (m, p) l -> ~ sets (Node m) q None;
  g_clash : forall m p m' p' q x, In (m, p) l -> In (m', p') l -> sets (Node m) q x -> ~ names_module (Node m') q }.

Definition ascending (l : list candidate) : Prop :=
  forall l1 c l2 c', l = l1 ++ c :: l2 -> In c' l2 -> (snd c <= snd c')%Z.

Definition real (l : list candidate) (q : path) : Prop :=
  exists p x y, csets l q x p /\ csets l q y p /\ x <> y /\ forall z p', csets l q z p' -> (p' <= p)%Z.

Definition alone (l : list candidate) : Prop :=
  forall c c'' rest q x, Permutation l (c :: c'' :: rest) -> sets (Node (fst c)) q x ->
    (exists y p', csets l q y p' /\ (p' < snd c)%Z /\ y <> x) -> snd c'' <> snd c.

Lemma csets_snoc l c q x p : csets (l ++ [c]) q x p <-> csets l q x p \/ (p = snd c /\ sets (Node (fst c)) q x).
Proof.
  unfold csets. split.
  - intros (m & I1 & S1). apply in_app_or in I1. destruct I1 as [I1|[->|[]]]; [eauto|auto].
  - intros [(m & I1 & S1)|[-> S1]].
    + exists m. split; [apply in_or_app; auto|exact S1].
    + exists (fst c). split; [apply in_or_app; right; left; destruct c; reflexivity|exact S1].
Qed.

Lemma good_snoc l c : good (l ++ [c]) -> good l.
Proof.
  intros [G1 G2 G3]. constructor; intros.
  - eapply G1. apply in_or_app. eauto.
  - eapply G2. apply in_or_app. eauto.
  - apply (G3 m p m' p' q x); [apply in_or_app; auto|apply in_or_app; auto|auto].
Qed.

Lemma ascending_snoc l c : ascending (l ++ [c]) -> ascending l /\ forall c', In c' l -> (snd c' <= snd c)%Z.
Proof.
  intro H. split.
  - intros l1 d l2 c' -> I1. apply (H l1 d (l2 ++ [c])); [rewrite <- app_assoc; reflexivity|apply in_or_app; auto].
  - intros c' I1. apply in_split in I1. destruct I1 as (l1 & l2 & ->).
    apply (H l1 c' (l2 ++ [c])); [rewrite <- app_assoc; reflexivity|apply in_or_app; right; left; reflexivity].
Qed.

Lemma alone_snoc l c : alone (l ++ [c]) -> alone l.
Proof.
  intros H d d'' rest q x P S1 (y & p' & S2 & L & NE).
  apply (H d d'' (rest ++ [c]) q x); [|exact S1|].
  - apply (Permutation_app_tail [c]) in P. exact P.
  - exists y, p'. split; [|auto]. apply csets_snoc. auto.
Qed.

Definition run (l : list candidate) : state := fold_left step l (State [] int_min []).

Lemma run_snoc l c : run (l ++ [c]) = step (run l) c.
Proof. unfold run. rewrite fold_left_app. reflexivity. Qed.

Definition last_sets (l : list candidate) (q : path) (x : option N) : Prop :=
  exists l1 c l2, l = l1 ++ c :: l2 /\ sets (Node (fst c)) q x
    /\ forall c' y, In c' l2 -> ~ sets (Node (fst c')) q y.

Definition in_conflict (s : state) (q : path) : Prop := exists o x, In (q, o, x) (s_conflicts s).

Record inv (l : list candidate) (s : state) : Prop := {
  i_map : is_map (Node (s_value s));
  i_names : forall q, names_module (Node (s_value s)) q -> q = [] \/ exists m p, In (m, p) l /\ names_module (Node m) q;
  i_sets : forall q x, sets (Node (s_value s)) q x <-> last_sets l q x;
  i_prio : s_prio s = match rev l with [] => int_min | c :: _ => snd c end;
  i_entry : forall q o x, In (q, o, x) (s_conflicts s) ->
    exists y p p', o = Some (Leaf y) /\ x <> y /\ csets l q y p /\ csets l q x p';
  i_sound : forall q, real l q -> in_conflict s q;
  i_complete : alone l -> forall q, in_conflict s q -> real l q }.

Lemma last_sets_snoc l c q x :
  last_sets (l ++ [c]) q x <->
  sets (Node (fst c)) q x \/ (last_sets l q x /\ forall y, ~ sets (Node (fst c)) q y).
Proof.
  split.
  - intros (l1 & d & l2 & E & S1 & N1). destruct (exists_last_or l2) as [->|(l3 & e & ->)].
    + apply app_inj_tail in E. destruct E as [-> ->]. auto.
    + change (l1 ++ d :: l3 ++ [e]) with (l1 ++ (d :: l3) ++ [e]) in E. rewrite app_assoc in E.
      apply app_inj_tail in E. destruct E as [-> ->]. right. split.
      * exists l1, d, l3. split; [reflexivity|]. split; [exact S1|]. intros c' y I1. apply N1. apply in_or_app. auto.
      * intros y. apply N1. apply in_or_app. right. left. reflexivity.
  - intros [S1|[(l1 & d & l2 & -> & S1 & N1) N2]].
    + exists l, c, []. split; [reflexivity|]. split; [exact S1|]. intros ? ? [].
    + exists l1, d, (l2 ++ [c]). split; [rewrite <- app_assoc; reflexivity|]. split; [exact S1|].
      intros c' y I1. apply in_app_or in I1. destruct I1 as [I1|[<-|[]]]; auto.
Qed.

Lemma sets_functional v q x y : is_map v -> sets v q x -> sets v q y -> x = y.
Proof.
  intros M S1. revert M y. induction S1 as [x|m k w q x I1 S1 IH]; intros M y S2.
  - inversion S2. reflexivity.
  - destruct (is_map_inv _ M) as [ND SUB]. inversion S2 as [|? ? w' ? ? I2 S3]; subst.
    assert (w = w').
    { pose proof (in_lookup _ _ _ ND I1) as L1. pose proof (in_lookup _ _ _ ND I2) as L2. congruence. }
    subst w'. apply IH; [eauto|exact S3].
Qed.

Lemma step_inv l c s : inv l s -> good (l ++ [c]) -> ascending (l ++ [c]) -> inv (l ++ [c]) (step s c).
Proof.
  intros [I1 I2 I3 I4 I5 I6 I7] G ASC. destruct (ascending_snoc _ _ ASC) as [ASC' LE].
  destruct c as [m p]. cbn [snd] in LE.
  assert (IN : In (m, p) (l ++ [(m, p)])) by (apply in_or_app; right; left; reflexivity).
  assert (SETBY : forall q x, sets (Node (s_value s)) q x -> exists m' p', In (m', p') l /\ sets (Node m') q x).
  { intros q x S1. apply I3 in S1. destruct S1 as (l1 & [m' p'] & l2 & -> & S1 & _). exists m', p'.
    split; [apply in_or_app; right; left; reflexivity|exact S1]. }
  assert (M : mergeable (Some (Node (s_value s))) (Node m)).
  { split; [eapply g_maps; eauto|]. split; [intro q; eapply g_defined; eauto|].
    intros o E. injection E as <-. split; [exact I1|]. split; [split|].
    - intros q x S1 N1. destruct (SETBY _ _ S1) as (m' & p' & I8 & S2).
      apply (g_clash _ G m' p' m p q x); auto. apply in_or_app. auto.
    - intros q x S1 N1. destruct (I2 _ N1) as [->|(m' & p' & I8 & N2)]; [inversion S1|].
      apply (g_clash _ G m p m' p' q x); auto. apply in_or_app. auto.
    - intros q S1. destruct (SETBY _ _ S1) as (m' & p' & I8 & S2).
      apply (g_defined _ G m' p' q); [apply in_or_app; auto|exact S2]. }
  unfold step. cbn [fst snd].
  pose proof (merge_value_merged (Z.eqb (s_prio s) p) (Node m) [] (Some (Node (s_value s))) (s_conflicts s) M) as R.
  assert (NODE : exists r conflicts', merge_value (Z.eqb (s_prio s) p) [] (Some (Node (s_value s))) (Node m) (s_conflicts s) = (Node r, conflicts')).
  { cbn [merge_value]. destruct ((fix go (m : tree) (current : tree) (conflicts : list conflict) {struct m} := _) m _ _) as [r conflicts'].
    eauto. }
  destruct NODE as (r & conflicts' & E). rewrite E in R. rewrite E. cbn [to_map].
  destruct R as (R1 & R2 & R2' & R3 & R4). clear E.
  assert (OS : forall q x, osets (Some (Node (s_value s))) q x <-> last_sets l q x).
  { intros q x. rewrite <- I3. split; [intros (o & E & S1); injection E as <-; exact S1|intro S1; eexists; eauto]. }
  (* a value that is set last has the greatest priority, if it is the new one *)
  assert (PREV : Z.eqb (s_prio s) p = true -> forall q y, last_sets l q y -> exists d l', l = l' ++ [d] /\ snd d = p).
  { intros EQ q y (l1 & d & l2 & -> & _). rewrite I4 in EQ. apply Z.eqb_eq in EQ.
    destruct (exists_last_or (l1 ++ d :: l2)) as [Z0|(l3 & e & Z0)]; [destruct l1; discriminate|].
    rewrite Z0 in EQ. rewrite rev_app_distr in EQ. simpl in EQ. exists e, l3. rewrite Z0. auto. }
  assert (FRESH : Z.eqb (s_prio s) p = false -> forall q y p', csets l q y p' -> (p' < p)%Z).
  { intros NEQ q y p' (m' & I8 & _). pose proof (LE _ I8) as L1. cbn [snd] in L1.
    assert (p' <> p); [|lia]. intros ->. apply Z.eqb_neq in NEQ. apply NEQ. rewrite I4.
    destruct (exists_last_or l) as [->|(l3 & e & ->)]; [destruct I8|]. rewrite rev_app_distr. simpl.
    assert (L2 : (p <= snd e)%Z).
    { apply in_app_or in I8. destruct I8 as [I8|[->|[]]]; [|reflexivity || simpl; lia].
      destruct (ascending_snoc _ _ ASC') as [_ H]. apply (H _ I8). }
    assert (L3 : (snd e <= p)%Z) by (apply (LE e); apply in_or_app; right; left; reflexivity). lia. }
  assert (LASTP : forall q y, last_sets l q y -> exists p', csets l q y p' /\ forall z p'', csets l q z p'' -> (p'' <= p')%Z).
  { intros q y (l1 & [m' p'] & l2 & -> & S1 & N1). exists p'. split.
    - exists m'. split; [apply in_or_app; right; left; reflexivity|exact S1].
    - intros z p'' (m'' & I8 & S2). apply in_app_or in I8. destruct I8 as [I8|[E|I8]].
      + apply in_split in I8. destruct I8 as (k1 & k2 & ->).
        change p'' with (snd (m'', p'')). change p' with (snd (m', p')).
        apply (ASC' k1 (m'', p'') (k2 ++ (m', p') :: l2)); [rewrite <- app_assoc; reflexivity|].
        apply in_or_app. right. left. reflexivity.
      + injection E as <- <-. lia.
      + exfalso. exact (N1 _ _ I8 S2). }
  assert (SOMELAST : forall q y p', csets l q y p' -> exists z, last_sets l q z).
  { intros q y p' C. clear - C. revert y p' C. induction l as [|c l IH] using rev_ind; intros y p' C.
    - destruct C as (m & [] & _).
    - apply csets_snoc in C. destruct C as [C|[_ S1]].
      + destruct (IH y p' C) as (z & L).
        destruct (classic_sets (fst c) q) as [(x & S1)|N1]; [exists x; apply last_sets_snoc; auto|].
        exists z. apply last_sets_snoc. right. auto.
      + exists y. apply last_sets_snoc. auto. }
  constructor; cbn [s_value s_prio s_conflicts].
  - exact R1.
  - intros q N1. apply R2' in N1. destruct N1 as [N1|(o & E & N1)].
    + right. exists m, p. auto.
    + injection E as <-. destruct (I2 _ N1) as [->|(m' & p' & I8 & N2)]; [auto|].
      right. exists m', p'. split; [apply in_or_app; auto|exact N2].
  - intros q x. rewrite R2, last_sets_snoc, OS. reflexivity.
  - rewrite rev_app_distr. reflexivity.
  - intros q o x C.
    assert (OLD : In (q, o, x) (s_conflicts s) -> exists y p0 p', o = Some (Leaf y) /\ x <> y /\ csets (l ++ [(m, p)]) q y p0 /\ csets (l ++ [(m, p)]) q x p').
    { intro C'. destruct (I5 _ _ _ C') as (y & p0 & p' & E1 & E2 & E3 & E4). exists y, p0, p'.
      split; [exact E1|]. split; [exact E2|]. split; apply csets_snoc; auto. }
    destruct (Z.eqb (s_prio s) p) eqn:EQ.
    + apply (R3 eq_refl) in C. destruct C as [C|(q' & x' & y & E & S1 & S2 & NE)]; [auto|].
      cbn [List.app] in E. injection E as <- -> <-. apply OS in S2. destruct (LASTP _ _ S2) as (p' & C & _).
      exists y, p', p. split; [reflexivity|]. split; [exact NE|]. split; apply csets_snoc; auto.
    + apply (R4 eq_refl) in C. destruct C as [C _]. auto.
  - intros q (p0 & x & y & C1 & C2 & NE & MAX).
    destruct (Z.eqb (s_prio s) p) eqn:EQ.
    + assert (KEEP : in_conflict s q -> exists o x0, In (q, o, x0) conflicts').
      { intros (o & x0 & C). exists o, x0. apply (R3 eq_refl). auto. }
      assert (ADD : forall z w, sets (Node m) q z -> last_sets l q w -> z <> w -> exists o x0, In (q, o, x0) conflicts').
      { intros z w S1 S2 NZ. exists (Some (Leaf w)), z. apply (R3 eq_refl). right. exists q, z, w.
        split; [reflexivity|]. split; [exact S1|]. split; [apply OS; exact S2|exact NZ]. }
      destruct (classic_sets m q) as [(z & Sz)|Nz].
      * assert (P0 : p0 = p).
        { assert (L1 : (p <= p0)%Z) by (apply (MAX z); apply csets_snoc; right; split; [reflexivity|exact Sz]).
          apply csets_snoc in C1. destruct C1 as [(m' & I8 & _)|[-> _]]; [|reflexivity].
          pose proof (LE _ I8) as L2. simpl in L2. lia. }
        subst p0.
        (* one of the values is not the new one *)
        assert (OTHER : exists w, w <> z /\ csets l q w p).
        { apply csets_snoc in C1. apply csets_snoc in C2. cbn [fst snd] in C1, C2.
          assert (FUN : forall w, sets (Node m) q w -> w = z).
          { intros w Sw. eapply sets_functional; [apply (g_maps _ G m p IN)| |]; eauto. }
          destruct C1 as [C1|[_ C1]].
          - destruct (option_N_dec x z) as [->|NX]; [|eauto].
            destruct C2 as [C2|[_ C2]]; [exists y; auto|]. apply FUN in C2. congruence.
          - apply FUN in C1. subst x. destruct C2 as [C2|[_ C2]]; [exists y; auto|]. apply FUN in C2. congruence. }
        destruct OTHER as (w & NW & Cw). destruct (SOMELAST _ _ _ Cw) as (u & Lu).
        destruct (option_N_dec z u) as [->|NU]; [|eapply ADD; eauto].
        apply KEEP. apply I6. destruct (LASTP _ _ Lu) as (pu & Cu & Mu).
        assert (pu = p).
        { assert (p <= pu)%Z by (eapply Mu; eauto). destruct Cu as (mu & I8 & _). pose proof (LE _ I8) as L2. simpl in L2. lia. }
        subst pu. exists p, w, u. split; [exact Cw|]. split; [exact Cu|]. split; [exact NW|exact Mu].
      * apply KEEP. apply I6. exists p0, x, y.
        apply csets_snoc in C1. apply csets_snoc in C2. cbn [fst snd] in C1, C2.
        destruct C1 as [C1|[_ C1]]; [|exfalso; exact (Nz _ C1)].
        destruct C2 as [C2|[_ C2]]; [|exfalso; exact (Nz _ C2)].
        split; [exact C1|]. split; [exact C2|]. split; [exact NE|].
        intros z p' C. apply (MAX z). apply csets_snoc. auto.
    + pose proof (FRESH eq_refl) as FR. destruct (classic_sets m q) as [(z & Sz)|Nz].
      * exfalso.
        assert (L1 : (p <= p0)%Z) by (apply (MAX z); apply csets_snoc; right; split; [reflexivity|exact Sz]).
        assert (FUN : forall w, csets (l ++ [(m, p)]) q w p0 -> w = z).
        { intros w C. apply csets_snoc in C. destruct C as [C|[_ C]].
          - apply FR in C. lia.
          - eapply sets_functional; [apply (g_maps _ G m p IN)| |]; eauto. }
        apply NE. rewrite (FUN x C1), (FUN y C2). reflexivity.
      * apply csets_snoc in C1. apply csets_snoc in C2. cbn [fst snd] in C1, C2.
        destruct C1 as [C1|[_ C1]]; [|exfalso; exact (Nz _ C1)].
        destruct C2 as [C2|[_ C2]]; [|exfalso; exact (Nz _ C2)].
        destruct (I6 q) as (o & x0 & C).
        { exists p0, x, y. split; [exact C1|]. split; [exact C2|]. split; [exact NE|].
          intros z p' C. apply (MAX z). apply csets_snoc. auto. }
        exists o, x0. apply (R4 eq_refl). split; [exact C|]. intros (q' & z & E & Sz). simpl in E. subst q'.
        exact (Nz _ Sz).
  - intros AL q (o & x & C). pose proof (alone_snoc _ _ AL) as AL'.
    destruct (Z.eqb (s_prio s) p) eqn:EQ.
    + apply (R3 eq_refl) in C.
      assert (UP : forall z w p', sets (Node m) q z -> csets l q w p' -> w <> z -> (p' < p)%Z -> False).
      { intros z w p' Sz Cw NW L1. destruct (SOMELAST _ _ _ Cw) as (u & Lu).
        destruct (PREV eq_refl q u Lu) as (d & l' & El & Ed).
        apply (AL (m, p) d l' q z); [|exact Sz| |exact Ed].
        - rewrite El, <- app_assoc. change ([d] ++ [(m, p)]) with (d :: [(m, p)]).
          apply Permutation_sym. apply Permutation_trans with (d :: (m, p) :: l'); [apply perm_swap|].
          apply Permutation_trans with (d :: l' ++ [(m, p)]); [apply perm_skip; apply Permutation_cons_append|].
          apply Permutation_middle.
        - exists w, p'. split; [apply csets_snoc; auto|]. auto. }
      destruct C as [C|(q' & x' & y & E & S1 & S2 & NE)].
      * destruct (I7 AL' q (ex_intro _ o (ex_intro _ x C))) as (p0 & a & b & C1 & C2 & NE & MAX).
        exists p0, a, b. split; [apply csets_snoc; auto|]. split; [apply csets_snoc; auto|]. split; [exact NE|].
        intros z p' Cz. apply csets_snoc in Cz. destruct Cz as [Cz|[-> Sz]]; [eauto|]. cbn [fst snd] in *.
        destruct (Z_le_gt_dec p p0) as [H|H]; [exact H|]. exfalso.
        destruct (option_N_dec a z) as [->|NA].
        -- apply (UP z b p0 Sz C2); [auto|lia].
        -- apply (UP z a p0 Sz C1); [auto|lia].
      * cbn [List.app] in E. injection E as <- -> <-. apply OS in S2.
        destruct (LASTP _ _ S2) as (p' & Cy & My).
        assert (p' <= p)%Z by (destruct Cy as (mu & I8 & _); pose proof (LE _ I8) as L2; exact L2).
        destruct (Z_le_gt_dec p p') as [H1|H1].
        -- assert (p' = p) by lia. subst p'. exists p, x, y. split; [apply csets_snoc; auto|]. split; [apply csets_snoc; auto|].
           split; [exact NE|]. intros z p'' Cz. apply csets_snoc in Cz. destruct Cz as [Cz|[-> _]]; [eauto|simpl; lia].
        -- exfalso. apply (UP x y p' S1 Cy); [auto|lia].
    + apply (R4 eq_refl) in C. destruct C as [C NC].
      destruct (I7 AL' q (ex_intro _ o (ex_intro _ x C))) as (p0 & a & b & C1 & C2 & NE & MAX).
      exists p0, a, b. split; [apply csets_snoc; auto|]. split; [apply csets_snoc; auto|]. split; [exact NE|].
      intros z p' Cz. apply csets_snoc in Cz. destruct Cz as [Cz|[-> Sz]]; [eauto|].
      exfalso. apply NC. exists q, z. split; [reflexivity|exact Sz].
Qed.

Lemma run_inv l : good l -> ascending l -> inv l (run l).
Proof.
  induction l as [|c l IH] using rev_ind; intros G ASC.
  - constructor; simpl.
    + constructor; [constructor|intros ? ? []].
    + intros q N1. inversion N1 as [|? ? ? ? I1]; subst; [auto|destruct I1].
    + intros q x. split; [intro S1; inversion S1 as [|? ? ? ? ? I1]; subst; destruct I1|].
      intros (l1 & c & l2 & E & _). destruct l1; discriminate.
    + reflexivity.
    + intros ? ? ? [].
    + intros q (p & x & y & (m & [] & _) & _).
    + intros _ q (o & x & []).
  - rewrite run_snoc. apply step_inv; [apply IH; [eapply good_snoc; eauto|apply (ascending_snoc _ _ ASC)]|exact G|exact ASC].
Qed.

Definition top (l : list candidate) (q : path) (x : option N) : Prop :=
  exists p, csets l q x p /\ forall y p', csets l q y p' -> (p' <= p)%Z.

Lemma last_top l q y : ascending l -> last_sets l q y -> top l q y.
Proof.
  intros ASC' (l1 & [m' p'] & l2 & -> & S1 & N1). exists p'. split.
  - exists m'. split; [apply in_or_app; right; left; reflexivity|exact S1].
  - intros z p'' (m'' & I8 & S2). apply in_app_or in I8. destruct I8 as [I8|[E|I8]].
    + apply in_split in I8. destruct I8 as (k1 & k2 & ->).
      change p'' with (snd (m'', p'')). change p' with (snd (m', p')).
      apply (ASC' k1 (m'', p'') (k2 ++ (m', p') :: l2)); [rewrite <- app_assoc; reflexivity|].
      apply in_or_app. right. left. reflexivity.
    + injection E as <- <-. lia.
    + exfalso. exact (N1 _ _ I8 S2).
Qed.

Lemma some_last l q y p' : csets l q y p' -> exists z, last_sets l q z.
Proof.
  revert y p'. induction l as [|c l IH] using rev_ind; intros y p' C.
  - destruct C as (m & [] & _).
  - apply csets_snoc in C. destruct C as [C|[_ S1]].
    + destruct (IH y p' C) as (z & L).
      destruct (classic_sets (fst c) q) as [(x & S1)|N1]; [exists x; apply last_sets_snoc; auto|].
      exists z. apply last_sets_snoc. right. auto.
    + exists y. apply last_sets_snoc. auto.
Qed.

Lemma merge_right l r : good l -> ascending l -> merge l = inl r ->
  is_map (Node r) /\ forall q x, sets (Node r) q x <-> top l q x.
Proof.
  intros G ASC E. pose proof (run_inv l G ASC) as [I1 I2 I3 I4 I5 I6 I7].
  unfold merge in E. change (fold_left step l (State [] int_min [])) with (run l) in E.
  destruct (s_conflicts (run l)) as [|c0 cs] eqn:C0; [|discriminate]. injection E as <-.
  split; [exact I1|]. intros q x. rewrite I3. split; [apply last_top; exact ASC|].
  intros (p & C & MAX). destruct (some_last _ _ _ _ C) as (z & L).
  destruct (option_N_dec z x) as [->|NE]; [exact L|]. exfalso.
  destruct (last_top _ _ _ ASC L) as (pz & Cz & Mz).
  assert (pz = p) by (assert (pz <= p)%Z by eauto; assert (p <= pz)%Z by eauto; lia). subst pz.
  destruct (I6 q) as (o & w & H); [exists p, z, x; auto|]. rewrite C0 in H. destruct H.
Qed.

Lemma merge_succeeds l : good l -> ascending l -> alone l -> (forall q, ~ real l q) -> exists r, merge l = inl r.
Proof.
  intros G ASC AL NR. pose proof (run_inv l G ASC) as [I1 I2 I3 I4 I5 I6 I7].
  unfold merge. change (fold_left step l (State [] int_min [])) with (run l).
  destruct (s_conflicts (run l)) as [|[[q o] x] cs] eqn:C0; [eauto|].
  exfalso. apply (NR q). apply (I7 AL). exists o, x. rewrite C0. left. reflexivity.
Qed.

Lemma merge_conflicts l cs : good l -> ascending l -> merge l = inr cs ->
  cs <> [] /\ forall q o x, In (q, o, x) cs ->
    exists y p p', o = Some (Leaf y) /\ x <> y /\ csets l q y p /\ csets l q x p'.
Proof.
  intros G ASC E. pose proof (run_inv l G ASC) as [I1 I2 I3 I4 I5 I6 I7].
  unfold merge in E. change (fold_left step l (State [] int_min [])) with (run l) in E.
  destruct (s_conflicts (run l)) as [|c0 cs'] eqn:C0; [discriminate|]. injection E as <-.
  split; [discriminate|]. intros q o x H. apply I5. exact H.
Qed.

(** * The candidates *)

Lemma ascending_cons c l : ascending (c :: l) <-> (ascending l /\ forall c', In c' l -> (snd c <= snd c')%Z).
Proof.
  split.
  - intro H. split.
    + intros l1 d l2 c' -> I1. apply (H (c :: l1) d l2); auto.
    + intros c' I1. apply (H [] c l); auto.
  - intros [H1 H2] [|a l1] d l2 c' E I1; simpl in E; injection E as -> ->; [auto|]. eapply H1; eauto.
Qed.

Lemma insert_perm c l : Permutation (insert_sorted c l) (c :: l).
Proof.
  induction l as [|d l IH]; simpl; [reflexivity|]. destruct (Z.ltb (snd d) (snd c)); [|reflexivity].
  apply Permutation_trans with (d :: c :: l); [apply perm_skip; exact IH|apply perm_swap].
Qed.

Lemma insert_ascending c l : ascending l -> ascending (insert_sorted c l).
Proof.
  induction l as [|d l IH]; intro H; simpl.
  - apply ascending_cons. split; [exact H|]. intros ? [].
  - pose proof (proj1 (ascending_cons d l) H) as [H1 H2]. destruct (Z.ltb_spec (snd d) (snd c)) as [L|L].
    + apply ascending_cons. split; [auto|]. intros c' I1.
      apply (Permutation_in _ (insert_perm c l)) in I1. destruct I1 as [<-|I1]; [lia|auto].
    + apply ascending_cons. split; [exact H|]. intros c' [<-|I1]; [exact L|]. pose proof (H2 _ I1). lia.
Qed.

Definition counts (p : place) : bool :=
  match p_parameters p with [] => false | _ => p_active p end.
Definition candidate_of (p : place) : candidate := (p_parameters p, int_max - p_depth p)%Z.

Lemma candidates_spec defaults places :
  Permutation (candidates defaults places) ((defaults, int_min) :: List.map candidate_of (filter counts places))
  /\ ascending (candidates defaults places).
Proof.
  induction places as [|p places IH] using rev_ind.
  - split; [reflexivity|]. intros [|a [|b l1]] c l2 c' E I1; simpl in E; try discriminate.
    injection E as <- <-. destruct I1.
  - destruct IH as [P1 A1].
    assert (F : List.map candidate_of (filter counts (places ++ [p])) =
                List.map candidate_of (filter counts places) ++ (if counts p then [candidate_of p] else [])).
    { rewrite filter_app, map_app. f_equal. cbn [filter]. destruct (counts p); reflexivity. }
    assert (S1 : candidates defaults (places ++ [p]) =
                 if counts p then insert_sorted (candidate_of p) (candidates defaults places) else candidates defaults places).
    { unfold candidates. rewrite fold_left_app. cbn [fold_left]. unfold counts, candidate_of.
      destruct (p_parameters p); reflexivity. }
    rewrite F, S1. destruct (counts p); [|rewrite app_nil_r; split; assumption]. split.
    + eapply Permutation_trans; [apply insert_perm|].
      eapply Permutation_trans; [apply perm_skip; exact P1|].
      eapply Permutation_trans; [apply perm_swap|]. apply perm_skip. apply Permutation_cons_append.
    + apply insert_ascending. exact A1.
Qed.

Lemma in_candidates defaults places m p :
  In (m, p) (candidates defaults places) <->
  (m = defaults /\ p = int_min)
  \/ exists x, In x places /\ p_active x = true /\ p_parameters x <> [] /\ m = p_parameters x /\ p = (int_max - p_depth x)%Z.
Proof.
  destruct (candidates_spec defaults places) as [P _]. split.
  - intro H. apply (Permutation_in _ P) in H. destruct H as [E|H]; [apply pair_equal_spec in E; destruct E as [E1 E2]; left; split; symmetry; assumption|].
    apply in_map_iff in H. destruct H as (x & E & I1). apply filter_In in I1. destruct I1 as [I1 C].
    unfold counts in C. apply pair_equal_spec in E. destruct E as [E1 E2]. right. exists x.
    split; [exact I1|]. destruct (p_parameters x) eqn:PX; [discriminate|].
    split; [exact C|]. split; [discriminate|]. split; symmetry; [exact E1|exact E2].
  - intro H. apply (Permutation_in _ (Permutation_sym P)). destruct H as [[-> ->]|(x & I1 & AC & NE & -> & ->)]; [left; reflexivity|].
    right. apply in_map_iff. exists x. split; [reflexivity|]. apply filter_In. split; [exact I1|].
    unfold counts. destruct (p_parameters x); [contradiction|exact AC].
Qed.

Lemma good_candidates defaults places : sensible defaults places -> good (candidates defaults places).
Proof.
  intros [M D C _].
  assert (K : forall m p, In (m, p) (candidates defaults places) -> m = defaults \/ exists x, In x places /\ p_parameters x = m).
  { intros m p H. apply in_candidates in H. destruct H as [[-> _]|(x & I1 & _ & _ & -> & _)]; eauto. }
  constructor.
  - intros m p H. eauto.
  - intros m p q H. eauto.
  - intros m p m' p' q x H1 H2 S1. eapply C; [apply (K _ _ H1)|apply (K _ _ H2)|exact S1].
Qed.

Lemma csets_candidates defaults places q x p : csets (candidates defaults places) q x p <->
  (p = int_min /\ sets (Node defaults) q x) \/ exists d, given places q x d /\ p = (int_max - d)%Z.
Proof.
  split.
  - intros (m & H & S1). apply in_candidates in H. destruct H as [[-> ->]|(x0 & I1 & AC & NE & -> & ->)]; [auto|].
    right. exists (p_depth x0). split; [|reflexivity]. exists x0. auto.
  - intros [[-> S1]|(d & (x0 & I1 & AC & S1 & <-) & ->)].
    + exists defaults. split; [apply in_candidates; auto|exact S1].
    + exists (p_parameters x0). split; [|exact S1]. apply in_candidates. right. exists x0.
      split; [exact I1|]. split; [exact AC|]. split; [|auto]. intro E. rewrite E in S1.
      inversion S1 as [|? ? ? ? ? I2]; subst. destruct I2.
Qed.

Lemma given_depth defaults places q x d : sensible defaults places -> given places q x d -> (0 <= d <= 2147483647)%Z.
Proof. intros [_ _ _ H] (p & I1 & _ & _ & <-). auto. Qed.

Lemma decide_given places q : (exists x d, given places q x d) \/ (forall x d, ~ given places q x d).
Proof.
  induction places as [|p places IH].
  - right. intros x d (p & [] & _).
  - destruct IH as [(x & d & p0 & I1 & H)|N1]; [left; exists x, d, p0; split; [right; exact I1|exact H]|].
    destruct (p_active p) eqn:AC.
    + destruct (classic_sets (p_parameters p) q) as [(x & S1)|N2].
      * left. exists x, (p_depth p), p. split; [left; reflexivity|]. auto.
      * right. intros x d (p0 & [<-|I1] & A1 & S1 & E); [exact (N2 _ S1)|]. apply (N1 x d). exists p0. auto.
    + right. intros x d (p0 & [<-|I1] & A1 & S1 & E); [congruence|]. apply (N1 x d). exists p0. auto.
Qed.

Lemma top_chosen defaults places q x : sensible defaults places ->
  (top (candidates defaults places) q x <-> chosen defaults places q x).
Proof.
  intro SE. assert (GD : forall y e, given places q y e -> (0 <= e <= 2147483647)%Z) by (intros; eapply given_depth; eauto).
  unfold top, chosen. split.
  - intros (p & C & MAX). apply csets_candidates in C. destruct C as [[-> S1]|(d & GV & ->)].
    + right. split; [|exact S1]. intros y e GV. pose proof (GD _ _ GV).
      assert (int_max - e <= int_min)%Z by (apply (MAX y); apply csets_candidates; right; eauto).
      unfold int_max, int_min in *. lia.
    + left. exists d. split; [exact GV|]. intros y e GV'.
      assert (int_max - e <= int_max - d)%Z by (apply (MAX y); apply csets_candidates; right; eauto). lia.
  - intros [(d & GV & MIN)|[NO S1]].
    + exists (int_max - d)%Z. split; [apply csets_candidates; right; eauto|].
      intros y p' C. apply csets_candidates in C. destruct C as [[-> _]|(e & GV' & ->)].
      * pose proof (GD _ _ GV). unfold int_max, int_min. lia.
      * pose proof (MIN _ _ GV'). lia.
    + exists int_min. split; [apply csets_candidates; auto|].
      intros y p' C. apply csets_candidates in C. destruct C as [[-> _]|(e & GV' & ->)]; [lia|].
      exfalso. exact (NO _ _ GV').
Qed.

(** C97. If the parameters can be merged, then each one has the value that the
    nearest places give, and nothing else is set; these values agree. *)
Theorem parameters_right defaults places r :
  sensible defaults places -> parameters_of defaults places = inl r ->
  is_map (Node r)
  /\ (forall q x, sets (Node r) q x <-> chosen defaults places q x)
  /\ (forall q x y, chosen defaults places q x -> chosen defaults places q y -> x = y).
Proof.
  intros SE E. destruct (candidates_spec defaults places) as [_ ASC].
  destruct (merge_right _ _ (good_candidates _ _ SE) ASC E) as [M H].
  assert (H' : forall q x, sets (Node r) q x <-> chosen defaults places q x).
  { intros q x. rewrite H. apply top_chosen. exact SE. }
  split; [exact M|]. split; [exact H'|].
  intros q x y C1 C2. apply H' in C1. apply H' in C2. eapply sets_functional; eauto.
Qed.

(** Nearest places that do not agree are an error. *)
Theorem parameters_conflict_reported defaults places q x y :
  sensible defaults places -> chosen defaults places q x -> chosen defaults places q y -> x <> y ->
  exists l, parameters_of defaults places = inr l.
Proof.
  intros SE C1 C2 NE. destruct (parameters_of defaults places) as [r|l] eqn:E; [|eauto].
  exfalso. apply NE. apply (parameters_right _ _ _ SE E) with (q := q); auto.
Qed.

(** The message about conflicts has parameters and two different values of them
    that were given. *)
Theorem parameters_message defaults places l :
  sensible defaults places -> parameters_of defaults places = inr l ->
  l <> [] /\ forall q o x, In (q, o, x) l -> exists y, o = Some (Leaf y) /\ x <> y
    /\ (sets (Node defaults) q x \/ exists d, given places q x d)
    /\ (sets (Node defaults) q y \/ exists d, given places q y d).
Proof.
  intros SE E. destruct (candidates_spec defaults places) as [_ ASC].
  destruct (merge_conflicts _ _ (good_candidates _ _ SE) ASC E) as [NE H]. split; [exact NE|].
  intros q o x I1. destruct (H _ _ _ I1) as (y & p & p' & E1 & E2 & C1 & C2). exists y.
  split; [exact E1|]. split; [exact E2|].
  apply csets_candidates in C1. apply csets_candidates in C2.
  split; [destruct C2 as [[_ S1]|(d & GV & _)]|destruct C1 as [[_ S1]|(d & GV & _)]]; eauto.
Qed.

Lemma cons_inj {X : Type} (a b : X) l k : a :: l = b :: k -> a = b /\ l = k.
Proof. intro E. injection E as -> ->. auto. Qed.

Lemma filter_partition {X : Type} (f : X -> bool) (l : list X) :
  Permutation l (filter f l ++ filter (fun x => negb (f x)) l).
Proof.
  induction l as [|x l IH]; simpl; [constructor|]. destruct (f x); simpl.
  - apply perm_skip. exact IH.
  - eapply Permutation_trans; [apply perm_skip; exact IH|]. apply Permutation_middle.
Qed.

Lemma alone_candidates defaults places :
  sensible defaults places -> overriding_alone defaults places -> alone (candidates defaults places).
Proof.
  intros SE OA c c'' rest q x P S1 (y & p' & C & L & NE) SAME.
  destruct (candidates_spec defaults places) as [P0 _].
  assert (P1 : Permutation ((defaults, int_min) :: List.map candidate_of (filter counts places)) (c :: c'' :: rest)).
  { eapply Permutation_trans; [apply Permutation_sym; exact P0|exact P]. }
  assert (RANGE : forall p0, In p0 places -> (int_min < int_max - p_depth p0)%Z).
  { intros p0 I1. destruct SE as [_ _ _ D]. specialize (D p0 I1). unfold int_min, int_max. lia. }
  assert (LOW : (int_min <= p')%Z).
  { apply csets_candidates in C. destruct C as [[-> _]|(d & (p0 & I1 & _ & _ & <-) & ->)]; [lia|].
    specialize (RANGE _ I1). lia. }
  assert (I0 : In (defaults, int_min) rest).
  { assert (I1 : In (defaults, int_min) (c :: c'' :: rest)) by (apply (Permutation_in _ P1); left; reflexivity).
    destruct I1 as [->|[->|I1]]; [simpl in L; lia|simpl in SAME; lia|exact I1]. }
  apply in_split in I0. destruct I0 as (r1 & r2 & ->).
  assert (P2 : Permutation (List.map candidate_of (filter counts places)) (c :: c'' :: r1 ++ r2)).
  { apply Permutation_cons_inv with (a := (defaults, int_min)). eapply Permutation_trans; [exact P1|].
    apply Permutation_sym. apply (Permutation_middle (c :: c'' :: r1) r2 (defaults, int_min)). }
  apply Permutation_sym in P2. apply Permutation_map_inv in P2. destruct P2 as (l3 & E3 & P3).
  destruct l3 as [|a [|b l3]]; try discriminate. cbn [List.map] in E3. apply cons_inj in E3. destruct E3 as [-> E3]. apply cons_inj in E3. destruct E3 as [-> _].
  assert (P4 : Permutation places (a :: b :: l3 ++ filter (fun p => negb (counts p)) places)).
  { eapply Permutation_trans; [apply (filter_partition counts)|].
    apply (Permutation_app_tail _ P3). }
  assert (Ia : In a places) by (apply (Permutation_in _ (Permutation_sym P4)); left; reflexivity).
  assert (CTS : forall z, In z (a :: b :: l3) -> p_active z = true /\ p_parameters z <> []).
  { intros z Iz. apply (Permutation_in _ (Permutation_sym P3)) in Iz. apply filter_In in Iz. destruct Iz as [_ K].
    unfold counts in K. destruct (p_parameters z); [discriminate|]. split; [exact K|discriminate]. }
  destruct (CTS a (or_introl eq_refl)) as [ACa NEa].
  destruct (CTS b (or_intror (or_introl eq_refl))) as [ACb NEb].
  destruct (in_split _ _ Ia) as (l1 & l2 & EP).
  cbn [candidate_of fst snd] in *.
  apply (OA q x (p_depth a) l1 a l2) with (p' := b); auto.
  - split; [exists a; auto|]. apply csets_candidates in C.
    destruct C as [[-> S2]|(e & GV & ->)]; [right; eauto|]. left. exists y, e. split; [exact GV|]. split; [exact NE|lia].
  - rewrite EP in P4. apply Permutation_sym in P4. apply Permutation_cons_app_inv in P4.
    apply (Permutation_in _ P4). left. reflexivity.
  - lia.
Qed.

(** Without a conflict, and with overriding places alone at their distance, the
    parameters can be merged. *)
Theorem parameters_merged_partial defaults places :
  sensible defaults places -> overriding_alone defaults places ->
  (forall q x y, chosen defaults places q x -> chosen defaults places q y -> x = y) ->
  exists r, parameters_of defaults places = inl r.
Proof.
  intros SE OA UN. destruct (candidates_spec defaults places) as [_ ASC].
  apply merge_succeeds; [apply good_candidates; exact SE|exact ASC|apply alone_candidates; auto|].
  intros q (p & x & y & C1 & C2 & NE & MAX). apply NE. apply (UN q); apply top_chosen; auto.
  - exists p. split; [exact C1|exact MAX].
  - exists p. split; [exact C2|exact MAX].
Qed.

(** Two sets of parameters for the same place must not contradict each other. *)
Theorem parameters_of_one_place a b :
  is_map (Node a) -> is_map (Node b) ->
  (forall q, ~ sets (Node a) q None /\ ~ sets (Node b) q None) ->
  (forall t t', In t [a; b] -> In t' [a; b] -> forall q x, sets (Node t) q x -> ~ names_module (Node t') q) ->
  ((exists r, merge_two a b = inl r) <-> forall q x y, sets (Node a) q x -> sets (Node b) q y -> x = y)
  /\ forall r, merge_two a b = inl r -> forall q x, sets (Node r) q x <-> sets (Node a) q x \/ sets (Node b) q x.
Proof.
  intros MA MB D C. unfold merge_two.
  assert (G : good [(a, 0%Z); (b, 0%Z)]).
  { constructor.
    - intros m p [E|[E|[]]]; injection E as <- <-; auto.
    - intros m p q [E|[E|[]]]; injection E as <- <-; apply D.
    - intros m p m' p' q x I1 I2. apply C; [destruct I1 as [E|[E|[]]]|destruct I2 as [E|[E|[]]]]; injection E as <- <-; simpl; auto. }
  assert (ASC : ascending [(a, 0%Z); (b, 0%Z)]).
  { apply ascending_cons. split; [apply ascending_cons; split|].
    - intros [|? ?] ? ? ? E; discriminate.
    - intros ? [].
    - intros c' [<-|[]]. simpl. lia. }
  assert (CS : forall q x p, csets [(a, 0%Z); (b, 0%Z)] q x p <-> p = 0%Z /\ (sets (Node a) q x \/ sets (Node b) q x)).
  { intros q x p. split.
    - intros (m & [E|[E|[]]] & S1); injection E as <- <-; auto.
    - intros [-> [S1|S1]]; [exists a|exists b]; simpl; auto. }
  assert (RIGHT : forall r, merge [(a, 0%Z); (b, 0%Z)] = inl r -> forall q x, sets (Node r) q x <-> sets (Node a) q x \/ sets (Node b) q x).
  { intros r E q x. destruct (merge_right _ _ G ASC E) as [_ H]. rewrite H. split.
    - intros (p & S1 & _). apply CS in S1. tauto.
    - intro S1. exists 0%Z. split; [apply CS; auto|]. intros y p' S2. apply CS in S2. lia. }
  split; [|exact RIGHT]. split.
  - intros (r & E) q x y S1 S2. destruct (merge_right _ _ G ASC E) as [M _].
    apply (sets_functional (Node r) q x y M); apply (RIGHT r E); auto.
  - intro H. apply merge_succeeds; [exact G|exact ASC| |].
    + intros c c'' rest q x P S1 (y & p' & S2 & L & _).
      assert (I1 : In c [(a, 0%Z); (b, 0%Z)]) by (apply (Permutation_in _ (Permutation_sym P)); left; reflexivity).
      apply CS in S2. destruct I1 as [<-|[<-|[]]]; simpl in L; lia.
    + intros q (p & x & y & S1 & S2 & NE & _). apply CS in S1. apply CS in S2. apply NE.
      destruct S1 as [_ [S1|S1]], S2 as [_ [S2|S2]].
      * exact (sets_functional _ _ _ _ MA S1 S2).
      * exact (H _ _ _ S1 S2).
      * symmetry. exact (H _ _ _ S2 S1).
      * exact (sets_functional _ _ _ _ MB S1 S2).
Qed.

(** * Where it goes wrong *)

(** One parameter of a module. *)
Definition one (k j : str) (v : option N) : tree := [(k, Node [(j, Leaf v)])].

Lemma one_sets k j v q x : sets (Node (one k j v)) q x <-> q = [k; j] /\ x = v.
Proof.
  split.
  - intro H. inversion H as [|? ? w ? ? I1 S1]; subst. destruct I1 as [E|[]]. injection E as <- <-.
    inversion S1 as [|? ? w' ? ? I2 S2]; subst. destruct I2 as [E|[]]. injection E as <- <-.
    inversion S2; subst. auto.
  - intros [-> ->]. econstructor; [left; reflexivity|]. econstructor; [left; reflexivity|]. constructor.
Qed.

Lemma one_names k j v q : names_module (Node (one k j v)) q -> q = [] \/ q = [k].
Proof.
  intro H. inversion H as [|? ? w ? I1 S1]; subst; [auto|]. destruct I1 as [E|[]]. injection E as <- <-.
  inversion S1 as [|? ? w' ? I2 S2]; subst; [auto|]. destruct I2 as [E|[]]. injection E as <- <-. inversion S2.
Qed.

Lemma one_map k j v : is_map (Node (one k j v)).
Proof.
  constructor; [constructor; [auto|constructor]|]. intros k' w [E|[]]. injection E as <- <-.
  constructor; [constructor; [auto|constructor]|]. intros k' w [E|[]]. injection E as <- <-. constructor.
Qed.

Lemma empty_sets q x : ~ sets (Node []) q x.
Proof. intro H. inversion H as [|? ? w ? ? I1 S1]; subst. destruct I1. Qed.

Lemma empty_names q : names_module (Node []) q -> q = [].
Proof. intro H. inversion H as [|? ? w ? I1 S1]; subst; [auto|]. destruct I1. Qed.

Lemma ones_sensible k places :
  (forall p, In p places -> (0 <= p_depth p <= 2147483647)%Z /\ exists j v, p_parameters p = one k j (Some v)) ->
  sensible [] places.
Proof.
  intro H.
  assert (K : forall t, (t = [] \/ exists p, In p places /\ p_parameters p = t) -> t = [] \/ exists j v, t = one k j (Some v)).
  { intros t [->|(p & I1 & <-)]; [auto|]. right. destruct (H p I1) as (_ & j & v & E). eauto. }
  constructor.
  - intros t T. destruct (K t T) as [->|(j & v & ->)]; [constructor; [constructor|intros ? ? []]|apply one_map].
  - intros t q T S1. destruct (K t T) as [->|(j & v & ->)]; [exact (empty_sets _ _ S1)|].
    apply one_sets in S1. destruct S1 as [_ S1]. discriminate.
  - intros t t' q x T T' S1 N1. destruct (K t T) as [->|(j & v & ->)]; [exact (empty_sets _ _ S1)|].
    apply one_sets in S1. destruct S1 as [-> _].
    destruct (K t' T') as [->|(j' & v' & ->)]; [apply empty_names in N1; discriminate|].
    apply one_names in N1. destruct N1; discriminate.
  - intros p I1. apply (H p I1).
Qed.

Definition cpp := txt "cpp".
Definition far : place := Place (one cpp (txt "link") (Some 1%N)) 3 true.
Definition near : place := Place (one cpp (txt "link") (Some 2%N)) 2 true.
Definition other : place := Place (one cpp (txt "weak") (Some 1%N)) 2 true.

Lemma places_sensible places : incl places [far; near; other] -> sensible [] places.
Proof.
  intro H. apply (ones_sensible cpp). intros p I1. apply H in I1.
  destruct I1 as [<-|[<-|[<-|[]]]]; simpl; (split; [lia|eauto]).
Qed.

(** C97 does not hold in full: a value of a farther place, which a nearer one
    overrides, is reported as a conflict if a third place is as near as the
    second one. It depends on the order of the places. *)
Theorem parameters_merged_refuted :
  exists places places' l r,
    sensible [] places
    /\ (forall q x y, chosen [] places q x -> chosen [] places q y -> x = y)
    /\ parameters_of [] places = inr l
    /\ Permutation places places' /\ parameters_of [] places' = inl r.
Proof.
  exists [far; near; other], [far; other; near].
  let x := eval vm_compute in (parameters_of [] [far; near; other]) in
  match x with inr ?l => exists l end.
  let x := eval vm_compute in (parameters_of [] [far; other; near]) in
  match x with inl ?l => exists l end.
  split; [apply places_sensible; apply incl_refl|]. split; [|split; [|split]].
  - intros q x y C1 C2.
    assert (U : forall z, chosen [] [far; near; other] q z ->
              (q = [cpp; txt "link"] /\ z = Some 2%N) \/ (q = [cpp; txt "weak"] /\ z = Some 1%N)).
    { intros z [(d & (p & I1 & _ & S1 & <-) & MIN)|[_ S1]]; [|exfalso; exact (empty_sets _ _ S1)].
      destruct I1 as [<-|[<-|[<-|[]]]]; apply one_sets in S1; destruct S1 as [-> ->]; [|auto|auto].
      exfalso. assert (G : given [far; near; other] [cpp; txt "link"] (Some 2%N) 2).
      { exists near. split; [simpl; auto|]. split; [reflexivity|]. split; [apply one_sets; auto|reflexivity]. }
      apply MIN in G. vm_compute in G. apply G. reflexivity. }
    destruct (U x C1) as [[E1 ->]|[E1 ->]], (U y C2) as [[E2 ->]|[E2 ->]]; try reflexivity;
      rewrite E1 in E2; vm_compute in E2; discriminate.
  - vm_compute. reflexivity.
  - apply perm_skip. apply perm_swap.
  - vm_compute. reflexivity.
Qed.

(** An undefined value makes the result depend on the order too. *)
Theorem parameters_undefined_refuted :
  exists places places' l r, Permutation places places'
    /\ parameters_of [] places = inr l /\ parameters_of [] places' = inl r.
Proof.
  pose (a := Place (one cpp (txt "link") None) 2 true).
  exists [a; near], [near; a].
  let x := eval vm_compute in (parameters_of [] [a; near]) in
  match x with inr ?l => exists l end.
  let x := eval vm_compute in (parameters_of [] [near; a]) in
  match x with inl ?l => exists l end.
  split; [apply perm_swap|]. split; vm_compute; reflexivity.
Qed.

(** A parameter whose path is also the name of a module is silently lost. *)
Theorem parameters_clash_refuted :
  exists places r q x, parameters_of [] places = inl r
    /\ chosen [] places q x /\ (forall y, chosen [] places q y -> y = x) /\ ~ sets (Node r) q x.
Proof.
  pose (a := Place [(txt "qt", Node [(txt "core", Leaf (Some 1%N))])] 2 true).
  pose (b := Place [(txt "qt", Node [(txt "core", Node [(txt "link", Leaf (Some 2%N))])])] 2 true).
  exists [b; a].
  let x := eval vm_compute in (parameters_of [] [b; a]) in
  match x with inl ?l => exists l end.
  exists [txt "qt"; txt "core"], (Some 1%N).
  assert (B : forall x, ~ sets (Node (p_parameters b)) [txt "qt"; txt "core"] x).
  { intros x S1. inversion S1 as [|? ? w ? ? I1 S2]; subst. destruct I1 as [E|[]]. injection E as <-.
    inversion S2 as [|? ? w' ? ? I2 S3]; subst. destruct I2 as [E|[]]. injection E as <-. inversion S3. }
  assert (SA : forall x, sets (Node (p_parameters a)) [txt "qt"; txt "core"] x <-> x = Some 1%N).
  { intro x. split; [intro S1; apply one_sets in S1; tauto|intros ->; apply one_sets; auto]. }
  split; [vm_compute; reflexivity|]. split; [|split].
  - left. exists 2%Z. split.
    + exists a. split; [simpl; auto|]. split; [reflexivity|]. split; [apply SA; reflexivity|reflexivity].
    + intros y e (p & [<-|[<-|[]]] & _ & _ & <-); simpl; lia.
  - intros y [(d & (p & [<-|[<-|[]]] & _ & S1 & _) & _)|[_ S1]].
    + exfalso. exact (B _ S1).
    + apply SA. exact S1.
    + exfalso. exact (empty_sets _ _ S1).
  - exact (B (Some 1%N)).
Qed.

(** * Examples *)

Module Demo.

(** A default, a far place, two near ones that agree, an inactive one. *)
Definition defaults : tree := one cpp (txt "link") (Some 9%N).
Definition places : list place :=
  [far; near; near; Place (one cpp (txt "link") (Some 7%N)) 1 false].

Example merged_case : parameters_of [] [far; near] = inl (one cpp (txt "link") (Some 2%N)).
Proof. vm_compute. reflexivity. Qed.

Example hypotheses : sensible [] [far; near] /\ overriding_alone [] [far; near].
Proof.
  split; [apply places_sensible; intros p [<-|[<-|[]]]; simpl; auto|].
  intros q x d l1 p l2 [(p0 & I0 & _ & S0 & D0) [(y & e & (p1 & I1 & _ & S1 & D1) & NE & L)|(y & S1 & _)]] E AC D S2 p' I2 _ _ D2;
    [|exact (empty_sets _ _ S1)].
  destruct l1 as [|a [|b l1]]; simpl in E.
  - injection E as <- <-. destruct I2 as [<-|[]]. simpl in *. subst d.
    destruct I1 as [<-|[<-|[]]]; simpl in D1; lia.
  - injection E as <- <- <-. destruct I2 as [<-|[]]. simpl in *. lia.
  - injection E as <- <- E. destruct l1; discriminate.
Qed.

Example conflict_case :
  parameters_of [] [near; Place (one cpp (txt "link") (Some 5%N)) 2 true]
  = inr [([cpp; txt "link"], Some (Leaf (Some 5%N)), Some 2%N)].
Proof. vm_compute. reflexivity. Qed.

Example default_case : parameters_of defaults [other] = inl [(cpp, Node [(txt "link", Leaf (Some 9%N)); (txt "weak", Leaf (Some 1%N))])].
Proof. vm_compute. reflexivity. Qed.

Example one_place_case : merge_two (one cpp (txt "link") (Some 1%N)) (one cpp (txt "weak") (Some 2%N))
  = inl [(cpp, Node [(txt "link", Leaf (Some 1%N)); (txt "weak", Leaf (Some 2%N))])].
Proof. vm_compute. reflexivity. Qed.

End Demo.

Print Assumptions parameters_right.
Print Assumptions parameters_conflict_reported.
Print Assumptions parameters_message.
Print Assumptions parameters_merged_partial.
Print Assumptions parameters_of_one_place.
Print Assumptions parameters_merged_refuted.
Print Assumptions parameters_undefined_refuted.
Print Assumptions parameters_clash_refuted.
