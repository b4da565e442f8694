(** What becomes of exported values (C128). *)
From Coq Require Import List Bool Arith NArith Lia.
From Verif Require Import Str ExportsModel.
Import ListNotations.

(** ** Specification *)
(** The texts in a value: by itself, in a list of texts, or in a map, at any depth. *)
Inductive text_at : exported -> list str -> str -> Prop :=
| at_text s : text_at (XText s) [] s
| at_map m k v path s : In (k, v) m -> text_at v path s -> text_at (XMap m) (k :: path) s.
Inductive texts_at : exported -> list str -> list str -> Prop :=
| at_texts l : texts_at (XTexts l) [] l
| at_map_texts m k v path l : In (k, v) m -> texts_at v path l -> texts_at (XMap m) (k :: path) l.
(** The last replacement given for a prefix. *)
Definition replacement (mapping : list (str * str)) (p r : str) : Prop :=
  exists l1 l2, mapping = l1 ++ (p, r) :: l2 /\ forall r', ~ In (p, r') l2.
(** The text [s] becomes [t]: the shortest prefix is replaced. *)
Inductive becomes (mapping : list (str * str)) : str -> str -> Prop :=
| becomes_mapped p r rest : replacement mapping p r ->
    (forall p' r', In (p', r') mapping -> (exists x, p ++ rest = p' ++ x) -> length p <= length p') -> becomes mapping (p ++ rest) (r ++ rest)
| becomes_same s : (forall p r x, In (p, r) mapping -> s <> p ++ x) -> becomes mapping s s.
Definition occurs (s w : str) : Prop := exists a b, s = a ++ w ++ b.

(** ** The map of prefixes *)
Lemma before_irrefl a : before a a = false.
Proof. induction a as [|x a IH]; [reflexivity|]. cbn [before]. now rewrite N.ltb_irrefl, N.eqb_refl, IH. Qed.
Lemma before_trans a b c : before a b = true -> before b c = true -> before a c = true.
Proof.
  revert b c. induction a as [|x a IH]; intros [|y b] [|z c] H1 H2; try discriminate; try reflexivity. cbn [before] in *.
  apply orb_true_iff in H1, H2. apply orb_true_iff. destruct H1 as [H1|H1], H2 as [H2|H2].
  - left. apply N.ltb_lt in H1, H2. apply N.ltb_lt. lia.
  - left. apply andb_prop in H2. destruct H2 as [H2 _]. apply N.eqb_eq in H2. now subst.
  - left. apply andb_prop in H1. destruct H1 as [H1 _]. apply N.eqb_eq in H1. now subst.
  - right. apply andb_prop in H1, H2. destruct H1 as [E1 H1], H2 as [E2 H2]. apply N.eqb_eq in E1, E2. subst. rewrite N.eqb_refl. cbn [andb]. now apply (IH b).
Qed.
Lemma before_total a b : before a b = false -> a <> b -> before b a = true.
Proof.
  revert b. induction a as [|x a IH]; intros [|y b] H N; cbn [before] in *; try discriminate; try congruence; try reflexivity.
  apply orb_false_elim in H. destruct H as [H1 H2]. apply N.ltb_ge in H1. apply orb_true_iff. destruct (N.eq_dec x y) as [->|Q].
  - right. rewrite N.eqb_refl in *. cbn [andb] in *. apply IH; [exact H2|congruence].
  - left. apply N.ltb_lt. lia.
Qed.
Lemma before_prefix a x : x <> [] -> before (a ++ x) a = false /\ before a (a ++ x) = true.
Proof.
  intros H. induction a as [|y a [IH1 IH2]]; cbn [app before].
  - destruct x; [congruence|split; reflexivity].
  - rewrite N.ltb_irrefl, N.eqb_refl. split; [exact IH1|exact IH2].
Qed.
Fixpoint ordered {A} (m : list (str * A)) : Prop :=
  match m with [] => True | (k, _) :: r => (forall k' v', In (k', v') r -> before k k' = true) /\ ordered r end.
Lemma put_in {A} k (v : A) m k' v' : ordered m -> (In (k', v') (put_key k v m) <-> (k' = k /\ v' = v) \/ (k' <> k /\ In (k', v') m)).
Proof.
  induction m as [|[a b] m IH]; intros O; cbn [put_key].
  - split; [intros [[= <- <-]|[]]; now left|intros [[-> ->]|[_ []]]; now left].
  - destruct O as [O1 O2]. destruct (str_eqb k a) eqn:E.
    + apply str_eqb_eq in E. subst a. split.
      * intros [[= <- <-]|H]; [now left|]. right. split; [|now right]. intros ->. apply O1 in H. now rewrite before_irrefl in H.
      * intros [[-> ->]|[N [[= <- <-]|H]]]; [now left|congruence|now right].
    + apply str_eqb_neq in E. destruct (before k a) eqn:B.
      * split; [|intros [[-> ->]|[_ H]]; [now left|now right]]. intros [[= <- <-]|H]; [now left|]. right. split; [|exact H].
        intros ->. destruct H as [[= -> _]|H]; [congruence|]. apply O1 in H. pose proof (before_trans _ _ _ B H) as X. now rewrite before_irrefl in X.
      * cbn [In]. rewrite IH by exact O2. split.
        -- intros [[= <- <-]|[H|[H1 H2]]]; [right; split; [congruence|now left]|now left|right; split; [exact H1|now right]].
        -- intros [H|[H1 [[= <- <-]|H2]]]; [right; now left|now left|right; right; now split].
Qed.
Lemma put_ordered {A} k (v : A) m : ordered m -> ordered (put_key k v m).
Proof.
  induction m as [|[a b] m IH]; intros O; cbn [put_key]; [split; [intros ? ? []|exact Logic.I]|]. destruct O as [O1 O2]. destruct (str_eqb k a) eqn:E.
  - apply str_eqb_eq in E. subst a. split; [exact O1|exact O2].
  - apply str_eqb_neq in E. destruct (before k a) eqn:B.
    + split; [|split; [exact O1|exact O2]]. intros k' v' [[= <- <-]|H]; [exact B|]. apply O1 in H. exact (before_trans _ _ _ B H).
    + split; [|now apply IH]. intros k' v' H. apply put_in in H; [|exact O2]. destruct H as [[-> _]|[_ H]]; [|exact (O1 _ _ H)]. apply before_total; [exact B|exact E].
Qed.
Lemma map_ordered l : ordered (prefix_map l).
Proof. induction l as [|[p r] l IH] using rev_ind; [exact Logic.I|]. unfold prefix_map in *. rewrite fold_left_app. cbn [fold_left fst snd]. now apply put_ordered. Qed.
Lemma map_in l p r : In (p, r) (prefix_map l) <-> replacement l p r.
Proof.
  induction l as [|[a b] l IH] using rev_ind.
  - split; [intros []|intros (l1 & l2 & H & _); destruct l1; discriminate].
  - unfold prefix_map in *. rewrite fold_left_app. cbn [fold_left fst snd]. rewrite put_in by apply map_ordered. rewrite IH. split.
    + intros [[-> ->]|[N (l1 & l2 & -> & H)]]; [exists l, []; split; [reflexivity|intros ? []]|]. exists l1, (l2 ++ [(a, b)]). split; [now rewrite <- app_assoc|].
      intros r' X. apply in_app_or in X. destruct X as [X|[X|[]]]; [exact (H r' X)|congruence].
    + intros (l1 & l2 & E & H). destruct l2 as [|c l2 _] using rev_ind.
      * apply app_inj_tail in E. destruct E as [_ [= -> ->]]. now left.
      * change (l1 ++ (p, r) :: l2 ++ [c]) with (l1 ++ ((p, r) :: l2) ++ [c]) in E. rewrite app_assoc in E. apply app_inj_tail in E. destruct E as [-> <-].
        right. split; [intros ->; apply (H b), in_or_app; right; now left|]. exists l1, l2. split; [reflexivity|]. intros r' X. apply (H r'), in_or_app. now left.
Qed.
Lemma replaced_exists l p r : In (p, r) l -> exists r', replacement l p r'.
Proof.
  induction l as [|[a b] l IH] using rev_ind; intros H; [destruct H|]. destruct (str_dec a p) as [->|N].
  - exists b, l, []. split; [reflexivity|intros ? []].
  - apply in_app_or in H. destruct H as [H|[[= -> _]|[]]]; [|congruence]. destruct (IH H) as (r' & l1 & l2 & -> & X). exists r', l1, (l2 ++ [(a, b)]). split; [now rewrite <- app_assoc|].
    intros r2 Y. apply in_app_or in Y. destruct Y as [Y|[[= -> _]|[]]]; [exact (X r2 Y)|congruence].
Qed.
Lemma replaced_in l p r : replacement l p r -> In (p, r) l.
Proof. intros (l1 & l2 & -> & _). apply in_or_app. right. now left. Qed.

(** ** C128: one text *)
Lemma skipn_app_exact (p x : str) : skipn (length p) (p ++ x) = x.
Proof. induction p; [reflexivity|assumption]. Qed.
Lemma map_text_first m s : ordered m ->
  (exists p r x, In (p, r) m /\ s = p ++ x /\ map_text m s = r ++ x /\ forall p' r', In (p', r') m -> (exists y, s = p' ++ y) -> length p <= length p')
  \/ (map_text m s = s /\ forall p r x, In (p, r) m -> s <> p ++ x).
Proof.
  induction m as [|[p r] m IH]; intros O; cbn [map_text]; [right; split; [reflexivity|intros ? ? ? []]|]. destruct O as [O1 O2].
  destruct (starts_with p s) eqn:E.
  - apply starts_with_spec in E. destruct E as [x ->]. left. exists p, r, x. rewrite skipn_app_exact. split; [now left|]. split; [reflexivity|]. split; [reflexivity|].
    intros p' r' [[= <- <-]|H] [y Y]; [lia|]. apply O1 in H. destruct (Nat.le_gt_cases (length p) (length p')) as [L|L]; [exact L|exfalso].
    assert (X : exists z, p = p' ++ z /\ z <> []).
    { exists (skipn (length p') p). split.
      - apply (f_equal (firstn (length p'))) in Y. rewrite !firstn_app in Y. rewrite Nat.sub_diag, firstn_all in Y. cbn [firstn] in Y. rewrite app_nil_r in Y.
        replace (length p' - length p) with 0 in Y by lia. cbn [firstn] in Y. rewrite app_nil_r in Y. rewrite <- Y at 1. symmetry. apply firstn_skipn.
      - intros Z. apply (f_equal (@length N)) in Z. rewrite skipn_length in Z. cbn in Z. lia. }
    destruct X as (z & -> & Hz). destruct (before_prefix p' z Hz) as [X _]. congruence.
  - assert (N : forall x, s <> p ++ x) by (intros x ->; assert (starts_with p (p ++ x) = true) by (apply starts_with_spec; now exists x); congruence).
    destruct (IH O2) as [(p1 & r1 & x & A & B & C & D)|[A B]].
    + left. exists p1, r1, x. split; [now right|]. split; [exact B|]. split; [exact C|]. intros p' r' [[= <- <-]|H] [y Y]; [exfalso; exact (N y Y)|]. apply (D p' r' H). now exists y.
    + right. split; [exact A|]. intros p' r' x [[= <- <-]|H]; [apply N|now apply (B p' r')].
Qed.
Theorem text_mapped mapping s : becomes mapping s (map_text (prefix_map mapping) s).
Proof.
  destruct (map_text_first (prefix_map mapping) s (map_ordered _)) as [(p & r & x & A & -> & C & D)|[A B]].
  - rewrite C. apply map_in in A. constructor; [exact A|]. intros p' r' H [y Y]. apply replaced_exists in H. destruct H as [r2 H]. apply map_in in H. apply (D p' r2 H). now exists y.
  - rewrite A. apply becomes_same. intros p r x H. apply replaced_exists in H. destruct H as [r2 H]. apply map_in in H. exact (B p r2 x H).
Qed.
Lemma replaced_fun l p r r' : replacement l p r -> replacement l p r' -> r = r'.
Proof.
  intros H H'. apply map_in in H, H'. revert H H'. generalize (map_ordered l). generalize (prefix_map l). clear. induction l as [|[a b] l IH]; intros O H H'; [destruct H|]. destruct O as [O1 O2].
  destruct H as [H|H], H' as [H'|H'].
  - congruence.
  - injection H as -> ->. apply O1 in H'. now rewrite before_irrefl in H'.
  - injection H' as -> ->. apply O1 in H. now rewrite before_irrefl in H.
  - exact (IH O2 H H').
Qed.
Theorem becomes_unique mapping s t t' : becomes mapping s t -> becomes mapping s t' -> t = t'.
Proof.
  intros [p r x A B|s0 A] H.
  - remember (p ++ x) as sx eqn:E. destruct H as [p' r' x' A' B'|s0 A'].
    + assert (L : length p = length p').
      { apply Nat.le_antisymm; [apply (B p' r' (replaced_in _ _ _ A')); now exists x'|apply (B' p r (replaced_in _ _ _ A)); now exists x]. }
      assert (X : p = p' /\ x = x').
      { clear - E L. symmetry in E. revert p' L E. induction p as [|c p IH]; intros [|c' p'] L E; cbn in *; try discriminate; [auto|]. injection E as -> E. destruct (IH p' ltac:(lia) E) as [-> ->]. auto. }
      destruct X as [-> ->]. now rewrite (replaced_fun _ _ _ _ A A').
    + exfalso. exact (A' p r x (replaced_in _ _ _ A) E).
  - destruct H as [p' r' x' A' B'|s1 A']; [exfalso; exact (A p' r' x' (replaced_in _ _ _ A') eq_refl)|reflexivity].
Qed.

(** ** C128: values *)
Lemma contains_spec s w : contains s w = true <-> occurs s w.
Proof.
  induction s as [|c s IH]; cbn [contains].
  - rewrite orb_false_r. rewrite starts_with_spec. split; [intros [t H]; exists [], t; exact H|]. intros (a & b & H). symmetry in H. apply app_eq_nil in H. destruct H as [-> H]. exists b. now rewrite H.
  - rewrite orb_true_iff, IH, starts_with_spec. split.
    + intros [[t H]|(a & b & ->)]; [exists [], t; exact H|exists (c :: a), b; reflexivity].
    + intros ([|x a] & b & H); [left; exists b; exact H|right]. injection H as -> H. now exists a, b.
Qed.
Section Values.
  Variable lower : str -> str.
  Variables (name dir : str).
  (** Texts by themselves and in maps are mapped. *)
  Theorem texts_mapped mapping v path s : text_at v path s ->
    exists t, text_at (map_value lower name dir (prefix_map mapping) v) path t /\ becomes mapping s t.
  Proof.
    induction 1 as [s|m k v path s H T (t & IH & B)]; [eexists; split; [constructor|apply text_mapped]|]. exists t. split; [|exact B]. cbn [map_value].
    apply at_map with (v := map_value lower name dir (prefix_map mapping) v); [|exact IH]. apply in_map_iff. now exists (k, v).
  Qed.
  (** Of lists of texts exactly those are kept that do not have the name or the directory of the importing product in
      them, in their order, and they are mapped. *)
  Inductive kept_mapped (mapping : list (str * str)) : list str -> list str -> Prop :=
  | kept_nil : kept_mapped mapping [] []
  | kept_drop s l r : occurs (lower s) (lower name) \/ occurs s dir -> kept_mapped mapping l r -> kept_mapped mapping (s :: l) r
  | kept_keep s t l r : ~ occurs (lower s) (lower name) -> ~ occurs s dir -> becomes mapping s t -> kept_mapped mapping l r -> kept_mapped mapping (s :: l) (t :: r).
  Theorem lists_mapped mapping v path l : texts_at v path l ->
    exists r, texts_at (map_value lower name dir (prefix_map mapping) v) path r /\ kept_mapped mapping l r.
  Proof.
    induction 1 as [l|m k v path l H T (t & IH & B)].
    - eexists. split; [constructor|]. unfold map_texts. induction l as [|s l IH]; [constructor|]. cbn [flat_map]. destruct (refers lower name dir s) eqn:R; unfold refers in R.
      + apply orb_prop in R. rewrite !contains_spec in R. now apply kept_drop.
      + apply orb_false_elim in R. destruct R as [R1 R2]. apply kept_keep; [rewrite <- contains_spec; congruence|rewrite <- contains_spec; congruence|apply text_mapped|exact IH].
    - exists t. split; [|exact B]. cbn [map_value]. apply at_map_texts with (v := map_value lower name dir (prefix_map mapping) v); [|exact IH]. apply in_map_iff. now exists (k, v).
  Qed.
  (** The names of properties do not change, at no depth, and other values do not. *)
  Theorem names_kept mapping props : map fst (adapt lower name dir mapping props) = map fst props.
  Proof. unfold adapt. rewrite map_map. cbn [fst]. reflexivity. Qed.
  (** Everything is kept if no text starts with a prefix or refers to the importing product. *)
  Fixpoint untouched (mapping : list (str * str)) (v : exported) : Prop :=
    match v with
    | XText s => forall p r x, In (p, r) mapping -> s <> p ++ x
    | XTexts l => forall s, In s l -> (forall p r x, In (p, r) mapping -> s <> p ++ x) /\ ~ occurs (lower s) (lower name) /\ ~ occurs s dir
    | XMap m => (fix all (m : list (str * exported)) : Prop := match m with [] => True | (_, v) :: r => untouched mapping v /\ all r end) m
    | XList _ | XOther _ => True
    end.
  Fixpoint unchanged mapping (v : exported) {struct v} : untouched mapping v -> map_value lower name dir (prefix_map mapping) v = v.
  Proof.
    destruct v as [s|l|m|l|x]; cbn [untouched map_value]; intros H; try reflexivity.
    - f_equal. apply (becomes_unique mapping s); [apply text_mapped|now apply becomes_same].
    - f_equal. unfold map_texts. induction l as [|s l IH]; [reflexivity|]. cbn [flat_map]. destruct (H s (or_introl eq_refl)) as (A & B & C).
      replace (refers lower name dir s) with false.
      + cbn [app]. f_equal; [apply (becomes_unique mapping s); [apply text_mapped|now apply becomes_same]|]. apply IH. intros t T. apply H. now right.
      + symmetry. unfold refers. apply orb_false_iff. split; [destruct (contains (lower s) (lower name)) eqn:X|destruct (contains s dir) eqn:X]; try reflexivity; apply contains_spec in X; contradiction.
    - f_equal. induction m as [|[k v] m IH]; [reflexivity|]. destruct H as [H1 H2]. cbn [map fst snd]. f_equal; [f_equal; exact (unchanged mapping v H1)|exact (IH H2)].
  Defined.
  Theorem values_unchanged mapping props : (forall k v, In (k, v) props -> untouched mapping v) -> adapt lower name dir mapping props = props.
  Proof.
    intros H. unfold adapt. induction props as [|[k v] props IH]; [reflexivity|]. cbn [map fst snd]. f_equal.
    - f_equal. apply unchanged. apply (H k v). now left.
    - apply IH. intros k' v' X. apply (H k' v'). now right.
  Qed.
End Values.

(** ** What is not so *)
(** A prefix that begins with another one has no effect: the shorter one is applied, in whatever order they are given. *)
Theorem nested_prefix_refuted : exists p1 r1 p2 r2 s, length p1 < length p2 /\ (exists x, s = p2 ++ x) /\
  map_text (prefix_map [(p2, r2); (p1, r1)]) s = map_text (prefix_map [(p1, r1)]) s /\
  map_text (prefix_map [(p1, r1); (p2, r2)]) s = map_text (prefix_map [(p1, r1)]) s /\
  map_text (prefix_map [(p2, r2)]) s <> map_text (prefix_map [(p1, r1)]) s.
Proof.
  exists [47; 115]%N, [47; 97]%N, [47; 115; 47; 105]%N, [47; 98]%N, [47; 115; 47; 105; 47; 104]%N.
  split; [cbn; lia|]. split; [exists [47; 104]%N; reflexivity|]. split; [reflexivity|]. split; [reflexivity|]. vm_compute. discriminate.
Qed.
Theorem prefix_never_applied mapping p r p' r' x : In (p', r') mapping -> (exists y, p = p' ++ y) -> length p' < length p -> replacement mapping p r ->
  forall t, becomes mapping (p ++ x) t -> exists q s z, length q < length p /\ replacement mapping q s /\ p ++ x = q ++ z /\ t = s ++ z.
Proof.
  intros H [y ->] L R t B. remember ((p' ++ y) ++ x) as s eqn:E. destruct B as [q s0 z A B|s0 A].
  - exists q, s0, z. split; [|auto]. assert (X : length q <= length p') by (apply (B p' r' H); exists (y ++ x); rewrite E; now rewrite <- app_assoc). lia.
  - exfalso. apply (A p' r' (y ++ x) H). rewrite E. now rewrite <- app_assoc.
Qed.
(** Texts in other lists, like those of properties of type varList, are not mapped. *)
Theorem variant_list_refuted : exists lower name dir mapping s p r x, In (p, r) mapping /\ s = p ++ x /\ r <> p /\
  adapt lower name dir mapping [([118%N], XList [XText s])] = [([118%N], XList [XText s])].
Proof.
  exists (fun s => s), [110%N], [100%N], [([47%N], [46%N])], [47; 97]%N, [47%N], [46%N], [97%N]. split; [now left|]. split; [reflexivity|]. split; [discriminate|reflexivity].
Qed.
(** A single text is exported although it has the directory of the product made for finding out what is exported. *)
Theorem single_text_refuted : exists lower name dir s, occurs s dir /\
  adapt lower name dir [] [([112%N], XText s)] = [([112%N], XText s)] /\ adapt lower name dir [] [([112%N], XTexts [s])] = [([112%N], XTexts [])].
Proof.
  exists (fun s => s), [110%N], [47; 100]%N, [47; 100; 47; 97]%N. split; [exists [], [47; 97]%N; reflexivity|]. split; reflexivity.
Qed.

Module Demo.
  (** The example of the documentation: /src/lib is mapped to include. *)
  Definition mapping := [([47; 115], [105]); ([47; 116], [106]); ([47; 115], [107])]%N.
  Definition v := XMap [([97%N], XTexts [[47; 115; 47; 120]; [100; 48]; [47; 117]]%N); ([98%N], XText [47; 116]%N); ([99%N], XOther 5)].
  Example mapped : map_value (fun s => s) [110%N] [100%N] (prefix_map mapping) v =
    XMap [([97%N], XTexts [[107; 47; 120]; [47; 117]]%N); ([98%N], XText [106%N]); ([99%N], XOther 5)].
  Proof. reflexivity. Qed.
  Example where_it_is : texts_at v [[97%N]] [[47; 115; 47; 120]; [100; 48]; [47; 117]]%N /\ text_at v [[98%N]] [47; 116]%N.
  Proof.
    split.
    - eapply at_map_texts; [now left|constructor].
    - eapply at_map; [right; now left|constructor].
  Qed.
  Example nothing_to_do : untouched (fun s => s) [110%N] [100%N] mapping (XMap [([97%N], XTexts [[47; 117]%N]); ([98%N], XText [116%N])]).
  Proof.
    cbn [untouched]. split; [|split; [|exact Logic.I]].
    - intros s [<-|[]]. split; [|split; rewrite <- contains_spec; discriminate]. intros p r x [[= <- <-]|[[= <- <-]|[[= <- <-]|[]]]]; discriminate.
    - intros p r x [[= <- <-]|[[= <- <-]|[[= <- <-]|[]]]]; discriminate.
  Qed.
End Demo.

Print Assumptions text_mapped.
Print Assumptions becomes_unique.
Print Assumptions texts_mapped.
Print Assumptions lists_mapped.
Print Assumptions names_kept.
Print Assumptions values_unchanged.
Print Assumptions nested_prefix_refuted.
Print Assumptions prefix_never_applied.
Print Assumptions variant_list_refuted.
Print Assumptions single_text_refuted.
