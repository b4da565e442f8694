(** Theorems about the products of a stored project after it was resolved again: whose build data is kept, what it fits, and where it goes. *)
From Coq Require Import String Ascii.
From Coq Require Import List Bool NArith Lia Permutation Sorting.Sorted.
From Verif Require Import Str ReloadModel.
Import ListNotations.
Open Scope N_scope.

(** Strings in the examples. *)
Definition txt (s : String.string) : str := List.map Ascii.N_of_ascii (String.list_ascii_of_string s).
Arguments txt s%string.

(** * Specification *)
(** A product depends on others, directly or not. *)
Inductive needs (all : list product) : str -> str -> Prop :=
| needs_self n : needs all n n
| needs_dep p m d x : In p all -> In (d, m) (deps p) -> needs all d x -> needs all (name p) x.
Definition acyclic (rank : str -> nat) (all : list product) : Prop :=
  forall p d m, In p all -> In (d, m) (deps p) -> (rank d < rank (name p))%nat.
(** The two products are set up from the same things. *)
Record same_setup (old new : product) : Prop := {
  ss_enabled : enabled old = enabled new;
  ss_type : has_data old = true -> type old = type new;
  ss_install : has_data old = true -> install old = install new;
  ss_scanners : length (scanners old) = length (scanners new) /\ forall s, In s (scanners old) -> In s (scanners new);
  ss_rules : Permutation (rules old) (rules new);
  ss_deps : length (deps old) = length (deps new) /\ forall d, In d (deps old) <-> In d (deps new);
  ss_sources : Permutation (map fst (sources old)) (map fst (sources new)) }.

(** * Proofs *)
Lemma mem_spec x l : mem x l = true <-> In x l.
Proof.
  unfold mem. rewrite existsb_exists. split.
  - intros (y & Hy & E). apply str_eqb_eq in E. subst. exact Hy.
  - intros H. exists x. split; [exact H|apply str_eqb_refl].
Qed.
Lemma mem_no x l : mem x l = false <-> ~ In x l.
Proof. rewrite <- mem_spec. destruct (mem x l); split; congruence. Qed.
Lemma list_eqb_spec a : forall b, list_eqb a b = true <-> a = b.
Proof.
  induction a as [|x a IH]; destruct b as [|y b]; cbn; try (split; congruence).
  rewrite andb_true_iff, str_eqb_eq, IH. split; [intros [-> ->]; reflexivity|intros E; injection E; auto].
Qed.
Lemma find_product_In n l p : find_product n l = Some p -> In p l /\ name p = n.
Proof. unfold find_product. intros H. apply find_some in H. destruct H as (H & E). apply str_eqb_eq in E. auto. Qed.
Lemma find_product_none n l : find_product n l = None <-> ~ In n (map name l).
Proof.
  unfold find_product. induction l as [|q l IH]; cbn; [tauto|].
  destruct (str_eqb (name q) n) eqn:E.
  - apply str_eqb_eq in E. split; [discriminate|]. intros H. exfalso. auto.
  - apply str_eqb_neq in E. rewrite IH. split; [intros H [X|X]; auto|auto].
Qed.
Lemma find_product_nodup l p : NoDup (map name l) -> In p l -> find_product (name p) l = Some p.
Proof.
  unfold find_product. induction l as [|q l IH]; cbn; intros ND H; [contradiction|].
  inversion ND as [|? ? N1 N2]; subst. destruct H as [->|H].
  - rewrite str_eqb_refl. reflexivity.
  - destruct (str_eqb (name q) (name p)) eqn:E; [|auto]. apply str_eqb_eq in E. exfalso. apply N1. rewrite E. apply in_map. exact H.
Qed.

(** ** The closure under dependencies *)
Section Closure.
  Context (all : list product) (ND : NoDup (map name all)) (rank : str -> nat) (AC : acyclic rank all) (init : list str).
  (** What is known while products are looked at. *)
  Definition Good (changed seen : list str) : Prop :=
    (forall n, In n init -> In n changed) /\
    (forall n, In n changed -> In n init \/ exists x, In x init /\ needs all n x /\ In n (map name all)) /\
    (forall n, In n seen -> forall x, In x init -> ~ needs all n x).
  Definition grows (a b : list str) : Prop := forall n, In n a -> In n b.
  Lemma changed_needs changed seen n : Good changed seen -> In n changed -> exists x, In x init /\ needs all n x.
  Proof.
    intros (_ & G & _) H. destruct (G n H) as [H0|(x & Hx & Nx & _)]; [exists n; split; [exact H0|constructor]|exists x; auto].
  Qed.
  Lemma check_dep_ok fuel : forall changed seen n, (rank n < fuel)%nat -> Good changed seen ->
    exists b changed' seen', check_dep fuel all changed seen n = Some (b, changed', seen') /\ Good changed' seen' /\
      grows changed changed' /\ grows seen seen' /\
      (b = true -> In n changed') /\ (b = false -> In n seen').
  Proof.
    induction fuel as [|fuel IH]; intros changed seen n F G; [lia|]. cbn [check_dep].
    destruct (mem n seen) eqn:M1.
    { apply mem_spec in M1. exists false, changed, seen. unfold grows. repeat split; try tauto; try (apply G); try (intros; discriminate); auto. }
    destruct (mem n changed) eqn:M2.
    { apply mem_spec in M2. exists true, changed, seen. unfold grows. repeat split; try tauto; try (apply G); try (intros; discriminate); auto. }
    apply mem_no in M1, M2.
    set (ds0 := match find_product n all with Some p => deps p | None => [] end).
    assert (D0 : forall d m, In (d, m) ds0 -> exists p, In p all /\ name p = n /\ In (d, m) (deps p)).
    { unfold ds0. destruct (find_product n all) as [p|] eqn:E; [|contradiction]. apply find_product_In in E. intros d m H. exists p. tauto. }
    assert (D1 : forall p, In p all -> name p = n -> ds0 = deps p).
    { intros p Hp E. unfold ds0. rewrite <- E, (find_product_nodup all p ND Hp). reflexivity. }
    assert (L : forall ds changed seen, (forall d m, In (d, m) ds -> In (d, m) ds0) ->
      (forall d m, In (d, m) ds0 -> In (d, m) ds \/ forall x, In x init -> ~ needs all d x) -> ~ In n init -> Good changed seen ->
      exists b changed' seen',
        (fix loop (ds : list (str * bool)) (changed seen : list str) : option (bool * list str * list str) :=
           match ds with
           | [] => Some (false, changed, seen ++ [n])
           | d :: ds =>
               match check_dep fuel all changed seen (fst d) with
               | None => None
               | Some (true, changed, seen) => Some (true, changed ++ [n], seen)
               | Some (false, changed, seen) => loop ds changed seen
               end
           end) ds changed seen = Some (b, changed', seen') /\ Good changed' seen' /\
      grows changed changed' /\ grows seen seen' /\ (b = true -> In n changed') /\ (b = false -> In n seen')).
    { clear changed seen G M1 M2. induction ds as [|[d m] ds IHd]; intros changed seen Sub Done Ni G.
      - exists false, changed, (seen ++ [n]). split; [reflexivity|]. unfold grows. repeat split; try (intros; discriminate);
          try (intros; apply in_or_app; cbn; auto); try (apply G); auto.
        intros k Hk x Hx C. apply in_app_or in Hk. destruct Hk as [Hk|[<-|[]]]; [exact (proj2 (proj2 G) k Hk x Hx C)|].
        inversion C; subst; [exact (Ni Hx)|].
        match goal with P : In ?q all, Dp : In (?e, ?mm) (deps ?q), Nx : needs all ?e x |- _ =>
          destruct (Done e mm) as [[]|Dn]; [rewrite (D1 q P eq_refl); exact Dp|exact (Dn x Hx Nx)] end.
      - destruct (D0 d m (Sub d m (or_introl eq_refl))) as (p & Hp & En & Hd).
        assert (F' : (rank d < fuel)%nat). { pose proof (AC p d m Hp Hd) as A1. rewrite En in A1. lia. }
        destruct (IH changed seen d F' G) as (b & c1 & s1 & E & G1 & Gr1 & Gr2 & T1 & T2).
        cbn [fst]. rewrite E. destruct b.
        + exists true, (c1 ++ [n]), s1. split; [reflexivity|]. specialize (T1 eq_refl).
          destruct (changed_needs c1 s1 d G1 T1) as (x & Hx & Nx). unfold grows in *. repeat split.
          * intros k Hk. apply in_or_app. left. apply (proj1 G1). exact Hk.
          * intros k Hk. apply in_app_or in Hk. destruct Hk as [Hk|[<-|[]]]; [apply (proj1 (proj2 G1)); exact Hk|].
            right. exists x. split; [exact Hx|]. split; [rewrite <- En; exact (needs_dep all p m d x Hp Hd Nx)|]. rewrite <- En. apply in_map. exact Hp.
          * apply (proj2 (proj2 G1)).
          * intros k Hk. apply in_or_app. auto.
          * exact Gr2.
          * intros _. apply in_or_app. cbn. auto.
          * intros. discriminate.
        + specialize (T2 eq_refl). destruct (IHd c1 s1) as (b & c2 & s2 & E2 & G2 & Gr3 & Gr4 & T3 & T4).
          * intros d' m' H. apply Sub. right. exact H.
          * intros d' m' H. destruct (Done d' m' H) as [[X|X]|X]; [|left; exact X|right; exact X].
            injection X as <- <-. right. intros x Hx. exact (proj2 (proj2 G1) d T2 x Hx).
          * exact Ni.
          * exact G1.
          * exists b, c2, s2. split; [exact E2|]. unfold grows in *. repeat split; try (apply G2); auto. }
    apply L.
    - auto.
    - auto.
    - intros C. apply M2. apply (proj1 G). exact C.
    - exact G.
  Qed.
  Lemma complete_ok fuel : (forall n, (rank n < fuel)%nat) -> forall todo changed seen, Good changed seen ->
    (forall p, In p all -> In p todo \/ In (name p) changed \/ In (name p) seen) ->
    exists changed' seen', complete fuel all todo changed seen = Some changed' /\ Good changed' seen' /\
      forall p, In p all -> In (name p) changed' \/ In (name p) seen'.
  Proof.
    intros F. induction todo as [|p todo IH]; intros changed seen G D.
    - exists changed, seen. split; [reflexivity|]. split; [exact G|]. intros p Hp. destruct (D p Hp) as [[]|H]; exact H.
    - cbn. destruct (check_dep_ok fuel changed seen (name p) (F _) G) as (b & c1 & s1 & E & G1 & Gr1 & Gr2 & T1 & T2). rewrite E.
      apply IH; [exact G1|]. intros q Hq. destruct (D q Hq) as [[->|H]|[H|H]]; [|left; exact H| |].
      + right. destruct b; auto.
      + right. left. apply Gr1. exact H.
      + right. right. apply Gr2. exact H.
  Qed.
End Closure.

(** ** C75: the products to be set up anew are those that have changed and those that depend on them *)
Theorem reload_changed all rank fuel init :
  NoDup (map name all) -> acyclic rank all -> (forall n, (rank n < fuel)%nat) ->
  exists changed, complete fuel all all init [] = Some changed /\
    (forall n, In n init -> In n changed) /\
    (forall p, In p all -> (In (name p) changed <-> exists x, In x init /\ needs all (name p) x)) /\
    (forall n, In n changed -> In n init \/ In n (map name all)).
Proof.
  intros ND AC F.
  destruct (complete_ok all ND rank AC init fuel F all init []) as (c & s & E & G & D).
  - split; [auto|]. split; [auto|]. intros n [].
  - auto.
  - exists c. split; [exact E|]. split; [apply G|]. split.
    + intros p Hp. split.
      * intros H. exact (changed_needs all init c s (name p) G H).
      * intros (x & Hx & Nx). destruct (D p Hp) as [H|H]; [exact H|]. exfalso. exact (proj2 (proj2 G) _ H x Hx Nx).
    + intros n H. destruct (proj1 (proj2 G) n H) as [H0|(x & _ & _ & H1)]; auto.
Qed.

(** ** Comparing lists of things with keys *)
Section Keyed.
  Context {A : Type} (key : A -> str) (eqb : A -> A -> bool) (eqb_spec : forall a b, eqb a b = true <-> a = b).
  Lemma last_with_In k l x : last_with key k l = Some x -> In x l /\ key x = k.
  Proof. unfold last_with. intros H. apply find_some in H. destruct H as (H & E). apply in_rev in H. apply str_eqb_eq in E. auto. Qed.
  Lemma last_with_nodup l x : NoDup (map key l) -> In x l -> last_with key (key x) l = Some x.
  Proof.
    intros ND H. unfold last_with. destruct (find (fun y => str_eqb (key y) (key x)) (rev l)) as [y|] eqn:E.
    - apply find_some in E. destruct E as (Hy & E). apply in_rev in Hy. apply str_eqb_eq in E. f_equal.
      clear -ND H Hy E. induction l as [|z l IH]; [contradiction|]. cbn in ND. inversion ND as [|? ? N1 N2]; subst.
      destruct H as [->|H], Hy as [->|Hy]; auto; exfalso; apply N1.
      + rewrite <- E. apply in_map. exact Hy.
      + rewrite E. apply in_map. exact H.
    - apply in_rev in H. apply (find_none _ _ E) in H. rewrite str_eqb_refl in H. discriminate.
  Qed.
  Lemma nodup_key l : NoDup (map key l) -> NoDup l.
  Proof. apply NoDup_map_inv. Qed.
  Lemma lists_equal_refl l : lists_equal key eqb l l = true.
  Proof.
    unfold lists_equal. rewrite PeanoNat.Nat.eqb_refl. cbn. apply forallb_forall. intros k Hk. apply in_map_iff in Hk. destruct Hk as (x & <- & Hx).
    destruct (last_with key (key x) l) as [y|] eqn:E; [apply eqb_spec; reflexivity|]. unfold last_with in E. apply in_rev in Hx.
    apply (find_none _ _ E) in Hx. rewrite str_eqb_refl in Hx. discriminate.
  Qed.
  (** With distinct keys the lists are equal up to their order. *)
  Lemma lists_equal_spec a b : NoDup (map key a) -> lists_equal key eqb a b = true <-> Permutation a b.
  Proof.
    intros ND. unfold lists_equal. rewrite andb_true_iff, PeanoNat.Nat.eqb_eq, forallb_forall. split.
    - intros (L & H). apply NoDup_Permutation_bis; [apply nodup_key; exact ND|lia|]. intros x Hx.
      specialize (H (key x) (in_map key a x Hx)). rewrite (last_with_nodup a x ND Hx) in H.
      destruct (last_with key (key x) b) as [y|] eqn:E; [|discriminate]. apply eqb_spec in H. subst. apply (last_with_In _ _ _ E).
    - intros P. split; [apply Permutation_length; exact P|]. intros k Hk. apply in_map_iff in Hk. destruct Hk as (x & <- & Hx).
      rewrite (last_with_nodup a x ND Hx), (last_with_nodup b x); [apply eqb_spec; reflexivity| |exact (Permutation_in _ P Hx)].
      exact (Permutation_NoDup (Permutation_map key P) ND).
  Qed.
End Keyed.
Lemma rule_eqb_spec a b : rule_eqb a b = true <-> a = b.
Proof.
  destruct a as [k r], b as [k' r']. unfold rule_eqb. cbn. rewrite andb_true_iff, !str_eqb_eq. split; [intros [-> ->]; reflexivity|intros E; injection E; auto].
Qed.
Lemma filter_eqb_spec a b : filter_eqb a b = true <-> a = b.
Proof.
  destruct a as [k r x], b as [k' r' x']. unfold filter_eqb. cbn. rewrite !andb_true_iff, !list_eqb_spec, str_eqb_eq.
  split; [intros [[-> ->] ->]; reflexivity|intros E; injection E; auto].
Qed.
Lemma dep_eqb_spec a b : dep_eqb a b = true <-> a = b.
Proof.
  destruct a as [k r], b as [k' r']. unfold dep_eqb. cbn. rewrite andb_true_iff, str_eqb_eq, Bool.eqb_true_iff.
  split; [intros [-> ->]; reflexivity|intros E; injection E; auto].
Qed.
Lemma deps_equal_spec a b : deps_equal a b = true <-> length a = length b /\ forall d, In d a <-> In d b.
Proof.
  unfold deps_equal. rewrite !andb_true_iff, PeanoNat.Nat.eqb_eq, !forallb_forall.
  assert (X : forall d l, existsb (dep_eqb d) l = true <-> In d l).
  { intros d l. rewrite existsb_exists. split; [intros (y & Hy & E); apply dep_eqb_spec in E; subst; exact Hy|intros H; exists d; split; [exact H|apply dep_eqb_spec; reflexivity]]. }
  split.
  - intros ((L & H1) & H2). split; [exact L|]. intros d. split; intros H; apply X; auto.
  - intros (L & H). repeat split; [exact L| |]; intros d Hd; apply X; apply H; exact Hd.
Qed.
Lemma scanner_changes_spec old new : scanner_changes old new = false <->
  length (scanners old) = length (scanners new) /\ forall s, In s (scanners old) -> In s (scanners new).
Proof.
  unfold scanner_changes. rewrite orb_false_iff, negb_false_iff, PeanoNat.Nat.eqb_eq. split.
  - intros (H & L). split; [exact L|]. intros s Hs. apply mem_spec. destruct (mem s (scanners new)) eqn:E; [reflexivity|].
    exfalso. assert (C : existsb (fun s => negb (mem s (scanners new))) (scanners old) = true); [|congruence].
    apply existsb_exists. exists s. rewrite E. auto.
  - intros (L & H). split; [|exact L]. apply not_true_is_false. intros C. apply existsb_exists in C. destruct C as (s & Hs & E).
    apply H, mem_spec in Hs. rewrite Hs in E. discriminate.
Qed.

(** ** Comparing source files *)
Definition le (a b : str) : Prop := str_ltb b a = false.
Lemma str_ltb_irrefl a : str_ltb a a = false.
Proof. induction a as [|x a IH]; cbn; [reflexivity|]. rewrite N.ltb_irrefl, N.eqb_refl. exact IH. Qed.
Lemma str_ltb_total a : forall b, str_ltb a b = false -> str_ltb b a = false -> a = b.
Proof.
  induction a as [|x a IH]; destruct b as [|y b]; cbn; try discriminate; [reflexivity|].
  intros H1 H2. apply orb_false_iff in H1, H2. destruct H1 as (H1 & H1'), H2 as (H2 & H2'). apply N.ltb_ge in H1, H2.
  assert (x = y) by lia. subst. rewrite N.eqb_refl in *. f_equal. auto.
Qed.
Lemma str_ltb_trans a : forall b c, str_ltb a b = true -> str_ltb b c = true -> str_ltb a c = true.
Proof.
  induction a as [|x a IH]; destruct b as [|y b], c as [|z c]; cbn; try discriminate; [reflexivity|].
  rewrite !orb_true_iff, !andb_true_iff, !N.ltb_lt, !N.eqb_eq.
  intros [H|(-> & H)] [H'|(-> & H')]; try (left; lia). right. split; [reflexivity|]. exact (IH _ _ H H').
Qed.
Lemma lt_le a b : str_ltb a b = true -> le a b.
Proof. unfold le. intros H. destruct (str_ltb b a) eqn:E; [|reflexivity]. pose proof (str_ltb_trans _ _ _ H E) as C. rewrite str_ltb_irrefl in C. discriminate. Qed.
Lemma le_trans a b c : le a b -> le b c -> le a c.
Proof.
  unfold le. intros H1 H2. destruct (str_ltb c a) eqn:E; [|reflexivity]. exfalso. destruct (str_ltb a b) eqn:E1.
  - rewrite (str_ltb_trans _ _ _ E E1) in H2. discriminate.
  - pose proof (str_ltb_total _ _ E1 H1). subst. congruence.
Qed.
Definition sorted (l : list (str * str)) : Prop := StronglySorted le (map fst l).
Lemma insert_perm s l : Permutation (insert s l) (s :: l).
Proof. induction l as [|t l IH]; cbn; [reflexivity|]. destruct (str_ltb (fst t) (fst s)); [|reflexivity]. rewrite IH. apply perm_swap. Qed.
Lemma sort_perm l : Permutation (sort l) l.
Proof. induction l as [|s l IH]; cbn; [reflexivity|]. rewrite insert_perm. constructor. exact IH. Qed.
Lemma insert_sorted s l : sorted l -> sorted (insert s l).
Proof.
  unfold sorted. induction l as [|t l IH]; cbn; intros H.
  - repeat constructor.
  - inversion H as [|? ? H1 H2]; subst. destruct (str_ltb (fst t) (fst s)) eqn:E; cbn.
    + constructor; [auto|]. apply Forall_forall. intros x Hx. apply in_map_iff in Hx. destruct Hx as (y & <- & Hy).
      apply (Permutation_in _ (insert_perm s l)) in Hy. destruct Hy as [<-|Hy]; [apply lt_le; exact E|].
      rewrite Forall_forall in H2. apply H2. apply in_map. exact Hy.
    + constructor; [exact H|]. constructor; [exact E|]. rewrite Forall_forall in *. intros x Hx. exact (le_trans _ _ _ E (H2 x Hx)).
Qed.
Lemma sort_sorted l : sorted (sort l).
Proof. induction l; cbn; [constructor|apply insert_sorted; exact IHl]. Qed.
Lemma sorted_unique a : forall b, StronglySorted le a -> StronglySorted le b -> Permutation a b -> a = b.
Proof.
  induction a as [|x a IH]; intros b SA SB P.
  - apply Permutation_nil in P. auto.
  - destruct b as [|y b]; [symmetry in P; apply Permutation_nil in P; discriminate|].
    inversion SA as [|? ? A1 A2]; inversion SB as [|? ? B1 B2]; subst. rewrite Forall_forall in A2, B2.
    assert (x = y).
    { assert (X : In x (y :: b)) by (apply (Permutation_in _ P); left; reflexivity).
      assert (Y : In y (x :: a)) by (apply (Permutation_in _ (Permutation_sym P)); left; reflexivity).
      destruct X as [->|X]; [reflexivity|]. destruct Y as [->|Y]; [reflexivity|]. apply str_ltb_total; [exact (B2 _ X)|exact (A2 _ Y)]. }
    subst. f_equal. apply IH; auto. exact (Permutation_cons_inv P).
Qed.
Lemma compare_sources_spec a : forall b,
  match compare_sources a b with
  | None => map fst a <> map fst b
  | Some l => map fst a = map fst b /\ (NoDup (map fst a) -> forall s, In s l <-> In s b /\ ~ In s a)
  end.
Proof.
  induction a as [|x a IH]; destruct b as [|y b]; cbn; try (intros; discriminate).
  - split; [reflexivity|]. intros _ s. tauto.
  - destruct (str_eqb (fst x) (fst y)) eqn:E.
    + apply str_eqb_eq in E. specialize (IH b). destruct (compare_sources a b) as [l|].
      * destruct IH as (F & H). split; [congruence|]. intros ND s. inversion ND as [|? ? N1 N2]; subst. specialize (H N2).
        assert (NB : forall t, In t b -> fst t <> fst x). { intros t Ht C. apply N1. rewrite F, <- C. apply in_map. exact Ht. }
        assert (NA : forall t, In t a -> fst t <> fst x). { intros t Ht C. apply N1. rewrite <- C. apply in_map. exact Ht. }
        destruct (str_eqb (snd x) (snd y)) eqn:E2.
        -- apply str_eqb_eq in E2. assert (x = y) by (destruct x, y; cbn in *; congruence). subst y. rewrite H. split.
           ++ intros (H1 & H2). split; [auto|]. intros [C|C]; [|auto]. subst. exact (NB s H1 eq_refl).
           ++ intros ([->|H1] & H2); [exfalso; auto|]. split; [exact H1|]. intros C. auto.
        -- apply str_eqb_neq in E2. cbn. rewrite H. split.
           ++ intros [<-|(H1 & H2)].
              ** split; [auto|]. intros [C|C]; [subst; auto|]. exact (NA y C (eq_sym E)).
              ** split; [auto|]. intros [C|C]; [|auto]. subst. exact (NB s H1 eq_refl).
           ++ intros ([->|H1] & H2); [auto|]. right. split; [exact H1|]. intros C. auto.
      * intros C. apply IH. injection C as _ C. exact C.
    + apply str_eqb_neq in E. intros C. injection C as C _. auto.
Qed.
Lemma source_changes_spec old new :
  match source_changes old new with
  | None => ~ Permutation (map fst (sources old)) (map fst (sources new))
  | Some l => Permutation (map fst (sources old)) (map fst (sources new)) /\
              (NoDup (map fst (sources old)) -> forall s, In s l <-> In s (sources new) /\ ~ In s (sources old))
  end.
Proof.
  unfold source_changes. destruct (Nat.eqb (length (sources old)) (length (sources new))) eqn:L.
  - pose proof (compare_sources_spec (sort (sources old)) (sort (sources new))) as H.
    pose proof (sort_perm (sources old)) as P1. pose proof (sort_perm (sources new)) as P2.
    destruct (compare_sources (sort (sources old)) (sort (sources new))) as [l|].
    + destruct H as (F & H). split.
      * rewrite <- (Permutation_map fst P1), F. apply Permutation_map. exact P2.
      * intros ND s. rewrite H; [|exact (Permutation_NoDup (Permutation_sym (Permutation_map fst P1)) ND)].
        split; intros (H1 & H2); (split; [|intros C; apply H2]).
        -- exact (Permutation_in _ P2 H1).
        -- exact (Permutation_in _ (Permutation_sym P1) C).
        -- exact (Permutation_in _ (Permutation_sym P2) H1).
        -- exact (Permutation_in _ P1 C).
    + intros P. apply H. apply sorted_unique; try apply sort_sorted.
      rewrite (Permutation_map fst P1), P. symmetry. apply Permutation_map. exact P2.
  - apply PeanoNat.Nat.eqb_neq in L. intros P. apply L. apply Permutation_length in P. rewrite !map_length in P. exact P.
Qed.

(** ** C75: build data is kept exactly if the product is set up from the same things *)
Theorem reload_kept old new : NoDup (map r_key (rules old)) ->
  (exists update l, check old new = Some (update, l)) <-> same_setup old new.
Proof.
  intros ND. unfold check. split.
  - intros (u & l & H). destruct (Bool.eqb (enabled new) (enabled old)) eqn:E1; [|discriminate]. cbn [negb] in H. apply Bool.eqb_prop in E1.
    destruct (property_changes old new) as [c v] eqn:E2.
    destruct c; [discriminate|]. destruct (scanner_changes old new) eqn:E3; [discriminate|]. cbn [orb] in H.
    destruct (rules_equal (rules old) (rules new)) eqn:E4; [|discriminate]. destruct (deps_equal (deps old) (deps new)) eqn:E5; [|discriminate].
    cbn [negb orb] in H. pose proof (source_changes_spec old new) as E6. destruct (source_changes old new) as [l'|]; [|discriminate].
    apply scanner_changes_spec in E3. apply deps_equal_spec in E5. apply (lists_equal_spec r_key rule_eqb rule_eqb_spec _ _ ND) in E4.
    unfold property_changes in E2.
    constructor; auto; try (apply E6); intros HD; rewrite HD in E2; cbn [negb] in E2;
      (destruct (list_eqb (type old) (type new)) eqn:E7; [|discriminate]);
      (destruct (list_eqb (install old) (install new)) eqn:E8; [|discriminate]); apply list_eqb_spec; assumption.
  - intros [H1 H2 H3 H4 H5 H6 H7]. rewrite H1, Bool.eqb_reflx. cbn [negb].
    apply scanner_changes_spec in H4. apply deps_equal_spec in H6. apply (lists_equal_spec r_key rule_eqb rule_eqb_spec _ _ ND) in H5.
    change (lists_equal r_key rule_eqb) with rules_equal in H5.
    rewrite H4, H5, H6. destruct (property_changes old new) as [c v] eqn:E2.
    assert (c = false).
    { unfold property_changes in E2. destruct (has_data old); cbn [negb] in E2; [|congruence].
      rewrite (proj2 (list_eqb_spec _ _) (H2 eq_refl)), (proj2 (list_eqb_spec _ _) (H3 eq_refl)) in E2. cbn [negb] in E2. congruence. }
    subst. cbn [orb negb]. pose proof (source_changes_spec old new) as E6. destruct (source_changes old new) as [l'|]; [eauto|contradiction].
Qed.
(** What is updated when the data is kept. *)
Theorem reload_updates old new update l : check old new = Some (update, l) ->
  (NoDup (map fst (sources old)) -> forall s, In s l <-> In s (sources new) /\ ~ In s (sources old)) /\
  (NoDup (map (fun f => join (f_tags f)) (filters old)) ->
     (update = false <-> (has_data old = true -> Permutation (filters old) (filters new) /\ props old = props new))).
Proof.
  unfold check. intros H. destruct (Bool.eqb (enabled new) (enabled old)) eqn:E1; [|discriminate]. cbn [negb] in H.
  destruct (property_changes old new) as [c v] eqn:E2.
  destruct (c || scanner_changes old new || negb (rules_equal (rules old) (rules new)) || negb (deps_equal (deps old) (deps new))) eqn:E3; [discriminate|].
  apply orb_false_iff in E3. destruct E3 as (E3 & _). apply orb_false_iff in E3. destruct E3 as (E3 & _). apply orb_false_iff in E3. destruct E3 as (-> & _).
  pose proof (source_changes_spec old new) as E6. destruct (source_changes old new) as [l'|]; [|discriminate]. injection H as -> ->.
  split; [apply E6|]. intros ND. unfold property_changes in E2. destruct (has_data old); cbn [negb] in E2.
  - destruct (list_eqb (type old) (type new)); [|discriminate]. destruct (list_eqb (install old) (install new)); [|discriminate]. cbn [negb] in E2.
    injection E2 as <-. rewrite orb_false_iff, !negb_false_iff, str_eqb_eq. unfold filters_equal.
    rewrite (lists_equal_spec _ filter_eqb filter_eqb_spec _ _ ND). split; [auto|]. intros X. exact (X eq_refl).
  - injection E2 as <-. split; [discriminate|reflexivity].
Qed.
(** A product that is the same is kept as it is. *)
Theorem reload_same old : check old old = Some (false, []).
Proof.
  unfold check. rewrite Bool.eqb_reflx. cbn [negb]. unfold property_changes. rewrite !(proj2 (list_eqb_spec _ _) eq_refl). cbn [negb].
  unfold filters_equal, rules_equal. rewrite (lists_equal_refl _ filter_eqb filter_eqb_spec), (lists_equal_refl _ rule_eqb rule_eqb_spec), str_eqb_refl.
  rewrite (proj2 (scanner_changes_spec old old)), (proj2 (deps_equal_spec _ _)); try (split; [reflexivity|tauto]).
  assert (E : source_changes old old = Some []).
  { unfold source_changes. rewrite PeanoNat.Nat.eqb_refl. induction (sort (sources old)) as [|x l IH]; [reflexivity|].
    cbn. rewrite !str_eqb_refl, IH. reflexivity. }
  rewrite E. destruct (has_data old); reflexivity.
Qed.

(** Which products are found to have changed. *)
Theorem reload_found forced old new : NoDup (map name new) ->
  (forall p, In p old -> NoDup (map r_key (rules p))) -> forall n,
  In n (check_all forced old new) <->
  In n forced \/ exists p q, In p old /\ In q new /\ name p = n /\ name q = n /\ ~ same_setup p q.
Proof.
  intros ND NR n. unfold check_all. revert forced. induction old as [|p old IH]; intros forced; cbn [fold_left].
  - split; [auto|]. intros [H|(p & q & [] & _)]. exact H.
  - rewrite IH; [|intros x Hx; apply NR; right; exact Hx].
    assert (X : forall q, In q new -> name q = name p -> find_product (name p) new = Some q).
    { intros q Hq E. rewrite <- E. apply find_product_nodup; assumption. }
    pose proof (NR p (or_introl eq_refl)) as NP.
    destruct (find_product (name p) new) as [q|] eqn:F.
    + apply find_product_In in F. destruct F as (Hq & Eq).
      destruct (check p q) as [[u l]|] eqn:C.
      * assert (K : same_setup p q) by (apply reload_kept; [exact NP|eauto]).
        split; (intros [H|(a & b & H1 & H2 & H3 & H4 & H5)]; [left; exact H|]).
        -- right. exists a, b. cbn. auto.
        -- destruct H1 as [<-|H1]; [|right; exists a, b; auto]. exfalso. apply H5.
           assert (Some q = Some b) by (apply X; [exact H2|congruence]). congruence.
      * assert (K : ~ same_setup p q). { intros K. apply (reload_kept p q NP) in K. destruct K as (u & l & K). congruence. }
        assert (Y : In n (if mem (name p) forced then forced else forced ++ [name p]) <-> In n forced \/ n = name p).
        { destruct (mem (name p) forced) eqn:M.
          - apply mem_spec in M. split; [auto|]. intros [H| ->]; assumption.
          - rewrite in_app_iff. cbn. split; [intros [H|[H|[]]]; auto|intros [H|H]; auto]. }
        rewrite Y. split.
        -- intros [[H|H]|(a & b & H1 & H2 & H3 & H4 & H5)]; [auto| |].
           ++ right. exists p, q. cbn. split; [auto|]. split; [exact Hq|]. split; [congruence|]. split; [congruence|exact K].
           ++ right. exists a, b. cbn. auto.
        -- intros [H|(a & b & [<-|H1] & H2 & H3 & H4 & H5)]; [auto|auto|]. right. exists a, b. auto.
    + split; (intros [H|(a & b & H1 & H2 & H3 & H4 & H5)]; [left; exact H|]).
      * right. exists a, b. cbn. auto.
      * destruct H1 as [<-|H1]; [|right; exists a, b; auto]. exfalso.
        assert (None = Some b) by (apply X; [exact H2|congruence]). discriminate.
Qed.

(** ** C76: where the build data of each product goes *)
Lemma has_new n new : (match find_product n new with Some _ => true | None => false end = true <-> In n (map name new)) /\
  (match find_product n new with Some _ => false | None => true end = true <-> ~ In n (map name new)).
Proof.
  pose proof (find_product_none n new) as H. destruct (find_product n new) as [q|] eqn:E.
  - apply find_product_In in E. destruct E as (Hq & <-). pose proof (in_map name new q Hq). split; split; try tauto; discriminate.
  - destruct H as [H _]. specialize (H eq_refl). split; split; try tauto; discriminate.
Qed.
Lemma remaining_In old new changed p : In p (remaining old new changed) <-> In p old /\ ~ (In (name p) changed /\ In (name p) (map name new)).
Proof.
  unfold remaining. rewrite filter_In, negb_true_iff. split; intros (H1 & H2); (split; [exact H1|]).
  - intros (C1 & C2). apply mem_spec in C1. apply (proj1 (has_new (name p) new)) in C2. rewrite C1, C2 in H2. discriminate.
  - apply not_true_is_false. intros C. apply H2. apply andb_true_iff in C. destruct C as (C1 & C2). apply mem_spec in C1. apply (proj1 (has_new (name p) new)) in C2. auto.
Qed.
Lemma find_remaining old new changed n : NoDup (map name old) -> In n (map name new) ->
  match find_product n (remaining old new changed) with
  | Some p => In p old /\ name p = n /\ ~ In n changed
  | None => forall p, In p old -> name p = n -> In n changed
  end.
Proof.
  intros ND Hn. destruct (find_product n (remaining old new changed)) as [p|] eqn:E.
  - apply find_product_In in E. destruct E as (H & <-). apply remaining_In in H. destruct H as (H1 & H2). split; [exact H1|]. split; [reflexivity|]. intros C. apply H2. split; [exact C|exact Hn].
  - intros p Hp <-. destruct (in_dec str_dec (name p) changed) as [H|H]; [exact H|]. exfalso.
    apply find_product_none in E. apply E. apply in_map. apply remaining_In. split; [exact Hp|tauto].
Qed.
Theorem reload_data old new changed q : NoDup (map name old) -> In q new ->
  let keeps := exists p, In p old /\ name p = name q /\ has_data p = true /\ ~ In (name q) changed in
  (data_of old new changed q = Moved <-> enabled q = true /\ keeps) /\
  (data_of old new changed q = Fresh <-> enabled q = true /\ ~ keeps) /\
  (data_of old new changed q = Nothing <-> enabled q = false).
Proof.
  intros ND Hq keeps. unfold data_of. pose proof (find_remaining old new changed (name q) ND (in_map name new q Hq)) as F.
  assert (U : forall p p', In p old -> In p' old -> name p = name p' -> p = p').
  { intros p p' H H' E. pose proof (find_product_nodup old p ND H) as X. pose proof (find_product_nodup old p' ND H') as X'. rewrite E in X. congruence. }
  destruct (find_product (name q) (remaining old new changed)) as [p|]; destruct (enabled q); try (intuition discriminate).
  - destruct F as (F1 & F2 & F3). destruct (has_data p) eqn:D.
    + assert (K : keeps) by (exists p; auto). repeat split; intros; try discriminate; try tauto.
    + assert (K : ~ keeps). { intros (p' & H1 & H2 & H3 & _). rewrite (U p' p H1 F1 (eq_trans H2 (eq_sym F2))) in H3. congruence. }
      repeat split; intros; try discriminate; try tauto.
  - assert (K : ~ keeps). { intros (p' & H1 & H2 & _ & H3). apply H3. exact (F p' H1 H2). }
    repeat split; intros; try discriminate; try tauto.
Qed.
Lemma removed_In old new changed p : In p (removed old new changed) <-> In p old /\ ~ In (name p) (map name new).
Proof.
  unfold removed. rewrite filter_In, remaining_In, (proj2 (has_new (name p) new)). split; [intros ((H & _) & H2); auto|]. intros (H & H2). tauto.
Qed.
Lemma rescued_In old new changed p : In p (rescued old new changed) <->
  In p old /\ has_data p = true /\ In (name p) changed /\ In (name p) (map name new).
Proof.
  unfold rescued. rewrite filter_In, !andb_true_iff, negb_true_iff, mem_spec. split.
  - intros (H1 & (H2 & H3) & H4). repeat split; auto. destruct (in_dec str_dec (name p) (map name new)) as [H|H]; [exact H|]. exfalso.
    assert (C : existsb (fun r => str_eqb (name r) (name p)) (removed old new changed) = true); [|congruence].
    apply existsb_exists. exists p. split; [apply removed_In; auto|apply str_eqb_refl].
  - intros (H1 & H2 & H3 & H4). repeat split; auto. apply not_true_is_false. intros C. apply existsb_exists in C. destruct C as (r & Hr & E).
    apply str_eqb_eq in E. apply removed_In in Hr. rewrite E in Hr. tauto.
Qed.
(** Files are removed exactly for products that are gone; old data is looked at later exactly for changed products that still exist. *)
Theorem reload_removed old new changed p : In p old ->
  (In p (removed old new changed) <-> ~ In (name p) (map name new)) /\
  (In p (rescued old new changed) <-> has_data p = true /\ In (name p) changed /\ In (name p) (map name new)).
Proof. intros H. rewrite removed_In, rescued_In. tauto. Qed.
(** No build data gets lost, except that of a product which was disabled and still is. *)
Theorem reload_lost_partial forced old new changed p :
  NoDup (map name old) -> NoDup (map name new) -> (forall n, In n (check_all forced old new) -> In n changed) ->
  In p old -> has_data p = true ->
  In p (removed old new changed) \/ In p (rescued old new changed) \/
  (exists q, In q new /\ name q = name p /\ data_of old new changed q = Moved) \/
  (enabled p = false /\ exists q, In q new /\ name q = name p /\ enabled q = false).
Proof.
  intros NO NN Sub Hp Hd. rewrite removed_In, rescued_In.
  destruct (in_dec str_dec (name p) (map name new)) as [Hn|Hn]; [|tauto].
  destruct (in_dec str_dec (name p) changed) as [Hc|Hc]; [tauto|]. right. right.
  apply in_map_iff in Hn. destruct Hn as (q & Eq & Hq). destruct (enabled q) eqn:E.
  - left. exists q. split; [exact Hq|]. split; [exact Eq|]. apply (reload_data old new changed q NO Hq). split; [exact E|]. exists p. rewrite Eq. split; [exact Hp|]. split; [reflexivity|]. split; [exact Hd|exact Hc].
  - right. split; [|exists q; auto]. destruct (enabled p) eqn:E2; [|reflexivity]. exfalso. apply Hc, Sub.
    assert (C : check p q = None). { unfold check. rewrite E, E2. reflexivity. }
    assert (K : forall l forced, In (name p) forced -> In (name p) (fold_left (fun changed p =>
      match find_product (name p) new with
      | None => changed
      | Some q => match check p q with Some _ => changed | None => if mem (name p) changed then changed else changed ++ [name p] end
      end) l forced)).
    { induction l as [|x l IH]; intros f Hf; [exact Hf|]. cbn [fold_left]. apply IH. destruct (find_product (name x) new); [|exact Hf].
      destruct (check x _); [exact Hf|]. destruct (mem (name x) f); [exact Hf|]. apply in_or_app. auto. }
    unfold check_all. clear Sub. revert forced. induction old as [|x old IH]; intros forced; [contradiction|]. cbn [fold_left].
    destruct Hp as [->|Hp]; [|apply IH; [inversion NO; assumption|exact Hp]]. apply K.
    rewrite <- Eq, (find_product_nodup new q NN Hq), C. destruct (mem (name q) forced) eqn:M; [apply mem_spec; exact M|apply in_or_app; cbn; auto].
Qed.
Theorem reload_lost_refuted : exists old new p, NoDup (map name old) /\ NoDup (map name new) /\ In p old /\ has_data p = true /\
  let changed := check_all [] old new in
  ~ In p (removed old new changed) /\ ~ In p (rescued old new changed) /\ forall q, In q new -> data_of old new changed q <> Moved.
Proof.
  pose (p := fun b => {| name := txt "app"; enabled := false; has_data := b; type := []; install := []; filters := []; props := []; scanners := [];
               rules := []; deps := []; sources := []; tagger := fun _ => [] |}).
  exists [p true], [p false], (p true). split; [repeat constructor; intros []|]. split; [repeat constructor; intros []|].
  split; [left; reflexivity|]. split; [reflexivity|]. vm_compute. repeat split; try tauto. intros q [<-|[]]. vm_compute. discriminate.
Qed.

(** ** C77: rules and artifacts of products that are kept *)
Lemma find_rule_spec r new r' : find_rule r new = Some r' -> r' = r /\ In r' (rules new).
Proof. unfold find_rule. intros H. apply find_some in H. destruct H as (H & E). apply rule_eqb_spec in E. auto. Qed.
(** With distinct keys each rule in the build data is found in the new product. *)
Theorem reload_rules_partial old new update l r : NoDup (map r_key (rules old)) -> check old new = Some (update, l) -> In r (rules old) ->
  find_rule r new = Some r.
Proof.
  intros ND C H. assert (K : same_setup old new) by (apply reload_kept; [exact ND|eauto]).
  pose proof (Permutation_in _ (ss_rules _ _ K) H) as H'. destruct (find_rule r new) as [r'|] eqn:E.
  - apply find_rule_spec in E. destruct E as (-> & _). reflexivity.
  - unfold find_rule in E. apply (find_none _ _ E) in H'. rewrite (proj2 (rule_eqb_spec r r) eq_refl) in H'. discriminate.
Qed.
Definition with_rules (rs : list rule) (fs : list filter) (t : str -> list str) : product :=
  {| name := txt "app"; enabled := true; has_data := true; type := []; install := []; filters := fs; props := txt "p"; scanners := [];
     rules := rs; deps := []; sources := []; tagger := t |}.
Theorem reload_rules_refuted : exists old new update l r, check old new = Some (update, l) /\ In r (rules old) /\ find_rule r new = None.
Proof.
  pose (r := fun k b => {| r_key := txt k; r_rest := txt b |}).
  exists (with_rules [r "moc"%string "x"%string; r "moc"%string "y"%string] [] (fun _ => [])), (with_rules [r "moc"%string "z"%string; r "moc"%string "y"%string] [] (fun _ => [])).
  exists false, [], (r "moc"%string "x"%string). vm_compute. split; [reflexivity|]. auto.
Qed.
(** Artifacts get the tags and properties that the new product would give them. *)
Definition carries (tags : list str) (f : filter) : Prop := exists t, In t tags /\ In t (f_tags f).
Lemma intersects_spec a f : intersects a (f_tags f) = true <-> carries a f.
Proof.
  unfold intersects, carries. rewrite existsb_exists. split; intros (x & H & E); exists x; (split; [exact H|apply mem_spec; exact E]).
Qed.
Lemma find_single {A} (f : A -> bool) a b : Permutation a b -> (forall x y, In x a -> In y a -> f x = true -> f y = true -> x = y) -> find f a = find f b.
Proof.
  intros P U. destruct (find f a) as [x|] eqn:E1, (find f b) as [y|] eqn:E2; try reflexivity.
  - apply find_some in E1, E2. destruct E1, E2. f_equal. apply U; auto. exact (Permutation_in _ (Permutation_sym P) H1).
  - apply find_some in E1. destruct E1 as (H1 & H2). apply (Permutation_in _ P) in H1. rewrite (find_none _ _ E2 _ H1) in H2. discriminate.
  - apply find_some in E2. destruct E2 as (H1 & H2). apply (Permutation_in _ (Permutation_sym P)) in H1. rewrite (find_none _ _ E1 _ H1) in H2. discriminate.
Qed.
Theorem reload_artifacts_partial old new update l file pure : check old new = Some (update, l) -> has_data old = true ->
  NoDup (map (fun f => join (f_tags f)) (filters old)) ->
  (pure = [] -> tagger old file = tagger new file) ->
  (filters old = filters new \/
   forall f g, In f (filters old) -> In g (filters old) -> carries (match pure with [] => tagger new file | _ => pure end) f ->
     carries (match pure with [] => tagger new file | _ => pure end) g -> f = g) ->
  after_reload old new update file pure = provide new file pure.
Proof.
  intros C D ND T O. unfold after_reload. destruct update; [reflexivity|].
  destruct (reload_updates old new false l C) as (_ & U). destruct (proj1 (U ND) eq_refl D) as (P & Pp).
  unfold provide.
  assert (E : match pure with [] => tagger old file | _ => pure end = match pure with [] => tagger new file | _ => pure end).
  { destruct pure; [apply T; reflexivity|reflexivity]. }
  rewrite E. set (tags := match pure with [] => tagger new file | _ => pure end) in *. clearbody tags. rewrite Pp.
  assert (F : find (fun f => intersects tags (f_tags f)) (filters old) = find (fun f => intersects tags (f_tags f)) (filters new)).
  { destruct O as [->|O]; [reflexivity|]. apply find_single; [exact P|]. intros x y Hx Hy H1 H2. apply intersects_spec in H1, H2. auto. }
  rewrite F. reflexivity.
Qed.
(** The order of groups with fileTagsFilter is not compared, but the first one that fits is taken. *)
Theorem reload_order_refuted : exists old new l file pure, check old new = Some (false, l) /\ has_data old = true /\ tagger old = tagger new /\
  pure <> [] /\ after_reload old new false file pure <> provide new file pure.
Proof.
  pose (f := fun t p => {| f_tags := [txt t]; f_extra := []; f_props := txt p |}).
  exists (with_rules [] [f "application"%string "installed"%string; f "debuginfo"%string "plain"%string] (fun _ => [])).
  exists (with_rules [] [f "debuginfo"%string "plain"%string; f "application"%string "installed"%string] (fun _ => [])).
  exists [], (txt "app.exe"), [txt "application"; txt "debuginfo"]. vm_compute. repeat split; discriminate.
Qed.
(** File taggers are not compared at all. *)
Theorem reload_tagger_refuted : exists old new l file, check old new = Some (false, l) /\ has_data old = true /\ filters old = filters new /\
  after_reload old new false file [] <> provide new file [].
Proof.
  exists (with_rules [] [] (fun _ => [txt "cpp"])), (with_rules [] [] (fun _ => [txt "generated_cpp"])), [], (txt "a.cpp").
  vm_compute. repeat split; discriminate.
Qed.

(** * Examples *)
Module Demo.
  Definition mk n ds ss rs := {| name := txt n; enabled := true; has_data := true; type := [txt "application"]; install := [txt "i"];
    filters := [{| f_tags := [txt "application"]; f_extra := [txt "x"]; f_props := txt "q" |}]; props := txt "p"; scanners := [txt "c"; txt "d"];
    rules := rs; deps := ds; sources := ss; tagger := fun _ => [txt "cpp"] |}.
  Definition ra := {| r_key := txt "a"; r_rest := txt "1" |}.
  Definition rb := {| r_key := txt "b"; r_rest := txt "1" |}.
  Definition rb' := {| r_key := txt "b"; r_rest := txt "2" |}.
  Definition s n p := (txt n, txt p).
  Definition lib := mk "lib" [] [s "l.cpp" "p"] [ra; rb].
  Definition lib' := mk "lib" [] [s "l.cpp" "p"] [ra; rb'].
  Definition app := mk "app" [(txt "lib", true)] [s "b.cpp" "p"; s "a.cpp" "p"] [ra; rb].
  Definition app' := mk "app" [(txt "lib", true)] [s "a.cpp" "r"; s "b.cpp" "p"] [rb; ra].
  Definition tool := mk "tool" [] [] [].
  Definition gone := mk "gone" [] [] [].
  Definition old := [app; lib; tool; gone].
  Definition new := [app'; lib'; tool].
  Definition rank (n : str) : nat := if str_eqb n (txt "app") then 1%nat else 0%nat.
  Example hyps : NoDup (map name old) /\ acyclic rank old /\ (forall n, (rank n < 2)%nat).
  Proof.
    split; [cbn; repeat constructor; cbn; intuition discriminate|]. split.
    - intros p d m Hp Hd. destruct Hp as [<-|[<-|[<-|[<-|[]]]]]; cbn in Hd; intuition. injection H as <- <-. vm_compute. lia.
    - intros n. unfold rank. destruct (str_eqb n (txt "app")); lia.
  Qed.
  Example kept : check app app' = Some (false, [s "a.cpp" "r"]).
  Proof. reflexivity. Qed.
  Example found : check_all [] old new = [txt "lib"].
  Proof. reflexivity. Qed.
  Example closure : complete 2 old old (check_all [] old new) [] = Some [txt "lib"; txt "app"].
  Proof. reflexivity. Qed.
  Example data : map (data_of old new [txt "lib"; txt "app"]) new = [Fresh; Fresh; Moved].
  Proof. reflexivity. Qed.
  Example rem : map name (removed old new [txt "lib"; txt "app"]) = [txt "gone"] /\ map name (rescued old new [txt "lib"; txt "app"]) = [txt "app"; txt "lib"].
  Proof. split; reflexivity. Qed.
  Example art : after_reload app app' false (txt "app.exe") [txt "application"] = (txt "q", [txt "application"; txt "x"]).
  Proof. reflexivity. Qed.
End Demo.

Print Assumptions reload_changed.
Print Assumptions reload_kept.
Print Assumptions reload_updates.
Print Assumptions reload_same.
Print Assumptions reload_found.
Print Assumptions reload_data.
Print Assumptions reload_removed.
Print Assumptions reload_lost_partial.
Print Assumptions reload_lost_refuted.
Print Assumptions reload_rules_partial.
Print Assumptions reload_rules_refuted.
Print Assumptions reload_artifacts_partial.
Print Assumptions reload_order_refuted.
Print Assumptions reload_tagger_refuted.
