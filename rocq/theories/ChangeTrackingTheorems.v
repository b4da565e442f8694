(** Change tracking: if no script has to run again, it would read the same values and do the same; if it reads the same values, it does not run again. *)
From Coq Require Import List Bool NArith ZArith Lia Sorting.Permutation.
Import ListNotations.
From Verif Require Import Str SettingsModel SettingsTheorems ChangeTrackingModel.
From Verif Require LspModel.
Local Open Scope N_scope.

(** ** Specification *)

(** The values a script reads, one after the other *)
Fixpoint asked (own : str) (w : world) (s : script) : list (query * ans) :=
  match s with Done _ => [] | Ask q k => match answer own w q with Some a => (q, a) :: asked own w (k a) | None => [] end end.

(** There is no empty list and no empty object in the value *)
Fixpoint plain (v : var) : Prop :=
  match v with
  | VList l => l <> [] /\ (fix all l := match l with [] => True | x :: l => plain x /\ all l end) l
  | VMap m => m <> [] /\ (fix all m := match m with [] => True | (_, x) :: m => plain x /\ all m end) m
  | _ => True
  end.
(** An empty list or object at the top may be there if the new value is undefined, or if both values are lists or both are objects *)
Definition comparable (v v' : var) : Prop :=
  v' = VUndef \/ plain v \/ (exists l l', v = VList l /\ v' = VList l' /\ Forall plain l) \/ (exists m m', v = VMap m /\ v' = VMap m' /\ Forall (fun e => plain (snd e)) m).

(** The same names in another order do not happen, nor does a product instead of a module of the same name *)
Definition same_order (x x' : product) : Prop := (forall n, In n (map snd (dep_list x)) <-> In n (map snd (dep_list x'))) -> dep_list x = dep_list x'.
(** No other dependency has the plain name [n] of the dependency [d] *)
Definition alone (x : product) (b : bool) (d n : str) : Prop :=
  if b then (forall y, In y (p_deps x) -> d_name y = n <-> d_unique y = d) /\ (forall m, In m (p_modules x) -> m_name m <> n)
  else d = n /\ forall y, In y (p_deps x) -> d_name y <> n.
Definition no_targets (x : product) : Prop := forall a, In a (p_arts x) -> a_target a = None.

(** The project [w'] is such that a change of what was read as [q] in [w], at the time [now], is recognized *)
Definition good (own : str) (w w' : world) (now : nat) (q : query) : Prop :=
  match q with
  | QModule p m k =>
      m <> [] /\ ~ In 58 m /\
      forall x x', find_product w p = Some x -> find_product w' p = Some x' -> comparable (module_property (p_modprops x) m k) (module_property (p_modprops x') m k)
  | QProduct p k =>
      forall x o, find_product w p = Some x -> find_product w own = Some o -> lookup (p_props x) k <> None /\ p <> p_project o /\
      forall x', find_product w' p = Some x' -> comparable (value (p_props x) k) (value (p_props x') k)
  | QProject k =>
      forall o, find_product w own = Some o -> lookup (p_project_props o) k <> None /\
      forall o', find_product w' own = Some o' -> p_project o' = p_project o /\ comparable (value (p_project_props o) k) (value (p_project_props o') k)
  | QParam p b d path k =>
      forall x, find_product w p = Some x ->
      (forall x', find_product w' p = Some x' -> same_order x x') /\
      forall m, dep_params x b d = Some m ->
        lookup (walk m path) k <> None /\ (forall n, value (walk m path) k <> VMap n) /\ path <> [] /\ (forall e, In e path -> ~ In 46 e) /\
        exists n, ~ In 58 n /\ alone x b d n /\
        forall x', find_product w' p = Some x' -> alone x' b d n /\ forall m', dep_params x' b d = Some m' -> comparable (value (walk m path) k) (value (walk m' path) k)
  | QArtModule p path m k =>
      m <> [] /\
      forall x x' a a', find_product w p = Some x -> find_product w' p = Some x' -> find_art x path = Some a -> find_art x' path = Some a' ->
      comparable (module_property (a_props a) m k) (module_property (a_props a') m k)
  | QDeps p => forall x x', find_product w p = Some x -> find_product w' p = Some x' -> same_order x x'
  | QTag p t =>
      forall x x' a a', find_product w p = Some x -> find_product w' p = Some x' -> In a (p_arts x) -> In a' (p_arts x') -> a_path a = a_path a' -> (a_target a = None <-> a_target a' = None)
  | QTags p => forall x x', find_product w p = Some x -> find_product w' p = Some x' -> no_targets x /\ no_targets x'
  | QImport f => forall t c t' c', find_file w f = Some (t, c) -> find_file w' f = Some (t', c') -> (t' <= now)%nat -> c' = c
  | QArtTags _ _ | QExport _ => True
  | QHasModule _ _ | QModuleTag _ _ _ | QArtProduct _ _ _ => False
  end.

(** All products that are depended on exist *)
Definition closed (w : world) : Prop :=
  forall x, In x (w_products w) -> (forall d, In d (p_deps x) -> find_product w (d_unique d) <> None) /\ (forall n, In n (p_export_deps x) -> find_product w n <> None).

(** ** Values *)

Lemma veq_refl : forall v, veq v v = true.
Proof.
  fix IH 1. intros v. destruct v as [|b|z|s|l|m]; cbn [veq is_null Bool.eqb negb]; try reflexivity.
  - now destruct b.
  - apply Z.eqb_refl.
  - apply str_eqb_refl.
  - cbn [to_list]. induction l as [|x l IHl]; [reflexivity|]. now rewrite IH, IHl.
  - cbn [to_map]. induction m as [|[k x] m IHm]; [reflexivity|]. now rewrite str_eqb_refl, IH, IHm.
Qed.
Lemma plain_list l : plain (VList l) -> Forall plain l.
Proof.
  intros [_ H]. induction l as [|x l IH]; constructor; [apply H|apply IH, H].
Qed.
Lemma plain_map m : plain (VMap m) -> Forall (fun e => plain (snd e)) m.
Proof.
  intros [_ H]. induction m as [|[k x] m IH]; constructor; [apply H|apply IH, H].
Qed.
Lemma plain_veq : forall v v', plain v -> veq v v' = true -> v' = v.
Proof.
  fix IH 1. intros v v' P E. destruct v as [|b|z|s|l|m].
  - destruct v'; cbn in E; congruence.
  - destruct v'; cbn in E; try discriminate. apply eqb_prop in E. congruence.
  - destruct v'; cbn in E; try discriminate. apply Z.eqb_eq in E. congruence.
  - destruct v'; cbn in E; try discriminate. apply str_eqb_eq in E. congruence.
  - destruct P as [N P]. destruct v' as [| | | |l'|m']; cbn [veq is_null Bool.eqb negb to_list] in E; try discriminate; try (destruct l; [congruence|discriminate]).
    clear N. f_equal. revert l' E. induction l as [|x l IHl]; intros [|y l'] E; try discriminate; [reflexivity|].
    destruct P as [Px P]. apply andb_true_iff in E as [E1 E2]. rewrite (IH x y Px E1). f_equal. now apply IHl.
  - destruct P as [N P]. destruct v' as [| | | |l'|m']; cbn [veq is_null Bool.eqb negb to_map] in E; try discriminate; try (destruct m as [|[? ?] ?]; [congruence|discriminate]).
    clear N. f_equal. revert m' E. induction m as [|[k x] m IHm]; intros [|[k' y] m'] E; try discriminate; [reflexivity|].
    destruct P as [Px P]. apply andb_true_iff in E as [E1 E2]. apply andb_true_iff in E1 as [E0 E1]. apply str_eqb_eq in E0. rewrite (IH x y Px E1). f_equal; [congruence|]. now apply IHm.
Qed.
Lemma comparable_veq v v' : comparable v v' -> veq v v' = true -> v' = v.
Proof.
  intros [->|[P|[(l & l' & -> & -> & F)|(m & m' & -> & -> & F)]]] E.
  - destruct v; try reflexivity; discriminate E.
  - now apply plain_veq.
  - cbn [veq is_null Bool.eqb negb to_list] in E. f_equal. revert l' E. induction F as [|x l Px F IH]; intros [|y l'] E; try discriminate; [reflexivity|].
    apply andb_true_iff in E as [E1 E2]. rewrite (plain_veq x y Px E1). f_equal. now apply IH.
  - cbn [veq is_null Bool.eqb negb to_map] in E. f_equal. revert m' E. induction F as [|[k x] m Px F IH]; intros [|[k' y] m'] E; try discriminate; [reflexivity|].
    apply andb_true_iff in E as [E1 E2]. apply andb_true_iff in E1 as [E0 E1]. apply str_eqb_eq in E0. rewrite (plain_veq x y Px E1). f_equal; [congruence|]. now apply IH.
Qed.

(** ** Sets of strings *)

Lemma strs_eqb_eq a : forall b, strs_eqb a b = true <-> a = b.
Proof.
  induction a as [|x a IH]; intros [|y b]; cbn; split; try congruence.
  - intros E. apply andb_true_iff in E as [E1 E2]. apply str_eqb_eq in E1. apply IH in E2. congruence.
  - intros [= -> ->]. rewrite str_eqb_refl. now apply IH.
Qed.
Lemma canon_In x l : In x (canon l) <-> In x l.
Proof. unfold canon. rewrite dedup_In. apply sort_In. Qed.
Lemma canon_NoDup l : NoDup (canon l).
Proof. apply dedup_from_NoDup. Qed.
Lemma canon_sorted l : SettingsTheorems.sorted (canon l).
Proof. apply dedup_from_sorted, sort_sorted. Qed.
Lemma sorted_ext l : forall l', SettingsTheorems.sorted l -> NoDup l -> SettingsTheorems.sorted l' -> NoDup l' -> (forall x, In x l <-> In x l') -> l = l'.
Proof.
  induction l as [|x l IH]; intros [|y l'] S N S' N' E.
  - reflexivity.
  - destruct (proj2 (E y)); now left.
  - destruct (proj1 (E x)); now left.
  - inversion S as [|? ? S1 S2]; inversion S' as [|? ? S1' S2']; inversion N as [|? ? N1 N2]; inversion N' as [|? ? N1' N2']; subst.
    assert (XY : x = y).
    { destruct (proj1 (E x) (or_introl eq_refl)) as [->|I1]; [reflexivity|]. destruct (proj2 (E y) (or_introl eq_refl)) as [->|I2]; [reflexivity|].
      rewrite Forall_forall in S2, S2'. apply str_leb_antisym; [now apply S2|now apply S2']. }
    subst y. f_equal. apply IH; auto. intros z. split; intros I.
    + destruct (proj1 (E z) (or_intror I)) as [->|]; [contradiction|assumption].
    + destruct (proj2 (E z) (or_intror I)) as [->|]; [contradiction|assumption].
Qed.
Lemma canon_ext l l' : canon l = canon l' <-> (forall x, In x l <-> In x l').
Proof.
  split.
  - intros E x. now rewrite <- (canon_In x l), <- (canon_In x l'), E.
  - intros E. apply sorted_ext; auto using canon_sorted, canon_NoDup. intros x. rewrite !canon_In. apply E.
Qed.

(** ** Tables *)

Definition keys {A} (l : list (str * A)) : list str := map fst l.
Lemma assoc_In {A} (l : list (str * A)) k v : assoc l k = Some v -> In (k, v) l.
Proof.
  unfold assoc. destruct (find _ l) as [[k' v']|] eqn:F; [|discriminate]. cbn. intros [= ->]. apply find_some in F as [I E]. cbn in E. apply str_eqb_eq in E. now subst.
Qed.
Lemma assoc_cons {A} k' v' (l : list (str * A)) k : assoc ((k', v') :: l) k = if str_eqb k' k then Some v' else assoc l k.
Proof. unfold assoc. cbn. now destruct (str_eqb k' k). Qed.
Lemma assoc_None {A} (l : list (str * A)) k : assoc l k = None <-> ~ In k (keys l).
Proof.
  induction l as [|[k' v'] l IH]; [cbn; tauto|]. rewrite assoc_cons. cbn. destruct (str_eqb k' k) eqn:E.
  - apply str_eqb_eq in E. split; [discriminate|intros H; exfalso; apply H; now left].
  - apply str_eqb_neq in E. rewrite IH. tauto.
Qed.
Lemma In_assoc {A} (l : list (str * A)) k v : NoDup (keys l) -> (In (k, v) l <-> assoc l k = Some v).
Proof.
  intros N. split; [|apply assoc_In]. induction l as [|[k' v'] l IH]; [easy|]. inversion N as [|? ? N1 N2]; subst. rewrite assoc_cons. intros [[= -> ->]|I].
  - now rewrite str_eqb_refl.
  - destruct (str_eqb k' k) eqn:E; [|auto]. apply str_eqb_eq in E. subst. exfalso. apply N1. change k with (fst (k, v)). now apply in_map.
Qed.
Lemma assign_keys {A} k (v : A) l : forall x, In x (keys (assign k v l)) <-> x = k \/ In x (keys l).
Proof.
  unfold keys. induction l as [|[k' v'] l IH]; intros x; cbn.
  - split; intros [H|H]; auto; contradiction.
  - destruct (str_eqb k' k) eqn:E; cbn; [apply str_eqb_eq in E; subst; split; intros [H|H]; subst; auto; destruct H; auto|]. rewrite (IH x). cbn. tauto.
Qed.
Lemma assign_NoDup {A} k (v : A) l : NoDup (keys l) -> NoDup (keys (assign k v l)).
Proof.
  induction l as [|[k' v'] l IH]; intros N; cbn; [constructor; [easy|constructor]|]. inversion N as [|? ? N1 N2]; subst. destruct (str_eqb k' k) eqn:E.
  - apply str_eqb_eq in E. subst. now constructor.
  - cbn. constructor; [|now apply IH]. intros H. apply assign_keys in H. apply str_eqb_neq in E. destruct H as [H|H]; auto.
Qed.
Lemma assign_In {A} k (v : A) l : NoDup (keys l) -> forall k' v', In (k', v') (assign k v l) <-> (k' = k /\ v' = v) \/ (k' <> k /\ In (k', v') l).
Proof.
  induction l as [|[j u] l IH]; intros N k' v'; cbn [assign].
  - cbn. split; [intros [[= <- <-]|[]]; auto|intros [[-> ->]|[_ []]]; now left].
  - inversion N as [|? ? N1 N2]; subst. cbn [fst]. destruct (str_eqb j k) eqn:E.
    + apply str_eqb_eq in E. subst j. cbn. split.
      * intros [[= <- <-]|I]; [now left|]. right. split; [|now right]. intros ->. apply N1. change k with (fst (k, v')). now apply in_map.
      * intros [[-> ->]|[D [[= -> ->]|I]]]; [now left|congruence|now right].
    + apply str_eqb_neq in E. cbn. rewrite (IH N2). split.
      * intros [[= <- <-]|[[-> ->]|[D I]]]; auto.
      * intros [[-> ->]|[D [[= -> ->]|I]]]; auto.
Qed.
Lemma assoc_assign {A} k (v : A) l : assoc (assign k v l) k = Some v.
Proof.
  induction l as [|[j u] l IH]; cbn [assign]; [rewrite assoc_cons; now rewrite str_eqb_refl|]. cbn [fst]. destruct (str_eqb j k) eqn:E; rewrite assoc_cons.
  - now rewrite str_eqb_refl.
  - now rewrite E.
Qed.
Lemma assoc_assign_other {A} k (v : A) l j : j <> k -> assoc (assign k v l) j = assoc l j.
Proof.
  intros D. induction l as [|[i u] l IH]; cbn [assign].
  - rewrite assoc_cons. destruct (str_eqb k j) eqn:E; [apply str_eqb_eq in E; congruence|reflexivity].
  - cbn [fst]. destruct (str_eqb i k) eqn:E; rewrite !assoc_cons.
    + apply str_eqb_eq in E. subst. now destruct (str_eqb k j) eqn:E; [apply str_eqb_eq in E; congruence|].
    + now rewrite IH.
Qed.
Lemma add_In x l y : In y (add x l) <-> y = x \/ In y l.
Proof.
  unfold add. destruct (mem_str x l) eqn:E.
  - apply mem_str_In in E. split; [auto|intros [->|]; auto].
  - rewrite in_app_iff. cbn. intuition congruence.
Qed.

(** ** Names of parameters *)

Lemma split_plain s : ~ In 46 s -> LspModel.split dot s = [s].
Proof.
  induction s as [|c s IH]; intros N; cbn; [reflexivity|]. destruct (c =? dot) eqn:E.
  - apply N.eqb_eq in E. exfalso. apply N. now left.
  - rewrite IH; [reflexivity|]. intros I. apply N. now right.
Qed.
Lemma split_app s r : ~ In 46 s -> LspModel.split dot (s ++ dot :: r) = s :: LspModel.split dot r.
Proof.
  induction s as [|c s IH]; intros N; cbn [app LspModel.split].
  - now rewrite N.eqb_refl.
  - destruct (c =? dot) eqn:E.
    + apply N.eqb_eq in E. exfalso. apply N. now left.
    + rewrite IH; [reflexivity|]. intros I. apply N. now right.
Qed.
Lemma split_join l : l <> [] -> (forall e, In e l -> ~ In 46 e) -> LspModel.split dot (join l) = l.
Proof.
  induction l as [|x l IH]; [congruence|]. intros _ H. destruct l as [|y l].
  - cbn. apply split_plain, H. now left.
  - change (join (x :: y :: l)) with (x ++ dot :: join (y :: l)). rewrite split_app by (apply H; now left). f_equal. apply IH; [discriminate|]. intros e I. apply H. now right.
Qed.
Lemma colon_span n r : ~ In 58 n -> span (fun c => negb (c =? colon)) (n ++ colon :: r) = (n, colon :: r).
Proof.
  intros N. apply span_app; [|now rewrite N.eqb_refl]. apply Forall_forall. intros c I. apply negb_true_iff, N.eqb_neq. intros ->. contradiction.
Qed.
Lemma before_join n r : ~ In 58 n -> before_colon (n ++ colon :: r) = n.
Proof. intros N. unfold before_colon. now rewrite colon_span. Qed.
Lemma after_join n r : ~ In 58 n -> after_colon (n ++ colon :: r) = r.
Proof. intros N. unfold after_colon. now rewrite colon_span. Qed.

Lemma find_same {A} (f g : A -> bool) l : (forall x, In x l -> f x = g x) -> find f l = find g l.
Proof. induction l as [|x l IH]; intros H; cbn; [reflexivity|]. rewrite <- (H x) by now left. destruct (f x); [reflexivity|]. apply IH. intros y I. apply H. now right. Qed.
Lemma find_none_all {A} (f : A -> bool) l : (forall x, In x l -> f x = false) -> find f l = None.
Proof. induction l as [|x l IH]; intros H; cbn; [reflexivity|]. rewrite (H x) by now left. apply IH. intros y I. apply H. now right. Qed.
Lemma alone_params x b d n m : alone x b d n -> dep_params x b d = Some m -> params_by_name x n = m.
Proof.
  unfold alone, dep_params, params_by_name. destruct b.
  - intros [A B] E. rewrite (find_same _ (fun y => str_eqb (d_unique y) d)).
    + destruct (find _ (p_deps x)) as [y|]; [|discriminate]. cbn in E. injection E as ->. destruct m as [|e m]; [|reflexivity].
      rewrite find_none_all; [reflexivity|]. intros y' I. apply str_eqb_neq. now apply B.
    + intros y I. destruct (str_eqb (d_unique y) d) eqn:U; [apply str_eqb_eq in U; apply str_eqb_eq; now apply A|]. apply str_eqb_neq in U. apply str_eqb_neq. intros C. apply U. now apply A.
  - intros [-> A] E. rewrite find_none_all; [|intros y I; apply str_eqb_neq; now apply A]. destruct (find _ (p_modules x)); [|discriminate]. cbn in E. congruence.
Qed.
Lemma alone_name x b d n m : alone x b d n -> dep_params x b d = Some m -> dep_plain_name x b d = n.
Proof.
  unfold alone, dep_params, dep_plain_name. destruct b; [|now intros [-> _]]. intros [A _] E. destruct (find _ (p_deps x)) as [y|] eqn:F; [|discriminate].
  apply find_some in F as [I U]. apply A; [assumption|]. now apply str_eqb_eq.
Qed.

(** ** What has been recorded, one by one *)

Inductive fact := FProp (x : property) | FArt (path : str) (x : property) | FImport (f : str) | FDeps (p : str) (l : list str)
| FMap (p : str) | FTag (p t : str) (l : list str) | FEnum (p : str) (l : list str) | FExport (p : str) (x : nat * list str).

Definition tracked_value (w : world) (o : product) (x : property) : var :=
  match map_by_kind w o x with
  | None => VUndef
  | Some m =>
      match r_kind x with
      | KProduct | KProject => value m (r_name x)
      | KModule => module_property m (r_module x) (r_name x)
      | KParameters => value (walk m (LspModel.split dot (after_colon (r_module x)))) (r_name x)
      | KArtifact => VUndef
      end
  end.
Definition holds (now : nat) (w : world) (o : product) (f : fact) : Prop :=
  match f with
  | FProp x => r_kind x <> KArtifact /\ veq (r_value x) (tracked_value w o x) = true
  | FArt path x => art_property_changed w o path x = false
  | FImport f => import_changed w (f, now) = false
  | FDeps p l => forall x, In x (w_products w) -> p_unique x = p -> dep_names x = l
  | FMap p => exists x, find_product w p = Some x /\ p_enabled x = true
  | FTag p t l => exists x, find_product w p = Some x /\ p_enabled x = true /\ paths (with_tag x t) = l
  | FEnum p l => exists x, find_product w p = Some x /\ p_enabled x = true /\ all_tags x = l
  | FExport p e => export_up_to_date w o (p, e) = true
  end.
Definition inT (now : nat) (t : tracked) (f : fact) : Prop :=
  match f with
  | FProp x => In x (t_props t)
  | FArt path x => exists l, In (path, l) (t_arts t) /\ In x l
  | FImport f => In (f, now) (t_imports t)
  | FDeps p l => In (p, l) (t_deps t)
  | FMap p => exists r, In (p, r) (t_maps t)
  | FTag p g l => exists r, In (p, r) (t_maps t) /\ In (g, l) (q_tags r)
  | FEnum p l => exists r, In (p, r) (t_maps t) /\ q_enumerated r = true /\ q_all r = l
  | FExport p e => In (p, e) (t_exports t)
  end.

Lemma existsb_false {A} (f : A -> bool) l : existsb f l = false <-> forall x, In x l -> f x = false.
Proof.
  split.
  - intros H x I. destruct (f x) eqn:E; [|reflexivity]. exfalso. assert (existsb f l = true) by (apply existsb_exists; eauto). congruence.
  - intros H. destruct (existsb f l) eqn:E; [|reflexivity]. apply existsb_exists in E as (x & I & E). rewrite (H x I) in E. discriminate.
Qed.
Lemma req_spec x r : req_up_to_date x r = true <->
  p_enabled x = true /\ (forall g l, In (g, l) (q_tags r) -> paths (with_tag x g) = l) /\ (q_enumerated r = true -> all_tags x = q_all r).
Proof.
  unfold req_up_to_date. destruct (p_enabled x) eqn:P; cbn [negb]; [|split; [discriminate|now intros [? _]]].
  destruct (q_enumerated r) eqn:Q; cbn [negb andb].
  - destruct (forallb _ (q_tags r)) eqn:F; cbn [negb].
    + rewrite forallb_forall in F. rewrite strs_eqb_eq. split; [|now intros (_ & _ & H); auto]. intros E. split; [reflexivity|]. split; [|auto].
      intros g l I. specialize (F _ I). now apply strs_eqb_eq in F.
    + split; [discriminate|]. intros (_ & H & _). exfalso. assert (forallb (fun x0 => strs_eqb (paths (with_tag x (fst x0))) (snd x0)) (q_tags r) = true); [|congruence].
      apply forallb_forall. intros [g l] I. apply strs_eqb_eq. now apply H.
  - destruct (q_tags r) as [|e l] eqn:T.
    + split; [|reflexivity]. intros _. split; [reflexivity|]. split; [easy|discriminate].
    + rewrite <- T. destruct (forallb _ (q_tags r)) eqn:F; cbn [negb].
      * split; [|reflexivity]. intros _. split; [reflexivity|]. split; [|discriminate]. intros g l' I. rewrite forallb_forall in F. specialize (F _ I). now apply strs_eqb_eq in F.
      * split; [discriminate|]. intros (_ & H & _). exfalso. assert (forallb (fun x0 => strs_eqb (paths (with_tag x (fst x0))) (snd x0)) (q_tags r) = true); [|congruence].
        apply forallb_forall. intros [g l'] I. apply strs_eqb_eq. now apply H.
Qed.
Lemma property_changed_spec w o x : (match map_by_kind w o x with Some m => property_changed x m | None => true end = false) <-> r_kind x <> KArtifact /\ veq (r_value x) (tracked_value w o x) = true.
Proof.
  unfold tracked_value, property_changed, map_by_kind. destruct (r_kind x) eqn:K; try (rewrite negb_false_iff; split; [split; [discriminate|assumption]|now intros [_ ?]]). split; [discriminate|now intros [? _]].
Qed.
Lemma tracker_spec now w o t : NoDup (keys (t_deps t)) -> (forall f n, In (f, n) (t_imports t) -> n = now) ->
  (needs_rerun w o t = false <-> forall f, inT now t f -> holds now w o f).
Proof.
  intros ND NI. unfold needs_rerun. rewrite !orb_false_iff, !existsb_false, !negb_false_iff. split.
  - intros [[[[[A B] C] D] E] F] f. destruct f; cbn [inT holds].
    + intros I. now apply property_changed_spec, A.
    + intros (l & I & J). specialize (C _ I). cbn in C. rewrite existsb_false in C. now apply C.
    + intros I. now apply B.
    + intros I y J <-. unfold deps_up_to_date in D. rewrite forallb_forall in D. specialize (D _ J). rewrite (proj1 (In_assoc _ _ _ ND) I) in D. now apply strs_eqb_eq.
    + intros (r & I). unfold maps_up_to_date in E. rewrite forallb_forall in E. specialize (E _ I). cbn in E. destruct (find_product w p) as [y|]; [|discriminate]. apply req_spec in E. exists y. tauto.
    + intros (r & I & J). unfold maps_up_to_date in E. rewrite forallb_forall in E. specialize (E _ I). cbn in E. destruct (find_product w p) as [y|]; [|discriminate]. apply req_spec in E as (E1 & E2 & _). exists y. auto.
    + intros (r & I & J & <-). unfold maps_up_to_date in E. rewrite forallb_forall in E. specialize (E _ I). cbn in E. destruct (find_product w p) as [y|]; [|discriminate]. apply req_spec in E as (E1 & _ & E2). exists y. auto.
    + intros I. rewrite forallb_forall in F. now apply F.
  - intros H. repeat split.
    + intros x I. apply property_changed_spec. exact (H (FProp x) I).
    + intros [f n] I. pose proof (NI _ _ I) as ->. exact (H (FImport f) I).
    + intros [path l] I. apply existsb_false. intros x J. exact (H (FArt path x) (ex_intro _ l (conj I J))).
    + unfold deps_up_to_date. apply forallb_forall. intros x J. destruct (assoc (t_deps t) (p_unique x)) as [l|] eqn:E; [|reflexivity].
      apply assoc_In in E. apply strs_eqb_eq. exact (H (FDeps _ l) E x J eq_refl).
    + unfold maps_up_to_date. apply forallb_forall. intros [p r] I. cbn. destruct (H (FMap p)) as (x & E & EN); [now exists r|]. rewrite E. apply req_spec. split; [assumption|]. split.
      * intros g l J. destruct (H (FTag p g l)) as (x' & E' & _ & Q); [now exists r|]. congruence.
      * intros J. destruct (H (FEnum p (q_all r))) as (x' & E' & _ & Q); [now exists r|]. congruence.
    + apply forallb_forall. intros [p e] I. exact (H (FExport p e) I).
Qed.

(** ** Recording *)

Definition efact (w : world) (e : engine) (f : fact) : Prop :=
  match f with
  | FProp x => In x (e_props e)
  | FArt path x => exists l, In (path, l) (e_arts e) /\ In x l
  | FImport f => In f (e_imports e)
  | FDeps p l => In p (e_deps e) /\ exists x, find_product w p = Some x /\ l = dep_names x
  | FMap p => exists r, In (p, r) (e_maps e)
  | FTag p g l => exists r, In (p, r) (e_maps e) /\ In (g, l) (q_tags r)
  | FEnum p l => exists r, In (p, r) (e_maps e) /\ q_enumerated r = true /\ q_all r = l
  | FExport p v => In p (e_exports e) /\ exists x, find_product w p = Some x /\ v = (p_export x, p_export_deps x)
  end.
(** A recorded property has the value that the tracker would find in the same project, and its kind can be told from its names *)
Definition genuine (own : str) (w : world) (x : property) : Prop :=
  exists o, find_product w own = Some o /\ r_value x = tracked_value w o x /\
  match r_kind x with
  | KModule => r_module x <> [] /\ ~ In 58 (r_module x)
  | KProduct => r_module x = [] /\ r_product x <> p_project o
  | KProject => r_module x = [] /\ r_product x = p_project o
  | KParameters => In 58 (r_module x)
  | KArtifact => False
  end.
Definition genuine_art (w : world) (path : str) (x : property) : Prop :=
  exists y a, find_product w (r_product x) = Some y /\ find_art y path = Some a /\
  match r_kind x with
  | KModule => r_module x <> [] /\ r_value x = module_property (a_props a) (r_module x) (r_name x)
  | KArtifact => r_module x = [] /\ r_value x = VList (map VStr (canon (a_tags a)))
  | _ => False
  end.
Definition genuine_req (w : world) (p : str) (r : requested) : Prop :=
  exists x, find_product w p = Some x /\ p_enabled x = true /\ q_all r = all_tags x /\ NoDup (keys (q_tags r)) /\ forall g l, In (g, l) (q_tags r) -> l = paths (with_tag x g).
Definition wfE (own : str) (w : world) (e : engine) : Prop :=
  (forall x, In x (e_props e) -> genuine own w x) /\ NoDup (keys (e_arts e)) /\ (forall path l x, In (path, l) (e_arts e) -> In x l -> genuine_art w path x) /\
  NoDup (keys (e_maps e)) /\ (forall p r, In (p, r) (e_maps e) -> genuine_req w p r).

Lemma key_eq x y : same_key x y = true -> r_product x = r_product y /\ r_module x = r_module y /\ r_name x = r_name y.
Proof. unfold same_key. rewrite !andb_true_iff, !str_eqb_eq. tauto. Qed.
Lemma map_by_kind_key w o x y : r_product x = r_product y -> r_module x = r_module y -> r_name x = r_name y -> r_kind x = r_kind y -> tracked_value w o x = tracked_value w o y.
Proof. intros A B C D. unfold tracked_value, map_by_kind. now rewrite A, B, C, D. Qed.
Lemma genuine_same own w x y : genuine own w x -> genuine own w y -> same_key x y = true -> x = y.
Proof.
  intros (o & O & V & K) (o' & O' & V' & K') E. assert (o' = o) by congruence. subst o'. apply key_eq in E as (A & B & C).
  assert (D : r_kind x = r_kind y).
  { rewrite <- A, <- B in K'. destruct (r_kind x), (r_kind y); try reflexivity; try contradiction; exfalso; repeat match goal with H : _ /\ _ |- _ => destruct H end; try congruence; try contradiction;
      match goal with H : r_module x = [], I : In 58 (r_module x) |- _ => rewrite H in I; contradiction end. }
  rewrite (map_by_kind_key w o x y A B C D), <- V' in V. clear K K' V'. destruct x, y. cbn in *. subst. reflexivity.
Qed.
Lemma genuine_art_same w path x y : genuine_art w path x -> genuine_art w path y -> same_key x y = true -> x = y.
Proof.
  intros (p & a & P & F & K) (p' & a' & P' & F' & K') E. apply key_eq in E as (A & B & C). rewrite <- A in P'. assert (p' = p) by congruence. subst p'. assert (a' = a) by congruence. subst a'.
  destruct (r_kind x) eqn:KX, (r_kind y) eqn:KY; try contradiction; destruct K as [K1 K2], K' as [K1' K2']; destruct x, y; cbn in *; subst; try congruence; reflexivity.
Qed.
Lemma insert_In x l : (forall y, In y l -> same_key x y = true -> y = x) -> forall y, In y (insert x l) <-> y = x \/ In y l.
Proof.
  intros H y. unfold insert. destruct (existsb (same_key x) l) eqn:E.
  - apply existsb_exists in E as (z & I & K). rewrite (H z I K) in I. split; [auto|intros [->|]; auto].
  - rewrite in_app_iff. cbn. intuition congruence.
Qed.
Lemma find_product_own w own o p : find_product w own = Some o -> get_product w o p = find_product w p.
Proof.
  intros F. unfold get_product. destruct (str_eqb p (p_unique o)) eqn:E; [|reflexivity]. apply str_eqb_eq in E. subst p. rewrite <- F. unfold find_product in F. apply find_some in F as [_ U]. apply str_eqb_eq in U. now rewrite U in *.
Qed.

(** What is noted for a value that was read *)
Definition facts_of (own : str) (w : world) (q : query) : list fact :=
  match q with
  | QModule p m k => match find_product w p with Some x => [FProp (mkProp p m k (module_property (p_modprops x) m k) KModule)] | None => [] end
  | QProduct p k => match find_product w p with Some x => match lookup (p_props x) k with Some v => [FProp (mkProp p [] k v KProduct)] | None => [] end | None => [] end
  | QProject k => match find_product w own with Some x => match lookup (p_project_props x) k with Some v => [FProp (mkProp (p_project x) [] k v KProject)] | None => [] end | None => [] end
  | QParam p b d path k =>
      match find_product w p with
      | Some x => FDeps p (dep_names x) ::
          match dep_params x b d with
          | Some m => match lookup (walk m path) k with Some (VMap _) => [] | Some v => [FProp (mkProp p (dep_plain_name x b d ++ colon :: join path) k v KParameters)] | None => [] end
          | None => []
          end
      | None => []
      end
  | QArtModule p path m k =>
      match find_product w p with Some x => match find_art x path with Some a => [FArt path (mkProp p m k (module_property (a_props a) m k) KModule)] | None => [] end | None => [] end
  | QArtTags p path =>
      match find_product w p with
      | Some x => match find_art x path with Some a => [FArt path (mkProp p [] [102; 105; 108; 101; 84; 97; 103; 115] (VList (map VStr (canon (a_tags a)))) KArtifact)] | None => [] end
      | None => []
      end
  | QDeps p => match find_product w p with Some x => [FDeps p (dep_names x)] | None => [] end
  | QTag p t => match find_product w p with Some x => [FMap p; FTag p t (paths (with_tag x t))] | None => [] end
  | QTags p => match find_product w p with Some x => [FMap p; FEnum p (all_tags x)] | None => [] end
  | QExport p => match find_product w p with Some x => [FExport p (p_export x, p_export_deps x)] | None => [] end
  | QImport f => [FImport f]
  | QModuleTag p _ _ => match find_product w p with Some _ => [FMap p] | None => [] end
  | QHasModule _ _ | QArtProduct _ _ _ => []
  end.
(** The names are such that properties of different kinds are not mixed up *)
Definition shape (own : str) (w : world) (q : query) : Prop :=
  match q with
  | QModule p m k => m <> [] /\ ~ In 58 m
  | QProduct p k => forall x o, find_product w p = Some x -> find_product w own = Some o -> p <> p_project o
  | QParam p b d path k =>
      forall x m, find_product w p = Some x -> dep_params x b d = Some m -> path <> [] /\ (forall e, In e path -> ~ In 46 e) /\ exists n, ~ In 58 n /\ alone x b d n
  | QArtModule p path m k => m <> []
  | _ => True
  end.
Lemma good_shape own w w' now q : good own w w' now q -> shape own w q.
Proof.
  destruct q; cbn; try tauto.
  - intros H x o P O. now destruct (H x o P O) as (_ & D & _).
  - intros H x m P D. destruct (H x P) as (_ & H2). destruct (H2 m D) as (_ & _ & A & B & n & N & AL & _). eauto 6.
Qed.
Lemma add_prop_spec own w x e : genuine own w x -> wfE own w e -> wfE own w (add_prop x e) /\ forall f, efact w (add_prop x e) f <-> f = FProp x \/ efact w e f.
Proof.
  intros G (A & B). assert (INS : forall y, In y (insert x (e_props e)) <-> y = x \/ In y (e_props e)) by (apply insert_In; intros y I K; symmetry; eapply genuine_same; eauto).
  split.
  - split; [|exact B]. cbn. intros y I. apply INS in I as [->|I]; auto.
  - intros f. destruct f; cbn; try (split; [auto|intros [C|C]; [discriminate|assumption]]). rewrite INS. split; intros [C|C]; auto; left; congruence.
Qed.
Lemma add_art_prop_spec own w path x e : genuine_art w path x -> wfE own w e -> wfE own w (add_art_prop path x e) /\ forall f, efact w (add_art_prop path x e) f <-> f = FArt path x \/ efact w e f.
Proof.
  intros G (A & N & B & C). set (old := match assoc (e_arts e) path with Some l => l | None => [] end).
  assert (OLD : forall y, In y old <-> exists l, In (path, l) (e_arts e) /\ In y l).
  { intros y. unfold old. destruct (assoc (e_arts e) path) as [l|] eqn:E.
    - apply (In_assoc _ _ _ N) in E. split; [eauto|]. intros (l' & I & J). apply (In_assoc _ _ _ N) in E, I. congruence.
    - split; [easy|]. intros (l' & I & J). apply (In_assoc _ _ _ N) in I. congruence. }
  assert (INS : forall y, In y (insert x old) <-> y = x \/ In y old).
  { apply insert_In. intros y I K. symmetry. apply OLD in I as (l & I & J). now apply (genuine_art_same w path); [|apply (B path l)|]. }
  split.
  - split; [exact A|]. split; [now apply assign_NoDup|]. split; [|exact C]. cbn. fold old. intros path' l y I J. apply assign_In in I; [|assumption]. destruct I as [[-> ->]|[D I]].
    + apply INS in J as [->|J]; [assumption|]. apply OLD in J as (l & I & J). eauto.
    + eauto.
  - intros f. destruct f as [y|path' y| | | | | |]; cbn; try (split; [auto|intros [K|K]; [discriminate|assumption]]). fold old. split.
    + intros (l & I & J). apply assign_In in I; [|assumption]. destruct I as [[-> ->]|[D I]].
      * apply INS in J as [->|J]; [now left|]. right. now apply OLD.
      * right. eauto.
    + intros [[= -> ->]|(l & I & J)].
      * exists (insert x old). split; [apply assign_In; auto|]. apply INS. now left.
      * destruct (str_dec path' path) as [->|D].
        -- exists (insert x old). split; [apply assign_In; auto|]. apply INS. right. apply OLD. eauto.
        -- exists l. split; [apply assign_In; auto|assumption].
Qed.
Lemma add_deps_spec own w p x e : find_product w p = Some x -> wfE own w e -> wfE own w (add_deps p e) /\ forall f, efact w (add_deps p e) f <-> f = FDeps p (dep_names x) \/ efact w e f.
Proof.
  intros P W. split; [exact W|]. intros f. destruct f; cbn; try (split; [auto|intros [C|C]; [discriminate|assumption]]). rewrite add_In. split.
  - intros [[->|I] (y & F & ->)]; [left; congruence|right; eauto].
  - intros [[= -> ->]|[I H]]; [split; eauto|split; auto].
Qed.
Lemma add_export_spec own w p x e : find_product w p = Some x -> wfE own w e -> wfE own w (add_export p e) /\ forall f, efact w (add_export p e) f <-> f = FExport p (p_export x, p_export_deps x) \/ efact w e f.
Proof.
  intros P W. split; [exact W|]. intros f. destruct f; cbn; try (split; [auto|intros [C|C]; [discriminate|assumption]]). rewrite add_In. split.
  - intros [[->|I] (y & F & ->)]; [left; congruence|right; eauto].
  - intros [[= -> ->]|[I H]]; [split; eauto|split; auto].
Qed.
Lemma add_import_spec own w p e : wfE own w e -> wfE own w (add_import p e) /\ forall f, efact w (add_import p e) f <-> f = FImport p \/ efact w e f.
Proof.
  intros W. split; [exact W|]. intros f. destruct f; cbn; try (split; [auto|intros [C|C]; [discriminate|assumption]]). rewrite add_In. split.
  - intros [->|I]; auto.
  - intros [[= ->]|I]; auto.
Qed.
Lemma set_req_spec own w p x g e : find_product w p = Some x -> wfE own w e ->
  (forall r, r = no_request \/ genuine_req w p r -> genuine_req w p (g r) /\ (forall t l, In (t, l) (q_tags r) -> In (t, l) (q_tags (g r))) /\ (q_enumerated r = true -> q_enumerated (g r) = true)) ->
  wfE own w (set_req p g e) /\
  forall f, efact w (set_req p g e) f <->
    efact w e f \/ match f with
                   | FMap p' => p' = p
                   | FTag p' t l => p' = p /\ In (t, l) (q_tags (g (get_req (e_maps e) p)))
                   | FEnum p' l => p' = p /\ q_enumerated (g (get_req (e_maps e) p)) = true /\ l = all_tags x
                   | _ => False end.
Proof.
  intros P (A & B & C & N & D) H. set (r0 := get_req (e_maps e) p).
  assert (R0 : r0 = no_request \/ genuine_req w p r0).
  { unfold r0, get_req. destruct (assoc (e_maps e) p) as [r|] eqn:E; [|now left]. right. apply (D p r). now apply assoc_In. }
  destruct (H r0 R0) as (G & T & EN).
  assert (ALL : forall r, genuine_req w p r -> q_all r = all_tags x) by (intros r (y & Y & _ & Q & _); congruence).
  assert (R1 : forall r, In (p, r) (e_maps e) -> r = r0).
  { intros r I. unfold r0, get_req. apply (In_assoc _ _ _ N) in I. now rewrite I. }
  split.
  - split; [exact A|]. split; [exact B|]. split; [exact C|]. split; [now apply assign_NoDup|]. cbn. intros p' r I. apply assign_In in I; [|assumption]. destruct I as [[-> ->]|[Q I]]; auto.
  - intros f. assert (IN : forall p' r, In (p', r) (e_maps (set_req p g e)) <-> p' = p /\ r = g r0 \/ p' <> p /\ In (p', r) (e_maps e)) by (intros p' r; cbn; now apply assign_In).
    destruct f as [y|path y|i|p' l|p'|p' t l|p' l|p' v]; cbn [efact]; try (cbn; tauto).
    + split.
      * intros (r & I). apply IN in I as [[-> ->]|[Q I]]; [now right|left; eauto].
      * intros [(r & I)| ->]; [|exists (g r0); apply IN; auto]. destruct (str_dec p' p) as [->|Q]; [exists (g r0); apply IN; auto|exists r; apply IN; auto].
    + split.
      * intros (r & I & J). apply IN in I as [[-> ->]|[Q I]]; [now right|left; eauto].
      * intros [(r & I & J)|[-> J]]; [|exists (g r0); split; [apply IN; auto|assumption]]. destruct (str_dec p' p) as [->|Q].
        -- exists (g r0). split; [apply IN; auto|]. rewrite (R1 r I) in J. now apply T.
        -- exists r. split; [apply IN; auto|assumption].
    + split.
      * intros (r & I & J & K). apply IN in I as [[-> ->]|[Q I]]; [right|left; eauto]. split; [reflexivity|]. split; [assumption|]. rewrite <- K. now apply ALL.
      * intros [(r & I & J & K)|(-> & J & ->)]; [|exists (g r0); split; [apply IN; auto|split; [assumption|now apply ALL]]]. destruct (str_dec p' p) as [->|Q].
        -- exists (g r0). split; [apply IN; auto|]. pose proof (R1 r I) as E. rewrite E in *. split; [now apply EN|]. rewrite ALL by assumption. rewrite <- K. symmetry. apply ALL. now apply D.
        -- exists r. split; [apply IN; auto|auto].
Qed.
Lemma set_all_genuine w p x r : find_product w p = Some x -> p_enabled x = true -> r = no_request \/ genuine_req w p r -> genuine_req w p (set_all x r) /\ q_tags (set_all x r) = q_tags r /\ q_enumerated (set_all x r) = q_enumerated r.
Proof.
  intros P E [->|(y & Y & _ & A & B & C)].
  - cbn. split; [|auto]. exists x. cbn. split; [assumption|]. split; [assumption|]. split; [reflexivity|]. split; [constructor|easy].
  - assert (y = x) by congruence. subst y. unfold set_all. destruct (q_all r) as [|t l] eqn:Q.
    + cbn. split; [|auto]. exists x. cbn. auto.
    + split; [|auto]. exists x. rewrite Q. auto.
Qed.
Lemma set_for_tag_genuine w p x t r : find_product w p = Some x -> genuine_req w p r ->
  genuine_req w p (set_for_tag x t r) /\ q_enumerated (set_for_tag x t r) = q_enumerated r /\ forall t' l, In (t', l) (q_tags (set_for_tag x t r)) <-> (t' = t /\ l = paths (with_tag x t)) \/ In (t', l) (q_tags r).
Proof.
  intros P (y & Y & E & A & B & C). assert (y = x) by congruence. subst y.
  assert (V : canon (match assoc (q_tags r) t with Some l => l | None => [] end ++ map a_path (with_tag x t)) = paths (with_tag x t)).
  { unfold paths. apply canon_ext. intros z. rewrite in_app_iff. split; [|now right]. intros [I|I]; [|assumption]. destruct (assoc (q_tags r) t) as [l|] eqn:Q; [|contradiction].
    apply assoc_In, C in Q. subst l. unfold paths in I. exact (proj1 (canon_In _ _) I). }
  assert (IN : forall t' l, In (t', l) (q_tags (set_for_tag x t r)) <-> (t' = t /\ l = paths (with_tag x t)) \/ In (t', l) (q_tags r)).
  { intros t' l. cbn. rewrite V, assign_In by assumption. split; [tauto|]. intros [H|I]; [now left|]. destruct (str_dec t' t) as [->|D]; [|auto]. left. split; [reflexivity|now apply C]. }
  split; [|auto]. exists x. split; [assumption|]. split; [assumption|]. split; [assumption|]. split; [cbn; now apply assign_NoDup|]. intros g l I. apply IN in I as [[-> ->]|I]; auto.
Qed.
Lemma record_spec own w q a e : find_product w own <> None -> answer own w q = Some a -> shape own w q -> wfE own w e ->
  wfE own w (record own w q a e) /\ forall f, efact w (record own w q a e) f <-> In f (facts_of own w q) \/ efact w e f.
Proof.
  intros OW AN SH W. destruct (find_product w own) as [o|] eqn:O; [clear OW|congruence].
  assert (ONE : forall e' g, (wfE own w e' /\ forall f, efact w e' f <-> f = g \/ efact w e f) -> wfE own w e' /\ forall f, efact w e' f <-> In f [g] \/ efact w e f).
  { intros e' g [A B]. split; [assumption|]. intros f. rewrite B. cbn. intuition congruence. }
  assert (NONE : wfE own w e /\ forall f, efact w e f <-> In f [] \/ efact w e f) by (split; [assumption|intros f; cbn; tauto]).
  destruct q as [p m k|p k|k|p b d path k|p path m k|p path|p|p t|p|p|f|p m|p m t|p path k]; cbn [answer] in AN; cbn [facts_of].
  - destruct (find_product w p) as [x|] eqn:P; [|discriminate]. injection AN as <-. apply ONE. cbn [record]. apply add_prop_spec; [|assumption].
    exists o. split; [assumption|]. split; [|exact SH]. unfold tracked_value. cbn. now rewrite (find_product_own w own o), P.
  - destruct (find_product w p) as [x|] eqn:P; [|discriminate]. injection AN as <-. cbn [record]. rewrite P. destruct (lookup (p_props x) k) as [v|] eqn:L; [|exact NONE]. unfold value. rewrite L. apply ONE.
    apply add_prop_spec; [|assumption]. exists o. split; [assumption|]. split; [|split; [reflexivity|exact (SH x o P O)]]. unfold tracked_value. cbn. rewrite (find_product_own w own o), P by assumption. unfold value. now rewrite L.
  - rewrite O in *. injection AN as <-. cbn [record]. rewrite O. destruct (lookup (p_project_props o) k) as [v|] eqn:L; [|exact NONE]. unfold value. rewrite L. apply ONE.
    apply add_prop_spec; [|assumption]. exists o. split; [assumption|]. split; [|now split]. unfold tracked_value. cbn. rewrite str_eqb_refl. unfold value. now rewrite L.
  - destruct (find_product w p) as [x|] eqn:P; [|discriminate]. injection AN as <-. destruct (add_deps_spec own w p x e P W) as [W' F'].
    assert (BASE : wfE own w (add_deps p e) /\ forall f, efact w (add_deps p e) f <-> In f [FDeps p (dep_names x)] \/ efact w e f) by (apply ONE; auto).
    destruct (dep_params x b d) as [m|] eqn:D; [|cbn [record]; exact BASE]. destruct (lookup (walk m path) k) as [v|] eqn:L.
    + unfold value. rewrite L. destruct (SH x m P D) as (PN & PD & n & N & AL).
      assert (G : forall v, lookup (walk m path) k = Some v -> genuine own w (mkProp p (dep_plain_name x b d ++ colon :: join path) k v KParameters)).
      { intros u U. exists o. split; [assumption|]. rewrite (alone_name x b d n m AL D). split.
        - unfold tracked_value. cbn. rewrite (find_product_own w own o), P by assumption. rewrite before_join, after_join, split_join by assumption. rewrite (alone_params x b d n m AL D). unfold value. now rewrite U.
        - cbn. apply in_app_iff. right. now left. }
      specialize (G v L).
      destruct v as [|b0|z|s|l|mm]; cbn [record]; rewrite ?P, ?D, ?L; try exact BASE;
        (split; [exact (proj1 (add_prop_spec own w _ _ G W'))|]; intros f; rewrite (proj2 (add_prop_spec own w _ _ G W')), F'; cbn; intuition congruence).
    + unfold value. rewrite L. cbn [record]. rewrite P, D, L. exact BASE.
  - destruct (find_product w p) as [x|] eqn:P; [|discriminate]. destruct (find_art x path) as [y|] eqn:Y; [|discriminate]. injection AN as <-. apply ONE. apply add_art_prop_spec; [|assumption]. exists x, y. cbn. auto.
  - destruct (find_product w p) as [x|] eqn:P; [|discriminate]. destruct (find_art x path) as [y|] eqn:Y; [|discriminate]. injection AN as <-. apply ONE. apply add_art_prop_spec; [|assumption]. exists x, y. cbn. auto.
  - destruct (find_product w p) as [x|] eqn:P; [|discriminate]. injection AN as <-. apply ONE. now apply add_deps_spec.
  - destruct (find_product w p) as [x|] eqn:P; [|discriminate]. destruct (p_enabled x) eqn:E; [|discriminate]. injection AN as <-. cbn [record]. rewrite P.
    assert (K : forall r, r = no_request \/ genuine_req w p r -> genuine_req w p (set_for_tag x t (set_all x r)) /\ q_enumerated (set_for_tag x t (set_all x r)) = q_enumerated r /\
      forall t' l, In (t', l) (q_tags (set_for_tag x t (set_all x r))) <-> (t' = t /\ l = paths (with_tag x t)) \/ In (t', l) (q_tags r)).
    { intros r R. destruct (set_all_genuine w p x r P E R) as (G1 & G2 & G3). destruct (set_for_tag_genuine w p x t _ P G1) as (G4 & G5 & G6). rewrite G3 in G5. rewrite G2 in G6. auto. }
    destruct (set_req_spec own w p x (fun r => set_for_tag x t (set_all x r)) e P W) as [S1 S2].
    { intros r R. destruct (K r R) as (K1 & K2 & K3). split; [assumption|]. split; [intros t' l I; apply K3; now right|]. intros H. now rewrite K2. }
    split; [exact S1|]. intros f. rewrite S2. clear S1 S2. set (r0 := get_req (e_maps e) p).
    assert (R0 : r0 = no_request \/ (genuine_req w p r0 /\ In (p, r0) (e_maps e))).
    { unfold r0, get_req. destruct (assoc (e_maps e) p) as [r|] eqn:Q; [|now left]. right. apply assoc_In in Q. split; [|assumption]. apply W. assumption. }
    assert (R1 : r0 = no_request \/ genuine_req w p r0) by tauto. destruct (K r0 R1) as (K1 & K2 & K3).
    destruct f as [y|pp y|i|p' l|p'|p' t' l|p' l|p' v]; cbn [In]. 1,2,3,4,5,8: intuition congruence.
    + rewrite K3. split.
      * intros [H|(-> & [[-> ->]|I])]; auto. right. destruct R0 as [R0|[_ R0]]; [rewrite R0 in I; contradiction|]. cbn. eauto.
      * intros [[H|[H|[]]]|H]; [discriminate| |auto]. injection H as <- <- <-. auto.
    + rewrite K2. split.
      * intros [H|(-> & H & ->)]; auto. right. destruct R0 as [R0|[(z & Z & _ & Q & _) R0]]; [rewrite R0 in H; discriminate|]. cbn. exists r0. split; [assumption|]. split; [assumption|congruence].
      * intros [[H|[H|[]]]|H]; [discriminate|discriminate|auto].
  - destruct (find_product w p) as [x|] eqn:P; [|discriminate]. destruct (p_enabled x) eqn:E; [|discriminate]. injection AN as <-. cbn [record]. rewrite P.
    assert (K : forall r, r = no_request \/ genuine_req w p r -> genuine_req w p (set_enumerated (set_all x r)) /\ q_tags (set_enumerated (set_all x r)) = q_tags r).
    { intros r R. destruct (set_all_genuine w p x r P E R) as ((z & G1) & G2 & G3). split; [|exact G2]. exists z. exact G1. }
    destruct (set_req_spec own w p x (fun r => set_enumerated (set_all x r)) e P W) as [S1 S2].
    { intros r R. destruct (K r R) as (K1 & K2). split; [assumption|]. split; [intros t' l I; now rewrite K2|]. reflexivity. }
    split; [exact S1|]. intros f. rewrite S2. clear S1 S2. set (r0 := get_req (e_maps e) p).
    assert (R0 : r0 = no_request \/ (genuine_req w p r0 /\ In (p, r0) (e_maps e))).
    { unfold r0, get_req. destruct (assoc (e_maps e) p) as [r|] eqn:Q; [|now left]. right. apply assoc_In in Q. split; [|assumption]. apply W. assumption. }
    assert (R1 : r0 = no_request \/ genuine_req w p r0) by tauto. destruct (K r0 R1) as (K1 & K2).
    destruct f as [y|pp y|i|p' l|p'|p' t' l|p' l|p' v]; cbn [In]. 1,2,3,4,5,8: intuition congruence.
    + rewrite K2. split.
      * intros [H|(-> & I)]; auto. right. destruct R0 as [R0|[_ R0]]; [rewrite R0 in I; contradiction|]. cbn. eauto.
      * intros [[H|[H|[]]]|H]; [discriminate|discriminate|auto].
    + split.
      * intros [H|(-> & H & ->)]; auto.
      * intros [[H|[H|[]]]|H]; [discriminate| |auto]. injection H as <- <-. auto.
  - destruct (find_product w p) as [x|] eqn:P; [|discriminate]. injection AN as <-. apply ONE. now apply add_export_spec.
  - apply ONE. destruct (find_file w f); [|discriminate]. injection AN as <-. now apply add_import_spec.
  - destruct (find_product w p) as [x|] eqn:P; [|discriminate]. injection AN as <-. exact NONE.
  - destruct (find_product w p) as [x|] eqn:P; [|discriminate]. destruct (p_enabled x) eqn:E; [|discriminate]. injection AN as <-. cbn [record]. rewrite P. apply ONE.
    destruct (set_req_spec own w p x (set_all x) e P W) as [S1 S2].
    { intros r R. destruct (set_all_genuine w p x r P E R) as (G1 & G2 & G3). split; [assumption|]. rewrite G2, G3. auto. }
    split; [exact S1|]. intros f. rewrite S2. clear S1 S2. set (r0 := get_req (e_maps e) p).
    assert (R0 : r0 = no_request \/ (genuine_req w p r0 /\ In (p, r0) (e_maps e))).
    { unfold r0, get_req. destruct (assoc (e_maps e) p) as [r|] eqn:Q; [|now left]. right. apply assoc_In in Q. split; [|assumption]. apply W. assumption. }
    assert (R1 : r0 = no_request \/ genuine_req w p r0) by tauto. destruct (set_all_genuine w p x r0 P E R1) as (G1 & G2 & G3).
    destruct f as [y|pp y|i|p' l|p'|p' t' l|p' l|p' v]. 1,2,3,4,5,8: intuition congruence.
    + rewrite G2. split; [|intros [H|H]; [discriminate|auto]]. intros [H|(-> & I)]; auto. right. destruct R0 as [R0|[_ R0]]; [rewrite R0 in I; contradiction|]. cbn. eauto.
    + rewrite G3. split; [|intros [H|H]; [discriminate|auto]]. intros [H|(-> & H & ->)]; auto. right. destruct R0 as [R0|[(z & Z & _ & Q & _) R0]]; [rewrite R0 in H; discriminate|]. cbn. exists r0.
      split; [assumption|]. split; [assumption|congruence].
  - destruct (find_product w p) as [x|] eqn:P; [|discriminate]. destruct (find_art x path); [|discriminate]. injection AN as <-. exact NONE.
Qed.
Lemma run_spec own w s : find_product w own <> None -> forall known e r e', (forall q a, In (q, a) (asked own w s) -> shape own w q) -> wfE own w e -> run own w s known e = Finished r e' ->
  wfE own w e' /\ forall f, efact w e' f <-> (exists q a, In (q, a) (asked own w s) /\ In f (facts_of own w q)) \/ efact w e f.
Proof.
  intros OW. induction s as [r0|q k IH]; intros known e r e' SH W R; cbn [run asked] in *.
  - injection R as -> ->. split; [assumption|]. intros f. split; [auto|]. intros [(q & a & [] & _)|]; auto.
  - destruct (match subject own q with Some p => mem_str p known | None => true end); [|discriminate]. destruct (answer own w q) as [a|] eqn:AN; [|discriminate].
    destruct (record_spec own w q a e OW AN) as [W1 F1]; [apply (SH q a); now left|assumption|].
    destruct (IH a _ _ _ _ (fun q' a' I => SH q' a' (or_intror I)) W1 R) as [W2 F2]. split; [assumption|]. intros f. rewrite F2, F1. split.
    + intros [(q' & a' & I & J)|[I|I]]; [left; exists q', a'; split; [now right|assumption]|left; exists q, a; split; [now left|assumption]|now right].
    + intros [(q' & a' & [[= <- <-]|I] & J)|I]; eauto 6.
Qed.
Lemma fresh_wf own w : wfE own w fresh.
Proof. repeat split; cbn; try constructor; easy. Qed.
Lemma fresh_nothing w f : ~ efact w fresh f.
Proof. destruct f; cbn; try tauto; try (now intros (? & ? & ?)); now intros (? & ?). Qed.

Definition wfT (own : str) (w : world) (now : nat) (t : tracked) : Prop :=
  (forall x, In x (t_props t) -> genuine own w x) /\ NoDup (keys (t_arts t)) /\ (forall path l x, In (path, l) (t_arts t) -> In x l -> genuine_art w path x) /\
  (forall f n, In (f, n) (t_imports t) -> n = now) /\ (NoDup (keys (t_deps t)) /\ forall p l, In (p, l) (t_deps t) -> exists x, find_product w p = Some x /\ l = dep_names x) /\
  NoDup (keys (t_maps t)) /\ (forall p r, In (p, r) (t_maps t) -> genuine_req w p r) /\
  (forall p v, In (p, v) (t_exports t) -> exists x, find_product w p = Some x /\ v = (p_export x, p_export_deps x)).
Lemma add_dep_names_spec w l : forall t, NoDup (keys t) -> (forall p n, In (p, n) t -> exists x, find_product w p = Some x /\ n = dep_names x) ->
  NoDup (keys (add_dep_names w l t)) /\ forall p n, In (p, n) (add_dep_names w l t) <-> (In p l /\ exists x, find_product w p = Some x /\ n = dep_names x) \/ In (p, n) t.
Proof.
  induction l as [|q l IH]; intros t N G; [cbn; split; [assumption|tauto]|]. unfold add_dep_names in *. cbn [fold_left]. destruct (find_product w q) as [x|] eqn:Q.
  - assert (IN : forall p n, In (p, n) (assign q (dep_names x) t) <-> (p = q /\ n = dep_names x) \/ In (p, n) t).
    { intros p n. rewrite assign_In by assumption. split; [tauto|]. intros [H|I]; [now left|]. destruct (str_dec p q) as [->|D]; [|auto]. left. split; [reflexivity|]. destruct (G _ _ I) as (y & Y & ->). congruence. }
    destruct (IH (assign q (dep_names x) t)) as [I1 I2]; [now apply assign_NoDup| |].
    { intros p n I. apply IN in I as [[-> ->]|I]; eauto. }
    split; [assumption|]. intros p n. rewrite I2, IN. cbn. split.
    + intros [[I H]|[[-> ->]|I]]; eauto 6.
    + intros [[[->|I] (y & Y & ->)]|I]; eauto 6. right. left. split; congruence.
  - destruct (IH t N G) as [I1 I2]. split; [assumption|]. intros p n. rewrite I2. cbn. split; [intros [[I H]|I]; auto|]. intros [[[->|I] (y & Y & ->)]|I]; eauto; congruence.
Qed.
Lemma add_exports_spec w l : forall t, (forall p v, In (p, v) t -> exists x, find_product w p = Some x /\ v = (p_export x, p_export_deps x)) ->
  forall p v, In (p, v) (add_exports w l t) <-> (In p l /\ exists x, find_product w p = Some x /\ v = (p_export x, p_export_deps x)) \/ In (p, v) t.
Proof.
  induction l as [|q l IH]; intros t G p v; [cbn; tauto|]. unfold add_exports in *. cbn [fold_left]. destruct (assoc t q) as [u|] eqn:A.
  - rewrite (IH t G). apply assoc_In in A. destruct (G _ _ A) as (x & X & ->). cbn. split; [intros [[I H]|I]; auto|]. intros [[[->|I] (y & Y & ->)]|I]; eauto. right. rewrite Y in X. injection X as ->. assumption.
  - destruct (find_product w q) as [x|] eqn:Q.
    + rewrite IH.
      * rewrite in_app_iff. cbn. split.
        -- intros [[I H]|[I|[[= <- <-]|[]]]]; eauto 6.
        -- intros [[[->|I] (y & Y & ->)]|I]; eauto 6. right. right. left. rewrite Y in Q. injection Q as ->. reflexivity.
      * intros p' v' I. apply in_app_iff in I as [I|[[= <- <-]|[]]]; eauto.
    + rewrite (IH t G). cbn. split; [intros [[I H]|I]; auto|]. intros [[[->|I] (y & Y & ->)]|I]; eauto; congruence.
Qed.
Lemma get_spec own w now e : wfE own w e -> wfT own w now (get_tracked w now e) /\ forall f, inT now (get_tracked w now e) f <-> efact w e f.
Proof.
  intros (A & B & C & D & E). destruct (add_dep_names_spec w (e_deps e) [] (NoDup_nil _)) as [N1 N2]; [easy|]. pose proof (add_exports_spec w (e_exports e) []) as X. specialize (X (fun p v (i : In (p, v) []) => match i with end)).
  split.
  - split; [exact A|]. split; [exact B|]. split; [exact C|]. split; [|split; [|split; [exact D|split; [exact E|]]]].
    + cbn. intros f n I. apply in_map_iff in I as (y & [= -> <-] & _). reflexivity.
    + cbn. split; [exact N1|]. intros p l I. apply N2 in I as [[_ H]|[]]. exact H.
    + cbn. intros p v I. apply X in I as [[_ H]|[]]. exact H.
  - intros f. destruct f; cbn; try tauto.
    + rewrite in_map_iff. split; [intros (y & [= ->] & I); assumption|eauto].
    + rewrite N2. cbn. tauto.
    + rewrite X. cbn. tauto.
Qed.
Lemma fold_insert_In own w l : forall t, (forall x, In x l -> genuine own w x) -> (forall x, In x t -> genuine own w x) ->
  forall y, In y (fold_left (fun t x => insert x t) l t) <-> In y l \/ In y t.
Proof.
  induction l as [|x l IH]; intros t G H y; cbn [fold_left]; [cbn; tauto|].
  assert (INS : forall y, In y (insert x t) <-> y = x \/ In y t) by (apply insert_In; intros z I K; symmetry; apply (genuine_same own w); auto; apply G; now left).
  rewrite IH; [|intros z I; apply G; now right|intros z I; apply INS in I as [->|I]; [apply G; now left|auto]]. rewrite INS. cbn. intuition congruence.
Qed.
Lemma fold_assign_In {A} (l : list (str * A)) : forall t, NoDup (keys l) -> NoDup (keys t) ->
  NoDup (keys (fold_left (fun t x => assign (fst x) (snd x) t) l t)) /\
  forall k v, In (k, v) (fold_left (fun t x => assign (fst x) (snd x) t) l t) <-> In (k, v) l \/ (In (k, v) t /\ ~ In k (keys l)).
Proof.
  induction l as [|[j u] l IH]; intros t N M; cbn [fold_left fst snd]; [cbn; split; [assumption|tauto]|]. inversion N as [|? ? N1 N2]; subst.
  destruct (IH (assign j u t) N2 (assign_NoDup j u t M)) as [I1 I2]. split; [assumption|]. intros k v. rewrite I2, assign_In by assumption. cbn. split.
  - intros [I|[[[-> ->]|[D I]] K]]; [auto|auto|]. right. split; [assumption|]. intros [C|C]; [congruence|contradiction].
  - intros [[[= -> ->]|I]|[I K]]; [|auto|].
    + right. split; [now left|assumption].
    + right. split; [right; split; [|assumption]|tauto]. intros ->. tauto.
Qed.
Lemma fold_imports_In (now : nat) (l : list str) : forall t : list (str * nat), (forall f n, In (f, n) t -> n = now) ->
  forall f n, In (f, n) (fold_left (fun l f => match assoc l f with Some _ => l | None => l ++ [(f, now)] end) l t) <-> (In f l /\ n = now) \/ In (f, n) t.
Proof.
  induction l as [|g l IH]; intros t H f n; cbn [fold_left]; [cbn; tauto|]. destruct (assoc t g) as [m|] eqn:A.
  - rewrite (IH t H). apply assoc_In in A. pose proof (H _ _ A) as ->. cbn. split; [tauto|]. intros [[[->|I] ->]|I]; auto.
  - rewrite IH.
    + rewrite in_app_iff. cbn. split; [intros [[I ->]|[I|[[= <- <-]|[]]]]; auto|]. intros [[[->|I] ->]|I]; auto.
    + intros f' n' I. apply in_app_iff in I as [I|[[= <- <-]|[]]]; eauto.
Qed.
Definition mergeable (t : tracked) (e : engine) : Prop :=
  (forall path, In path (keys (t_arts t)) -> In path (keys (e_arts e)) -> False) /\
  (forall p r r', In (p, r) (t_maps t) -> In (p, r') (e_maps e) -> q_all r <> [] /\ (q_enumerated r' = true -> q_enumerated r = true)).
Definition ereq (t : tracked) (e : engine) (p : str) (r : requested) : Prop :=
  match assoc (t_maps t) p, assoc (e_maps e) p with
  | Some a, Some b => r = unite a b
  | Some a, None => r = a
  | None, Some b => r = b
  | None, None => False
  end.
Lemma fold_maps l : forall t, NoDup (keys l) -> NoDup (keys t) ->
  NoDup (keys (fold_left (fun l x => assign (fst x) (unite (get_req l (fst x)) (snd x)) l) l t)) /\
  forall p, assoc (fold_left (fun l x => assign (fst x) (unite (get_req l (fst x)) (snd x)) l) l t) p =
    match assoc t p, assoc l p with Some a, Some b => Some (unite a b) | Some a, None => Some a | None, Some b => Some b | None, None => None end.
Proof.
  induction l as [|[q b] l IH]; intros t N M; cbn [fold_left fst snd]; [split; [assumption|]; intros p; cbn; now destruct (assoc t p)|]. inversion N as [|? ? N1 N2]; subst.
  destruct (IH (assign q (unite (get_req t q) b) t) N2 (assign_NoDup _ _ _ M)) as [I1 I2]. split; [assumption|]. intros p. rewrite I2, assoc_cons. destruct (str_eqb q p) eqn:E.
  - apply str_eqb_eq in E. subst q. rewrite assoc_assign. apply assoc_None in N1. rewrite N1. unfold get_req. destruct (assoc t p); [reflexivity|]. reflexivity.
  - apply str_eqb_neq in E. rewrite assoc_assign_other by congruence. reflexivity.
Qed.
Lemma unite_spec w p a b : genuine_req w p a -> genuine_req w p b -> q_all a <> [] ->
  genuine_req w p (unite a b) /\ (forall t l, In (t, l) (q_tags (unite a b)) <-> In (t, l) (q_tags a) \/ In (t, l) (q_tags b)) /\ q_enumerated (unite a b) = q_enumerated a.
Proof.
  intros (x & X & E & A1 & A2 & A3) (y & Y & _ & B1 & B2 & B3) NE. assert (y = x) by congruence. subst y. unfold unite. destruct (q_all a) as [|t0 l0] eqn:Q; [congruence|].
  destruct (fold_assign_In (q_tags b) (q_tags a) B2 A2) as [N I].
  assert (IN : forall t l, In (t, l) (fold_left (fun l x => assign (fst x) (snd x) l) (q_tags b) (q_tags a)) <-> In (t, l) (q_tags a) \/ In (t, l) (q_tags b)).
  { intros t l. rewrite I. split; [tauto|]. intros [J|J]; [|auto]. destruct (in_dec str_dec t (keys (q_tags b))) as [K|K]; [|auto]. left. apply in_map_iff in K as ([t' l'] & E' & K). cbn in E'. subst t'.
    rewrite (A3 _ _ J), <- (B3 _ _ K). assumption. }
  split; [|split; [exact IN|reflexivity]]. exists x. cbn. split; [assumption|]. split; [assumption|]. split; [assumption|]. split; [assumption|]. intros g l J. apply IN in J as [J|J]; auto.
Qed.
Lemma merge_spec own w now t e : wfT own w now t -> wfE own w e -> mergeable t e ->
  wfT own w now (merge_tracked w now t e) /\ forall f, inT now (merge_tracked w now t e) f <-> inT now t f \/ efact w e f.
Proof.
  intros (T1 & T2 & T3 & T4 & (T5 & T6) & T7 & T8 & T9) (A & B & C & D & E) (M1 & M2).
  pose proof (fold_insert_In own w (e_props e) (t_props t) A T1) as P1.
  destruct (fold_assign_In (e_arts e) (t_arts t) B T2) as [P2 P3].
  assert (P3' : forall path l, In (path, l) (fold_left (fun l x => assign (fst x) (snd x) l) (e_arts e) (t_arts t)) <-> In (path, l) (e_arts e) \/ In (path, l) (t_arts t)).
  { intros path l. rewrite P3. split; [tauto|]. intros [I|I]; [auto|]. right. split; [assumption|]. intros J. apply (M1 path); [|assumption]. change path with (fst (path, l)). now apply in_map. }
  pose proof (fold_imports_In now (e_imports e) (t_imports t) T4) as P4.
  destruct (add_dep_names_spec w (e_deps e) (t_deps t) T5 T6) as [P5 P6].
  pose proof (add_exports_spec w (e_exports e) (t_exports t) T9) as P7.
  destruct (fold_maps (e_maps e) (t_maps t) D T7) as [P8 P9].
  set (mm := fold_left (fun l x => assign (fst x) (unite (get_req l (fst x)) (snd x)) l) (e_maps e) (t_maps t)) in *.
  assert (MM : forall p r, In (p, r) mm -> genuine_req w p r).
  { intros p r I. apply (In_assoc _ _ _ P8) in I. rewrite P9 in I. destruct (assoc (t_maps t) p) as [a|] eqn:Ea, (assoc (e_maps e) p) as [b|] eqn:Eb; try discriminate; injection I as <-.
    - apply assoc_In in Ea, Eb. apply unite_spec; auto. now destruct (M2 _ _ _ Ea Eb).
    - apply assoc_In in Ea. auto.
    - apply assoc_In in Eb. auto. }
  split.
  - split; [|split; [|split; [|split; [|split; [|split; [|split]]]]]]; cbn.
    + intros x I. apply P1 in I as [I|I]; auto.
    + exact P2.
    + intros path l x I J. apply P3' in I as [I|I]; eauto.
    + intros f n I. apply P4 in I as [[_ ->]|I]; eauto.
    + split; [exact P5|]. intros p l I. apply P6 in I as [[_ H]|I]; auto.
    + exact P8.
    + exact MM.
    + intros p v I. apply P7 in I as [[_ H]|I]; auto.
  - intros f. destruct f as [x|path x|f|p l|p|p g l|p l|p v]; cbn [inT efact merge_tracked t_props t_arts t_imports t_deps t_maps t_exports].
    + rewrite P1. tauto.
    + split.
      * intros (l & I & J). apply P3' in I as [I|I]; eauto.
      * intros [(l & I & J)|(l & I & J)]; exists l; (split; [apply P3'; auto|assumption]).
    + rewrite P4. tauto.
    + rewrite P6. tauto.
    + fold mm. split.
      * intros (r & I). apply (In_assoc _ _ _ P8) in I. rewrite P9 in I. destruct (assoc (t_maps t) p) as [a|] eqn:Ea; [left; exists a; now apply assoc_In|].
        destruct (assoc (e_maps e) p) as [b|] eqn:Eb; [right; exists b; now apply assoc_In|discriminate].
      * intros [(r & I)|(r & I)]; [apply (In_assoc _ _ _ T7) in I|apply (In_assoc _ _ _ D) in I]; specialize (P9 p); rewrite I in P9.
        -- destruct (assoc (e_maps e) p); (eexists; apply (In_assoc _ _ _ P8); exact P9).
        -- destruct (assoc (t_maps t) p); (eexists; apply (In_assoc _ _ _ P8); exact P9).
    + fold mm. specialize (P9 p). split.
      * intros (r & I & J). apply (In_assoc _ _ _ P8) in I. rewrite P9 in I. destruct (assoc (t_maps t) p) as [a|] eqn:Ea, (assoc (e_maps e) p) as [b|] eqn:Eb; try discriminate; injection I as <-.
        -- apply assoc_In in Ea, Eb. apply (unite_spec w p a b) in J; auto; [|now destruct (M2 _ _ _ Ea Eb)]. destruct J as [J|J]; eauto.
        -- apply assoc_In in Ea. eauto.
        -- apply assoc_In in Eb. eauto.
      * intros [(r & I & J)|(r & I & J)].
        -- pose proof (proj1 (In_assoc _ _ _ T7) I) as K. rewrite K in P9. destruct (assoc (e_maps e) p) as [b|] eqn:Eb.
           ++ apply assoc_In in Eb. exists (unite r b). split; [now apply (In_assoc _ _ _ P8)|]. apply (unite_spec w p r b); auto. now destruct (M2 _ _ _ I Eb).
           ++ exists r. split; [now apply (In_assoc _ _ _ P8)|assumption].
        -- pose proof (proj1 (In_assoc _ _ _ D) I) as K. rewrite K in P9. destruct (assoc (t_maps t) p) as [a|] eqn:Ea.
           ++ apply assoc_In in Ea. exists (unite a r). split; [now apply (In_assoc _ _ _ P8)|]. apply (unite_spec w p a r); auto. now destruct (M2 _ _ _ Ea I).
           ++ exists r. split; [now apply (In_assoc _ _ _ P8)|assumption].
    + fold mm. specialize (P9 p). assert (ALL : forall r r', genuine_req w p r -> genuine_req w p r' -> q_all r = q_all r') by (intros r r' (x & X & _ & Q & _) (x' & X' & _ & Q' & _); congruence). split.
      * intros (r & I & J & <-). pose proof (MM _ _ I) as G. apply (In_assoc _ _ _ P8) in I. rewrite P9 in I. destruct (assoc (t_maps t) p) as [a|] eqn:Ea, (assoc (e_maps e) p) as [b|] eqn:Eb; try discriminate; injection I as <-.
        -- apply assoc_In in Ea, Eb. assert (NE : q_all a <> []) by now destruct (M2 _ _ _ Ea Eb). destruct (unite_spec w p a b) as (U1 & U2 & U3); auto. rewrite U3 in J. left. exists a. split; [assumption|]. split; [assumption|]. apply ALL; auto.
        -- apply assoc_In in Ea. eauto.
        -- apply assoc_In in Eb. eauto.
      * intros [(r & I & J & <-)|(r & I & J & <-)].
        -- pose proof (proj1 (In_assoc _ _ _ T7) I) as K. rewrite K in P9. destruct (assoc (e_maps e) p) as [b|] eqn:Eb.
           ++ apply assoc_In in Eb. assert (NE : q_all r <> []) by now destruct (M2 _ _ _ I Eb). destruct (unite_spec w p r b) as (U1 & U2 & U3); auto. exists (unite r b).
              split; [now apply (In_assoc _ _ _ P8)|]. split; [now rewrite U3|]. apply ALL; auto.
           ++ exists r. split; [now apply (In_assoc _ _ _ P8)|auto].
        -- pose proof (proj1 (In_assoc _ _ _ D) I) as K. rewrite K in P9. destruct (assoc (t_maps t) p) as [a|] eqn:Ea.
           ++ apply assoc_In in Ea. destruct (M2 _ _ _ Ea I) as [NE EN]. destruct (unite_spec w p a r) as (U1 & U2 & U3); auto. exists (unite a r). split; [now apply (In_assoc _ _ _ P8)|]. split; [rewrite U3; auto|]. apply ALL; auto.
           ++ exists r. split; [now apply (In_assoc _ _ _ P8)|auto].
    + rewrite P7. tauto.
Qed.

(** ** Recorded facts and answers *)

Lemma lookup_value m k v : lookup m k = Some v -> value m k = v.
Proof. unfold value. now intros ->. Qed.
Lemma names_list x x' : dep_names x = dep_names x' -> forall n, In n (map snd (dep_list x)) <-> In n (map snd (dep_list x')).
Proof. unfold dep_names, dep_list. intros E n. rewrite !map_app, !map_map. cbn. change (map (fun x0 => d_unique x0)) with (map d_unique). change (map (fun x0 => m_name x0)) with (map m_name). exact (proj1 (canon_ext _ _) E n). Qed.
Lemma list_params x x' b d : dep_list x = dep_list x' -> dep_params x b d = None <-> dep_params x' b d = None.
Proof.
  assert (H : forall x, dep_params x b d = None <-> ~ In (b, d) (dep_list x)).
  { clear. intros x. unfold dep_params, dep_list. rewrite in_app_iff, !in_map_iff. destruct b.
    - destruct (find _ (p_deps x)) as [y|] eqn:F; cbn.
      + apply find_some in F as [I E]. apply str_eqb_eq in E. split; [discriminate|]. intros H. exfalso. apply H. left. exists y. split; congruence.
      + split; [|reflexivity]. intros _ [(y & [= E] & I)|(y & E & _)]; [|discriminate]. pose proof (find_none _ _ F _ I) as N. cbn in N. apply str_eqb_neq in N. congruence.
    - destruct (find _ (p_modules x)) as [y|] eqn:F; cbn.
      + apply find_some in F as [I E]. apply str_eqb_eq in E. split; [discriminate|]. intros H. exfalso. apply H. right. exists y. split; congruence.
      + split; [|reflexivity]. intros _ [(y & E & _)|(y & [= E] & I)]; [discriminate|]. pose proof (find_none _ _ F _ I) as N. cbn in N. apply str_eqb_neq in N. congruence. }
  intros E. now rewrite !H, E.
Qed.
Lemma strings_tags l : strings (VList (map VStr l)) = l.
Proof. unfold strings. cbn. induction l as [|x l IH]; cbn; [reflexivity|]. now rewrite IH. Qed.
Lemma with_tag_In x t a : p_enabled x = true -> In a (with_tag x t) <-> In a (p_arts x) /\ In t (a_tags a).
Proof. intros E. unfold with_tag, arts. rewrite E, filter_In, mem_str_In. tauto. Qed.
Lemma own_target a : own_artifact a = true <-> a_target a = None.
Proof. unfold own_artifact. destruct (a_target a); split; congruence. Qed.
Lemma same_own_paths x x' t : p_enabled x = true -> p_enabled x' = true ->
  (forall a a', In a (p_arts x) -> In a' (p_arts x') -> a_path a = a_path a' -> (a_target a = None <-> a_target a' = None)) ->
  paths (with_tag x t) = paths (with_tag x' t) -> paths (filter own_artifact (with_tag x t)) = paths (filter own_artifact (with_tag x' t)).
Proof.
  intros EN EN' T E. unfold paths in *. rewrite canon_ext in E. rewrite canon_ext. intros path. specialize (E path). rewrite !in_map_iff in *. split.
  - intros (a & <- & I). apply filter_In in I as [I O]. destruct (proj1 E (ex_intro _ a (conj eq_refl I))) as (a' & P & I'). exists a'. split; [assumption|]. apply filter_In. split; [assumption|].
    apply with_tag_In in I as [I _], I' as [I' _]; auto. apply own_target. apply (T a a' I I' (eq_sym P)). now apply own_target.
  - intros (a' & <- & I'). apply filter_In in I' as [I' O]. destruct (proj2 E (ex_intro _ a' (conj eq_refl I'))) as (a & P & I). exists a. split; [assumption|]. apply filter_In. split; [assumption|].
    apply with_tag_In in I as [I _], I' as [I' _]; auto. apply own_target. apply (T a a' I I' P). now apply own_target.
Qed.
Lemma no_targets_all x : no_targets x -> filter own_artifact (arts x) = arts x.
Proof.
  intros N. assert (H : forall a, In a (arts x) -> own_artifact a = true) by (intros a I; apply own_target, N; unfold arts in I; destruct (p_enabled x); [assumption|contradiction]).
  induction (arts x) as [|a l IH]; cbn; [reflexivity|]. rewrite (H a) by now left. rewrite IH; [reflexivity|]. intros b I. apply H. now right.
Qed.

(** What was recorded for [q] in [w] and still holds in [w'] gives the same answer *)
Lemma answer_same own w w' now o' q a : find_product w own <> None -> find_product w' own = Some o' -> answer own w q = Some a -> good own w w' now q ->
  (forall p, subject own q = Some p -> find_product w' p <> None) -> (forall f, In f (facts_of own w q) -> holds now w' o' f) -> answer own w' q = Some a.
Proof.
  intros OW OW' AN G SU H. assert (GP : forall p, get_product w' o' p = find_product w' p) by (intros p; now apply (find_product_own w' own)).
  destruct q as [p m k|p k|k|p b d path k|p path m k|p path|p|p t|p|p|f|p m|p m t|p path k]; cbn [answer good subject facts_of] in *; try contradiction.
  - destruct (find_product w p) as [x|] eqn:X; [|discriminate]. destruct (find_product w' p) as [x'|] eqn:X'; [|now destruct (SU p eq_refl)]. destruct G as (G1 & G2 & G3). cbn in *. injection AN as <-.
    destruct (H _ (or_introl eq_refl)) as [_ V]. cbn [r_value] in V. unfold tracked_value, map_by_kind in V. cbn [r_kind r_product r_module r_name] in V. rewrite GP, X' in V. f_equal. f_equal. apply comparable_veq; [now apply G3|assumption].
  - destruct (find_product w p) as [x|] eqn:X; [|discriminate]. destruct (find_product w' p) as [x'|] eqn:X'; [|now destruct (SU p eq_refl)]. destruct (find_product w own) as [o|] eqn:O; [|congruence].
    destruct (G x o eq_refl eq_refl) as (G1 & G2 & G3). destruct (lookup (p_props x) k) as [v|] eqn:L; [|congruence]. cbn in *. injection AN as <-. rewrite (lookup_value _ _ _ L) in *.
    destruct (H _ (or_introl eq_refl)) as [_ V]. cbn [r_value] in V. unfold tracked_value, map_by_kind in V. cbn [r_kind r_product r_module r_name] in V. rewrite GP, X' in V. f_equal. f_equal. apply comparable_veq; [now apply G3|assumption].
  - destruct (find_product w own) as [o|] eqn:O; [|congruence]. rewrite OW' in *. destruct (G o eq_refl) as (G1 & G2). destruct (G2 o' eq_refl) as (G3 & G4). destruct (lookup (p_project_props o) k) as [v|] eqn:L; [|congruence]. cbn in *. injection AN as <-. rewrite (lookup_value _ _ _ L) in *.
    destruct (H _ (or_introl eq_refl)) as [_ V]. cbn [r_value] in V. unfold tracked_value, map_by_kind in V. cbn [r_kind r_product r_module r_name] in V. rewrite G3, str_eqb_refl in V. f_equal. f_equal. apply comparable_veq; assumption.
  - destruct (find_product w p) as [x|] eqn:X; [|discriminate]. destruct (find_product w' p) as [x'|] eqn:X'; [|now destruct (SU p eq_refl)]. destruct (G x eq_refl) as (G1 & G2). specialize (G1 x' eq_refl).
    pose proof (H _ (or_introl eq_refl)) as D. cbn [holds] in D. pose proof X' as X''. unfold find_product in X''. apply find_some in X'' as [I E]. apply str_eqb_eq in E. specialize (D x' I E). specialize (G1 (names_list _ _ (eq_sym D))).
    cbn [option_map] in *. destruct (dep_params x b d) as [m|] eqn:P.
    + destruct (G2 m eq_refl) as (L & NM & PE & PD & n & N58 & AL & G3). destruct (G3 x' eq_refl) as (AL' & G4). destruct (dep_params x' b d) as [m'|] eqn:P'; [|apply (list_params x x' b d G1) in P'; congruence].
      specialize (G4 m' eq_refl). destruct (lookup (walk m path) k) as [v|] eqn:LK; [|congruence]. rewrite (lookup_value _ _ _ LK) in *.
      rewrite (alone_name x b d n m AL P) in H. assert (V : veq v (value (walk m' path) k) = true).
      { assert (FI : In (FProp (mkProp p (n ++ colon :: join path) k v KParameters)) (FDeps p (dep_names x) :: match v with VMap _ => [] | _ => [FProp (mkProp p (n ++ colon :: join path) k v KParameters)] end)).
        { right. destruct v; try (now left). now destruct (NM m0). }
        specialize (H _ FI). destruct H as [_ V]. cbn [r_value] in V. unfold tracked_value, map_by_kind in V. cbn [r_kind r_product r_module r_name] in V. rewrite GP, X', before_join, after_join, split_join in V by assumption.
        rewrite (alone_params x' b d n m' AL' P') in V. exact V. }
      rewrite (comparable_veq _ _ G4 V). assumption.
    + apply (list_params x x' b d G1) in P. rewrite P. injection AN as <-. now rewrite G1.
  - destruct (find_product w p) as [x|] eqn:X; [|discriminate]. destruct (find_art x path) as [y|] eqn:Y; [|discriminate]. destruct G as (G1 & G2). cbn in AN. injection AN as <-. specialize (H _ (or_introl eq_refl)). cbn [holds] in H. unfold art_property_changed in H. cbn [r_product] in H. rewrite GP in H.
    destruct (find_product w' p) as [x'|] eqn:X'; [|discriminate]. destruct (find_art x' path) as [y'|] eqn:Y'; [|discriminate]. cbn [r_kind] in H. unfold property_changed in H. cbn [r_kind r_module r_name r_value] in H. apply negb_false_iff in H.
    cbn. f_equal. f_equal. apply comparable_veq; [|assumption]. now apply (G2 x x').
  - destruct (find_product w p) as [x|] eqn:X; [|discriminate]. destruct (find_art x path) as [y|] eqn:Y; [|discriminate]. cbn in AN. injection AN as <-. specialize (H _ (or_introl eq_refl)). cbn [holds] in H. unfold art_property_changed in H. cbn [r_product] in H. rewrite GP in H.
    destruct (find_product w' p) as [x'|] eqn:X'; [|discriminate]. destruct (find_art x' path) as [y'|] eqn:Y'; [|discriminate]. cbn [r_kind r_value] in H. apply negb_false_iff, strs_eqb_eq in H. rewrite strings_tags in H. cbn. now rewrite H.
  - destruct (find_product w p) as [x|] eqn:X; [|discriminate]. destruct (find_product w' p) as [x'|] eqn:X'; [|now destruct (SU p eq_refl)]. specialize (G x x' eq_refl eq_refl). pose proof (H _ (or_introl eq_refl)) as D. cbn [holds] in D.
    pose proof X' as X''. unfold find_product in X''. apply find_some in X'' as [I E]. apply str_eqb_eq in E. specialize (D x' I E). specialize (G (names_list _ _ (eq_sym D))). cbn in *. congruence.
  - destruct (find_product w p) as [x|] eqn:X; [|discriminate]. destruct (p_enabled x) eqn:EN; [|discriminate]. injection AN as <-. destruct (H _ (or_intror (or_introl eq_refl))) as (x' & X' & EN' & P). rewrite X', EN'. f_equal. f_equal. symmetry. apply same_own_paths; auto. intros a a' I I'. now apply (G x x' a a').
  - destruct (find_product w p) as [x|] eqn:X; [|discriminate]. destruct (p_enabled x) eqn:EN; [|discriminate]. injection AN as <-. destruct (H _ (or_intror (or_introl eq_refl))) as (x' & X' & EN' & P). rewrite X', EN'. destruct (G x x' eq_refl X') as [N N']. rewrite !no_targets_all by assumption. f_equal. f_equal. exact P.
  - destruct (find_product w p) as [x|] eqn:X; [|discriminate]. cbn in AN. injection AN as <-. pose proof (H _ (or_introl eq_refl)) as D. cbn [holds] in D. unfold export_up_to_date in D. cbn [fst snd] in D. rewrite GP in D.
    destruct (find_product w' p) as [x'|] eqn:X'; [|discriminate]. apply andb_true_iff in D as [D1 D2]. apply Nat.eqb_eq in D1. apply strs_eqb_eq in D2. cbn. now rewrite D1, D2.
  - destruct (find_file w f) as [[t c]|] eqn:F; [|discriminate]. cbn in AN. injection AN as <-. pose proof (H _ (or_introl eq_refl)) as D. cbn [holds] in D. unfold import_changed in D. cbn [fst snd] in D. destruct (find_file w' f) as [[t' c']|] eqn:F'; [|discriminate].
    apply Nat.ltb_ge in D. cbn. f_equal. f_equal. now apply (G t c t' c').
Qed.

(** The script can get at the products [l] in [w] *)
Definition reachable (w : world) (l : list str) : Prop := forall p, In p l -> find_product w p <> None.
Lemma learn_reachable own w q a known : closed w -> answer own w q = Some a -> reachable w known -> reachable w (learn a known).
Proof.
  intros C AN R p I. destruct a as [v| |l|l|n l|n|b]; cbn [learn] in I; try (now apply R).
  - apply in_app_iff in I as [I|I]; [|now apply R]. apply in_map_iff in I as ([b n] & E & I). cbn in E. subst n. apply filter_In in I as [I B]. cbn in B. subst b.
    assert (D : exists x, In x (w_products w) /\ l = dep_list x).
    { destruct q; cbn in AN; try (destruct (find_product w p0) as [x|] eqn:X; [|discriminate]); try discriminate.
      - destruct (find_product w own); discriminate.
      - unfold find_product in X. apply find_some in X as [X _]. exists x. split; [assumption|]. cbn in AN. destruct (dep_params x b d); [|congruence]. destruct (value (walk v path) k); discriminate.
      - destruct (find_art x path); discriminate.
      - destruct (find_art x path); discriminate.
      - unfold find_product in X. apply find_some in X as [X _]. exists x. split; [assumption|]. cbn in AN. congruence.
      - destruct (p_enabled x); discriminate.
      - destruct (p_enabled x); discriminate.
      - destruct (find_file w f); discriminate.
      - destruct (p_enabled x); discriminate.
      - destruct (find_art x path); discriminate. }
    destruct D as (x & X & ->). unfold dep_list in I. apply in_app_iff in I as [I|I]; apply in_map_iff in I as (y & [= E] & I). rewrite <- E. now apply (proj1 (C x X)).
  - apply in_app_iff in I as [I|I]; [|now apply R].
    assert (D : exists x, In x (w_products w) /\ l = p_export_deps x).
    { destruct q; cbn in AN; try (destruct (find_product w p0) as [x|] eqn:X; [|discriminate]); try discriminate.
      - destruct (find_product w own); discriminate.
      - cbn in AN. destruct (dep_params x b d); [|congruence]. destruct (value (walk v path) k); discriminate.
      - destruct (find_art x path); discriminate.
      - destruct (find_art x path); discriminate.
      - destruct (p_enabled x); discriminate.
      - destruct (p_enabled x); discriminate.
      - unfold find_product in X. apply find_some in X as [X _]. exists x. split; [assumption|]. cbn in AN. congruence.
      - destruct (find_file w f); discriminate.
      - destruct (p_enabled x); discriminate.
      - destruct (find_art x path); discriminate. }
    destruct D as (x & X & ->). now apply (proj2 (C x X)).
Qed.
Lemma run_same own w w' now o' s : find_product w own <> None -> find_product w' own = Some o' -> closed w' -> forall known e r e' e1, run own w s known e = Finished r e' -> reachable w' known ->
  (forall q a, In (q, a) (asked own w s) -> good own w w' now q) -> (forall q a f, In (q, a) (asked own w s) -> In f (facts_of own w q) -> holds now w' o' f) ->
  asked own w' s = asked own w s /\ exists e1', run own w' s known e1 = Finished r e1'.
Proof.
  intros OW OW' C. induction s as [r0|q k IH]; intros known e r e' e1 R RE G H; cbn [run asked] in *; [split; [reflexivity|]; injection R as -> _; eauto|].
  destruct (match subject own q with Some p => mem_str p known | None => true end) eqn:K; [|discriminate]. destruct (answer own w q) as [a|] eqn:AN; [|discriminate].
  assert (AN' : answer own w' q = Some a).
  { apply (answer_same own w w' now o'); auto.
    - apply (G q a). now left.
    - intros p E. rewrite E in K. apply RE. now apply mem_str_In.
    - intros f I. apply (H q a f); [now left|assumption]. }
  rewrite AN'. destruct (IH a (learn a known) _ _ _ (record own w' q a e1) R) as (E & e1' & R').
  - now apply (learn_reachable own w' q).
  - intros q' a' I. apply (G q' a'). now right.
  - intros q' a' f I. apply (H q' a' f). now right.
  - split; [now rewrite E|eauto].
Qed.

(** The project [w'] is such that the record of [q] still holds if its answer is the same *)
Definition steady (own : str) (w w' : world) (now : nat) (q : query) : Prop :=
  match q with
  | QModule p m k => m <> [] /\ ~ In 58 m
  | QProduct p k => forall o, find_product w own = Some o -> p <> p_project o
  | QProject k => forall o o', find_product w own = Some o -> find_product w' own = Some o' -> p_project o' = p_project o
  | QParam p b d path k =>
      forall x x', find_product w p = Some x -> find_product w' p = Some x' ->
      dep_list x' = dep_list x /\ (dep_params x b d <> None -> path <> [] /\ (forall e, In e path -> ~ In 46 e) /\ exists n, ~ In 58 n /\ alone x b d n /\ alone x' b d n)
  | QArtModule p path m k => m <> []
  | QTag p t => forall x x', find_product w p = Some x -> find_product w' p = Some x' -> no_targets x /\ no_targets x'
  | QTags p => forall x x', find_product w p = Some x -> find_product w' p = Some x' -> no_targets x /\ no_targets x'
  | QImport f => forall t c, find_file w' f = Some (t, c) -> (t <= now)%nat
  | _ => True
  end.
Definition unique (w : world) : Prop := NoDup (map p_unique (w_products w)).
(** The same answers, one by one *)
Definition unchanged (own : str) (w' : world) (l : list (query * ans)) : Prop := forall q a, In (q, a) l -> answer own w' q = Some a.

Lemma unique_find w x p : unique w -> In x (w_products w) -> p_unique x = p -> find_product w p = Some x.
Proof.
  unfold unique, find_product. intros N I <-. induction (w_products w) as [|y l IH]; [contradiction|]. cbn in N. inversion N as [|? ? N1 N2]; subst. cbn. destruct I as [->|I]; [now rewrite str_eqb_refl|].
  destruct (str_eqb (p_unique y) (p_unique x)) eqn:E; [|now apply IH]. apply str_eqb_eq in E. exfalso. apply N1. rewrite E. now apply in_map.
Qed.
Lemma list_names x x' : dep_list x' = dep_list x -> dep_names x' = dep_names x.
Proof.
  intros E. unfold dep_names. apply canon_ext. intros n. assert (M : forall y, map d_unique (p_deps y) ++ map m_name (p_modules y) = map snd (dep_list y)) by (intros y; unfold dep_list; rewrite map_app, !map_map; reflexivity). now rewrite !M, E.
Qed.
Lemma no_targets_filter x t : no_targets x -> filter own_artifact (with_tag x t) = with_tag x t.
Proof.
  intros N. assert (H : forall a, In a (with_tag x t) -> own_artifact a = true).
  { intros a I. apply own_target, N. unfold with_tag, arts in I. apply filter_In in I as [I _]. destruct (p_enabled x); [assumption|contradiction]. }
  induction (with_tag x t) as [|a l IH]; cbn; [reflexivity|]. rewrite (H a) by now left. rewrite IH; [reflexivity|]. intros b I. apply H. now right.
Qed.
Lemma facts_hold own w w' now o' q a : find_product w own <> None -> find_product w' own = Some o' -> unique w' -> answer own w q = Some a -> answer own w' q = Some a -> steady own w w' now q ->
  forall f, In f (facts_of own w q) -> holds now w' o' f.
Proof.
  intros OW OW' U AN AN' S f I. assert (GP : forall p, get_product w' o' p = find_product w' p) by (intros p; now apply (find_product_own w' own)).
  destruct q as [p m k|p k|k|p b d path k|p path m k|p path|p|p t|p|p|g|p m|p m t|p path k]; cbn [answer steady facts_of] in *; try contradiction.
  - destruct (find_product w p) as [x|] eqn:X; [|discriminate]. destruct (find_product w' p) as [x'|] eqn:X'; [|discriminate]. destruct I as [<-|[]]. cbn in AN, AN'. split; [discriminate|]. cbn [r_value]. unfold tracked_value, map_by_kind. cbn [r_kind r_product r_module r_name]. rewrite GP, X'.
    replace (module_property (p_modprops x') m k) with (module_property (p_modprops x) m k) by congruence. apply veq_refl.
  - destruct (find_product w p) as [x|] eqn:X; [|discriminate]. destruct (find_product w' p) as [x'|] eqn:X'; [|discriminate]. destruct (lookup (p_props x) k) as [v|] eqn:L; [|contradiction]. destruct I as [<-|[]]. cbn in AN, AN'. rewrite (lookup_value _ _ _ L) in AN.
    split; [discriminate|]. cbn [r_value]. unfold tracked_value, map_by_kind. cbn [r_kind r_product r_module r_name]. rewrite GP, X'. replace (value (p_props x') k) with v by congruence. apply veq_refl.
  - destruct (find_product w own) as [o|] eqn:O; [|congruence]. rewrite OW' in *. destruct (lookup (p_project_props o) k) as [v|] eqn:L; [|contradiction]. destruct I as [<-|[]]. cbn in AN, AN'. rewrite (lookup_value _ _ _ L) in AN.
    split; [discriminate|]. cbn [r_value]. unfold tracked_value, map_by_kind. cbn [r_kind r_product r_module r_name]. rewrite (S o o' eq_refl eq_refl), str_eqb_refl. replace (value (p_project_props o') k) with v by congruence. apply veq_refl.
  - destruct (find_product w p) as [x|] eqn:X; [|discriminate]. destruct (find_product w' p) as [x'|] eqn:X'; [|discriminate]. destruct (S x x' eq_refl eq_refl) as (S1 & S2). cbn [option_map] in *. destruct I as [<-|I].
    + intros y J E. rewrite (unique_find w' y p U J E) in X'. injection X' as ->. now apply list_names.
    + destruct (dep_params x b d) as [m|] eqn:P; [|contradiction]. destruct (lookup (walk m path) k) as [v|] eqn:L; [|contradiction]. rewrite (lookup_value _ _ _ L) in AN. destruct S2 as (S2 & S3 & n & S4 & S5 & S6); [discriminate|].
      rewrite (alone_name x b d n m S5 P) in I. assert (IV : f = FProp (mkProp p (n ++ colon :: join path) k v KParameters) /\ a = AVal v) by (destruct v; try contradiction; destruct I as [<-|[]]; split; congruence). destruct IV as [-> ->]. clear I AN.
      destruct (dep_params x' b d) as [m'|] eqn:P'; [|discriminate]. assert (V : value (walk m' path) k = v) by (destruct (value (walk m' path) k); congruence).
      split; [discriminate|]. cbn [r_value]. unfold tracked_value, map_by_kind. cbn [r_kind r_product r_module r_name]. rewrite GP, X', before_join, after_join, split_join by assumption. rewrite (alone_params x' b d n m' S6 P'), V. apply veq_refl.
  - destruct (find_product w p) as [x|] eqn:X; [|discriminate]. destruct (find_art x path) as [y|] eqn:Y; [|discriminate]. destruct (find_product w' p) as [x'|] eqn:X'; [|discriminate]. destruct (find_art x' path) as [y'|] eqn:Y'; [|discriminate]. destruct I as [<-|[]]. cbn in AN, AN'.
    cbn [holds]. unfold art_property_changed. cbn [r_product]. rewrite GP, X', Y'. cbn [r_kind]. unfold property_changed. cbn [r_kind r_module r_name r_value]. apply negb_false_iff. replace (module_property (a_props y') m k) with (module_property (a_props y) m k) by congruence. apply veq_refl.
  - destruct (find_product w p) as [x|] eqn:X; [|discriminate]. destruct (find_art x path) as [y|] eqn:Y; [|discriminate]. destruct (find_product w' p) as [x'|] eqn:X'; [|discriminate]. destruct (find_art x' path) as [y'|] eqn:Y'; [|discriminate]. destruct I as [<-|[]]. cbn in AN, AN'.
    cbn [holds]. unfold art_property_changed. cbn [r_product]. rewrite GP, X', Y'. cbn [r_kind r_value]. apply negb_false_iff, strs_eqb_eq. rewrite strings_tags. congruence.
  - destruct (find_product w p) as [x|] eqn:X; [|discriminate]. destruct (find_product w' p) as [x'|] eqn:X'; [|discriminate]. destruct I as [<-|[]]. cbn in AN, AN'. intros y J E. rewrite (unique_find w' y p U J E) in X'. injection X' as ->. apply list_names. congruence.
  - destruct (find_product w p) as [x|] eqn:X; [|discriminate]. destruct (p_enabled x) eqn:EN; [|discriminate]. destruct (find_product w' p) as [x'|] eqn:X'; [|discriminate]. destruct (p_enabled x') eqn:EN'; [|discriminate]. destruct (S x x' eq_refl eq_refl) as [N N']. rewrite no_targets_filter in AN, AN' by assumption.
    destruct I as [<-|[<-|[]]]; exists x'; auto. split; [assumption|]. split; [assumption|]. congruence.
  - destruct (find_product w p) as [x|] eqn:X; [|discriminate]. destruct (p_enabled x) eqn:EN; [|discriminate]. destruct (find_product w' p) as [x'|] eqn:X'; [|discriminate]. destruct (p_enabled x') eqn:EN'; [|discriminate]. destruct (S x x' eq_refl eq_refl) as [N N']. rewrite no_targets_all in AN, AN' by assumption.
    destruct I as [<-|[<-|[]]]; exists x'; auto. split; [assumption|]. split; [assumption|]. unfold all_tags. congruence.
  - destruct (find_product w p) as [x|] eqn:X; [|discriminate]. destruct (find_product w' p) as [x'|] eqn:X'; [|discriminate]. destruct I as [<-|[]]. cbn in AN, AN'. cbn [holds]. unfold export_up_to_date. cbn [fst snd]. rewrite GP, X'. apply andb_true_iff. split; [apply Nat.eqb_eq|apply strs_eqb_eq]; congruence.
  - destruct I as [<-|[]]. cbn [holds]. unfold import_changed. cbn [fst snd]. destruct (find_file w' g) as [[t c]|] eqn:F; [|discriminate]. apply Nat.ltb_ge. now apply (S t c).
  - destruct (find_product w p) as [x|] eqn:X; [|discriminate]. destruct (find_product w' p) as [x'|] eqn:X'; [|discriminate]. destruct (p_enabled x') eqn:EN'; [|discriminate]. destruct I as [<-|[]]. exists x'. auto.
Qed.
Lemma steady_shape own w w' now q a : answer own w' q = Some a -> steady own w w' now q -> shape own w q.
Proof.
  intros AN S. destruct q as [p m k|p k|k|p b d path k|p path m k|p path|p|p t|p|p|g|p m|p m t|p path k]; cbn [shape steady answer] in *; auto.
  intros x m X P. destruct (find_product w' p) as [x'|] eqn:X'; [|discriminate]. destruct (S x x' X eq_refl) as (_ & H). destruct H as (H1 & H2 & n & H3 & H4 & _); [congruence|]. eauto 6.
Qed.

(** ** The prepare script *)

(** If the tracker does not ask for it, running the prepare script again would give the same commands *)
Theorem prepare_sound own w w' now s r e o' t :
  find_product w own <> None -> run own w s [own] fresh = Finished r e -> f_prepare t = get_tracked w now e -> f_track_prepare t = true ->
  (forall q a, In (q, a) (asked own w s) -> good own w w' now q) -> closed w' -> find_product w' own = Some o' -> snd (prepare_needs_rerun w' o' t) = false ->
  asked own w' s = asked own w s /\ exists e', run own w' s [own] fresh = Finished r e'.
Proof.
  intros OW R T FL G C OW' NR. unfold prepare_needs_rerun in NR. rewrite FL in NR. cbn [negb snd] in NR. rewrite T in NR.
  destruct (run_spec own w s OW [own] fresh r e (fun q a I => good_shape _ _ _ _ _ (G q a I)) (fresh_wf own w) R) as [W F]. destruct (get_spec own w now e W) as [(T1 & T2 & T3 & T4 & (T5 & _) & _) F'].
  rewrite (tracker_spec now w' o' _ T5 T4) in NR. apply (run_same own w w' now o' s OW OW' C [own] fresh r e fresh R); auto.
  - intros p [<-|[]]. congruence.
  - intros q a f I J. apply NR, F', F. left. eauto.
Qed.
(** If the script would read the same values, it does not run again *)
Theorem prepare_precise own w w' now s r e o' t :
  find_product w own <> None -> run own w s [own] fresh = Finished r e -> f_prepare t = get_tracked w now e ->
  (forall q a, In (q, a) (asked own w s) -> steady own w w' now q) -> unique w' -> find_product w' own = Some o' -> unchanged own w' (asked own w s) ->
  snd (prepare_needs_rerun w' o' t) = false.
Proof.
  intros OW R T G U OW' UN. unfold prepare_needs_rerun. destruct (f_track_prepare t); [|reflexivity]. cbn [negb snd]. rewrite T.
  assert (AS : forall q a, In (q, a) (asked own w s) -> answer own w q = Some a).
  { clear. induction s as [r|q k IH]; cbn [asked]; [contradiction|]. destruct (answer own w q) as [b|] eqn:E; [|contradiction]. intros q' a [[= <- <-]|I]; [assumption|]. now apply (IH b). }
  destruct (run_spec own w s OW [own] fresh r e (fun q a I => steady_shape _ _ _ _ _ _ (UN q a I) (G q a I)) (fresh_wf own w) R) as [W F]. destruct (get_spec own w now e W) as [(T1 & T2 & T3 & T4 & (T5 & _) & _) F'].
  apply (tracker_spec now w' o' _ T5 T4). intros f I. apply F', F in I as [(q & a & I & J)|I]; [|now apply fresh_nothing in I]. apply (facts_hold own w w' now o' q a); auto. now apply (G q a).
Qed.
(** A check is done once after loading; it does not change anything else *)
Theorem prepare_check_once w o t : let t' := fst (prepare_needs_rerun w o t) in
  f_track_prepare t' = false /\ prepare_needs_rerun w o t' = (t', false) /\ f_prepare t' = f_prepare t /\ f_commands t' = f_commands t /\ f_env t' = f_env t /\ f_track_commands t' = f_track_commands t.
Proof. unfold prepare_needs_rerun. destruct (f_track_prepare t) eqn:E; cbn; rewrite ?E; auto 10. Qed.
Theorem commands_check_once w o t : let t' := fst (commands_need_rerun w o t) in
  f_track_commands t' = false /\ commands_need_rerun w o t' = (t', false) /\ f_prepare t' = f_prepare t /\ f_commands t' = f_commands t /\ f_env t' = f_env t /\ f_track_prepare t' = f_track_prepare t.
Proof. unfold commands_need_rerun. destruct (f_track_commands t) eqn:E; cbn; rewrite ?E; auto 10. Qed.

(** ** The commands *)

Definition reads (l : list (query * ans)) (path : str) : Prop := exists q a, In (q, a) l /\ ((exists p m k, q = QArtModule p path m k) \/ exists p, q = QArtTags p path).
Definition touches (l : list (query * ans)) (p : str) : Prop := exists q a, In (q, a) l /\ ((exists t, q = QTag p t) \/ q = QTags p \/ exists m t, q = QModuleTag p m t).
Definition lists (l : list (query * ans)) (p : str) : Prop := exists a, In (QTags p, a) l.
(** What an earlier command [l] and a later one [m] read can be recorded together *)
Definition compatible (w : world) (l m : list (query * ans)) : Prop :=
  (forall path, reads l path -> reads m path -> False) /\
  (forall p, touches l p -> touches m p -> (exists x a t, find_product w p = Some x /\ In a (p_arts x) /\ In t (a_tags a)) /\ (lists m p -> lists l p)).

Lemma merge_sub own w now t e : wfT own w now t -> wfE own w e ->
  wfT own w now (merge_tracked w now t e) /\ forall f, inT now (merge_tracked w now t e) f -> inT now t f \/ efact w e f.
Proof.
  intros (T1 & T2 & T3 & T4 & (T5 & T6) & T7 & T8 & T9) (A & B & C & D & E).
  pose proof (fold_insert_In own w (e_props e) (t_props t) A T1) as P1.
  destruct (fold_assign_In (e_arts e) (t_arts t) B T2) as [P2 P3].
  pose proof (fold_imports_In now (e_imports e) (t_imports t) T4) as P4.
  destruct (add_dep_names_spec w (e_deps e) (t_deps t) T5 T6) as [P5 P6].
  pose proof (add_exports_spec w (e_exports e) (t_exports t) T9) as P7.
  destruct (fold_maps (e_maps e) (t_maps t) D T7) as [P8 P9].
  set (mm := fold_left (fun l x => assign (fst x) (unite (get_req l (fst x)) (snd x)) l) (e_maps e) (t_maps t)) in *.
  assert (UN : forall p a b, genuine_req w p a -> genuine_req w p b -> genuine_req w p (unite a b) /\ (forall g l, In (g, l) (q_tags (unite a b)) -> In (g, l) (q_tags a) \/ In (g, l) (q_tags b)) /\ (q_enumerated (unite a b) = true -> q_enumerated a = true \/ q_enumerated b = true)).
  { intros p a b GA GB. destruct (q_all a) as [|t0 l0] eqn:Q.
    - unfold unite. rewrite Q. auto.
    - destruct (unite_spec w p a b GA GB) as (U1 & U2 & U3); [congruence|]. split; [assumption|]. split; [intros g l I; now apply U2|]. rewrite U3. auto. }
  assert (MM : forall p r, In (p, r) mm -> genuine_req w p r /\ exists a, (In (p, a) (t_maps t) \/ In (p, a) (e_maps e))).
  { intros p r I. apply (In_assoc _ _ _ P8) in I. rewrite P9 in I. destruct (assoc (t_maps t) p) as [a|] eqn:Ea, (assoc (e_maps e) p) as [b|] eqn:Eb; try discriminate; injection I as <-.
    - apply assoc_In in Ea, Eb. split; [apply UN; auto|eauto].
    - apply assoc_In in Ea. eauto.
    - apply assoc_In in Eb. eauto. }
  split.
  - split; [|split; [|split; [|split; [|split; [|split; [|split]]]]]]; cbn.
    + intros x I. apply P1 in I as [I|I]; auto.
    + exact P2.
    + intros path l x I J. apply P3 in I as [I|[I _]]; eauto.
    + intros f n I. apply P4 in I as [[_ ->]|I]; eauto.
    + split; [exact P5|]. intros p l I. apply P6 in I as [[_ H]|I]; auto.
    + exact P8.
    + intros p r I. now apply MM.
    + intros p v I. apply P7 in I as [[_ H]|I]; auto.
  - intros f. destruct f as [x|path x|f|p l|p|p g l|p l|p v]; cbn [inT efact merge_tracked t_props t_arts t_imports t_deps t_maps t_exports].
    + rewrite P1. tauto.
    + intros (l & I & J). apply P3 in I as [I|[I _]]; eauto.
    + rewrite P4. tauto.
    + rewrite P6. tauto.
    + intros (r & I). apply MM in I as (_ & a & [I|I]); eauto.
    + intros (r & I & J). apply (In_assoc _ _ _ P8) in I. rewrite P9 in I. destruct (assoc (t_maps t) p) as [a|] eqn:Ea, (assoc (e_maps e) p) as [b|] eqn:Eb; try discriminate; injection I as <-.
      * apply assoc_In in Ea, Eb. destruct (UN p a b) as (_ & U & _); auto. apply U in J as [J|J]; eauto.
      * apply assoc_In in Ea. eauto.
      * apply assoc_In in Eb. eauto.
    + intros (r & I & J & <-). assert (ALL : forall r r', genuine_req w p r -> genuine_req w p r' -> q_all r = q_all r') by (intros r1 r2 (x & X & _ & Q & _) (x' & X' & _ & Q' & _); congruence).
      apply MM in I as G. destruct G as [G _]. apply (In_assoc _ _ _ P8) in I. rewrite P9 in I. destruct (assoc (t_maps t) p) as [a|] eqn:Ea, (assoc (e_maps e) p) as [b|] eqn:Eb; try discriminate; injection I as <-.
      * apply assoc_In in Ea, Eb. destruct (UN p a b) as (_ & _ & U); auto. apply U in J as [J|J]; [left; exists a|right; exists b]; (split; [assumption|]; split; [assumption|]; apply ALL; auto).
      * apply assoc_In in Ea. eauto.
      * apply assoc_In in Eb. eauto.
    + rewrite P7. tauto.
Qed.
Definition filled (l : list (str * list property)) : Prop := forall path x, In (path, x) l -> x <> [].
Lemma insert_filled x l : insert x l <> [].
Proof. unfold insert. destruct (existsb (same_key x) l) eqn:E; [|now destruct l]. intros ->. discriminate. Qed.
Lemma record_filled own w q a e : NoDup (keys (e_arts e)) -> filled (e_arts e) -> filled (e_arts (record own w q a e)).
Proof.
  intros N F. assert (ADD : forall path x, filled (e_arts (add_art_prop path x e))).
  { intros path x path' l I. unfold add_art_prop in I. cbn [e_arts] in I. apply assign_In in I as [[_ ->]|[_ I]]; [apply insert_filled|now apply (F path')|assumption]. }
  destruct q; destruct a; cbn [record]; auto;
    try (destruct (find_product w p) as [x|]; [|assumption]); try (destruct (find_product w own) as [x|]; [|assumption]); auto;
    try (destruct (lookup _ _); assumption); try (destruct (dep_params x b d); [|assumption]; destruct (lookup _ _); assumption).
Qed.
Lemma run_filled own w s : find_product w own <> None -> forall known e r e', (forall q a, In (q, a) (asked own w s) -> shape own w q) -> wfE own w e -> filled (e_arts e) -> run own w s known e = Finished r e' -> filled (e_arts e').
Proof.
  intros OW. induction s as [r0|q k IH]; intros known e r e' SH W F R; cbn [run asked] in *; [injection R as _ <-; assumption|].
  destruct (match subject own q with Some p => mem_str p known | None => true end); [|discriminate]. destruct (answer own w q) as [a|] eqn:AN; [|discriminate].
  apply (IH a _ _ _ _ (fun q' a' I => SH q' a' (or_intror I))) in R; auto.
  - apply (record_spec own w q a e OW AN); [apply (SH q a); now left|assumption].
  - apply record_filled; [apply W|assumption].
Qed.
Lemma merge_filled w now t e : NoDup (keys (t_arts t)) -> NoDup (keys (e_arts e)) -> filled (t_arts t) -> filled (e_arts e) -> filled (t_arts (merge_tracked w now t e)).
Proof. intros N M F G path x I. cbn in I. apply (fold_assign_In _ _ M N) in I as [I|[I _]]; eauto. Qed.

Lemma facts_read own w q path x : In (FArt path x) (facts_of own w q) -> (exists p m k, q = QArtModule p path m k) \/ exists p, q = QArtTags p path.
Proof.
  destruct q; cbn; repeat match goal with |- context [match ?x with _ => _ end] => destruct x end; cbn; intuition (try discriminate; try congruence);
    match goal with H : FArt _ _ = FArt _ _ |- _ => injection H as -> _; eauto end.
Qed.
Lemma facts_touch own w q p : In (FMap p) (facts_of own w q) -> (exists t, q = QTag p t) \/ q = QTags p \/ exists m t, q = QModuleTag p m t.
Proof.
  destruct q; cbn; repeat match goal with |- context [match ?x with _ => _ end] => destruct x end; cbn; intuition (try discriminate; try congruence);
    match goal with H : FMap _ = FMap _ |- _ => injection H as ->; eauto end.
Qed.
Lemma facts_list own w q p l : In (FEnum p l) (facts_of own w q) -> q = QTags p.
Proof.
  destruct q; cbn; repeat match goal with |- context [match ?x with _ => _ end] => destruct x end; cbn; intuition (try discriminate; try congruence).
Qed.
Lemma asked_answer own w s q a : In (q, a) (asked own w s) -> answer own w q = Some a.
Proof.
  induction s as [r|q0 k IH]; cbn [asked]; [contradiction|]. destruct (answer own w q0) as [b|] eqn:E; [|contradiction]. intros [[= <- <-]|I]; [assumption|]. now apply (IH b).
Qed.
Lemma compatible_app w a b c : compatible w a c -> compatible w b c -> compatible w (a ++ b) c.
Proof.
  intros [A1 A2] [B1 B2]. split.
  - intros path (q & x & I & H) R. apply in_app_iff in I as [I|I]; [apply (A1 path)|apply (B1 path)]; auto; exists q, x; auto.
  - intros p (q & x & I & H) T. apply in_app_iff in I as [I|I].
    + destruct (A2 p) as [E L]; [exists q, x; auto|assumption|]. split; [assumption|]. intros LC. destruct (L LC) as (y & J). exists y. apply in_app_iff. auto.
    + destruct (B2 p) as [E L]; [exists q, x; auto|assumption|]. split; [assumption|]. intros LC. destruct (L LC) as (y & J). exists y. apply in_app_iff. auto.
Qed.
Definition answered (own : str) (w : world) (B : list (query * ans)) : Prop := forall q a, In (q, a) B -> answer own w q = Some a.
Lemma mergeable_compatible own w now t e B A : wfT own w now t -> wfE own w e -> filled (t_arts t) -> filled (e_arts e) ->
  (forall f, inT now t f <-> exists q a, In (q, a) B /\ In f (facts_of own w q)) -> (forall f, efact w e f <-> exists q a, In (q, a) A /\ In f (facts_of own w q)) -> answered own w B ->
  compatible w B A -> mergeable t e.
Proof.
  intros (T1 & T2 & T3 & T4 & T5 & T7 & T8 & T9) (_ & E2 & _ & E4 & E5) FT FE HT HE AB [C1 C2]. split.
  - intros path I J. apply in_map_iff in I as ([path' l] & E & I). apply in_map_iff in J as ([path'' m] & E' & J). cbn in E, E'. subst path' path''. pose proof (FT _ _ I) as N. pose proof (FE _ _ J) as M.
    destruct l as [|x l]; [congruence|]. destruct m as [|y m]; [congruence|]. apply (C1 path).
    + destruct (proj1 (HT (FArt path x))) as (q & a & K & F); [exists (x :: l); split; [assumption|now left]|]. exists q, a. split; [assumption|]. now apply facts_read in F.
    + destruct (proj1 (HE (FArt path y))) as (q & a & K & F); [exists (y :: m); split; [assumption|now left]|]. exists q, a. split; [assumption|]. now apply facts_read in F.
  - intros p r r' I J. destruct (C2 p) as [(x & a & t0 & X & IA & IT) L].
    + destruct (proj1 (HT (FMap p))) as (q & a & K & F); [now exists r|]. exists q, a. split; [assumption|]. now apply facts_touch in F.
    + destruct (proj1 (HE (FMap p))) as (q & a & K & F); [now exists r'|]. exists q, a. split; [assumption|]. now apply facts_touch in F.
    + destruct (T8 _ _ I) as (x' & X' & EN & Q & _). assert (x' = x) by congruence. subst x'. split.
      * rewrite Q. intros Z. assert (W : In t0 (all_tags x)) by (unfold all_tags, arts; rewrite EN, canon_In; apply in_flat_map; eauto). rewrite Z in W. contradiction.
      * intros EN'. destruct L as (b & K).
        { destruct (proj1 (HE (FEnum p (q_all r')))) as (q & c & K & F); [now exists r'|]. apply facts_list in F. subst q. now exists c. }
        destruct (proj2 (HT (FEnum p (all_tags x)))) as (r2 & I2 & EN2 & _).
        { exists (QTags p), b. split; [assumption|]. cbn [facts_of]. rewrite X. right. now left. }
        apply (In_assoc _ _ _ T7) in I, I2. congruence.
Qed.
Lemma nothing_wf own w now : wfT own w now nothing.
Proof. repeat split; cbn; try constructor; easy. Qed.
Lemma nothing_in now f : ~ inT now nothing f.
Proof. destruct f; cbn; try tauto; try (now intros (? & ? & ?)); now intros (? & ?). Qed.
Lemma commands_facts own w now known : find_product w own <> None -> forall l t rs t' B, run_commands own w now known l t = Some (rs, t') ->
  (forall s q a, In s l -> In (q, a) (asked own w s) -> shape own w q) -> wfT own w now t -> filled (t_arts t) -> answered own w B -> (forall f, inT now t f <-> exists q a, In (q, a) B /\ In f (facts_of own w q)) ->
  (forall s, In s l -> compatible w B (asked own w s)) -> ForallOrdPairs (compatible w) (map (asked own w) l) ->
  wfT own w now t' /\ forall f, inT now t' f <-> exists q a, (In (q, a) B \/ exists s, In s l /\ In (q, a) (asked own w s)) /\ In f (facts_of own w q).
Proof.
  intros OW. induction l as [|s l IH]; intros t rs t' B R SH W F AB HT CB CP; cbn [run_commands] in R.
  - injection R as _ <-. split; [assumption|]. intros f. rewrite HT. split; [intros (q & a & I & J); eauto|]. intros (q & a & [I|(s & [] & _)] & J). eauto.
  - destruct (run own w s known fresh) as [r e|] eqn:RU; [|discriminate]. destruct (run_commands own w now known l (merge_tracked w now t e)) as [[rs' t'']|] eqn:RC; [|discriminate]. injection R as _ <-.
    assert (SS : forall q a, In (q, a) (asked own w s) -> shape own w q) by (intros q a; apply SH; now left).
    destruct (run_spec own w s OW known fresh r e SS (fresh_wf own w) RU) as [WE FE]. pose proof (run_filled own w s OW known fresh r e SS (fresh_wf own w) (fun _ _ (i : In _ []) => match i with end) RU) as FI.
    assert (FE' : forall f, efact w e f <-> exists q a, In (q, a) (asked own w s) /\ In f (facts_of own w q)) by (intros f; rewrite FE; split; [intros [H|H]; [assumption|now apply fresh_nothing in H]|auto]).
    assert (MG : mergeable t e) by (apply (mergeable_compatible own w now t e B (asked own w s)); auto; apply CB; now left).
    destruct (merge_spec own w now t e W WE MG) as [W' HT']. cbn [map] in CP. inversion CP as [|? ? CP1 CP2]; subst. rewrite Forall_forall in CP1.
    destruct (IH _ _ _ (B ++ asked own w s) RC) as [W'' HT''].
    + intros s' q a I. apply SH. now right.
    + assumption.
    + apply merge_filled; auto; [apply W|apply WE].
    + intros q a I. apply in_app_iff in I as [I|I]; [now apply AB|now apply (asked_answer own w s)].
    + intros f. rewrite HT', HT, FE'. split.
      * intros [(q & a & I & J)|(q & a & I & J)]; exists q, a; rewrite in_app_iff; auto.
      * intros (q & a & I & J). apply in_app_iff in I as [I|I]; eauto.
    + intros s' I. apply compatible_app; [apply CB; now right|]. apply CP1. now apply in_map.
    + assumption.
    + split; [assumption|]. intros f. rewrite HT''. split.
      * intros (q & a & [I|(s' & I & K)] & J); exists q, a; (split; [|assumption]); [apply in_app_iff in I as [I|I]; [now left|right; exists s; split; [now left|assumption]]|right; exists s'; split; [now right|assumption]].
      * intros (q & a & [I|(s' & [<-|I] & K)] & J); exists q, a; (split; [|assumption]); [left; apply in_app_iff; auto|left; apply in_app_iff; auto|right; eauto].
Qed.
Lemma commands_sub own w now known : find_product w own <> None -> forall l t rs t', run_commands own w now known l t = Some (rs, t') ->
  (forall s q a, In s l -> In (q, a) (asked own w s) -> shape own w q) -> wfT own w now t ->
  wfT own w now t' /\ forall f, inT now t' f -> inT now t f \/ exists s q a, In s l /\ In (q, a) (asked own w s) /\ In f (facts_of own w q).
Proof.
  intros OW. induction l as [|s l IH]; intros t rs t' R SH W; cbn [run_commands] in R.
  - injection R as _ <-. auto.
  - destruct (run own w s known fresh) as [r e|] eqn:RU; [|discriminate]. destruct (run_commands own w now known l (merge_tracked w now t e)) as [[rs' t'']|] eqn:RC; [|discriminate]. injection R as _ <-.
    assert (SS : forall q a, In (q, a) (asked own w s) -> shape own w q) by (intros q a; apply SH; now left).
    destruct (run_spec own w s OW known fresh r e SS (fresh_wf own w) RU) as [WE FE]. destruct (merge_sub own w now t e W WE) as [W' HT'].
    destruct (IH _ _ _ RC (fun s' q a I => SH s' q a (or_intror I)) W') as [W'' HT'']. split; [assumption|]. intros f H. apply HT'' in H as [H|(s' & q & a & I & J & K)].
    + apply HT' in H as [H|H]; [auto|]. apply FE in H as [(q & a & I & J)|H]; [|now apply fresh_nothing in H]. right. exists s, q, a. split; [now left|auto].
    + right. exists s', q, a. split; [now right|auto].
Qed.

(** If the tracker does not ask for it, running the commands again would give the same results, and the process commands would see the same environment *)
Theorem commands_sound own w w' now l rs T o o' vars t :
  find_product w own = Some o -> run_commands own w now [own] l nothing = Some (rs, T) -> f_commands t = T -> f_env t = record_env o vars -> f_track_commands t = true ->
  (forall s q a, In s l -> In (q, a) (asked own w s) -> good own w w' now q) -> ForallOrdPairs (compatible w) (map (asked own w) l) ->
  closed w' -> find_product w' own = Some o' -> snd (commands_need_rerun w' o' t) = false ->
  (forall s, In s l -> asked own w' s = asked own w s) /\ (forall now', exists T', run_commands own w' now' [own] l nothing = Some (rs, T')) /\ forall v, In v vars -> env_value o' v = env_value o v.
Proof.
  intros OW R FC FV FL G CP C OW' NR. unfold commands_need_rerun in NR. rewrite FL in NR. cbn [negb snd] in NR. apply orb_false_iff in NR as [NR EV]. rewrite FC in NR. assert (OW1 : find_product w own <> None) by congruence.
  destruct (commands_facts own w now [own] OW1 l nothing rs T [] R) as [(T1 & T2 & T3 & T4 & (T5 & _) & _) HT].
  - intros s q a I J. apply (good_shape own w w' now). now apply (G s q a).
  - apply nothing_wf.
  - easy.
  - easy.
  - intros f. split; [intros H; now apply nothing_in in H|]. intros (q & a & [] & _).
  - intros s I. split; [intros path (q & a & [] & _)|intros p (q & a & [] & _)].
  - assumption.
  - rewrite (tracker_spec now w' o' _ T5 T4) in NR. assert (H : forall s q a f, In s l -> In (q, a) (asked own w s) -> In f (facts_of own w q) -> holds now w' o' f).
    { intros s q a f I J K. apply NR, HT. exists q, a. split; [right; eauto|assumption]. }
    assert (RE : reachable w' [own]) by (intros p [<-|[]]; congruence).
    split; [|split].
    + clear NR HT T1 T2 T3 T4 T5 CP FC. revert R. generalize nothing. revert rs T. induction l as [|s l IH]; intros rs T t0 R s' I; [contradiction|]. cbn [run_commands] in R. destruct (run own w s [own] fresh) as [r e|] eqn:RU; [|discriminate].
      destruct (run_commands own w now [own] l _) as [[rs' t'']|] eqn:RC; [|discriminate]. destruct I as [<-|I].
      * destruct (run_same own w w' now o' s OW1 OW' C [own] fresh r e fresh RU RE) as [E _]; auto; [intros q a; apply G; now left|intros q a f; apply H; now left].
      * eapply IH; eauto; [intros s1 q a J; apply G; now right|intros s1 q a f J; apply H; now right].
    + intros now'. clear NR HT T1 T2 T3 T4 T5 CP FC. revert R. generalize nothing at 1 as t0. generalize nothing as t1. revert rs T. induction l as [|s l IH]; intros rs T t1 t0 R; cbn [run_commands] in *; [injection R as <- _; eauto|]. destruct (run own w s [own] fresh) as [r e|] eqn:RU; [|discriminate].
      destruct (run_commands own w now [own] l _) as [[rs' t'']|] eqn:RC; [|discriminate]. injection R as <- <-.
      destruct (run_same own w w' now o' s OW1 OW' C [own] fresh r e fresh RU RE) as (_ & e' & ->); auto; [intros q a; apply G; now left|intros q a f; apply H; now left|].
      destruct (IH (fun s1 q a J => G s1 q a (or_intror J)) (fun s1 q a f J => H s1 q a f (or_intror J)) rs' t'' (merge_tracked w' now' t1 e') _ RC) as (T' & ->). eauto.
    + intros v I. unfold env_changed in EV. rewrite existsb_false in EV. rewrite FV in EV. specialize (EV (v, env_value o v)). cbn [fst snd] in EV. apply eq_sym, str_eqb_eq, negb_false_iff, EV. unfold record_env. apply in_map_iff. eauto.
Qed.
(** If all commands would read the same values, they do not run again *)
Theorem commands_precise own w w' now l rs T o o' vars t :
  find_product w own = Some o -> run_commands own w now [own] l nothing = Some (rs, T) -> f_commands t = T -> f_env t = record_env o vars ->
  (forall s q a, In s l -> In (q, a) (asked own w s) -> steady own w w' now q) -> unique w' -> find_product w' own = Some o' ->
  (forall s, In s l -> unchanged own w' (asked own w s)) -> (forall v, In v vars -> env_value o' v = env_value o v) ->
  snd (commands_need_rerun w' o' t) = false.
Proof.
  intros OW R FC FV G U OW' UN EV. unfold commands_need_rerun. destruct (f_track_commands t); [|reflexivity]. cbn [negb snd]. rewrite FC, FV. assert (OW1 : find_product w own <> None) by congruence.
  destruct (commands_sub own w now [own] OW1 l nothing rs T R) as [(T1 & T2 & T3 & T4 & (T5 & _) & _) HT].
  - intros s q a I J. apply (steady_shape own w w' now q a); [now apply (UN s)|now apply (G s q a)].
  - apply nothing_wf.
  - apply orb_false_iff. split.
    + apply (tracker_spec now w' o' _ T5 T4). intros f I. apply HT in I as [I|(s & q & a & I & J & K)]; [now apply nothing_in in I|]. apply (facts_hold own w w' now o' q a); auto; [now apply (asked_answer own w s)|now apply (UN s)|now apply (G s q a)].
    + unfold env_changed. apply existsb_false. intros [v x] I. unfold record_env in I. apply in_map_iff in I as (v' & [= <- <-] & I). cbn [fst snd]. apply negb_false_iff, str_eqb_eq. symmetry. now apply EV.
Qed.

(** ** What is not recognized *)

(** A run of the prepare script in [w'] would give something else, but the tracker does not ask for it *)
Definition missed (own : str) (w w' : world) (now : nat) (s : script) : Prop :=
  exists r e o' r' e', run own w s [own] fresh = Finished r e /\ find_product w' own = Some o' /\ needs_rerun w' o' (get_tracked w now e) = false /\ run own w' s [own] fresh = Finished r' e' /\ r <> r'.
Definition missed_commands (own : str) (w w' : world) (now : nat) (l : list script) : Prop :=
  exists rs T o' rs' T', run_commands own w now [own] l nothing = Some (rs, T) /\ find_product w' own = Some o' /\ needs_rerun w' o' T = false /\ run_commands own w' now [own] l nothing = Some (rs', T') /\ rs <> rs'.
(** Nothing that was read has changed, but the tracker asks for another run *)
Definition needless (own : str) (w w' : world) (now : nat) (s : script) : Prop :=
  exists r e o', run own w s [own] fresh = Finished r e /\ find_product w' own = Some o' /\ needs_rerun w' o' (get_tracked w now e) = true /\ unchanged own w' (asked own w s).

Definition code (a : ans) : nat :=
  match a with
  | AVal (VNum z) => Z.to_nat z | AVal (VStr _) => 50 | AVal _ => 51 | AObject => 52 | ADeps ((_, [n]) :: _) => N.to_nat n | ADeps _ => 53 | APaths l => 60 + length l | AExport n _ => n | AText n => n | ABool true => 70 | ABool false => 71
  end%nat.
Definition read_one (q : query) : script := Ask q (fun a => Done (code a)).
Definition base (modprops props : vmap) (deps : list dep) (mods : list modu) (l : list art) : product := mkProduct [1] [90] [([5], VNum 1)] modprops props deps mods true l 0 [] [].
Definition only (p : product) : world := mkWorld [p] [] [].
Ltac missed := unfold missed, missed_commands; do 5 eexists; repeat (split; [vm_compute; reflexivity|]); vm_compute; discriminate.

(** Product and project of the same name: once the product's property has been read, the project's property of the same name is not recorded *)
Theorem mixed_kinds_refuted : exists own w w' s, missed own w w' 0 s /\ (exists x x', w_products w = [x] /\ w_products w' = [x'] /\ p_props x = p_props x' /\ p_modprops x = p_modprops x').
Proof.
  exists [1]. pose (p n := mkProduct [1] [1] [([5], VNum n)] [] [([5], VNum 7)] [] [] true [] 0 [] []). exists (only (p 1%Z)), (only (p 2%Z)), (Ask (QProduct [1] [5]) (fun _ => read_one (QProject [5]))).
  split; [missed|]. exists (p 1%Z), (p 2%Z). auto.
Qed.
(** Artifacts of a module: only the tags of the product's artifacts are noted, and not compared *)
Theorem module_artifacts_refuted : exists own w w' s, missed own w w' 0 s.
Proof.
  exists [1]. pose (p l := base [] [] [] [mkMod [8] []] l). exists (only (p [])), (only (p [mkArt [30] [[40]] (Some [8]) []])), (read_one (QModuleTag [1] [8] [40])). missed.
Qed.
(** Whether there is a certain module *)
Theorem module_presence_refuted : exists own w w' s, missed own w w' 0 s.
Proof. exists [1], (only (base [] [] [] [] [])), (only (base [] [] [] [mkMod [8] []] [])), (read_one (QHasModule [1] [8])). missed. Qed.
(** A product's property, read through an input file *)
Theorem product_of_artifact_refuted : exists own w w' s, missed own w w' 0 s.
Proof.
  exists [1]. pose (p n := base [] [([5], VNum n)] [] [] [mkArt [30] [[40]] None []]). exists (only (p 1%Z)), (only (p 2%Z)), (read_one (QArtProduct [1] [30] [5])). missed.
Qed.
(** A property that did not exist when it was read *)
Theorem added_property_refuted : exists own w w' s, missed own w w' 0 s.
Proof. exists [1], (only (base [] [] [] [] [])), (only (base [] [([5], VNum 1)] [] [] [])), (read_one (QProduct [1] [5])). missed. Qed.
(** Dependencies in another order *)
Theorem dependency_order_refuted : exists own w w' s, missed own w w' 0 s.
Proof. exists [1], (only (base [] [] [] [mkMod [8] []; mkMod [9] []] [])), (only (base [] [] [] [mkMod [9] []; mkMod [8] []] [])), (read_one (QDeps [1])). missed. Qed.
(** An empty list is the same as any value that is not a list *)
Theorem empty_list_refuted : exists own w w' s, missed own w w' 0 s.
Proof. exists [1], (only (base [([8], VMap [([5], VList [])])] [] [] [] [])), (only (base [([8], VMap [([5], VStr [66])])] [] [] [] [])), (read_one (QModule [1] [8] [5])). missed. Qed.
(** An artifact becomes a target of a module and is not among the product's artifacts any more *)
Theorem new_target_refuted : exists own w w' s, missed own w w' 0 s.
Proof.
  exists [1]. pose (p t := base [] [] [] [] [mkArt [30] [[40]] t []]). exists (only (p None)), (only (p (Some [8]))), (read_one (QTag [1] [40])). missed.
Qed.
(** Parameters of two dependencies with the same name, as with multiplexed products: those of the first one are compared with those of the second one.  Changes are not seen, and the script always runs again if they are different. *)
Definition two_deps (m n : Z) : world :=
  mkWorld [base [] [] [mkDep [2] [7] [([8], VMap [([5], VNum m)])]; mkDep [3] [7] [([8], VMap [([5], VNum n)])]] [] []; mkProduct [2] [90] [] [] [] [] [] true [] 0 [] []; mkProduct [3] [90] [] [] [] [] [] true [] 0 [] []] [] [].
Theorem same_name_parameters_refuted : exists own w w' s, missed own w w' 0 s.
Proof. exists [1], (two_deps 1 1), (two_deps 1 2), (read_one (QParam [1] true [3] [[8]] [5])). missed. Qed.
Theorem same_name_parameters_needless_refuted : exists own w s, needless own w w 0 s.
Proof.
  exists [1], (two_deps 1 2), (read_one (QParam [1] true [3] [[8]] [5])). unfold needless. do 3 eexists. repeat (split; [vm_compute; reflexivity|]). intros q a I. now apply asked_answer in I.
Qed.
(** The project got another name *)
Theorem renamed_project_needless_refuted : exists own w w' s, needless own w w' 0 s.
Proof.
  exists [1]. pose (p n := mkProduct [1] [n] [([5], VNum 1)] [] [] [] [] true [] 0 [] []). exists (only (p 90)), (only (p 91)), (read_one (QProject [5])). unfold needless. do 3 eexists. repeat (split; [vm_compute; reflexivity|]).
  intros q a I. vm_compute in I. destruct I as [[= <- <-]|[]]. reflexivity.
Qed.
(** A later command lists the tags of the product's artifacts, after an earlier one has looked for a tag *)
Theorem enumerated_later_refuted : exists own w w' l, missed_commands own w w' 0 l.
Proof.
  exists [1]. pose (p l := base [] [] [] [] [mkArt [30] l None []]). exists (only (p [[40]])), (only (p [[40]; [41]])), [read_one (QTag [1] [40]); read_one (QTags [1])]. missed.
Qed.
(** No artifact had a tag, so that what a later command reads replaces what the earlier one has read *)
Theorem no_tags_refuted : exists own w w' l, missed_commands own w w' 0 l.
Proof.
  exists [1], (only (base [] [] [] [] [])), (only (base [] [] [] [] [mkArt [30] [[40]] None []])), [read_one (QTag [1] [40]); read_one (QTag [1] [41])]. missed.
Qed.
(** Two commands read properties of the same artifact: those of the earlier one are forgotten *)
Theorem artifact_in_two_commands_refuted : exists own w w' l, missed_commands own w w' 0 l.
Proof.
  exists [1]. pose (p n := base [] [] [] [] [mkArt [30] [[40]] None [([8], VMap [([5], VNum n); ([6], VNum 1)])]]). exists (only (p 1%Z)), (only (p 2%Z)), [read_one (QArtModule [1] [30] [8] [5]); read_one (QArtModule [1] [30] [8] [6])]. missed.
Qed.

Module Demo.
  Definition other (tags : list str) : product := mkProduct [2] [90] [] [] [] [] [] true [mkArt [31] tags None []] 3 [] [].
  Definition demo (defs unused param : Z) (tags : list str) (time content : nat) : world :=
    mkWorld [mkProduct [1] [90] [([5], VNum 1)] [([8], VMap [([5], VNum defs); ([6], VNum unused)])] [] [mkDep [2] [22] [([8], VMap [([5], VNum param)])]] [mkMod [8] []] true [mkArt [30] [[40]] None [([8], VMap [([5], VNum 4)])]] 0 [] [([65], [66])];
             other tags] [] [([70], (time, content))].
  Definition script_ : script :=
    Ask (QModule [1] [8] [5]) (fun a => Ask (QImport [70]) (fun b => Ask (QDeps [1]) (fun _ => Ask (QParam [1] true [2] [[8]] [5]) (fun c => Ask (QTag [2] [41]) (fun d => Ask (QArtModule [1] [30] [8] [5]) (fun f => Ask (QProject [5]) (fun g =>
      Done (code a + code b + code c + code d + code f + code g)))))))).
  Definition before : world := demo 10 1 20 [[41]] 3 7.
  Definition ran : engine := match run [1] before script_ [[1]] fresh with Finished _ e => e | Stuck => fresh end.
  Definition application : trafo := mkTrafo (get_tracked before 5 ran) nothing [] true true.
  Definition check (w : world) : bool := match find_product w [1] with Some o => snd (prepare_needs_rerun w o application) | None => true end.
  Example same : check before = false.
  Proof. reflexivity. Qed.
  Example irrelevant : check (demo 10 2 20 [[41]; [42]] 5 7) = false.
  Proof. reflexivity. Qed.
  Example changed : map check [demo 11 1 20 [[41]] 3 7; demo 10 1 21 [[41]] 3 7; demo 10 1 20 [[42]] 3 7; demo 10 1 20 [[41]] 6 8] = [true; true; true; true].
  Proof. reflexivity. Qed.
  Example asked_seven : length (asked [1] before script_) = 7%nat.
  Proof. reflexivity. Qed.
  Ltac entries I := vm_compute in I; repeat (destruct I as [[= <- <-]|I]; [|try contradiction]); try contradiction.
  Lemma alone22 x : p_deps x = [mkDep [2] [22] [([8], VMap [([5], VNum 20)])]] -> p_modules x = [mkMod [8] []] -> alone x true [2] [22].
  Proof. intros D M. unfold alone. rewrite D, M. split; [intros y [<-|[]]; cbn; split; auto|intros m [<-|[]]; discriminate]. Qed.
  Example all_good : forall q a, In (q, a) (asked [1] before script_) -> good [1] before (demo 10 2 20 [[41]; [42]] 5 7) 5 q.
  Proof.
    intros q a I. entries I; cbn [good].
    - split; [discriminate|]. split; [intros [E|[]]; discriminate|]. intros x x' E E'. vm_compute in E, E'. injection E as <-. injection E' as <-. right. left. exact Logic.I.
    - intros t c t' c' E E'. vm_compute in E, E'. congruence.
    - intros x x' E E'. vm_compute in E, E'. injection E as <-. injection E' as <-. intros _. reflexivity.
    - intros x E. vm_compute in E. injection E as <-. split; [intros x' E'; vm_compute in E'; injection E' as <-; intros _; reflexivity|]. intros m E. vm_compute in E. injection E as <-.
      split; [discriminate|]. split; [intros n; discriminate|]. split; [discriminate|]. split; [intros e [<-|[]] [C|[]]; discriminate|]. exists [22]. split; [intros [C|[]]; discriminate|]. split; [now apply alone22|].
      intros x' E'. vm_compute in E'. injection E' as <-. split; [now apply alone22|]. intros m' E'. vm_compute in E'. injection E' as <-. right. left. exact Logic.I.
    - intros x x' b b' E E' J J' _. vm_compute in E, E'. injection E as <-. injection E' as <-. destruct J as [<-|[]], J' as [<-|[]]. tauto.
    - split; [discriminate|]. intros x x' b b' E E' F F'. vm_compute in E, E'. injection E as <-. injection E' as <-. vm_compute in F, F'. injection F as <-. injection F' as <-. right. left. exact Logic.I.
    - intros o E. vm_compute in E. injection E as <-. split; [discriminate|]. intros o' E'. vm_compute in E'. injection E' as <-. split; [reflexivity|]. right. left. exact Logic.I.
  Qed.
  Example all_steady : forall q a, In (q, a) (asked [1] before script_) -> steady [1] before (demo 10 2 20 [[41]; [42]] 5 7) 5 q.
  Proof.
    intros q a I. entries I; cbn [steady]; try exact Logic.I.
    - split; [discriminate|]. intros [E|[]]; discriminate.
    - intros t c E. vm_compute in E. injection E as <- _. lia.
    - intros x x' E E'. vm_compute in E, E'. injection E as <-. injection E' as <-. split; [reflexivity|]. intros _. split; [discriminate|]. split; [intros e [<-|[]] [C|[]]; discriminate|]. exists [22]. split; [intros [C|[]]; discriminate|]. split; now apply alone22.
    - intros x x' E E'. vm_compute in E, E'. injection E as <-. injection E' as <-. split; intros b [<-|[]]; reflexivity.
    - discriminate.
    - intros o o' E E'. vm_compute in E, E'. injection E as <-. injection E' as <-. reflexivity.
  Qed.
  Example all_closed : closed (demo 10 2 20 [[41]; [42]] 5 7) /\ unique (demo 10 2 20 [[41]; [42]] 5 7).
  Proof.
    split; [|vm_compute; constructor; [intros [C|[]]; discriminate|constructor; [intros []|constructor]]]. intros x [<-|[<-|[]]]; split; cbn; intros d; try contradiction. intros [<-|[]]. discriminate.
  Qed.
  Example sound : exists e', run [1] (demo 10 2 20 [[41]; [42]] 5 7) script_ [[1]] fresh = Finished 103 e'.
  Proof.
    eapply (prepare_sound [1] before (demo 10 2 20 [[41]; [42]] 5 7) 5 script_ 103 ran _ application); try reflexivity; [discriminate|exact all_good|apply all_closed].
  Qed.
  (* two commands with the environment *)
  Definition first : script := Ask (QTags [1]) (fun a => Ask (QModule [1] [8] [5]) (fun b => Done (code a + code b))).
  Definition second : script := Ask (QArtModule [1] [30] [8] [5]) (fun a => Ask (QTag [1] [40]) (fun b => Done (code a + code b))).
  Definition done : option (list nat * tracked) := run_commands [1] before 5 [[1]] [first; second] nothing.
  Example results : option_map fst done = Some [71; 65]%nat.
  Proof. reflexivity. Qed.
  Example all_compatible : ForallOrdPairs (compatible before) (map (asked [1] before) [first; second]).
  Proof.
    constructor; [|constructor; constructor]. constructor; [|constructor]. split.
    - intros path (q & a & I & H) _. vm_compute in I. destruct I as [[= <- <-]|[[= <- <-]|[]]]; destruct H as [(? & ? & ? & H)|(? & H)]; discriminate.
    - intros p (q & a & I & H) _. vm_compute in I. destruct I as [[= <- <-]|[[= <- <-]|[]]]; destruct H as [(? & H)|[H|(? & ? & H)]]; try discriminate. injection H as <-. split; [|intros _; eexists; left; reflexivity].
      do 3 eexists. split; [vm_compute; reflexivity|]. split; [left; reflexivity|left; reflexivity].
  Qed.
  Definition commands_application : trafo := mkTrafo nothing (match done with Some (_, T) => T | None => nothing end) [([65], [66])] false true.
  Definition check_commands (w : world) : bool := match find_product w [1] with Some o => snd (commands_need_rerun w o commands_application) | None => true end.
  Example commands_same : check_commands (demo 10 2 21 [] 9 9) = false /\ check_commands (demo 11 1 20 [[41]] 3 7) = true.
  Proof. split; reflexivity. Qed.
  Example environment : snd (commands_need_rerun before (mkProduct [1] [90] [([5], VNum 1)] [([8], VMap [([5], VNum 10)])] [] [] [] true [mkArt [30] [[40]] None [([8], VMap [([5], VNum 4)])]] 0 [] [([65], [67])]) commands_application) = true.
  Proof. reflexivity. Qed.
End Demo.

Print Assumptions prepare_sound.
Print Assumptions prepare_precise.
Print Assumptions prepare_check_once.
Print Assumptions commands_check_once.
Print Assumptions commands_sound.
Print Assumptions commands_precise.
Print Assumptions mixed_kinds_refuted.
Print Assumptions module_artifacts_refuted.
Print Assumptions module_presence_refuted.
Print Assumptions product_of_artifact_refuted.
Print Assumptions added_property_refuted.
Print Assumptions dependency_order_refuted.
Print Assumptions empty_list_refuted.
Print Assumptions new_target_refuted.
Print Assumptions same_name_parameters_refuted.
Print Assumptions same_name_parameters_needless_refuted.
Print Assumptions renamed_project_needless_refuted.
Print Assumptions enumerated_later_refuted.
Print Assumptions no_tags_refuted.
Print Assumptions artifact_in_two_commands_refuted.
