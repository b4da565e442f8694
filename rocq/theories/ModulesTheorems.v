(** Theorems about loading the modules of a product (C61, C62, C63). *)
From Coq Require Import List Bool Arith ZArith Lia Permutation.
From Verif Require Import VersionModel VersionTheorems ModulesModel.
Import ListNotations.
Local Open Scope nat_scope.

(** ** Specification *)

(** A Depends item [d] of the product ([None]) or of one of the loaded modules. *)
Definition asks (deps : list dep) (ms : list modul) (l : option name) (d : dep) : Prop :=
  match l with
  | None => In d deps
  | Some n => exists m k, In m ms /\ m_name m = n /\ m_desc m = Some k /\ In d (k_deps k)
  end.
(** There is a chain of [i] Depends items from the product to the module. *)
Inductive path (ask : option name -> dep -> Prop) : nat -> name -> Prop :=
| path_one d : ask None d -> path ask 1 (d_name d)
| path_more i n d : path ask i n -> ask (Some n) d -> path ask (S i) (d_name d).
(** The same with all of them required. *)
Inductive rchain (ask : option name -> dep -> Prop) : name -> Prop :=
| rchain_one d : ask None d -> d_required d = true -> rchain ask (d_name d)
| rchain_more n d : rchain ask n -> ask (Some n) d -> d_required d = true -> rchain ask (d_name d).
(** A module needs another one, directly or not. *)
Inductive leads (ask : option name -> dep -> Prop) : name -> name -> Prop :=
| leads_one n d : ask (Some n) d -> leads ask n (d_name d)
| leads_more n d x : ask (Some n) d -> leads ask (d_name d) x -> leads ask n x.
(** What could be asked for, whatever file is taken for a module. *)
Definition could (faulty : name -> bool) (look : name -> range -> option desc) (deps : list dep) (l : option name) (d : dep) : Prop :=
  match l with
  | None => In d deps
  | Some n => exists r k, faulty n = false /\ look n r = Some k /\ In d (k_deps k)
  end.
(** The Depends items that count: a product that is disabled or does not exist for the profile is
    passed over. *)
Definition uses (faulty : name -> bool) (deps : list dep) (ms : list modul) (l : option name) (d : dep) : Prop :=
  asks deps ms l d /\ faulty (d_name d) = false.
(** The first Depends item of module [n] on [t] is required. *)
Definition hard (faulty : name -> bool) (ms : list modul) (n t : name) : Prop :=
  exists m k l1 d l2, In m ms /\ m_name m = n /\ m_desc m = Some k /\ k_deps k = l1 ++ d :: l2
    /\ d_name d = t /\ d_required d = true /\ faulty t = false /\ (forall x, In x l1 -> d_name x <> t).
(** A module cannot be used: it was not found, its probes, its version or its validation are not all
    right, or the same holds for one that it requires. *)
Inductive broken (faulty : name -> bool) (ms : list modul) : name -> Prop :=
| broken_missing m : In m ms -> m_desc m = None -> broken faulty ms (m_name m)
| broken_unfit m k : In m ms -> m_desc m = Some k ->
    k_probes k = false \/ ~ in_range (m_range m) (k_version k) \/ k_valid k = false -> broken faulty ms (m_name m)
| broken_dep n t : hard faulty ms n t -> broken faulty ms t -> broken faulty ms n.
(** A chain of Depends items leads from the product through usable modules only. *)
Inductive alive (faulty : name -> bool) (deps : list dep) (ms : list modul) : name -> Prop :=
| alive_one d : uses faulty deps ms None d -> ~ broken faulty ms (d_name d) -> alive faulty deps ms (d_name d)
| alive_more n d : alive faulty deps ms n -> uses faulty deps ms (Some n) d -> ~ broken faulty ms (d_name d) ->
    alive faulty deps ms (d_name d).
(** [a] occurs before [b]. *)
Definition before {A} (l : list A) (a b : A) : Prop := exists l1 l2 l3, l = l1 ++ a :: l2 ++ b :: l3.
Definition proper_prefix (a b : name) : Prop := exists x c, b = a ++ x :: c.

(** ** Basics *)
Lemma name_eqb_eq a b : name_eqb a b = true <-> a = b.
Proof. unfold name_eqb. destruct (list_eq_dec Nat.eq_dec a b); split; intros; congruence. Qed.
Lemma name_eqb_refl a : name_eqb a a = true.
Proof. now apply name_eqb_eq. Qed.
Lemma name_eqb_neq a b : name_eqb a b = false <-> a <> b.
Proof. rewrite <- name_eqb_eq. destruct (name_eqb a b); split; congruence. Qed.
Lemma item_eqb_eq a b : item_eqb a b = true <-> a = b.
Proof.
  destruct a, b; cbn; rewrite ?name_eqb_eq; split; intros; congruence.
Qed.
Lemma item_eqb_neq a b : item_eqb a b = false <-> a <> b.
Proof. rewrite <- item_eqb_eq. destruct (item_eqb a b); split; congruence. Qed.
Lemma item_eqb_refl a : item_eqb a a = true.
Proof. now apply item_eqb_eq. Qed.
Lemma name_dec (a b : name) : {a = b} + {a <> b}.
Proof. apply list_eq_dec, Nat.eq_dec. Qed.

Lemma find_mod_some n ms m : find_mod n ms = Some m -> In m ms /\ m_name m = n.
Proof. unfold find_mod. intros F. apply find_some in F as [Im E]. now apply name_eqb_eq in E. Qed.
Lemma find_mod_none n ms : find_mod n ms = None <-> ~ In n (map m_name ms).
Proof.
  unfold find_mod. split.
  - intros F X. apply in_map_iff in X as (m & <- & Im). eapply find_none in F; eauto. cbn in F. rewrite name_eqb_refl in F. discriminate.
  - intros X. destruct (find _ ms) eqn:F; auto. apply find_some in F as [Im E]. apply name_eqb_eq in E. subst. exfalso. apply X. now apply in_map.
Qed.
Lemma find_mod_unique ms m : NoDup (map m_name ms) -> In m ms -> find_mod (m_name m) ms = Some m.
Proof.
  unfold find_mod. induction ms as [|x t IH]; cbn; intros ND Im; [contradiction|]. inversion ND as [|? ? NI ND']; subst. destruct Im as [->|Im].
  - now rewrite name_eqb_refl.
  - destruct (name_eqb (m_name x) (m_name m)) eqn:E; auto. apply name_eqb_eq in E. exfalso. apply NI. rewrite E. now apply in_map.
Qed.
Lemma names_unique ms m m' : NoDup (map m_name ms) -> In m ms -> In m' ms -> m_name m = m_name m' -> m = m'.
Proof.
  intros ND I1 I2 E. pose proof (find_mod_unique ms m ND I1) as F1. pose proof (find_mod_unique ms m' ND I2) as F2. rewrite E in F1. congruence.
Qed.

Lemma on_mod_names n f ms : (forall m, m_name (f m) = m_name m) -> map m_name (on_mod n f ms) = map m_name ms.
Proof. intros Hf. unfold on_mod. rewrite map_map. apply map_ext. intros m. destruct (name_eqb _ _); auto. Qed.
Lemma on_mod_In n f ms m : In m (on_mod n f ms) <->
  (exists x, In x ms /\ m_name x = n /\ m = f x) \/ (In m ms /\ m_name m <> n).
Proof.
  unfold on_mod. rewrite in_map_iff. split.
  - intros (x & E & Ix). destruct (name_eqb (m_name x) n) eqn:B.
    + apply name_eqb_eq in B. left. eauto.
    + apply name_eqb_neq in B. subst. right. auto.
  - intros [(x & Ix & E & ->)|[Im NE]].
    + exists x. rewrite (proj2 (name_eqb_eq _ _) E). auto.
    + exists m. apply name_eqb_neq in NE. rewrite NE. auto.
Qed.
Lemma add_local_names l d ms : map m_name (add_local l d ms) = map m_name ms.
Proof. destruct l; cbn; auto. apply on_mod_names. intros m. destruct (existsb _ _); auto. Qed.
Lemma update_names l d g k m : m_name (update_module l d g k m) = m_name m.
Proof. reflexivity. Qed.
Lemma move_names n ms : In n (map m_name ms) ->
  map m_name (move_to_end n ms) = filter (fun x => negb (name_eqb x n)) (map m_name ms) ++ [n].
Proof.
  intros X. unfold move_to_end. destruct (find_mod n ms) eqn:F; [|apply find_mod_none in F; contradiction].
  apply find_mod_some in F as [_ E]. rewrite map_app. cbn. rewrite E. f_equal.
  clear. induction ms as [|m t IH]; cbn; auto. destruct (name_eqb (m_name m) n); cbn; congruence.
Qed.
Lemma move_In n ms m : NoDup (map m_name ms) -> In m (move_to_end n ms) <-> In m ms.
Proof.
  intros ND. unfold move_to_end. destruct (find_mod n ms) eqn:F; [|tauto].
  pose proof (find_mod_some _ _ _ F) as [Im E]. rewrite in_app_iff, filter_In. cbn. split.
  - intros [[X _]|[<-|[]]]; auto.
  - intros X. destruct (name_eqb (m_name m) n) eqn:B; [|left; auto].
    right. left. apply name_eqb_eq in B. eapply names_unique; eauto. congruence.
Qed.

Lemma NoDup_snoc {A} (l : list A) x : NoDup l -> ~ In x l -> NoDup (l ++ [x]).
Proof.
  induction l as [|y t IH]; cbn; intros ND NI.
  - constructor; [intros []|constructor].
  - inversion ND; subst. constructor.
    + rewrite in_app_iff. cbn. intros [X|[X|[]]]; [contradiction|]. subst. apply NI. auto.
    + apply IH; auto.
Qed.
Lemma filter_NoDup {A} (p : A -> bool) l : NoDup l -> NoDup (filter p l).
Proof.
  induction l as [|x t IH]; cbn; intros ND; auto. inversion ND; subst. destruct (p x); auto.
  constructor; auto. rewrite filter_In. tauto.
Qed.
Lemma before_snoc {A} (l : list A) x a b : before l a b -> before (l ++ [x]) a b.
Proof. intros (l1 & l2 & l3 & ->). exists l1, l2, (l3 ++ [x]). rewrite <- !app_assoc. cbn. now rewrite <- app_assoc. Qed.
Lemma before_last {A} (l : list A) a x : In a l -> before (l ++ [x]) a x.
Proof. intros X. apply in_split in X as (l1 & l2 & ->). exists l1, l2, []. rewrite <- app_assoc. reflexivity. Qed.
Lemma before_filter {A} (p : A -> bool) l a b : before l a b -> p a = true -> p b = true -> before (filter p l) a b.
Proof.
  intros (l1 & l2 & l3 & ->) Pa Pb. exists (filter p l1), (filter p l2), (filter p l3).
  rewrite filter_app. cbn. rewrite Pa, filter_app. cbn. now rewrite Pb.
Qed.

(** ** The history of a run *)
Record entry := { e_from : option name; e_dep : dep; e_global : bool; e_len : nat; e_used : bool }.
Definition aim (e : entry) : name := d_name (e_dep e).
Definition to_mod (H : list entry) (n : name) : list entry := filter (fun e => e_used e && name_eqb (aim e) n) H.
Definition by_item (H : list entry) (l : option name) : list entry := filter (fun e => item_eqb (e_from e) l) H.

Section Run.
  Variable faulty : name -> bool.
  Variable look : name -> range -> option desc.
  Variable deps : list dep.

  Definition desc_of (n : name) (r : range) (k : option desc) : Prop :=
    faulty n = false /\ look n r = k.
  Definition deps_of (k : option desc) : list dep := match k with Some k => k_deps k | None => [] end.

  (** Everything that is known about a module follows from the Depends items that asked for it. *)
  Definition fits (H : list entry) (m : modul) : Prop :=
    exists e es, to_mod H (m_name m) = e :: es
    /\ desc_of (m_name m) (d_range (e_dep e)) (m_desc m)
    /\ m_range m = fold_left narrow_down (map (fun x => d_range (e_dep x)) es) (d_range (e_dep e))
    /\ m_required m = existsb e_global (e :: es)
    /\ m_minimal m = forallb (fun x => d_minimal (e_dep x)) (e :: es)
    /\ m_chain m = fold_left Nat.max (map e_len es) (e_len e)
    /\ (forall l, In l (m_loaders m) <-> exists x, In x (e :: es) /\ e_from x = l)
    /\ (forall t, find (fun l => name_eqb (l_name l) t) (m_locals m) =
          option_map (fun x => {| l_name := t; l_required := d_required (e_dep x) |})
            (find (fun x => e_used x && name_eqb (aim x) t) (by_item H (Some (m_name m)))))
    /\ NoDup (map l_name (m_locals m))
    /\ m_present m = match m_desc m with Some _ => true | None => false end.

  Definition pend (st : list frame) (l : option name) : list dep :=
    match find (fun f => item_eqb (f_item f) l) st with Some f => f_pending f | None => [] end.
  Definition items (st : list frame) : list (option name) := map f_item st.
  Definition asked (H : list entry) (l : option name) : list dep := map e_dep (by_item H l).

  (** The askers within the history. *)
  Definition hasks (H : list entry) (l : option name) (d : dep) : Prop :=
    exists e, In e H /\ e_from e = l /\ e_dep e = d /\ e_used e = true.

  (** The Depends item that loaded the module was handled with [i] frames on the stack. *)
  Definition first_len (H : list entry) (n : name) (i : nat) : Prop := exists x es, to_mod H n = x :: es /\ e_len x = i.

  Fixpoint shape (H : list entry) (st : list frame) : Prop :=
    match st with
    | [] => True
    | f :: rest =>
        match rest with
        | [] => f_item f = None /\ f_global f = true
        | f2 :: _ => exists n d, f_item f = Some n /\ ~ In (Some n) (items rest)
            /\ path (hasks H) (length rest) n /\ (f_global f = true -> rchain (hasks H) n)
            /\ first_len H n (length rest)
            /\ hasks H (f_item f2) d /\ d_name d = n /\ shape H rest
        end
    end.

  Definition no_collision (ms : list modul) : Prop :=
    forall m m', In m ms -> In m' ms -> ~ proper_prefix (m_name m) (m_name m').

  Record inv (H : list entry) (s : state) : Prop := {
    inv_nodup : NoDup (map m_name (mods s));
    inv_shape : shape H (stack s);
    inv_stack : forall n, In (Some n) (items (stack s)) -> In n (map m_name (mods s));
    inv_product : asked H None ++ pend (stack s) None = deps;
    inv_asked : forall m, In m (mods s) ->
      asked H (Some (m_name m)) ++ pend (stack s) (Some (m_name m)) = deps_of (m_desc m);
    inv_fresh : forall n, ~ In n (map m_name (mods s)) -> by_item H (Some n) = [];
    inv_fits : forall m, In m (mods s) -> fits H m;
    inv_aim : forall e, In e H -> e_used e = true -> In (aim e) (map m_name (mods s));
    inv_unused : forall e, In e H -> e_used e = false -> faulty (aim e) = true /\ e_global e = false;
    inv_above : forall pre f post, stack s = pre ++ f :: post ->
      forall e, In e H -> e_used e = true -> e_from e = f_item f -> ~ In (Some (aim e)) (items (f :: post));
    inv_finished : forall e n, In e H -> e_used e = true -> e_from e = Some n -> ~ In (Some n) (items (stack s)) ->
      ~ In (Some (aim e)) (items (stack s)) /\ before (map m_name (mods s)) (aim e) n;
    inv_global : forall e, In e H -> e_global e = true -> rchain (hasks H) (aim e) /\ d_required (e_dep e) = true;
    inv_direct : forall e, In e H -> e_from e = None -> e_global e = d_required (e_dep e);
    inv_len : forall e, In e H -> e_used e = true -> path (hasks H) (e_len e) (aim e);
    inv_depth : forall e n, In e H -> e_from e = Some n -> exists i, first_len H n i /\ e_len e = S i;
    inv_one : forall e, In e H -> e_from e = None -> e_len e = 1;
    inv_prefix : no_collision (mods s);
    inv_none : stack s = [] \/ exists f, In f (stack s) /\ f_item f = None
  }.

  (** *** Small facts about the history *)
  Lemma by_item_snoc H e l : by_item (H ++ [e]) l = by_item H l ++ (if item_eqb (e_from e) l then [e] else []).
  Proof. unfold by_item. rewrite filter_app. cbn. destruct (item_eqb _ _); reflexivity. Qed.
  Lemma to_mod_snoc H e n : to_mod (H ++ [e]) n = to_mod H n ++ (if e_used e && name_eqb (aim e) n then [e] else []).
  Proof. unfold to_mod. rewrite filter_app. cbn. destruct (_ && _); reflexivity. Qed.
  Lemma first_len_mono H e n i : first_len H n i -> first_len (H ++ [e]) n i.
  Proof. intros (x & es & T & E). rewrite <- E. unfold first_len. rewrite to_mod_snoc, T. cbn. eauto. Qed.

  (** *** Monotonicity *)
  Lemma hasks_mono H e l d : hasks H l d -> hasks (H ++ [e]) l d.
  Proof. intros (x & Ix & E). exists x. rewrite in_app_iff. auto. Qed.
  Lemma path_mono (a b : option name -> dep -> Prop) i n : (forall l d, a l d -> b l d) -> path a i n -> path b i n.
  Proof. intros M P. induction P; [apply path_one|eapply path_more]; eauto. Qed.
  Lemma rchain_mono (a b : option name -> dep -> Prop) n : (forall l d, a l d -> b l d) -> rchain a n -> rchain b n.
  Proof. intros M P. induction P; [apply rchain_one|eapply rchain_more]; eauto. Qed.
  Lemma shape_mono H e st : shape H st -> shape (H ++ [e]) st.
  Proof.
    induction st as [|f rest IH]; cbn; auto. destruct rest as [|f2 r]; auto.
    intros (n & d & E & NI & P & G & FL & A & D & Sh). exists n, d. repeat split; auto.
    - eapply path_mono; [|exact P]. intros; now apply hasks_mono.
    - intros X. eapply rchain_mono; [|exact (G X)]. intros; now apply hasks_mono.
    - now apply first_len_mono.
    - now apply hasks_mono.
  Qed.
  Lemma shape_replace H f f' rest : f_item f' = f_item f -> f_global f' = f_global f ->
    shape H (f :: rest) -> shape H (f' :: rest).
  Proof.
    intros E1 E2. cbn. destruct rest; rewrite E1, E2; auto.
  Qed.
  Lemma shape_tail H f rest : shape H (f :: rest) -> shape H rest.
  Proof. destruct rest; cbn; [auto|]. intros (n & d & _ & _ & _ & _ & _ & _ & _ & X). exact X. Qed.
  Lemma shape_nodup H st : shape H st -> NoDup (items st).
  Proof.
    induction st as [|f rest IH]; cbn; intros Sh; [constructor|].
    destruct rest as [|f2 r].
    - cbn. constructor; [intros []|constructor].
    - destruct Sh as (n & d & E & NI & _ & _ & _ & _ & _ & Sh). constructor; auto. rewrite E. exact NI.
  Qed.
  Lemma shape_top H f rest : shape H (f :: rest) ->
    (f_item f = None /\ rest = [] /\ f_global f = true)
    \/ (exists n, f_item f = Some n /\ rest <> [] /\ path (hasks H) (length rest) n /\ (f_global f = true -> rchain (hasks H) n)
         /\ first_len H n (length rest)).
  Proof.
    cbn. destruct rest as [|f2 r].
    - intros [E G]. left. auto.
    - intros (n & d & E & _ & P & G & FL & _). right. exists n. split; auto. split; [discriminate|]. auto.
  Qed.

  Lemma asked_snoc H e l : asked (H ++ [e]) l = asked H l ++ (if item_eqb (e_from e) l then [e_dep e] else []).
  Proof. unfold asked. rewrite by_item_snoc, map_app. destruct (item_eqb _ _); reflexivity. Qed.
  Lemma find_snoc {A} (p : A -> bool) l x : find p (l ++ [x]) = match find p l with Some y => Some y | None => if p x then Some x else None end.
  Proof. induction l as [|y t IH]; cbn; auto. destruct (p y); auto. Qed.
  Lemma find_ext' {A} (p q : A -> bool) l : (forall x, In x l -> p x = q x) -> find p l = find q l.
  Proof. induction l as [|y t IH]; cbn; intros E; auto. rewrite <- (E y (or_introl eq_refl)). destruct (p y); auto. Qed.

  Lemma pend_cons f rest l : pend (f :: rest) l = if item_eqb (f_item f) l then f_pending f else pend rest l.
  Proof. unfold pend. cbn. destruct (item_eqb _ _); auto. Qed.
  Lemma pend_none st l : ~ In l (items st) -> pend st l = [].
  Proof.
    unfold pend, items. intros NI. destruct (find _ st) eqn:F; auto. apply find_some in F as [X E].
    apply item_eqb_eq in E. exfalso. apply NI. rewrite <- E. now apply in_map.
  Qed.

  (** What asking for an existing module, or for a new one, does to the entries of the list. *)
  Lemma fits_unrelated H e m : fits H m -> (e_used e && name_eqb (aim e) (m_name m)) = false ->
    (e_used e = false \/ e_from e <> Some (m_name m)) -> fits (H ++ [e]) m.
  Proof.
    intros (a & es & T & D & R & Q & Mi & C & Lo & Lc & Ln & P) NE NF. exists a, es.
    rewrite to_mod_snoc, NE, app_nil_r. split; auto. split; auto. split; auto. split; auto. split; auto. split; auto. split; auto.
    split; [|auto]. intros t. rewrite Lc. rewrite by_item_snoc. destruct (item_eqb (e_from e) (Some (m_name m))) eqn:B.
    - apply item_eqb_eq in B. destruct NF as [NU|NF]; [|contradiction]. rewrite find_snoc, NU. cbn.
      destruct (find _ _); reflexivity.
    - now rewrite app_nil_r.
  Qed.

  Lemma locals_extend (H : list entry) e n ls :
    (forall t, find (fun l => name_eqb (l_name l) t) ls =
      option_map (fun x => {| l_name := t; l_required := d_required (e_dep x) |})
            (find (fun x => e_used x && name_eqb (aim x) t) (by_item H (Some n)))) ->
    e_used e = true -> e_from e = Some n ->
    forall t, find (fun l => name_eqb (l_name l) t)
       (if existsb (fun l => name_eqb (l_name l) (aim e)) ls then ls
        else ls ++ [{| l_name := aim e; l_required := d_required (e_dep e) |}]) =
      option_map (fun x => {| l_name := t; l_required := d_required (e_dep x) |})
            (find (fun x => e_used x && name_eqb (aim x) t) (by_item (H ++ [e]) (Some n))).
  Proof.
    intros L U F t. rewrite by_item_snoc, F, item_eqb_refl, find_snoc, U. cbn [andb].
    destruct (existsb (fun l => name_eqb (l_name l) (aim e)) ls) eqn:X.
    - rewrite L. destruct (find _ (by_item H (Some n))) eqn:Fd; auto.
      destruct (name_eqb (aim e) t) eqn:B; auto. apply name_eqb_eq in B. exfalso.
      assert (Z : find (fun l => name_eqb (l_name l) t) ls = None) by (rewrite L, Fd; reflexivity).
      apply existsb_exists in X as (l & Il & El). eapply find_none in Z; eauto. cbn in Z. congruence.
    - rewrite find_snoc, L. destruct (find _ (by_item H (Some n))) eqn:Fd; cbn [option_map]; auto.
      cbn [l_name]. destruct (name_eqb (aim e) t) eqn:B; auto. apply name_eqb_eq in B. cbn. now rewrite B.
  Qed.

  Definition loc_if (from : option name) (d : dep) (m : modul) : modul :=
    if item_eqb from (Some (m_name m)) then
      if existsb (fun l => name_eqb (l_name l) (d_name d)) (m_locals m) then m
      else {| m_name := m_name m; m_desc := m_desc m; m_range := m_range m; m_required := m_required m;
              m_minimal := m_minimal m; m_chain := m_chain m; m_loaders := m_loaders m;
              m_locals := m_locals m ++ [{| l_name := d_name d; l_required := d_required d |}];
              m_present := m_present m |}
    else m.
  Lemma add_local_In from d ms m' : In m' (add_local from d ms) <-> exists m, In m ms /\ m' = loc_if from d m.
  Proof.
    unfold loc_if. destruct from as [n|]; cbn.
    - unfold on_mod. rewrite in_map_iff. split; intros (m & X & Y).
      + exists m. split; auto. destruct (name_eqb (m_name m) n) eqn:B.
        * apply name_eqb_eq in B. rewrite (proj2 (name_eqb_eq n (m_name m)) (eq_sym B)). congruence.
        * apply name_eqb_neq in B. destruct (name_eqb n (m_name m)) eqn:C; [apply name_eqb_eq in C; congruence|congruence].
      + exists m. split; auto. subst. destruct (name_eqb (m_name m) n) eqn:B.
        * apply name_eqb_eq in B. rewrite (proj2 (name_eqb_eq n (m_name m)) (eq_sym B)). congruence.
        * apply name_eqb_neq in B. destruct (name_eqb n (m_name m)) eqn:C; [apply name_eqb_eq in C; congruence|congruence].
    - split; [intros X; exists m'; auto|intros (m & X & ->); auto].
  Qed.
  Lemma loc_if_name from d m : m_name (loc_if from d m) = m_name m.
  Proof. unfold loc_if. destruct (item_eqb _ _); auto. destruct (existsb _ _); auto. Qed.
  Lemma loc_if_desc from d m : m_desc (loc_if from d m) = m_desc m.
  Proof. unfold loc_if. destruct (item_eqb _ _); auto. destruct (existsb _ _); auto. Qed.

  Lemma fits_local H e m : e_used e = true -> name_eqb (aim e) (m_name m) = false -> fits H m ->
    fits (H ++ [e]) (loc_if (e_from e) (e_dep e) m).
  Proof.
    intros U B F. unfold loc_if. destruct (item_eqb (e_from e) (Some (m_name m))) eqn:C.
    - apply item_eqb_eq in C. destruct F as (a & es & T & D & R & Q & Mi & Ch & Lo & Lc & Ln & P).
      pose proof (locals_extend H e (m_name m) (m_locals m) Lc U C) as Ext. unfold aim in Ext at 1 2.
      destruct (existsb (fun l => name_eqb (l_name l) (d_name (e_dep e))) (m_locals m)) eqn:X.
      + exists a, es. rewrite to_mod_snoc, B, andb_false_r, app_nil_r. repeat (split; auto); apply Lo.
      + exists a, es. cbn [m_name m_desc m_range m_required m_minimal m_chain m_loaders m_locals m_present].
        rewrite to_mod_snoc, B, andb_false_r, app_nil_r.
        assert (ND : NoDup (map l_name (m_locals m ++ [{| l_name := d_name (e_dep e); l_required := d_required (e_dep e) |}]))).
        { rewrite map_app. cbn [map l_name]. apply NoDup_snoc; auto. intros Y. apply in_map_iff in Y as (l & El & Il).
          assert (Z : existsb (fun l => name_eqb (l_name l) (d_name (e_dep e))) (m_locals m) = true).
          { apply existsb_exists. exists l. split; auto. now apply name_eqb_eq. }
          congruence. }
        repeat (split; auto); apply Lo.
    - apply item_eqb_neq in C. apply fits_unrelated; auto. now rewrite B, andb_false_r.
  Qed.

  Lemma fits_update H e m : e_used e = true -> e_from e <> Some (m_name m) -> aim e = m_name m -> fits H m ->
    fits (H ++ [e]) (update_module (e_from e) (e_dep e) (e_global e) (e_len e) m).
  Proof.
    intros U NF E (a & es & T & D & R & Q & Mi & C & Lo & Lc & Ln & P). exists a, (es ++ [e]).
    cbn [update_module m_name m_desc m_range m_required m_minimal m_chain m_loaders m_locals m_present].
    rewrite to_mod_snoc, U, E, name_eqb_refl. cbn [andb].
    split; [rewrite T; reflexivity|]. split; auto.
    split; [rewrite map_app, fold_left_app, R; reflexivity|].
    split; [change (a :: es ++ [e]) with ((a :: es) ++ [e]); rewrite existsb_app, <- Q; cbn; now rewrite orb_false_r|].
    split; [change (a :: es ++ [e]) with ((a :: es) ++ [e]); rewrite forallb_app, <- Mi; cbn; now rewrite andb_true_r|].
    split.
    { rewrite map_app, fold_left_app, <- C. cbn [map fold_left]. destruct (m_chain m <? e_len e) eqn:B.
      - apply Nat.ltb_lt in B. lia.
      - apply Nat.ltb_ge in B. lia. }
    split.
    { intros l. change (a :: es ++ [e]) with ((a :: es) ++ [e]).
      assert (K : (exists x, In x ((a :: es) ++ [e]) /\ e_from x = l) <-> In l (m_loaders m) \/ l = e_from e).
      { rewrite Lo. split.
        - intros (x & Ix & El). apply in_app_iff in Ix as [Ix|[<-|[]]]; [left; eauto|right; auto].
        - intros [(x & Ix & El)|El]; [exists x|exists e]; rewrite in_app_iff; cbn; auto. }
      rewrite K. destruct (existsb (item_eqb (e_from e)) (m_loaders m)) eqn:B.
      - split; auto. intros [X|X]; auto. apply existsb_exists in B as (y & Iy & Ey). apply item_eqb_eq in Ey. congruence.
      - rewrite in_app_iff. cbn. intuition. }
    split; [|auto]. intros t. rewrite Lc, by_item_snoc.
    destruct (item_eqb (e_from e) (Some (m_name m))) eqn:B; [apply item_eqb_eq in B; contradiction|]. now rewrite app_nil_r.
  Qed.

  (** *** A module is done *)
  Lemma items_nodup_cons H f rest : shape H (f :: rest) -> ~ In (f_item f) (items rest).
  Proof. intros Sh. apply shape_nodup in Sh. cbn in Sh. inversion Sh; auto. Qed.

  Lemma step_pop H f rest ms : inv H {| stack := f :: rest; mods := ms |} -> f_pending f = [] ->
    inv H {| stack := rest; mods := match f_item f with Some n => move_to_end n ms | None => ms end |}.
  Proof.
    intros I Pe. set (ms' := match f_item f with Some n => move_to_end n ms | None => ms end).
    pose proof (inv_shape _ _ I) as Sh. cbn in Sh. pose proof (items_nodup_cons _ _ _ Sh) as Nf.
    pose proof (inv_nodup _ _ I) as ND. cbn in ND.
    assert (Mem : forall m, In m ms' <-> In m ms).
    { intros m. unfold ms'. destruct (f_item f); [apply move_In; auto|tauto]. }
    assert (Nms : forall n, In n (map m_name ms') <-> In n (map m_name ms)).
    { intros n. rewrite !in_map_iff. split; intros (m & E & X); exists m; split; auto; now apply Mem. }
    assert (Pnd : forall l, pend (f :: rest) l = pend rest l).
    { intros l. rewrite pend_cons. destruct (item_eqb (f_item f) l) eqn:B; auto. apply item_eqb_eq in B. subst.
      rewrite Pe. symmetry. now apply pend_none. }
    constructor; cbn [stack mods].
    - unfold ms'. destruct (f_item f) as [n|] eqn:E; auto.
      assert (X : In n (map m_name ms)) by (apply (inv_stack _ _ I); cbn; left; exact E).
      rewrite move_names by auto. apply NoDup_snoc; [now apply filter_NoDup|]. rewrite filter_In, name_eqb_refl. intros [_ Y]. discriminate Y.
    - eapply shape_tail; eauto.
    - intros n X. apply Nms. apply (inv_stack _ _ I). cbn. auto.
    - rewrite <- Pnd. apply (inv_product _ _ I).
    - intros m X. apply Mem in X. rewrite <- Pnd. now apply (inv_asked _ _ I).
    - intros n X. apply (inv_fresh _ _ I). cbn. now rewrite <- Nms.
    - intros m X. apply (inv_fits _ _ I). now apply Mem.
    - intros e X U. apply Nms. now apply (inv_aim _ _ I).
    - apply (inv_unused _ _ I).
    - intros pre x post E. apply (inv_above _ _ I (f :: pre) x post). cbn. now rewrite E.
    - intros e n X U F NI.
      assert (Al : In (Some n) (items (f :: rest)) \/ ~ In (Some n) (items (f :: rest))).
      { destruct (item_eqb (f_item f) (Some n)) eqn:B; [apply item_eqb_eq in B; left; now left|apply item_eqb_neq in B].
        right. intros [Y|Y]; contradiction. }
      destruct Al as [Al|Al].
      + destruct Al as [E|Al]; [|contradiction].
        pose proof (inv_above _ _ I [] f rest eq_refl e X U (eq_trans F (eq_sym E))) as Ab.
        split; [intros Y; apply Ab; now right|]. unfold ms'. rewrite E.
        assert (Xn : In n (map m_name ms)) by (apply (inv_stack _ _ I); cbn; left; exact E).
        rewrite move_names by auto. apply before_last. apply filter_In. split; [now apply (inv_aim _ _ I)|].
        apply negb_true_iff, name_eqb_neq. intros Y. apply Ab. left. congruence.
      + destruct (inv_finished _ _ I e n X U F Al) as [N1 Bf]. cbn in N1, Bf. split; [intros Y; apply N1; now right|].
        unfold ms'. destruct (f_item f) as [q|] eqn:E; auto.
        assert (Xq : In q (map m_name ms)) by (apply (inv_stack _ _ I); cbn; left; exact E).
        rewrite move_names by auto. apply before_snoc, before_filter; auto; apply negb_true_iff, name_eqb_neq; intros Y.
        * apply N1. left. congruence.
        * apply Al. left. congruence.
    - apply (inv_global _ _ I).
    - apply (inv_direct _ _ I).
    - apply (inv_len _ _ I).
    - apply (inv_depth _ _ I).
    - apply (inv_one _ _ I).
    - intros m m' X Y. apply (inv_prefix _ _ I); now apply Mem.
    - destruct rest as [|f2 r]; auto. right. destruct (inv_none _ _ I) as [X|(x & [<-|X] & E)]; [discriminate| |eauto].
      exfalso. cbn in Sh. destruct Sh as (n & d & E' & _). congruence.
  Qed.

  (** *** The Depends item at the front of the top frame has been handled *)
  Section Handle.
    Variables (H : list entry) (f : frame) (rest : list frame) (ms : list modul) (d : dep) (ds : list dep) (u : bool).
    Hypothesis I : inv H {| stack := f :: rest; mods := ms |}.
    Hypothesis Pe : f_pending f = d :: ds.
    Let e := {| e_from := f_item f; e_dep := d; e_global := d_required d && f_global f; e_len := length (f :: rest); e_used := u |}.
    Let f' := {| f_item := f_item f; f_global := f_global f; f_pending := ds |}.

    Lemma hasks_new : u = true -> hasks (H ++ [e]) (f_item f) d.
    Proof. intros U. exists e. rewrite in_app_iff. cbn. auto. Qed.
    Lemma new_shape : shape (H ++ [e]) (f' :: rest).
    Proof. eapply shape_replace; [| |apply shape_mono; exact (inv_shape _ _ I)]; reflexivity. Qed.
    Lemma new_pend l : asked (H ++ [e]) l ++ pend (f' :: rest) l = asked H l ++ pend (f :: rest) l.
    Proof.
      rewrite asked_snoc, !pend_cons. cbn [e_from e e_dep f' f_item f_pending]. rewrite Pe.
      destruct (item_eqb (f_item f) l); [now rewrite <- app_assoc|now rewrite app_nil_r].
    Qed.
    Lemma new_path : u = true -> path (hasks (H ++ [e])) (length (f :: rest)) (d_name d).
    Proof.
      intros U. pose proof (inv_shape _ _ I) as Sh. cbn [stack] in Sh. apply shape_top in Sh as [(E & ER & _)|(n & E & NE & P & _)].
      - replace (length (f :: rest)) with 1 by (now rewrite ER). apply path_one. rewrite <- E. now apply hasks_new.
      - cbn. eapply path_more; [|rewrite <- E; now apply hasks_new]. eapply path_mono; [|exact P]. intros; now apply hasks_mono.
    Qed.
    Lemma new_chain : u = true -> d_required d && f_global f = true -> rchain (hasks (H ++ [e])) (d_name d).
    Proof.
      intros U G. apply andb_true_iff in G as [R G]. pose proof (inv_shape _ _ I) as Sh. cbn [stack] in Sh.
      apply shape_top in Sh as [(E & ER & _)|(n & E & NE & _ & Ch & _)].
      - apply rchain_one; auto. rewrite <- E. now apply hasks_new.
      - eapply rchain_more; [|rewrite <- E; now apply hasks_new|auto]. eapply rchain_mono; [|exact (Ch G)]. intros; now apply hasks_mono.
    Qed.
    Lemma new_direct : e_from e = None -> e_global e = d_required (e_dep e) /\ e_len e = 1.
    Proof.
      intros E. cbn in E. pose proof (inv_shape _ _ I) as Sh. cbn [stack] in Sh.
      apply shape_top in Sh as [(_ & ER & G)|(n & E' & _)]; [|congruence]. cbn. rewrite G, ER, andb_true_r. auto.
    Qed.

    Lemma new_depth n : e_from e = Some n -> exists i, first_len (H ++ [e]) n i /\ e_len e = S i.
    Proof.
      intros E. cbn in E. pose proof (inv_shape _ _ I) as Sh. cbn [stack] in Sh.
      apply shape_top in Sh as [(E' & _)|(n' & E' & _ & _ & _ & FL)]; [congruence|]. exists (length rest). split; [|reflexivity].
      apply first_len_mono. replace n with n' by congruence. exact FL.
    Qed.
    Lemma in_snoc (x : entry) : In x (H ++ [e]) -> In x H \/ x = e.
    Proof. intros X. apply in_app_iff in X as [X|[X|[]]]; auto. Qed.
    Lemma chain_snoc n : rchain (hasks H) n -> rchain (hasks (H ++ [e])) n.
    Proof. apply rchain_mono. intros; now apply hasks_mono. Qed.
    Lemma path_snoc i n : path (hasks H) i n -> path (hasks (H ++ [e])) i n.
    Proof. apply path_mono. intros; now apply hasks_mono. Qed.

    Lemma step_same ms' :
      map m_name ms' = map m_name ms ->
      (forall m', In m' ms' -> exists m, In m ms /\ m_name m = m_name m' /\ m_desc m = m_desc m') ->
      (forall m', In m' ms' -> fits (H ++ [e]) m') ->
      (u = true -> In (d_name d) (map m_name ms) /\ ~ In (Some (d_name d)) (items (f :: rest))) ->
      (u = false -> faulty (d_name d) = true /\ d_required d && f_global f = false) ->
      inv (H ++ [e]) {| stack := f' :: rest; mods := ms' |}.
    Proof.
      intros Nm Back Fit Us Un.
      assert (It : items (f' :: rest) = items (f :: rest)) by reflexivity.
      constructor; cbn [stack mods].
      - rewrite Nm. apply (inv_nodup _ _ I).
      - apply new_shape.
      - intros n X. rewrite Nm. apply (inv_stack _ _ I). exact X.
      - rewrite new_pend. apply (inv_product _ _ I).
      - intros m' X. destruct (Back m' X) as (m & Im & E1 & E2). rewrite new_pend, <- E1, <- E2. now apply (inv_asked _ _ I).
      - intros n X. rewrite Nm in X. rewrite by_item_snoc, (inv_fresh _ _ I n X). cbn [e_from e].
        destruct (item_eqb (f_item f) (Some n)) eqn:B; auto. apply item_eqb_eq in B. exfalso. apply X.
        apply (inv_stack _ _ I). cbn. now left.
      - exact Fit.
      - intros x X U. rewrite Nm. apply in_snoc in X as [X|X]; [now apply (inv_aim _ _ I)|]. subst x. cbn in U. now apply Us.
      - intros x X U. apply in_snoc in X as [X|X]; [now apply (inv_unused _ _ I)|]. subst x. cbn in U. now apply Un.
      - intros pre x post E y Iy U F. apply in_snoc in Iy as [Iy|Iy].
        + destruct pre as [|p pre].
          * injection E as <- <-. apply (inv_above _ _ I [] f rest eq_refl y Iy U). now rewrite F.
          * injection E as _ E. apply (inv_above _ _ I (f :: pre) x post); auto. cbn. now rewrite E.
        + subst y. cbn in U. destruct (Us U) as [_ NI]. intros X. apply NI. rewrite <- It. fold f' in E. rewrite E.
          unfold items. rewrite map_app, in_app_iff. right. exact X.
      - intros y n Iy U F NI. rewrite It in *. rewrite Nm. apply in_snoc in Iy as [Iy|Iy].
        + now apply (inv_finished _ _ I).
        + subst y. cbn in F. exfalso. apply NI. cbn. left. exact F.
      - intros y Iy G. apply in_snoc in Iy as [Iy|Iy].
        + destruct (inv_global _ _ I y Iy G). split; auto. now apply chain_snoc.
        + subst y. cbn in G. destruct (Bool.bool_dec u true) as [U|U].
          * split; [now apply new_chain|]. now apply andb_true_iff in G.
          * apply not_true_is_false in U. destruct (Un U) as [_ X]. congruence.
      - intros y Iy F. apply in_snoc in Iy as [Iy|Iy]; [now apply (inv_direct _ _ I)|]. subst y. now apply new_direct.
      - intros y Iy U. apply in_snoc in Iy as [Iy|Iy]; [apply path_snoc; now apply (inv_len _ _ I)|]. subst y. cbn in U. now apply new_path.
      - intros y n Iy F. apply in_snoc in Iy as [Iy|Iy].
        + destruct (inv_depth _ _ I y n Iy F) as (i & FL & El). exists i. split; auto. now apply first_len_mono.
        + subst y. now apply new_depth.
      - intros y Iy F. apply in_snoc in Iy as [Iy|Iy]; [now apply (inv_one _ _ I)|]. subst y. now apply new_direct.
      - intros m m' X Y. destruct (Back m X) as (a & Ia & <- & _), (Back m' Y) as (b & Ib & <- & _). now apply (inv_prefix _ _ I).
      - right. destruct (inv_none _ _ I) as [X|(x & [X|X] & E)]; [discriminate| |].
        + subst x. exists f'. cbn. auto.
        + exists x. cbn. auto.
    Qed.
  End Handle.

  Lemma step_existing H f rest ms d ds : inv H {| stack := f :: rest; mods := ms |} -> f_pending f = d :: ds ->
    In (d_name d) (map m_name ms) -> ~ In (Some (d_name d)) (items (f :: rest)) ->
    inv (H ++ [{| e_from := f_item f; e_dep := d; e_global := d_required d && f_global f; e_len := length (f :: rest); e_used := true |}])
      {| stack := {| f_item := f_item f; f_global := f_global f; f_pending := ds |} :: rest;
         mods := add_local (f_item f) d
                   (on_mod (d_name d) (update_module (f_item f) d (d_required d && f_global f) (length (f :: rest))) ms) |}.
  Proof.
    intros I Pe Ex NI. set (e := Build_entry _ _ _ _ _).
    assert (Back : forall m', In m' (add_local (f_item f) d
                   (on_mod (d_name d) (update_module (f_item f) d (d_required d && f_global f) (length (f :: rest))) ms)) ->
       (exists m, In m ms /\ m_name m = m_name m' /\ m_desc m = m_desc m') /\ fits (H ++ [e]) m').
    { intros m' X. apply add_local_In in X as (m1 & X & ->). unfold on_mod in X. apply in_map_iff in X as (m & E & Im).
      destruct (name_eqb (m_name m) (d_name d)) eqn:B; subst m1.
      - apply name_eqb_eq in B. assert (NF : item_eqb (f_item f) (Some (m_name m)) = false).
        { apply item_eqb_neq. intros F. apply NI. left. congruence. }
        unfold loc_if. cbn [update_module m_name]. rewrite NF. split; [exists m; auto|].
        apply (fits_update H e m); auto; [|now apply (inv_fits _ _ I)]. apply item_eqb_neq. exact NF.
      - rewrite loc_if_name, loc_if_desc. split; [exists m; auto|]. apply (fits_local H e m); auto; [|now apply (inv_fits _ _ I)].
        apply name_eqb_neq. apply name_eqb_neq in B. intros X. apply B. auto. }
    eapply step_same; eauto; fold e.
    - rewrite add_local_names. apply on_mod_names. reflexivity.
    - intros m' X. apply Back. exact X.
    - intros m' X. apply Back. exact X.
    - discriminate.
  Qed.

  Lemma step_faulty H f rest ms d ds : inv H {| stack := f :: rest; mods := ms |} -> f_pending f = d :: ds ->
    faulty (d_name d) = true -> d_required d && f_global f = false ->
    inv (H ++ [{| e_from := f_item f; e_dep := d; e_global := d_required d && f_global f; e_len := length (f :: rest); e_used := false |}])
      {| stack := {| f_item := f_item f; f_global := f_global f; f_pending := ds |} :: rest; mods := ms |}.
  Proof.
    intros I Pe L G. eapply step_same; eauto; try discriminate.
    intros m X. apply fits_unrelated; auto. now apply (inv_fits _ _ I).
  Qed.

  Lemma prefix_iff a b : is_prefix a b = true <-> exists c, b = a ++ c.
  Proof.
    revert b; induction a as [|x a IH]; intros b; cbn.
    - split; eauto.
    - destruct b as [|y b]; [split; [discriminate|intros [c X]; discriminate]|].
      rewrite andb_true_iff, Nat.eqb_eq, IH. split.
      + intros [-> [c ->]]. exists c. reflexivity.
      + intros [c X]. injection X as -> ->. eauto.
  Qed.
  Lemma collides_iff n ms : collides n ms = true <->
    exists m, In m ms /\ (proper_prefix (m_name m) n \/ proper_prefix n (m_name m)).
  Proof.
    unfold collides. rewrite existsb_exists. split; intros (m & Im & X); exists m; split; auto.
    - destruct (Nat.eqb_spec (length (m_name m)) (length n)); [discriminate|].
      destruct (Nat.ltb_spec (length (m_name m)) (length n)); apply prefix_iff in X as [c X]; [left|right]; unfold proper_prefix.
      + destruct c; [rewrite app_nil_r in X; subst; lia|]. eauto.
      + destruct c; [rewrite app_nil_r in X; rewrite X in *; lia|]. eauto.
    - assert (L : forall a b, proper_prefix a b -> length a < length b /\ is_prefix a b = true).
      { intros a b (x & c & ->). rewrite app_length. cbn. split; [lia|]. apply prefix_iff. eauto. }
      destruct X as [X|X]; apply L in X as [Lt X]; destruct (Nat.eqb_spec (length (m_name m)) (length n)); try lia;
        destruct (Nat.ltb_spec (length (m_name m)) (length n)); auto; lia.
  Qed.

  Lemma step_new H f rest ms d ds k : inv H {| stack := f :: rest; mods := ms |} -> f_pending f = d :: ds ->
    ~ In (d_name d) (map m_name ms) -> desc_of (d_name d) (d_range d) k -> collides (d_name d) ms = false ->
    inv (H ++ [{| e_from := f_item f; e_dep := d; e_global := d_required d && f_global f; e_len := length (f :: rest); e_used := true |}])
      {| stack := {| f_item := Some (d_name d); f_global := d_required d && f_global f;
                     f_pending := match k with Some k => k_deps k | None => [] end |}
                  :: {| f_item := f_item f; f_global := f_global f; f_pending := ds |} :: rest;
         mods := add_local (f_item f) d (ms ++ [new_module (f_item f) d (d_required d && f_global f) (length (f :: rest)) k]) |}.
  Proof.
    intros I Pe Fr De Co. set (e := Build_entry _ _ _ _ _).
    set (f' := {| f_item := f_item f; f_global := f_global f; f_pending := ds |}).
    set (nw := new_module _ _ _ _ _). set (ft := {| f_item := Some (d_name d) |}).
    pose proof (inv_nodup _ _ I) as ND. cbn in ND.
    assert (Nm : map m_name (add_local (f_item f) d (ms ++ [nw])) = map m_name ms ++ [d_name d]).
    { rewrite add_local_names, map_app. reflexivity. }
    assert (NF : f_item f <> Some (d_name d)).
    { intros E. apply Fr. apply (inv_stack _ _ I). cbn. left. exact E. }
    assert (NS : ~ In (Some (d_name d)) (items (f :: rest))).
    { intros X. apply Fr. now apply (inv_stack _ _ I). }
    assert (ToNil : to_mod H (d_name d) = []).
    { destruct (to_mod H (d_name d)) as [|x t] eqn:T; auto. exfalso.
      assert (X : In x (to_mod H (d_name d))) by (rewrite T; now left).
      apply filter_In in X as [X Y]. apply andb_true_iff in Y as [U Y]. apply name_eqb_eq in Y. apply Fr. rewrite <- Y.
      now apply (inv_aim _ _ I). }
    assert (FitNew : fits (H ++ [e]) nw).
    { exists e, []. cbn [nw new_module m_name m_desc m_range m_required m_minimal m_chain m_loaders m_locals m_present].
      rewrite to_mod_snoc, ToNil. cbn [e e_used aim e_dep andb e_global e_len e_from]. unfold aim. cbn [e_dep]. rewrite name_eqb_refl.
      split; auto. split; auto. split; auto. split; [cbn; now rewrite orb_false_r|]. split; [cbn; now rewrite andb_true_r|].
      split; auto. split.
      { intros l. cbn. split; [intros [X|[]]; exists e; auto|intros (x & [<-|[]] & X); auto]. }
      split; [|split; [constructor|reflexivity]]. intros t. rewrite by_item_snoc, (inv_fresh _ _ I _ Fr). cbn [e e_from].
      rewrite (proj2 (item_eqb_neq _ _) NF). reflexivity. }
    assert (Back : forall m', In m' (add_local (f_item f) d (ms ++ [nw])) ->
      fits (H ++ [e]) m' /\ ((exists m, In m ms /\ m_name m = m_name m' /\ m_desc m = m_desc m') \/ m' = nw)).
    { intros m' X. apply add_local_In in X as (m & X & ->). apply in_app_iff in X as [X|[X|[]]].
      - rewrite loc_if_name, loc_if_desc. split; [|left; exists m; auto]. apply (fits_local H e m); auto; [|now apply (inv_fits _ _ I)].
        apply name_eqb_neq. intros E. apply Fr. change (d_name d) with (aim e). rewrite E. now apply in_map.
      - subst m. unfold loc_if. cbn [nw new_module m_name]. rewrite (proj2 (item_eqb_neq _ _) NF). auto. }
    assert (PN : forall l, asked (H ++ [e]) l ++ pend (f' :: rest) l = asked H l ++ pend (f :: rest) l)
      by (intros l; apply new_pend; auto).
    pose proof (in_snoc H f rest d true) as IS. fold e in IS.
    assert (Sh : shape (H ++ [e]) (f' :: rest)) by (eapply new_shape; eauto).
    constructor; cbn [stack mods].
    - rewrite Nm. now apply NoDup_snoc.
    - cbn [shape]. exists (d_name d), d. split; [reflexivity|]. split; [exact NS|].
      split; [exact (new_path H f rest ms d true I eq_refl)|].
      split; [intros G; exact (new_chain H f rest ms d true I eq_refl G)|].
      split; [exists e, []; rewrite to_mod_snoc, ToNil; cbn; unfold aim; cbn; rewrite name_eqb_refl; auto|]. split; [exact (hasks_new H f rest d true eq_refl)|]. split; [reflexivity|]. exact Sh.
    - intros n X. rewrite Nm, in_app_iff. destruct X as [X|X]; [cbn in X; injection X as <-; right; now left|].
      left. apply (inv_stack _ _ I). exact X.
    - rewrite pend_cons. cbn [item_eqb f_item ft]. rewrite PN. apply (inv_product _ _ I).
    - intros m' X. destruct (Back m' X) as [_ [(m & Im & E1 & E2)| ->]].
      + rewrite pend_cons. cbn [f_item ft item_eqb].
        destruct (name_eqb (d_name d) (m_name m')) eqn:B.
        { apply name_eqb_eq in B. exfalso. apply Fr. rewrite B, <- E1. now apply in_map. }
        rewrite PN, <- E1, <- E2. now apply (inv_asked _ _ I).
      + rewrite pend_cons. cbn [f_item ft item_eqb nw new_module m_name m_desc f_pending]. rewrite name_eqb_refl, asked_snoc.
        unfold asked. rewrite (inv_fresh _ _ I _ Fr). cbn [e_from e]. rewrite (proj2 (item_eqb_neq _ _) NF). cbn. destruct k; auto.
    - intros n X. rewrite Nm, in_app_iff in X. rewrite by_item_snoc. rewrite (inv_fresh _ _ I n) by tauto. cbn [e_from e].
      destruct (item_eqb (f_item f) (Some n)) eqn:B; auto. apply item_eqb_eq in B. exfalso. apply X. left.
      apply (inv_stack _ _ I). cbn. now left.
    - intros m' X. now apply Back.
    - intros x X U. rewrite Nm, in_app_iff. apply IS in X as [X|X]; [left; now apply (inv_aim _ _ I)|]. subst x. right. now left.
    - intros x X U. apply IS in X as [X|X]; [now apply (inv_unused _ _ I)|]. subst x. discriminate U.
    - intros pre x post E y Iy U F. apply IS in Iy as [Iy|Iy].
      + destruct pre as [|p pre].
        * injection E as <- <-. cbn [f_item ft] in F. exfalso.
          assert (X : In y (by_item H (Some (d_name d)))) by (apply filter_In; split; auto; now apply item_eqb_eq).
          rewrite (inv_fresh _ _ I _ Fr) in X. destruct X.
        * injection E as _ E. destruct pre as [|p2 pre].
          -- injection E as <- <-. apply (inv_above _ _ I [] f rest eq_refl y Iy U). now rewrite F.
          -- injection E as _ E. apply (inv_above _ _ I (f :: pre) x post); auto. cbn. now rewrite E.
      + subst y. cbn [e_from e] in F. unfold aim. cbn [e e_dep].
        destruct pre as [|p pre]; [injection E as <- <-; cbn in F; congruence|]. injection E as _ E.
        intros X. apply NS. change (items (f :: rest)) with (items (f' :: rest)). rewrite E. unfold items. rewrite map_app, in_app_iff. right. exact X.
    - intros y n Iy U F NI. rewrite Nm. apply IS in Iy as [Iy|Iy].
      + assert (NI' : ~ In (Some n) (items (f :: rest))) by (intros X; apply NI; right; exact X).
        destruct (inv_finished _ _ I y n Iy U F NI') as [A B]. split; [|now apply before_snoc].
        intros [X|X]; [|now apply A]. cbn in X. injection X as X. apply Fr. rewrite X. now apply (inv_aim _ _ I).
      + subst y. cbn in F. exfalso. apply NI. right. cbn. left. exact F.
    - intros y Iy G. apply IS in Iy as [Iy|Iy].
      + destruct (inv_global _ _ I y Iy G). split; auto. eapply rchain_mono; [|eassumption]. intros; now apply hasks_mono.
      + subst y. split; [eapply new_chain; eauto|]. cbn in G. now apply andb_true_iff in G.
    - intros y Iy F. apply IS in Iy as [Iy|Iy]; [now apply (inv_direct _ _ I)|]. subst y. now apply (new_direct H f rest ms d true).
    - intros y Iy U. apply IS in Iy as [Iy|Iy].
      + eapply path_mono; [|eapply (inv_len _ _ I); eauto]. intros; now apply hasks_mono.
      + subst y. eapply new_path; eauto.
    - intros y n Iy F. apply IS in Iy as [Iy|Iy].
      + destruct (inv_depth _ _ I y n Iy F) as (i & FL & El). exists i. split; auto. now apply first_len_mono.
      + subst y. now apply (new_depth H f rest ms d true).
    - intros y Iy F. apply IS in Iy as [Iy|Iy]; [now apply (inv_one _ _ I)|]. subst y. now apply (new_direct H f rest ms d true).
    - assert (NC : forall m, In m ms -> ~ proper_prefix (m_name m) (d_name d) /\ ~ proper_prefix (d_name d) (m_name m)).
      { intros m X. split; intros Y; assert (Z : collides (d_name d) ms = true) by (apply collides_iff; eauto); congruence. }
      intros m m' X Y. destruct (Back m X) as [_ [(a & Ia & <- & _)| ->]], (Back m' Y) as [_ [(b & Ib & <- & _)| ->]].
      + now apply (inv_prefix _ _ I).
      + now apply NC.
      + now apply NC.
      + intros (x & c & E). assert (L : length (m_name nw) = length (m_name nw ++ x :: c)) by congruence. rewrite app_length in L. cbn in L. lia.
    - right. destruct (inv_none _ _ I) as [X|(x & [X|X] & E)]; [discriminate| |].
      + subst x. exists f'. cbn. auto.
      + exists x. cbn. auto.
  Qed.

  Lemma inv_start : inv [] (start deps).
  Proof.
    unfold start. constructor; cbn [stack mods map].
    - constructor.
    - cbn. auto.
    - cbn. intros n [X|[]]. discriminate X.
    - reflexivity.
    - intros m [].
    - reflexivity.
    - intros m [].
    - intros e [].
    - intros e [].
    - intros pre f post _ e [].
    - intros e n [].
    - intros e [].
    - intros e [].
    - intros e [].
    - intros e n [].
    - intros e [].
    - intros m m' [].
    - right. eexists. cbn. eauto.
  Qed.

  Lemma stack_item st n : existsb (fun x => item_eqb (f_item x) (Some n)) st = true <-> In (Some n) (items st).
  Proof.
    rewrite existsb_exists. unfold items. rewrite in_map_iff. split; intros (x & A & B); exists x.
    - split; auto. now apply item_eqb_eq.
    - split; auto. now apply item_eqb_eq.
  Qed.

  Lemma step_inv H s s' : inv H s -> step faulty look s = Next s' -> exists H', inv H' s'.
  Proof.
    intros I. destruct s as [st ms]. unfold step. cbn [stack mods]. destruct st as [|f rest]; [discriminate|].
    destruct (f_pending f) as [|d ds] eqn:Pe.
    - intros E. injection E as <-. exists H. now apply step_pop.
    - destruct (find_mod (d_name d) ms) as [m|] eqn:F.
      + destruct (existsb _ _) eqn:Cy; [discriminate|]. destruct (collides _ _) eqn:Co; [discriminate|].
        assert (Ex : In (d_name d) (map m_name ms)).
        { apply find_mod_some in F as [X Y]. rewrite <- Y. now apply in_map. }
        assert (NI : ~ In (Some (d_name d)) (items (f :: rest))) by (rewrite <- stack_item; congruence).
        intros E. injection E as <-. eexists. exact (step_existing H f rest ms d ds I Pe Ex NI).
      + apply find_mod_none in F. destruct (faulty (d_name d)) eqn:Fa.
        { destruct (d_required d && f_global f) eqn:G; [discriminate|]. intros E. injection E as <-. eexists. eapply step_faulty; eauto. }
        assert (New : forall k, look (d_name d) (d_range d) = k -> collides (d_name d) ms = false ->
          exists H', inv H' {|
             stack := {| f_item := Some (d_name d); f_global := d_required d && f_global f;
                         f_pending := match k with Some k => k_deps k | None => [] end |}
                  :: {| f_item := f_item f; f_global := f_global f; f_pending := ds |} :: rest;
             mods := add_local (f_item f) d (ms ++ [new_module (f_item f) d (d_required d && f_global f) (length (f :: rest)) k]) |}).
        { intros k L Co. eexists. exact (step_new H f rest ms d ds k I Pe F (conj Fa L) Co). }
        destruct (look (d_name d) (d_range d)) as [k|] eqn:L.
        * destruct (collides _ _) eqn:Co; [discriminate|]. intros E. injection E as <-. apply (New (Some k)); auto.
        * destruct (d_required d && f_global f) eqn:G; [discriminate|]. destruct (collides _ _) eqn:Co; [discriminate|].
          intros E. injection E as <-. apply (New None); auto.
  Qed.

  (** The end of a run. *)
  Lemma run_inv fuel : forall H s r, inv H s -> run faulty look fuel s = Some r ->
    match r with
    | inl ms => exists H', inv H' {| stack := []; mods := ms |}
    | inr e => exists H' s', inv H' s' /\ step faulty look s' = Failed e
    end.
  Proof.
    induction fuel as [|fuel IH]; cbn; intros H s r I E; [discriminate|].
    destruct (step faulty look s) as [s'|ms|e] eqn:St.
    - destruct (step_inv _ _ _ I St) as [H' I']. eapply IH; eauto.
    - injection E as <-. exists H. unfold step in St. destruct s as [st ms']. cbn [stack mods] in St.
      destruct st as [|f rest]; [injection St as <-; exact I|]. exfalso.
      destruct (f_pending f) as [|d ds]; [discriminate|].
      destruct (find_mod _ _); [destruct (existsb _ _); [discriminate|destruct (collides _ _); discriminate]|].
      destruct (faulty _); [destruct (_ && _); discriminate|].
      destruct (look _ _); [|destruct (_ && _); [discriminate|]]; destruct (collides _ _); discriminate.
    - injection E as <-. eauto.
  Qed.

  Lemma hasks_could H s l d : inv H s -> hasks H l d -> could faulty look deps l d.
  Proof.
    intros I (e & Ie & F & D & _).
    assert (X : In d (asked H l)).
    { unfold asked. apply in_map_iff. exists e. split; auto. apply filter_In. split; auto. now apply item_eqb_eq. }
    destruct l as [n|]; cbn.
    - destruct (in_dec name_dec n (map m_name (mods s))) as [Y|Y].
      + apply in_map_iff in Y as (m & <- & Im).
        pose proof (inv_asked _ _ I m Im) as Q. destruct (inv_fits _ _ I m Im) as (e0 & es & _ & [Fa De] & _).
        assert (Z : In d (deps_of (m_desc m))) by (rewrite <- Q; apply in_app_iff; auto).
        destruct (m_desc m) as [k|]; [|destruct Z]. exists (d_range (e_dep e0)), k. auto.
      + unfold asked in X. rewrite (inv_fresh _ _ I n Y) in X. destruct X.
    - rewrite <- (inv_product _ _ I). apply in_app_iff. auto.
  Qed.

  Lemma pending_could H s f rest d ds : inv H s -> stack s = f :: rest -> f_pending f = d :: ds -> could faulty look deps (f_item f) d.
  Proof.
    intros I E Pe. assert (X : In d (pend (stack s) (f_item f))).
    { rewrite E, pend_cons, item_eqb_refl, Pe. now left. }
    destruct (f_item f) as [n|] eqn:F; cbn.
    - assert (Y : In n (map m_name (mods s))) by (apply (inv_stack _ _ I); rewrite E; cbn; auto).
      apply in_map_iff in Y as (m & <- & Im).
      pose proof (inv_asked _ _ I m Im) as Q. destruct (inv_fits _ _ I m Im) as (e0 & es & _ & [Fa De] & _).
      assert (Z : In d (deps_of (m_desc m))) by (rewrite <- Q; apply in_app_iff; auto).
      destruct (m_desc m) as [k|]; [|destruct Z]. exists (d_range (e_dep e0)), k. auto.
    - rewrite <- (inv_product _ _ I). apply in_app_iff. auto.
  Qed.

  Lemma leads_snoc (ask : option name -> dep -> Prop) a b d : leads ask a b -> ask (Some b) d -> leads ask a (d_name d).
  Proof. intros L A. induction L; [eapply leads_more; eauto; now apply leads_one|eapply leads_more; eauto]. Qed.
  Lemma leads_mono (a b : option name -> dep -> Prop) x y : (forall l d, a l d -> b l d) -> leads a x y -> leads b x y.
  Proof. intros M L. induction L; [apply leads_one|eapply leads_more]; eauto. Qed.

  Lemma stack_leads H f rest n : shape H (f :: rest) -> In (Some n) (items (f :: rest)) ->
    exists t, f_item f = Some t /\ (n = t \/ leads (hasks H) n t).
  Proof.
    revert f; induction rest as [|f2 r IH]; intros f Sh X.
    - cbn in Sh. destruct Sh as [E _]. destruct X as [X|[]]. congruence.
    - destruct Sh as (t & d & E & NI & _ & _ & _ & A & D & Sh). exists t. split; auto.
      destruct X as [X|X]; [left; congruence|right].
      destruct (IH f2 Sh X) as (t2 & E2 & [-> |L]); rewrite E2 in A; subst t.
      + now apply leads_one.
      + eapply leads_snoc; eauto.
  Qed.

  Lemma failed H s e : inv H s -> step faulty look s = Failed e ->
    match e with
    | ENotFound n => rchain (could faulty look deps) n /\ faulty n = false /\ exists r, look n r = None
    | EDisabled n => rchain (could faulty look deps) n /\ faulty n = true
    | ECycle n => leads (could faulty look deps) n n /\ exists i, path (could faulty look deps) i n
    | EPrefix n => exists n' i j, path (could faulty look deps) i n /\ path (could faulty look deps) j n'
                     /\ (proper_prefix n n' \/ proper_prefix n' n)
    end.
  Proof.
    intros I. destruct s as [st ms]. unfold step. cbn [stack mods]. destruct st as [|f rest]; [discriminate|].
    destruct (f_pending f) as [|d ds] eqn:Pe; [discriminate|].
    pose proof (inv_shape _ _ I) as Sh. cbn [stack] in Sh. pose proof (shape_top _ _ _ Sh) as Top.
    pose proof (pending_could _ _ f rest d ds I eq_refl Pe) as Cd.
    assert (HC : forall l d, hasks H l d -> could faulty look deps l d) by (intros; eapply hasks_could; eauto).
    assert (Ch : d_required d && f_global f = true -> rchain (could faulty look deps) (d_name d)).
    { intros G. apply andb_true_iff in G as [R G]. destruct Top as [(E & _)|(n & E & _ & _ & C & _)]; rewrite E in Cd.
      - now apply rchain_one.
      - eapply rchain_more; eauto. eapply rchain_mono; [exact HC|exact (C G)]. }
    assert (Pt : exists i, path (could faulty look deps) i (d_name d)).
    { destruct Top as [(E & _)|(n & E & _ & P & _)]; rewrite E in Cd.
      - exists 1. now apply path_one.
      - eexists. eapply path_more; eauto. eapply path_mono; [exact HC|exact P]. }
    assert (Pm : forall m, In m ms -> exists i, path (could faulty look deps) i (m_name m)).
    { intros m Im. destruct (inv_fits _ _ I m Im) as (x & es & T & _).
      assert (Ix : In x (to_mod H (m_name m))) by (rewrite T; now left). apply filter_In in Ix as [Ix B].
      apply andb_true_iff in B as [U B]. apply name_eqb_eq in B. exists (e_len x). rewrite <- B.
      eapply path_mono; [exact HC|]. now apply (inv_len _ _ I). }
    assert (Pre : collides (d_name d) ms = true -> exists n' i j, path (could faulty look deps) i (d_name d)
       /\ path (could faulty look deps) j n' /\ (proper_prefix (d_name d) n' \/ proper_prefix n' (d_name d))).
    { intros C. apply collides_iff in C as (m & Im & C). destruct Pt as [i Pi], (Pm m Im) as [j Pj].
      exists (m_name m), i, j. tauto. }
    destruct (find_mod (d_name d) ms) as [m|] eqn:F.
    - destruct (existsb _ _) eqn:Cy.
      + intros E. injection E as <-. apply stack_item in Cy. split; auto.
        destruct (stack_leads _ _ _ _ Sh Cy) as (t & Et & [L|L]); rewrite Et in Cd.
        * rewrite L at 1. now apply leads_one.
        * eapply leads_snoc; eauto. eapply leads_mono; eauto.
      + destruct (collides _ _) eqn:Co; [|discriminate]. intros E. injection E as <-. now apply Pre.
    - destruct (faulty (d_name d)) eqn:Fa.
      { destruct (d_required d && f_global f) eqn:G; [|discriminate]. intros E. injection E as <-. auto. }
      destruct (look (d_name d) (d_range d)) as [k|] eqn:L.
      + destruct (collides _ _) eqn:Co; [|discriminate]. intros E. injection E as <-. now apply Pre.
      + destruct (d_required d && f_global f) eqn:G.
        * intros E. injection E as <-. split; auto. split; eauto.
        * destruct (collides _ _) eqn:Co; [|discriminate]. intros E. injection E as <-. now apply Pre.
  Qed.

  (** *** Termination *)
  Definition todo (st : list frame) : nat := list_sum (map (fun f => S (length (f_pending f))) st).
  Definition measure (U : list name) (K : nat) (s : state) : nat := todo (stack s) + (length U - length (mods s)) * S K.

  Lemma names_bounded U H s : (forall l d, could faulty look deps l d -> In (d_name d) U) -> inv H s -> length (mods s) <= length U.
  Proof.
    intros HU I. rewrite <- (map_length m_name). apply NoDup_incl_length; [apply (inv_nodup _ _ I)|].
    intros n X. apply in_map_iff in X as (m & <- & Im). destruct (inv_fits _ _ I m Im) as (x & es & T & _).
    assert (Ix : In x (to_mod H (m_name m))) by (rewrite T; now left). apply filter_In in Ix as [Ix B].
    apply andb_true_iff in B as [Us B]. apply name_eqb_eq in B. rewrite <- B. apply (HU (e_from x)).
    eapply hasks_could; eauto. exists x. auto.
  Qed.
  Lemma on_mod_length n f ms : length (on_mod n f ms) = length ms.
  Proof. apply map_length. Qed.
  Lemma add_local_length l d ms : length (add_local l d ms) = length ms.
  Proof. destruct l; auto. apply on_mod_length. Qed.

  Lemma step_measure U K H s s' : (forall l d, could faulty look deps l d -> In (d_name d) U) ->
    (forall n r k, look n r = Some k -> length (k_deps k) <= K) -> inv H s -> step faulty look s = Next s' ->
    measure U K s' < measure U K s.
  Proof.
    intros HU HK I St. destruct (step_inv _ _ _ I St) as [H' I']. pose proof (names_bounded U _ _ HU I) as B. pose proof (names_bounded U _ _ HU I') as B'.
    pose proof (inv_nodup _ _ I') as ND'. revert St. destruct s as [st ms]. unfold step. cbn [stack mods] in *. destruct st as [|f rest]; [discriminate|].
    assert (Drop : forall ds ms', length ms' = length ms -> forall d, f_pending f = d :: ds ->
       measure U K {| stack := {| f_item := f_item f; f_global := f_global f; f_pending := ds |} :: rest; mods := ms' |}
       < measure U K {| stack := f :: rest; mods := ms |}).
    { intros ds ms' L d E. unfold measure, todo. cbn. rewrite L, E. cbn. lia. }
    destruct (f_pending f) as [|d ds] eqn:Pe.
    - intros E. injection E as <-. unfold measure, todo. cbn [stack mods map list_sum].
      assert (L : length (match f_item f with Some n => move_to_end n ms | None => ms end) = length ms).
      { destruct (f_item f) as [n|] eqn:F; auto. cbn [mods] in ND'.
        pose proof (inv_nodup _ _ I) as ND. cbn in ND.
        assert (M : forall m, In m (move_to_end n ms) <-> In m ms) by (intros; now apply move_In).
        rewrite <- (map_length m_name ms), <- (map_length m_name (move_to_end n ms)). apply Nat.le_antisymm; apply NoDup_incl_length; auto;
          intros x X; apply in_map_iff in X as (m & <- & Im); apply in_map; now apply M. }
      rewrite L. rewrite Pe. change (list_sum (?a :: ?b)) with (a + list_sum b). cbn [length]. lia.
    - destruct (find_mod (d_name d) ms) as [m|] eqn:F.
      + destruct (existsb _ _); [discriminate|]. destruct (collides _ _); [discriminate|].
        intros E. injection E as <-. eapply Drop; [|reflexivity]. now rewrite add_local_length, on_mod_length.
      + destruct (faulty (d_name d)).
        { destruct (d_required d && f_global f); [discriminate|]. intros E. injection E as <-. eapply Drop; [|reflexivity]. reflexivity. }
        assert (New : forall k g, length (match k with Some k => k_deps k | None => [] end) <= K ->
           forall s', s' = {| stack := {| f_item := Some (d_name d); f_global := g;
                         f_pending := match k with Some k => k_deps k | None => [] end |}
                  :: {| f_item := f_item f; f_global := f_global f; f_pending := ds |} :: rest;
             mods := add_local (f_item f) d (ms ++ [new_module (f_item f) d g (length (f :: rest)) k]) |} ->
           length (mods s') <= length U -> measure U K s' < measure U K {| stack := f :: rest; mods := ms |}).
        { intros k g Lk t -> Bt. cbn [mods] in Bt. unfold measure, todo. cbn [stack mods map list_sum]. rewrite add_local_length, app_length in *.
          cbn [f_pending]. rewrite Pe. unfold list_sum. cbn [length fold_right] in *.
          replace (length U - length ms) with (S (length U - (length ms + 1))) by lia. cbn [Nat.mul]. lia. }
        destruct (look (d_name d) (d_range d)) as [k|] eqn:L.
        * destruct (collides _ _); [discriminate|]. intros E. injection E as E. eapply (New (Some k)); eauto.
        * destruct (d_required d && f_global f) eqn:G; [discriminate|]. destruct (collides _ _); [discriminate|].
          intros E. injection E as E. eapply (New None); eauto. cbn. lia.
  Qed.

  Lemma run_ends U K : (forall l d, could faulty look deps l d -> In (d_name d) U) ->
    (forall n r k, look n r = Some k -> length (k_deps k) <= K) ->
    forall fuel H s, inv H s -> measure U K s < fuel -> run faulty look fuel s <> None.
  Proof.
    intros HU HK. induction fuel as [|fuel IH]; intros H s I L; [lia|]. cbn.
    destruct (step faulty look s) as [s'|ms|e] eqn:St; try discriminate.
    pose proof (step_measure U K H s s' HU HK I St). destruct (step_inv _ _ _ I St) as [H' I']. eapply IH; eauto. lia.
  Qed.
  Lemma run_more fuel : forall s r, run faulty look fuel s = Some r -> forall fuel', fuel <= fuel' -> run faulty look fuel' s = Some r.
  Proof.
    induction fuel as [|fuel IH]; cbn; intros s r E fuel' L; [discriminate|].
    destruct fuel' as [|fuel']; [lia|]. cbn. destruct (step faulty look s); auto. apply IH; auto. lia.
  Qed.
End Run.

(** ** When loading has succeeded *)
Record loaded (faulty : name -> bool) (deps : list dep) (ms : list modul) : Prop := {
  ld_nodup : NoDup (map m_name ms);
  ld_in : forall l d, uses faulty deps ms l d -> In (d_name d) (map m_name ms);
  ld_sorted : forall n d, uses faulty deps ms (Some n) d -> before (map m_name ms) (d_name d) n;
  ld_loaders : forall m, In m ms -> forall l, In l (m_loaders m) <-> exists d, uses faulty deps ms l d /\ d_name d = m_name m;
  ld_locals : forall m, In m ms -> forall t r, In {| l_name := t; l_required := r |} (m_locals m) <->
    exists k l1 d l2, m_desc m = Some k /\ k_deps k = l1 ++ d :: l2 /\ d_name d = t /\ d_required d = r
      /\ faulty t = false /\ (forall x, In x l1 -> d_name x <> t);
  ld_present : forall m, In m ms -> m_present m = match m_desc m with Some _ => true | None => false end
}.

Lemma find_split' {A} (p : A -> bool) l x : find p l = Some x ->
  exists l1 l2, l = l1 ++ x :: l2 /\ p x = true /\ forall y, In y l1 -> p y = false.
Proof.
  induction l as [|y t IH]; cbn; [discriminate|]. destruct (p y) eqn:B.
  - intros E. injection E as <-. exists [], t. split; auto. split; auto. intros z [].
  - intros E. destruct (IH E) as (l1 & l2 & -> & P & Q). exists (y :: l1), l2. split; auto. split; auto.
    intros z [<-|X]; auto.
Qed.
Lemma find_first' {A} (p : A -> bool) l1 x l2 : p x = true -> (forall y, In y l1 -> p y = false) -> find p (l1 ++ x :: l2) = Some x.
Proof.
  intros P Q. induction l1 as [|y t IH]; cbn; [now rewrite P|]. rewrite (Q y (or_introl eq_refl)). apply IH. intros z X. apply Q. now right.
Qed.
Lemma find_map {A B} (g : A -> B) (p : B -> bool) l : find p (map g l) = option_map g (find (fun x => p (g x)) l).
Proof. induction l as [|x t IH]; cbn; auto. destruct (p (g x)); auto. Qed.

Section Ended.
  Variables (faulty : name -> bool) (look : name -> range -> option desc) (deps : list dep) (H : list entry) (ms : list modul).
  Hypothesis I : inv faulty look deps H {| stack := []; mods := ms |}.

  Lemma used_not_faulty e : In e H -> e_used e = negb (faulty (aim e)).
  Proof.
    intros Ie. destruct (e_used e) eqn:U.
    - pose proof (inv_aim _ _ _ _ _ I e Ie U) as X. cbn in X. apply in_map_iff in X as (m & E & Im).
      destruct (inv_fits _ _ _ _ _ I m Im) as (x & es & _ & [Fa _] & _). rewrite E in Fa. now rewrite Fa.
    - destruct (inv_unused _ _ _ _ _ I e Ie U) as [Fa _]. now rewrite Fa.
  Qed.
  Lemma ended_asked m : In m ms -> asked H (Some (m_name m)) = deps_of (m_desc m).
  Proof. intros Im. pose proof (inv_asked _ _ _ _ _ I m Im) as X. cbn in X. now rewrite app_nil_r in X. Qed.
  Lemma ended_product : asked H None = deps.
  Proof. pose proof (inv_product _ _ _ _ _ I) as X. cbn in X. now rewrite app_nil_r in X. Qed.
  Lemma asks_entry l d : asks deps ms l d <-> exists e, In e H /\ e_from e = l /\ e_dep e = d.
  Proof.
    assert (A : In d (asked H l) <-> exists e, In e H /\ e_from e = l /\ e_dep e = d).
    { unfold asked, by_item. rewrite in_map_iff. split.
      - intros (e & E & X). apply filter_In in X as [X B]. apply item_eqb_eq in B. eauto.
      - intros (e & X & B & E). exists e. split; auto. apply filter_In. split; auto. now apply item_eqb_eq. }
    rewrite <- A. destruct l as [n|]; cbn.
    - split.
      + intros (m & k & Im & <- & D & X). rewrite ended_asked by auto. now rewrite D.
      + intros X. destruct (in_dec name_dec n (map m_name ms)) as [Y|Y].
        * apply in_map_iff in Y as (m & <- & Im). rewrite ended_asked in X by auto.
          destruct (m_desc m) as [k|] eqn:D; [|destruct X]. exists m, k. auto.
        * unfold asked in X. rewrite (inv_fresh _ _ _ _ _ I n Y) in X. destruct X.
    - now rewrite ended_product.
  Qed.
  Lemma uses_hasks l d : uses faulty deps ms l d <-> hasks H l d.
  Proof.
    unfold uses, hasks. rewrite asks_entry. split.
    - intros [(e & X & B & E) Fa]. exists e. repeat split; auto. rewrite used_not_faulty by auto. unfold aim. rewrite E, Fa. reflexivity.
    - intros (e & X & B & E & U). split; [eauto|]. rewrite used_not_faulty in U by auto. unfold aim in U. rewrite E in U. now destruct (faulty (d_name d)).
  Qed.
  Lemma to_mod_uses n x : In x (to_mod H n) <-> In x H /\ e_used x = true /\ aim x = n.
  Proof. unfold to_mod. rewrite filter_In, andb_true_iff, name_eqb_eq. tauto. Qed.
  Lemma uses_to_mod m : In m ms -> forall l d, (uses faulty deps ms l d /\ d_name d = m_name m) <->
    exists x, In x (to_mod H (m_name m)) /\ e_from x = l /\ e_dep x = d.
  Proof.
    intros Im l d. rewrite uses_hasks. unfold hasks. split.
    - intros [(e & X & B & E & U) N]. exists e. split; auto. apply to_mod_uses. repeat split; auto. unfold aim. now rewrite E.
    - intros (x & X & B & E). apply to_mod_uses in X as (X & U & N). split; [exists x; auto|]. unfold aim in N. now rewrite E in N.
  Qed.

  Lemma ended_loaded : loaded faulty deps ms.
  Proof.
    constructor.
    - apply (inv_nodup _ _ _ _ _ I).
    - intros l d X. apply uses_hasks in X as (e & Ie & _ & E & U). pose proof (inv_aim _ _ _ _ _ I e Ie U) as X. unfold aim in X. now rewrite E in X.
    - intros n d X. apply uses_hasks in X as (e & Ie & F & E & U).
      assert (NI : ~ In (Some n) (items [])) by intros []. destruct (inv_finished _ _ _ _ _ I e n Ie U F NI) as [_ B].
      unfold aim in B. now rewrite E in B.
    - intros m Im l. destruct (inv_fits _ _ _ _ _ I m Im) as (x & es & T & _ & _ & _ & _ & _ & Lo & _).
      rewrite Lo, <- T. split.
      + intros (y & Iy & E). exists (e_dep y). apply (uses_to_mod m Im). eauto.
      + intros (d & X). apply (uses_to_mod m Im) in X as (y & Iy & E & _). eauto.
    - intros m Im t r. destruct (inv_fits _ _ _ _ _ I m Im) as (x & es & T & _ & _ & _ & _ & _ & _ & Lc & Ln & _).
      assert (Fm : In {| l_name := t; l_required := r |} (m_locals m) <-> find (fun l => name_eqb (l_name l) t) (m_locals m) = Some {| l_name := t; l_required := r |}).
      { split.
        - intros X. apply in_split in X as (l1 & l2 & E). rewrite E in *. apply find_first'; [apply name_eqb_refl|].
          intros y Iy. apply name_eqb_neq. intros Ey. rewrite map_app in Ln. cbn in Ln. apply NoDup_remove_2 in Ln. apply Ln.
          apply in_app_iff. left. rewrite <- Ey. now apply in_map.
        - intros X. now apply find_some in X. }
      rewrite Fm, Lc.
      assert (Fd : option_map e_dep (find (fun x => e_used x && name_eqb (aim x) t) (by_item H (Some (m_name m))))
        = find (fun d => negb (faulty (d_name d)) && name_eqb (d_name d) t) (deps_of (m_desc m))).
      { rewrite <- ended_asked by auto. unfold asked. rewrite find_map. f_equal. apply find_ext'.
        intros y Iy. apply filter_In in Iy as [Iy _]. now rewrite used_not_faulty. }
      split.
      + intros E. destruct (find _ (by_item H _)) as [y|]; [|discriminate]. cbn in E, Fd. injection E as E. symmetry in Fd.
        apply find_split' in Fd as (l1 & l2 & Ed & P & Q). apply andb_true_iff in P as [P1 P2]. apply name_eqb_eq in P2. apply negb_true_iff in P1.
        destruct (m_desc m) as [k|]; cbn in Ed; [|destruct l1; discriminate Ed]. exists k, l1, (e_dep y), l2. split; auto. split; auto. split; auto.
        split; auto. split; [congruence|]. intros z Iz Ez. specialize (Q z Iz). rewrite Ez, name_eqb_refl, <- P2, P1 in Q. discriminate Q.
      + intros (k & l1 & d & l2 & Dm & Ed & Ed1 & Er & Fa & Nf). rewrite Dm in Fd. cbn in Fd. rewrite Ed in Fd.
        rewrite (find_first' _ l1 d l2) in Fd.
        * destruct (find _ (by_item H _)) as [y|]; [|discriminate]. cbn in Fd. injection Fd as Fd. cbn. rewrite Fd, Er. reflexivity.
        * rewrite Ed1, Fa, name_eqb_refl. reflexivity.
        * intros z Iz. rewrite (proj2 (name_eqb_neq _ _) (Nf z Iz)). apply andb_false_r.
    - intros m Im. destruct (inv_fits _ _ _ _ _ I m Im) as (x & es & T & _ & _ & _ & _ & _ & _ & _ & _ & P). exact P.
  Qed.
End Ended.

(** ** Probes, validation, presence *)
Definition same (m p : modul) : Prop :=
  m_name p = m_name m /\ m_desc p = m_desc m /\ m_range p = m_range m /\ m_required p = m_required m
  /\ m_minimal p = m_minimal m /\ m_chain p = m_chain m /\ m_loaders p = m_loaders m /\ m_locals p = m_locals m.
Lemma same_refl m : same m m.
Proof. unfold same. auto 10. Qed.
Lemma same_absent m p : same m p -> same m (set_absent p).
Proof. unfold same. auto. Qed.
Lemma same_names (R : modul -> modul -> Prop) ms ps : (forall m p, R m p -> same m p) -> Forall2 R ms ps -> map m_name ps = map m_name ms.
Proof. intros Rs F. induction F as [|m p ms ps R1 F IH]; cbn; auto. rewrite IH. f_equal. now apply Rs. Qed.

Lemma before_uniq {A} (l1 : list A) b l2 a : NoDup (l1 ++ b :: l2) -> before (l1 ++ b :: l2) a b -> In a l1.
Proof.
  intros ND (x & y & z & E). assert (P : x ++ a :: y = l1).
  { replace (x ++ a :: y ++ b :: z) with ((x ++ a :: y) ++ b :: z) in E by (now rewrite <- app_assoc).
    revert l1 ND E. generalize (x ++ a :: y) as w. clear. induction w as [|c w IH]; intros l1 ND E; destruct l1 as [|d l1]; cbn in *; auto.
    - injection E as -> E. inversion ND; subst. exfalso. apply H1. apply in_app_iff. right. now left.
    - injection E as <- E. inversion ND; subst. exfalso. apply H1. apply in_app_iff. right. now left.
    - injection E as <- E. f_equal. apply IH; auto. now inversion ND. }
  subst. apply in_app_iff. right. now left.
Qed.
Lemma before_uniq2 {A} (l1 : list A) a l2 b : NoDup (l1 ++ a :: l2) -> before (l1 ++ a :: l2) a b -> In b l2.
Proof.
  intros ND (x & y & z & E). revert l1 ND E. induction x as [|c w IH]; intros l1 ND E; destruct l1 as [|d l1]; cbn in *.
  - injection E as ->. apply in_app_iff. right. now left.
  - injection E as <- E. inversion ND; subst. exfalso. apply H1. apply in_app_iff. right. now left.
  - injection E as <- E. inversion ND; subst. exfalso. apply H1. apply in_app_iff. right. now left.
  - injection E as <- E. inversion ND; subst. eapply IH; eauto.
Qed.

Lemma forall2_l {A B} (R : A -> B -> Prop) l r x : Forall2 R l r -> In x l -> exists y, In y r /\ R x y.
Proof.
  intros F. induction F as [|a b l r Rab F IH]; [intros []|]. intros [<-|X]; [exists b; split; auto; now left|].
  destruct (IH X) as (y & Iy & Ry). exists y. split; auto. now right.
Qed.
Lemma forall2_r {A B} (R : A -> B -> Prop) l r y : Forall2 R l r -> In y r -> exists x, In x l /\ R x y.
Proof.
  intros F. induction F as [|a b l r Rab F IH]; [intros []|]. intros [<-|X]; [exists a; split; auto; now left|].
  destruct (IH X) as (x & Ix & Rx). exists x. split; auto. now right.
Qed.

Section Setup.
  Variables (faulty : name -> bool) (deps : list dep) (ms : list modul).
  Hypothesis L : loaded faulty deps ms.
  Hypothesis Rg : forall m k, In m ms -> m_desc m = Some k -> (range_ok (m_range m) (k_version k) = true <-> in_range (m_range m) (k_version k)).
  Notation brk := (broken faulty ms).
  Notation alv := (alive faulty deps ms).

  Definition fine (m : modul) : Prop := exists k, m_desc m = Some k /\ k_probes k = true /\ range_ok (m_range m) (k_version k) = true.
  Definition R1 (m p : modul) : Prop := same m p /\ (m_present p = true -> fine m) /\ (m_present p = false -> brk (m_name m) /\ ~ fine m).
  Definition R2 (m p : modul) : Prop := same m p /\ (m_present p = true -> ~ brk (m_name m)) /\ (m_present p = false -> brk (m_name m)).
  Definition R3 (m p : modul) : Prop := same m p /\ (m_present p = true -> alv (m_name m)) /\ (m_present p = false -> ~ alv (m_name m)).

  Lemma not_fine m : In m ms -> m_desc m <> None -> ~ fine m -> brk (m_name m).
  Proof.
    intros Im D NF. destruct (m_desc m) as [k|] eqn:E; [|congruence]. eapply broken_unfit; eauto.
    destruct (k_probes k) eqn:P; auto. right. left. intros X. apply NF. exists k. split; auto. split; auto. now apply Rg.
  Qed.

  Lemma probe_spec l : (forall m, In m l -> In m ms) ->
    match probe l with
    | Some ps => Forall2 R1 l ps
    | None => exists m, In m l /\ m_required m = true /\ m_desc m <> None /\ brk (m_name m)
    end.
  Proof.
    induction l as [|m t IH]; intros Sub; cbn; [constructor|].
    assert (Im : In m ms) by (apply Sub; now left). assert (IHt := IH (fun x X => Sub x (or_intror X))). clear IH.
    assert (One : match probe_one m with Some p => R1 m p | None => m_required m = true /\ m_desc m <> None /\ brk (m_name m) end).
    { unfold probe_one. rewrite (ld_present _ _ _ L m Im). destruct (m_desc m) as [k|] eqn:D.
      - destruct (k_probes k && range_ok (m_range m) (k_version k)) eqn:B.
        + apply andb_true_iff in B as [P R]. split; [apply same_refl|]. split; [intros _; exists k; auto|].
          intros X. rewrite (ld_present _ _ _ L m Im), D in X. discriminate X.
        + assert (NF : ~ fine m). { intros (k' & E & P & R). rewrite D in E. injection E as <-. rewrite P, R in B. discriminate B. }
          assert (Bk : brk (m_name m)) by (apply not_fine; auto; congruence).
          destruct (m_required m); [split; auto; split; [congruence|auto]|].
          split; [apply same_absent, same_refl|]. split; [discriminate|auto].
      - split; [apply same_refl|]. rewrite (ld_present _ _ _ L m Im), D. split; [discriminate|]. intros _. split.
        + now apply broken_missing.
        + intros (k & E & _). congruence. }
    destruct (probe_one m) as [p|].
    - destruct (probe t) as [ps|]; [constructor; auto|]. destruct IHt as (x & Ix & X). exists x. split; [now right|auto].
    - exists m. split; [now left|auto].
  Qed.

  Lemma present_of (R : modul -> modul -> Prop) qs l ps n : (forall a b, R a b -> same a b) -> map m_name qs = map m_name ms ->
    (forall p, In p ps -> In p qs) -> Forall2 R l ps -> In n (map m_name l) ->
    exists m p, In m l /\ m_name m = n /\ R m p /\ present_in qs n = m_present p.
  Proof.
    intros Rs E Sub F X. apply in_map_iff in X as (m & <- & Im).
    assert (Y : exists p, In p ps /\ R m p).
    { clear -F Im. induction F as [|a b l ps Rab F IH]; [destruct Im|]. destruct Im as [<-|Im]; [exists b; split; auto; now left|].
      destruct (IH Im) as (p & Ip & Rp). exists p. split; auto. now right. }
    destruct Y as (p & Ip & Rp). exists m, p. split; auto. split; auto. split; auto.
    unfold present_in. replace (m_name m) with (m_name p) by (now apply Rs). rewrite find_mod_unique; auto. rewrite E. apply (ld_nodup _ _ _ L).
  Qed.

  Lemma hard_local m t : In m ms -> hard faulty ms (m_name m) t <-> In {| l_name := t; l_required := true |} (m_locals m).
  Proof.
    intros Im. rewrite (ld_locals _ _ _ L m Im). split.
    - intros (m' & k & l1 & d & l2 & Im' & E & D & K & N & R & Fa & Nf). assert (m' = m) by (eapply names_unique; eauto; apply (ld_nodup _ _ _ L)). subst m'.
      exists k, l1, d, l2. auto 10.
    - intros (k & l1 & d & l2 & D & K & N & R & Fa & Nf). exists m, k, l1, d, l2. auto 10.
  Qed.
  Lemma hard_uses n t : hard faulty ms n t -> exists d, uses faulty deps ms (Some n) d /\ d_name d = t.
  Proof.
    intros (m & k & l1 & d & l2 & Im & E & D & K & N & R & Fa & Nf). exists d. split; auto. split; [|congruence].
    exists m, k. repeat split; auto. rewrite K. apply in_app_iff. right. now left.
  Qed.

  Lemma not_broken m : In m ms -> fine m -> (forall k, m_desc m = Some k -> k_valid k = true) ->
    (forall t, hard faulty ms (m_name m) t -> ~ brk t) -> ~ brk (m_name m).
  Proof.
    intros Im (k & D & P & R) V Hd B. pose proof (V k D) as Vk. inversion B as [m' Im' D' E|m' k' Im' D' X E|n t Hh Bt E].
    - assert (m' = m) by (eapply names_unique; eauto; apply (ld_nodup _ _ _ L)). subst. congruence.
    - assert (m' = m) by (eapply names_unique; eauto; apply (ld_nodup _ _ _ L)). subst. assert (k' = k) by congruence. subst.
      destruct X as [X|[X|X]]; try congruence. apply X. now apply Rg.
    - exact (Hd t Hh Bt).
  Qed.

  Lemma validate_spec todo : forall l2 l1 done, ms = l1 ++ l2 -> Forall2 R2 l1 done -> Forall2 R1 l2 todo ->
    match validate done todo with
    | Some rs => Forall2 R2 ms rs /\ forall m, In m l2 -> m_required m = true -> m_desc m <> None -> fine m -> ~ brk (m_name m)
    | None => exists m, In m l2 /\ m_required m = true /\ m_desc m <> None /\ brk (m_name m)
    end.
  Proof.
    induction todo as [|p t IH]; intros l2 l1 done E F2 F1; cbn.
    - inversion F1. subst l2. rewrite app_nil_r in E. rewrite E. split; [exact F2|intros m []].
    - inversion F1 as [|m p' l2' t' R F1']; subst l2 p' t'.
      assert (Im : In m ms) by (rewrite E; apply in_app_iff; right; now left).
      assert (Nm : map m_name (done ++ p :: t) = map m_name ms).
      { rewrite E, !map_app. f_equal; [apply (same_names R2); [intros ? ? X; apply X|exact F2]|].
        apply (same_names R1); [intros ? ? X; apply X|exact F1]. }
      destruct R as (Sm & RP & RN).
      assert (Loc : m_locals p = m_locals m) by apply Sm. assert (Dp : m_desc p = m_desc m) by apply Sm.
      assert (Earlier : forall tt, hard faulty ms (m_name m) tt -> (present_in (done ++ p :: t) tt = true -> ~ brk tt) /\ (present_in (done ++ p :: t) tt = false -> brk tt)).
      { intros tt Hh. destruct (hard_uses _ _ Hh) as (d & U & Ed). pose proof (ld_sorted _ _ _ L _ _ U) as Bf. rewrite Ed in Bf.
        assert (X : In tt (map m_name l1)).
        { rewrite E, map_app in Bf. cbn in Bf. eapply before_uniq; [|exact Bf]. pose proof (ld_nodup _ _ _ L) as ND. rewrite E, map_app in ND. exact ND. }
        destruct (present_of R2 (done ++ p :: t) l1 done tt) as (a & b & _ & <- & (_ & A & B) & ->); auto.
        - intros ? ? Y; apply Y.
        - intros q Iq. apply in_app_iff. auto. }
      assert (Val : valid_one (done ++ p :: t) p = true <-> ((forall k, m_desc m = Some k -> k_valid k = true) /\ forall tt, hard faulty ms (m_name m) tt -> present_in (done ++ p :: t) tt = true)).
      { unfold valid_one. rewrite andb_true_iff, forallb_forall, Loc, Dp. split.
        - intros [V A]. split; [intros k Dk; now rewrite Dk in V|]. intros tt Hh. apply (hard_local m tt Im) in Hh. specialize (A _ Hh). cbn in A.
          now destruct (present_in (done ++ p :: t) tt).
        - intros [V A]. split; [destruct (m_desc m); auto|]. intros [tt r] X. cbn. destruct r; auto. apply (hard_local m tt Im) in X. now rewrite (A tt X). }
      assert (Lists : ms = (l1 ++ [m]) ++ l2') by (rewrite <- app_assoc; exact E).
      assert (Case : (m_present p = true /\ valid_one (done ++ p :: t) p = false) \/ (m_present p && negb (valid_one (done ++ p :: t) p)) = false).
      { destruct (m_present p), (valid_one (done ++ p :: t) p); auto. }
      destruct Case as [[Pp Vp]|B].
      + rewrite Pp, Vp. cbn [andb negb]. pose proof (RP Pp) as Fi.
        assert (Bk : brk (m_name m)).
        { unfold valid_one in Vp. apply andb_false_iff in Vp as [V|V].
          - rewrite Dp in V. destruct (m_desc m) as [k|] eqn:Dk; [|discriminate]. eapply broken_unfit; eauto.
          - rewrite Loc in V. assert (X : exists l, In l (m_locals m) /\ l_required l = true /\ present_in (done ++ p :: t) (l_name l) = false).
            { clear -V. revert V. induction (m_locals m) as [|l ls IHl]; cbn; [discriminate|]. intros V. apply andb_false_iff in V as [V|V].
              - exists l. split; [now left|]. destruct (l_required l), (present_in (done ++ p :: t) (l_name l)); try discriminate V; auto.
              - destruct (IHl V) as (x & Ix & X). exists x. split; auto. }
            destruct X as ([tt r] & Il & Rl & Pl). cbn in Rl, Pl. subst r. apply (hard_local m tt Im) in Il. eapply broken_dep; eauto. now apply Earlier. }
        assert (Dm : m_desc m <> None) by (destruct Fi as (k & Dk & _); congruence).
        destruct (m_required p) eqn:Rq.
        * exists m. split; [now left|]. split; auto. rewrite <- Rq. symmetry. apply Sm.
        * specialize (IH l2' (l1 ++ [m]) (done ++ [set_absent p]) Lists). 
          assert (F2' : Forall2 R2 (l1 ++ [m]) (done ++ [set_absent p])).
          { apply Forall2_app; auto. constructor; [|constructor]. split; [now apply same_absent|]. split; [discriminate|auto]. }
          specialize (IH F2' F1'). destruct (validate (done ++ [set_absent p]) t) as [rs|].
          -- destruct IH as [A C]. split; auto. intros x [<-|X]; auto. intros Rx. exfalso.
             assert (Z : m_required p = m_required m) by apply Sm. congruence.
          -- destruct IH as (x & Ix & X). exists x. split; [now right|auto].
      + rewrite B. specialize (IH l2' (l1 ++ [m]) (done ++ [p]) Lists).
        assert (NB : m_present p = true -> ~ brk (m_name m)).
        { intros Pp. rewrite Pp in B. cbn in B. apply negb_false_iff in B. apply Val in B as [V A]. apply not_broken; auto. intros tt Hh. apply (Earlier tt Hh). now apply A. }
        assert (F2' : Forall2 R2 (l1 ++ [m]) (done ++ [p])).
        { apply Forall2_app; auto. constructor; [|constructor]. split; auto. split; auto. intros X. apply (RN X). }
        specialize (IH F2' F1'). destruct (validate (done ++ [p]) t) as [rs|].
        * destruct IH as [A C]. split; auto. intros x [<-|X]; auto. intros _ _ Fi. apply NB. destruct (m_present p) eqn:Pp; auto. exfalso. now apply (RN eq_refl).
        * destruct IH as (x & Ix & X). exists x. split; [now right|auto].
  Qed.

  Lemma alive_not_broken n : alv n -> ~ brk n.
  Proof. intros A. inversion A; auto. Qed.
  Lemma alive_why n : alv n -> exists l d, uses faulty deps ms l d /\ d_name d = n /\ match l with None => True | Some x => alv x end.
  Proof. intros A. inversion A as [d U NB E|x d Ax U NB E]; [exists None, d|exists (Some x), d]; auto. Qed.

  Lemma prune_spec rt : forall l1 l2 after, ms = l1 ++ l2 -> Forall2 R2 l1 (rev rt) -> Forall2 R3 l2 after -> Forall2 R3 ms (prune rt after).
  Proof.
    induction rt as [|p t IH]; intros l1 l2 after E F2 F3; cbn in *.
    - inversion F2. subst l1. rewrite E. exact F3.
    - apply Forall2_app_inv_r in F2 as (l1' & lm & F2 & Fm & ->). inversion Fm as [|m p' x y R Fx]. subst p' lm y. inversion Fx. subst x.
      rewrite <- app_assoc in E. cbn in E.
      assert (Im : In m ms) by (rewrite E; apply in_app_iff; right; now left).
      destruct R as (Sm & RP & RN).
      assert (Nm : map m_name (rev t ++ p :: after) = map m_name ms).
      { rewrite E, !map_app. cbn [map]. f_equal; [apply (same_names R2); [intros ? ? X; apply X|exact F2]|]. f_equal; [apply Sm|].
        apply (same_names R3); [intros ? ? X; apply X|exact F3]. }
      assert (Sup : supported (rev t ++ p :: after) p = true <-> exists l d, uses faulty deps ms l d /\ d_name d = m_name m /\ match l with None => True | Some x => alv x end).
      { assert (Later : forall n d, uses faulty deps ms (Some n) d -> d_name d = m_name m -> (present_in (rev t ++ p :: after) n = true -> alv n) /\ (present_in (rev t ++ p :: after) n = false -> ~ alv n)).
        { intros n d U Ed. pose proof (ld_sorted _ _ _ L _ _ U) as Bf. rewrite Ed in Bf.
          assert (X : In n (map m_name l2)).
          { rewrite E, map_app in Bf. cbn in Bf. eapply before_uniq2; [|exact Bf]. pose proof (ld_nodup _ _ _ L) as ND. rewrite E, map_app in ND. exact ND. }
          destruct (present_of R3 (rev t ++ p :: after) l2 after n) as (a & b & _ & <- & (_ & A & B) & ->); auto.
          - intros ? ? Y; apply Y.
          - intros q Iq. apply in_app_iff. right. now right. }
        unfold supported. rewrite existsb_exists. assert (Lo : m_loaders p = m_loaders m) by apply Sm. rewrite Lo. split.
        - intros (l & Il & X). apply (ld_loaders _ _ _ L m Im) in Il as (d & U & Ed). exists l, d. split; auto. split; auto.
          destruct l as [n|]; auto. now apply (Later n d).
        - intros (l & d & U & Ed & X). exists l. split; [apply (ld_loaders _ _ _ L m Im); eauto|]. destruct l as [n|]; auto.
          destruct (present_in (rev t ++ p :: after) n) eqn:Pn; auto. exfalso. now apply (Later n d U Ed). }
      apply (IH l1' (m :: l2)); auto. constructor; auto.
      destruct (m_present p) eqn:Pp; cbn [andb].
      + destruct (supported (rev t ++ p :: after) p) eqn:Sp; cbn [negb].
        * split; auto. split; [|congruence]. intros _. destruct (proj1 Sup eq_refl) as (l & d & U & Ed & X). rewrite <- Ed. destruct l as [n|].
          -- eapply alive_more; eauto. rewrite Ed. now apply RP.
          -- apply alive_one; auto. rewrite Ed. now apply RP.
        * split; [now apply same_absent|]. split; [discriminate|]. intros _ A. apply alive_why in A. apply Sup in A. congruence.
      + split; auto. split; [congruence|]. intros _ A. apply alive_not_broken in A. apply A. now apply RN.
  Qed.

  Lemma setup_spec : match setup ms with
    | Some rs => Forall2 R3 ms rs /\ (forall m, In m ms -> m_required m = true -> m_desc m <> None -> ~ brk (m_name m))
    | None => exists m, In m ms /\ m_required m = true /\ m_desc m <> None /\ brk (m_name m)
    end.
  Proof.
    unfold setup. pose proof (probe_spec ms (fun m X => X)) as P. destruct (probe ms) as [ps|] eqn:Ep; auto.
    pose proof (validate_spec ps ms [] [] eq_refl (Forall2_nil _) P) as V. destruct (validate [] ps) as [vs|] eqn:Ev; auto.
    destruct V as [V Rq]. split.
    - apply (prune_spec (rev vs) ms [] []); auto; [now rewrite app_nil_r|now rewrite rev_involutive].
    - intros m Im Rm Dm. apply Rq; auto.
      (* a required module is fine, otherwise the probes would have failed *)
      clear -Ep Im Rm Dm L. revert ps Ep Im. pose proof (ld_present _ _ _ L) as LP. revert LP. clear L. generalize ms as l. 
      induction l as [|x t IH]; intros LP ps Ep Im; [destruct Im|]. cbn in Ep.
      destruct (probe_one x) as [p|] eqn:Ex; [|discriminate]. destruct (probe t) as [qs|] eqn:Et; [|discriminate].
      destruct Im as [->|Im]; [|eapply IH; eauto; intros; apply LP; now right].
      unfold probe_one in Ex. rewrite (LP m (or_introl eq_refl)) in Ex. destruct (m_desc m) as [k|] eqn:D; [|congruence].
      destruct (k_probes k && range_ok (m_range m) (k_version k)) eqn:B.
      + apply andb_true_iff in B as [B1 B2]. exists k. auto.
      + rewrite Rm in Ex. discriminate Ex.
  Qed.
End Setup.

(** ** Theorems about loading *)

(** Versions as they come from strings have no negative parts. *)
Definition natural_env (faulty : name -> bool) (look : name -> range -> option desc) (deps : list dep) : Prop :=
  (forall n r k, look n r = Some k -> natural (k_version k))
  /\ (forall l d, could faulty look deps l d -> natural (r_min (d_range d))).

Section Theorems.
  Variables (faulty : name -> bool) (look : name -> range -> option desc) (deps : list dep).
  Notation could' := (could faulty look deps).

  (** C61: loading ends, whatever the modules need, cycles included: there are at most as many steps as
      there are names and Depends items. *)
  Theorem load_terminates U K fuel :
    (forall l d, could' l d -> In (d_name d) U) -> (forall n r k, look n r = Some k -> length (k_deps k) <= K) ->
    1 + length deps + length U * S K < fuel -> load faulty look fuel deps <> None.
  Proof.
    intros HU HK L. apply (run_ends faulty look deps U K HU HK fuel [] (start deps)); [apply inv_start|].
    unfold measure, todo, start. cbn -[Nat.mul]. rewrite Nat.sub_0_r, Nat.add_0_r. lia.
  Qed.
  Theorem load_fuel fuel fuel' r : load faulty look fuel deps = Some r -> fuel <= fuel' -> load faulty look fuel' deps = Some r.
  Proof. intros E L. eapply run_more; eauto. Qed.

  (** C61: why loading fails. *)
  Theorem load_error fuel e : load faulty look fuel deps = Some (inr e) ->
    match e with
    | ENotFound n => rchain could' n /\ faulty n = false /\ exists r, look n r = None
    | EDisabled n => rchain could' n /\ faulty n = true
    | ECycle n => leads could' n n /\ exists i, path could' i n
    | EPrefix n => exists n' i j, path could' i n /\ path could' j n' /\ (proper_prefix n n' \/ proper_prefix n' n)
    end.
  Proof.
    intros E. destruct (run_inv faulty look deps fuel [] (start deps) _ (inv_start faulty look deps) E) as (H & s & I & St).
    eapply failed; eauto.
  Qed.

  Section Success.
    Variables (fuel : nat) (ms : list modul).
    Hypothesis E : load faulty look fuel deps = Some (inl ms).
    Notation uses' := (uses faulty deps ms).

    Lemma ended : exists H, inv faulty look deps H {| stack := []; mods := ms |}.
    Proof. exact (run_inv faulty look deps fuel [] (start deps) _ (inv_start faulty look deps) E). Qed.
    Lemma success : loaded faulty deps ms.
    Proof. destruct ended as [H I]. eapply ended_loaded; eauto. Qed.

    (** C61: a module is loaded once, however many ask for it. *)
    Theorem modules_once : NoDup (map m_name ms).
    Proof. exact (ld_nodup _ _ _ success). Qed.
    (** C61: every module is there that the product or one of its modules asks for ... *)
    Theorem modules_complete l d : uses' l d -> In (d_name d) (map m_name ms).
    Proof. exact (ld_in _ _ _ success l d). Qed.
    (** ... and no other. *)
    Theorem modules_reachable m : In m ms -> exists i, path uses' i (m_name m).
    Proof.
      intros Im. destruct ended as [H I]. destruct (inv_fits _ _ _ _ _ I m Im) as (x & es & T & _).
      assert (Ix : In x (to_mod H (m_name m))) by (rewrite T; now left). apply to_mod_uses in Ix as (Ix & U & <-).
      exists (e_len x). eapply path_mono; [|exact (inv_len _ _ _ _ _ I x Ix U)]. intros l d X. eapply uses_hasks; eauto.
    Qed.
    (** C61: what a module is comes from the look-up for one of the Depends items that ask for it. *)
    Theorem module_origin m : In m ms -> exists l d, uses' l d /\ d_name d = m_name m /\ m_desc m = look (m_name m) (d_range d).
    Proof.
      intros Im. destruct ended as [H I]. destruct (inv_fits _ _ _ _ _ I m Im) as (x & es & T & [_ D] & _).
      assert (Ix : In x (to_mod H (m_name m))) by (rewrite T; now left).
      exists (e_from x), (e_dep x). rewrite <- D.
      assert (X : uses' (e_from x) (e_dep x) /\ d_name (e_dep x) = m_name m) by (eapply (uses_to_mod faulty look deps H ms I m Im); eauto).
      tauto.
    Qed.
    (** C61: dependencies come before those that need them. *)
    Theorem modules_sorted n d : uses' (Some n) d -> before (map m_name ms) (d_name d) n.
    Proof. exact (ld_sorted _ _ _ success n d). Qed.
    (** C61: there is no cycle. *)
    Theorem modules_acyclic n : ~ leads uses' n n.
    Proof.
      assert (T : forall a b, leads uses' a b -> before (map m_name ms) b a).
      { pose proof modules_once as ND. intros a b Le. induction Le as [n' d U|n' d x U Le IH]; [now apply modules_sorted|].
        apply modules_sorted in U. destruct U as (l1 & l2 & l3 & U). rewrite U in *.
        assert (X : In x l1) by (eapply before_uniq; eauto). apply in_split in X as (a1 & a2 & ->).
        exists a1, (a2 ++ d_name d :: l2), l3. rewrite <- !app_assoc. reflexivity. }
      intros Le. apply T in Le as (l1 & l2 & l3 & X). pose proof modules_once as ND. rewrite X in ND.
      apply NoDup_remove_2 in ND. apply ND. apply in_app_iff. right. apply in_app_iff. right. now left.
    Qed.
    (** C61: no name is the beginning of another one. *)
    Theorem modules_no_prefix m m' : In m ms -> In m' ms -> ~ proper_prefix (m_name m) (m_name m').
    Proof. destruct ended as [H I]. apply (inv_prefix _ _ _ _ _ I). Qed.
    (** A Depends item of the product that is required does not lead to a product that is disabled. *)
    Theorem direct_not_disabled d : In d deps -> d_required d = true -> faulty (d_name d) = false.
    Proof.
      intros Id R. destruct ended as [H I]. assert (X : asks deps ms None d) by exact Id.
      apply (asks_entry _ _ _ _ _ I) in X as (e & Ie & F & Ed). subst d.
      pose proof (inv_direct _ _ _ _ _ I e Ie F) as G. rewrite R in G.
      destruct (e_used e) eqn:U.
      - rewrite (used_not_faulty _ _ _ _ _ I e Ie) in U. unfold aim in U. now destruct (faulty (d_name (e_dep e))).
      - destruct (inv_unused _ _ _ _ _ I e Ie U). congruence.
    Qed.

    (** C62: a module counts as required only if a chain of required Depends items leads to it; one that the
        product itself requires does count. *)
    Theorem required_reason m : In m ms -> m_required m = true -> rchain uses' (m_name m).
    Proof.
      intros Im R. destruct ended as [H I]. destruct (inv_fits _ _ _ _ _ I m Im) as (x & es & T & _ & _ & Rq & _).
      rewrite R, <- T in Rq. symmetry in Rq. apply existsb_exists in Rq as (y & Iy & G). apply to_mod_uses in Iy as (Iy & U & <-).
      destruct (inv_global _ _ _ _ _ I y Iy G) as [C _]. eapply rchain_mono; [|exact C]. intros l d X. eapply uses_hasks; eauto.
    Qed.
    Theorem required_direct m d : In m ms -> In d deps -> d_name d = m_name m -> d_required d = true -> m_required m = true.
    Proof.
      intros Im Id En R. pose proof (direct_not_disabled d Id R) as Fa. destruct ended as [H I].
      assert (U : uses' None d /\ d_name d = m_name m) by (split; [split; [exact Id|auto]|auto]).
      apply (uses_to_mod _ _ _ _ _ I m Im) in U as (x & Ix & F & Ed).
      destruct (inv_fits _ _ _ _ _ I m Im) as (y & es & T & _ & _ & Rq & _). rewrite Rq, <- T. apply existsb_exists. exists x. split; auto.
      apply to_mod_uses in Ix as (Ix & _ & _). rewrite (inv_direct _ _ _ _ _ I x Ix F). now rewrite Ed.
    Qed.

    (** C63: a module is minimal if all that ask for it say so. *)
    Theorem minimal_iff m : In m ms -> (m_minimal m = true <-> forall l d, uses' l d -> d_name d = m_name m -> d_minimal d = true).
    Proof.
      intros Im. destruct ended as [H I]. destruct (inv_fits _ _ _ _ _ I m Im) as (y & es & T & _ & _ & _ & Mi & _).
      rewrite Mi, <- T, forallb_forall. split.
      - intros A l d U En. assert (X : uses' l d /\ d_name d = m_name m) by auto. apply (uses_to_mod _ _ _ _ _ I m Im) in X as (x & Ix & _ & <-). auto.
      - intros A x Ix. assert (X : uses' (e_from x) (e_dep x) /\ d_name (e_dep x) = m_name m) by (eapply (uses_to_mod _ _ _ _ _ I m Im); eauto).
        eapply A; apply X.
    Qed.

    Lemma range_fold m : In m ms -> exists r rs, m_range m = fold_left narrow_down rs r
      /\ (forall x, In x (r :: rs) <-> exists l d, uses' l d /\ d_name d = m_name m /\ d_range d = x).
    Proof.
      intros Im. destruct ended as [H I]. destruct (inv_fits _ _ _ _ _ I m Im) as (y & es & T & _ & Rg & _).
      exists (d_range (e_dep y)), (map (fun x => d_range (e_dep x)) es). split; auto.
      intros x. change (d_range (e_dep y) :: map (fun x => d_range (e_dep x)) es) with (map (fun x => d_range (e_dep x)) (y :: es)).
      rewrite <- T, in_map_iff. split.
      - intros (z & Ez & Iz). assert (X : uses' (e_from z) (e_dep z) /\ d_name (e_dep z) = m_name m) by (eapply (uses_to_mod _ _ _ _ _ I m Im); eauto).
        exists (e_from z), (e_dep z). tauto.
      - intros (l & d & U & En & Er). assert (X : uses' l d /\ d_name d = m_name m) by auto.
        apply (uses_to_mod _ _ _ _ _ I m Im) in X as (z & Iz & _ & <-). eauto.
    Qed.

    Lemma fold_lower rs : forall r v, in_range (fold_left narrow_down rs r) v -> in_range r v /\ forall x, In x (r :: rs) -> ~ lex_lt v (r_min x).
    Proof.
      induction rs as [|o t IH]; cbn; intros r v X.
      - split; auto. intros x [<-|[]]. apply X.
      - apply IH in X as [X Y]. pose proof (narrow_down_narrows r o v X) as [A B]. split; auto.
        intros x [<-|[<-|Z]]; [apply A|exact B|]. apply Y. now right.
    Qed.
    (** C63: the merged version range of a module honours all the minima that were asked for. *)
    Theorem version_minima m l d v : In m ms -> uses' l d -> d_name d = m_name m -> in_range (m_range m) v -> ~ lex_lt v (r_min (d_range d)).
    Proof.
      intros Im U En X. destruct (range_fold m Im) as (r & rs & Er & Q). rewrite Er in X. apply fold_lower in X as [_ X]. apply X, Q. eauto.
    Qed.

    Lemma narrow_bounded a o : ~ unbounded (r_max a) -> ~ unbounded (r_max o) -> ~ unbounded (r_max (narrow_down a o)).
    Proof. intros A B. unfold narrow_down. cbn [r_max]. destruct (_ && _); auto. Qed.
    Lemma narrow_unbounded a o : unbounded (r_max a) -> unbounded (r_max o) -> unbounded (r_max (narrow_down a o)).
    Proof. intros A B. unfold narrow_down. cbn [r_max]. destruct (_ && _); auto. Qed.
    Lemma fold_exact rs : forall r v, (forall x, In x (r :: rs) -> ~ unbounded (r_max x)) \/ (forall x, In x (r :: rs) -> unbounded (r_max x)) ->
      (in_range (fold_left narrow_down rs r) v <-> forall x, In x (r :: rs) -> in_range x v).
    Proof.
      induction rs as [|o t IH]; cbn; intros r v B.
      - split; [intros X x [<-|[]]; exact X|auto].
      - assert (N : in_range (narrow_down r o) v <-> in_range r v /\ in_range o v).
        { apply narrow_down_intersection_partial. destruct B as [B|B]; [left|right]; apply B; auto. }
        rewrite IH.
        + split.
          * intros X. assert (Y : in_range r v /\ in_range o v) by (apply N, X; now left). intros x [<-|[<-|Z]]; try apply Y. apply X. now right.
          * intros X x [<-|Z]; [apply N; split; apply X; auto|]. apply X. auto.
        + destruct B as [B|B]; [left|right]; intros x [<-|Z].
          * apply narrow_bounded; apply B; auto.
          * apply B. auto.
          * apply narrow_unbounded; apply B; auto.
          * apply B. auto.
    Qed.
    (** C63, weaker form: the merged version range is the intersection of all ranges that were asked for, if
        all of them have a maximum or none has.  What is missing: [version_maximum_refuted]. *)
    Theorem version_ranges_partial m v : In m ms ->
      (forall l d, uses' l d -> d_name d = m_name m -> ~ unbounded (r_max (d_range d)))
      \/ (forall l d, uses' l d -> d_name d = m_name m -> unbounded (r_max (d_range d))) ->
      (in_range (m_range m) v <-> forall l d, uses' l d -> d_name d = m_name m -> in_range (d_range d) v).
    Proof.
      intros Im B. destruct (range_fold m Im) as (r & rs & Er & Q). rewrite Er, fold_exact.
      - split.
        + intros X l d U En. apply X, Q. eauto.
        + intros X x Ix. apply Q in Ix as (l & d & U & En & <-). eauto.
      - destruct B as [B|B]; [left|right]; intros x Ix; apply Q in Ix as (l & d & U & En & <-); eauto.
    Qed.

    (** C64: the number that decides whose property values win is the length of a chain of Depends
        items from the product. *)
    Theorem chain_path m : In m ms -> path uses' (m_chain m) (m_name m).
    Proof.
      intros Im. destruct ended as [H I]. destruct (inv_fits _ _ _ _ _ I m Im) as (y & es & T & _ & _ & _ & _ & Ch & _).
      assert (X : exists z, In z (y :: es) /\ e_len z = m_chain m).
      { rewrite Ch. clear. revert y. induction es as [|o t IH]; intros y; cbn; [exists y; auto|].
        assert (G : forall l a b, fold_left Nat.max l (Nat.max a b) = Nat.max a (fold_left Nat.max l b)).
        { clear. induction l as [|c l IH]; intros a b; cbn; auto. rewrite <- IH. f_equal. lia. }
        destruct (Nat.max_spec (e_len y) (e_len o)) as [[_ ->]|[_ ->]].
        - destruct (IH o) as (z & Iz & Ez). exists z. split; [right; exact Iz|exact Ez].
        - destruct (IH y) as (z & [<-|Iz] & Ez); [exists y; auto|exists z; auto]. }
      destruct X as (z & Iz & <-). rewrite <- T in Iz. apply to_mod_uses in Iz as (Iz & U & <-).
      eapply path_mono; [|exact (inv_len _ _ _ _ _ I z Iz U)]. intros l d X. eapply uses_hasks; eauto.
    Qed.
    Lemma chain_max m y es : m_chain m = fold_left Nat.max (map e_len es) (e_len y) -> forall z, In z (y :: es) -> e_len z <= m_chain m.
    Proof.
      intros -> z. revert y. induction es as [|o t IH]; intros y; cbn.
      - intros [<-|[]]. lia.
      - assert (M : forall l a, a <= fold_left Nat.max l a).
        { clear. induction l as [|c l IH]; intros a; cbn; [lia|]. specialize (IH (Nat.max a c)). lia. }
        assert (M2 : forall l a b, a <= b -> fold_left Nat.max l a <= fold_left Nat.max l b).
        { clear. induction l as [|c l IH]; intros a b Le; cbn; [lia|]. apply IH. lia. }
        intros [<-|[<-|Iz]].
        + etransitivity; [|apply M]. lia.
        + etransitivity; [|apply M]. lia.
        + etransitivity; [apply (IH o); now right|]. apply M2. lia.
    Qed.
    (** C64, weaker form: if all chains of Depends items to a module are equally long, then the module
        has a smaller number than all the modules it needs, so that its values win over theirs.  What is
        missing: [chain_order_refuted]. *)
    Theorem chain_grows_partial m m' d : In m ms -> In m' ms -> uses' (Some (m_name m)) d -> d_name d = m_name m' ->
      (forall i j, path uses' i (m_name m) -> path uses' j (m_name m) -> i = j) -> m_chain m < m_chain m'.
    Proof.
      intros Im Im' U En Eq. pose proof (chain_path m Im) as Pm. destruct ended as [H I].
      destruct (inv_fits _ _ _ _ _ I m' Im') as (y' & es' & T' & _ & _ & _ & _ & Ch' & _).
      assert (X : uses' (Some (m_name m)) d /\ d_name d = m_name m') by auto.
      apply (uses_to_mod _ _ _ _ _ I m' Im') in X as (z & Iz & F & _). assert (Iz' := Iz). apply to_mod_uses in Iz' as (Iz' & _ & _).
      destruct (inv_depth _ _ _ _ _ I z _ Iz' F) as (i & (x & t & Tx & Ei) & El).
      assert (Ix : In x (to_mod H (m_name m))) by (rewrite Tx; now left). apply to_mod_uses in Ix as (Ix & Ux & Ax).
      assert (Px : path uses' i (m_name m)).
      { rewrite <- Ax, <- Ei. eapply path_mono; [|exact (inv_len _ _ _ _ _ I x Ix Ux)]. intros l q X. eapply uses_hasks; eauto. }
      rewrite T' in Iz. pose proof (chain_max m' y' es' Ch' z Iz). rewrite (Eq _ _ Pm Px). lia.
    Qed.

    (** ** Required and missing modules, C62 *)
    Hypothesis Nat : natural_env faulty look deps.
    Lemma range_natural m k : In m ms -> m_desc m = Some k -> (range_ok (m_range m) (k_version k) = true <-> in_range (m_range m) (k_version k)).
    Proof.
      intros Im D. destruct Nat as [N1 N2]. apply range_check.
      - destruct (module_origin m Im) as (l & d & _ & _ & Q). rewrite D in Q. symmetry in Q. eapply N1; eauto.
      - destruct (range_fold m Im) as (r & rs & Er & Q). rewrite Er.
        assert (A : forall x, In x (r :: rs) -> natural (r_min x)).
        { intros x Ix. apply Q in Ix as (l & d & U & _ & <-). destruct ended as [H I]. apply (N2 l).
          eapply (hasks_could faulty look deps); eauto. eapply uses_hasks; eauto. }
        clear -A. revert r A. induction rs as [|o t IH]; cbn; intros r A; [apply A; auto|]. apply IH. intros x [<-|X]; [|apply A; auto].
        destruct (narrow_min r o) as (_ & _ & [-> | ->]); apply A; auto.
    Qed.

    (** C62: setting up the modules fails exactly if a module that counts as required was found, but
        cannot be used. *)
    Theorem setup_error_iff : setup ms = None <-> exists m, In m ms /\ m_required m = true /\ m_desc m <> None /\ broken faulty ms (m_name m).
    Proof.
      pose proof (setup_spec faulty deps ms success range_natural) as Sp. destruct (setup ms) as [rs|].
      - split; [discriminate|]. intros (m & Im & R & D & B). destruct Sp as [_ Sp]. exfalso. exact (Sp m Im R D B).
      - split; auto.
    Qed.
    (** C62: otherwise the modules keep their order and all else, and those are present that are usable and
        are needed by the product or by a present one. *)
    Theorem setup_present rs : setup ms = Some rs ->
      Forall2 (fun m r => same m r /\ (m_present r = true -> alive faulty deps ms (m_name m)) /\ (m_present r = false -> ~ alive faulty deps ms (m_name m))) ms rs.
    Proof.
      intros Es. pose proof (setup_spec faulty deps ms success range_natural) as Sp. rewrite Es in Sp. exact (proj1 Sp).
    Qed.
    (** C62: what the product requires, and what is required from there on, is present, with the one
        exception of [late_required_refuted]. *)
    Inductive hchain : name -> Prop :=
    | hchain_one d m : In d deps -> d_required d = true -> In m ms -> m_name m = d_name d -> m_desc m <> None -> hchain (d_name d)
    | hchain_more n t : hchain n -> hard faulty ms n t -> hchain t.
    Theorem required_present rs n : setup ms = Some rs -> hchain n -> exists r, In r rs /\ m_name r = n /\ m_present r = true.
    Proof.
      intros Es Hc. pose proof (setup_spec faulty deps ms success range_natural) as Sp. rewrite Es in Sp. destruct Sp as [F Rq].
      assert (A : alive faulty deps ms n).
      { induction Hc as [d m Id R Im En D|n t Hc IH Hh].
        - apply alive_one.
          + split; [exact Id|]. now apply direct_not_disabled.
          + rewrite <- En. apply Rq; auto. eapply required_direct; eauto.
        - destruct Hh as (m & k & l1 & d & l2 & Im & E1 & D & K & N & R & Fa & Nf). rewrite <- N. eapply alive_more; eauto.
          + split; [|congruence]. exists m, k. repeat split; auto. rewrite K. apply in_app_iff. right. now left.
          + intros B. apply (alive_not_broken faulty deps ms n IH). eapply broken_dep; [|exact B]. exists m, k, l1, d, l2. rewrite N. auto 10. }
      assert (X : In n (map m_name ms)).
      { inversion A; subst; eapply modules_complete; eauto. }
      apply in_map_iff in X as (m & <- & Im). destruct (forall2_l _ _ _ _ F Im) as (b & Ib & Sm & P & Q).
      exists b. split; auto. split; [apply Sm|]. destruct (m_present b); auto. exfalso. now apply Q.
    Qed.
    (** C62: a present module was found, its probes ran, its version is right, it is valid and all that it
        requires (first) is present. *)
    Theorem present_sound rs r : setup ms = Some rs -> In r rs -> m_present r = true ->
      exists k, m_desc r = Some k /\ k_probes k = true /\ in_range (m_range r) (k_version k) /\ k_valid k = true
      /\ forall t, hard faulty ms (m_name r) t -> exists r', In r' rs /\ m_name r' = t /\ m_present r' = true.
    Proof.
      intros Es Ir P. pose proof (setup_present rs Es) as F.
      assert (X : exists m, In m ms /\ same m r /\ alive faulty deps ms (m_name m)).
      { destruct (forall2_r _ _ _ _ F Ir) as (a & Ia & Sm & A & _). exists a. auto. }
      destruct X as (m & Im & Sm & A). pose proof (alive_not_broken _ _ _ _ A) as NB.
      destruct Sm as (S1 & S2 & S3 & _). rewrite S1, S2, S3.
      destruct (m_desc m) as [k|] eqn:D; [|exfalso; apply NB; now apply broken_missing]. exists k. split; auto.
      assert (Un : ~ (k_probes k = false \/ ~ in_range (m_range m) (k_version k) \/ k_valid k = false)).
      { intros X. apply NB. eapply broken_unfit; eauto. }
      assert (Rn : in_range (m_range m) (k_version k)).
      { apply (range_natural m k Im D). destruct (range_ok (m_range m) (k_version k)) eqn:B; auto. exfalso. apply Un. right. left.
        intros X. apply (range_natural m k Im D) in X. congruence. }
      split; [destruct (k_probes k); auto; exfalso; apply Un; auto|]. split; auto. split; [destruct (k_valid k); auto; exfalso; apply Un; auto|].
      intros t Hh. assert (At : alive faulty deps ms t).
      { pose proof (hard_uses faulty deps ms _ _ Hh) as (d & U & <-). eapply alive_more; eauto. intros B. apply NB. eapply broken_dep; eauto. }
      assert (Xt : In t (map m_name ms)) by (inversion At; subst; eapply modules_complete; eauto).
      apply in_map_iff in Xt as (mt & <- & Imt). destruct (forall2_l _ _ _ _ F Imt) as (b & Ib & Sm & P' & Q).
      exists b. split; auto. split; [apply Sm|]. destruct (m_present b); auto. exfalso. now apply Q.
    Qed.
  End Success.
End Theorems.

(** ** Which module file is taken, C63 *)

(** [a] is to be preferred to [b] for the range [r]. *)
Definition better (r : range) (a b : cand) : Prop :=
  (in_range r (c_version a) /\ ~ in_range r (c_version b))
  \/ ((in_range r (c_version a) <-> in_range r (c_version b))
      /\ ((c_priority b < c_priority a)%Z \/ (c_priority a = c_priority b /\ c_index a < c_index b))).
Definition natural_cands (r : range) (cs : list cand) : Prop :=
  natural (r_min r) /\ forall c, In c cs -> natural (c_version c).

Section Choose.
  Variable r : range.
  Hypothesis Nr : natural (r_min r).

  Lemma candidate_iff c : natural (c_version c) -> (candidate_ok r (c_version c) = true <-> in_range r (c_version c)).
  Proof. intros Nc. destruct (range_check r (c_version c) Nc Nr) as [A ->]. exact A. Qed.
  Lemma cand_lt_iff a b : natural (c_version a) -> natural (c_version b) -> (cand_lt r a b = true <-> better r b a).
  Proof.
    intros Na Nb. unfold cand_lt, better. rewrite <- !candidate_iff by auto.
    destruct (candidate_ok r (c_version a)), (candidate_ok r (c_version b)); cbn [Bool.eqb negb].
    2: split; [discriminate|intuition discriminate].
    2: split; [intros _; left; split; congruence|auto].
    all: destruct (Z.ltb_spec (c_priority a) (c_priority b)); [split; auto; intros _; right; split; [tauto|auto]|];
         destruct (Z.ltb_spec (c_priority b) (c_priority a));
         [split; [discriminate|]; intros [[X Y]|[_ [X|[X Y]]]]; try tauto; try congruence; lia|];
         rewrite Nat.ltb_lt; split;
         [intros X; right; split; [tauto|right; split; lia]|
          intros [[X Y]|[_ [X|[X Y]]]]; try congruence; try lia; tauto].
  Qed.
  (** The order as one of numbers. *)
  Definition fit (c : cand) : Z := if candidate_ok r (c_version c) then 1%Z else 0%Z.
  Lemma cand_lt_num a b : cand_lt r a b = true <->
    (fit a < fit b \/ fit a = fit b /\ (c_priority a < c_priority b \/ c_priority a = c_priority b /\ (Z.of_nat (c_index b) < Z.of_nat (c_index a))))%Z.
  Proof.
    unfold cand_lt, fit. destruct (candidate_ok r (c_version a)), (candidate_ok r (c_version b)); cbn [Bool.eqb negb].
    2: split; [discriminate|lia].
    2: split; [lia|auto].
    all: destruct (Z.ltb_spec (c_priority a) (c_priority b)); [split; [lia|auto]|];
         destruct (Z.ltb_spec (c_priority b) (c_priority a)); [split; [discriminate|lia]|]; rewrite Nat.ltb_lt; lia.
  Qed.
  Lemma same_rank_num a b : same_rank r a b = true <-> cand_lt r a b = false /\ cand_lt r b a = false.
  Proof.
    rewrite <- !not_true_iff_false, !cand_lt_num. unfold same_rank. rewrite !andb_true_iff, Z.eqb_eq, Nat.eqb_eq, Bool.eqb_true_iff. unfold fit.
    destruct (candidate_ok r (c_version a)), (candidate_ok r (c_version b)); split; intuition (try discriminate; lia).
  Qed.
  Lemma max_cand_spec cs : forall best, In (max_cand r best cs) (best :: cs)
    /\ forall x, In x (best :: cs) -> cand_lt r (max_cand r best cs) x = false.
  Proof.
    induction cs as [|c t IH]; intros best; cbn [max_cand].
    - split; [now left|]. intros x [<-|[]]. apply not_true_iff_false. rewrite cand_lt_num. lia.
    - destruct (IH (if cand_lt r best c then c else best)) as [A B]. split.
      + destruct A as [A|A]; [|right; now right]. rewrite <- A. destruct (cand_lt r best c); [right; now left|now left].
      + intros x [<-|[<-|X]]; [| |apply B; now right]; destruct (cand_lt r best c) eqn:L.
        * specialize (B c (or_introl eq_refl)). apply not_true_iff_false in B. apply not_true_iff_false. rewrite cand_lt_num in *. lia.
        * apply B. now left.
        * apply B. now left.
        * specialize (B best (or_introl eq_refl)). apply not_true_iff_false in B, L. apply not_true_iff_false. rewrite cand_lt_num in *. lia.
  Qed.
  Lemma filter_two {A} (p : A -> bool) l1 x l2 : p x = true -> (1 <? length (filter p (l1 ++ x :: l2))) = false ->
    forall y, In y (l1 ++ l2) -> p y = false.
  Proof.
    intros Px L y Iy. apply Nat.ltb_ge in L. rewrite filter_app in L. cbn in L. rewrite Px in L. rewrite app_length in L. cbn in L.
    destruct (p y) eqn:Py; auto. exfalso. apply in_app_iff in Iy as [Iy|Iy].
    - assert (X : In y (filter p l1)) by (apply filter_In; auto). destruct (filter p l1); [destruct X|cbn in L; lia].
    - assert (X : In y (filter p l2)) by (apply filter_In; auto). destruct (filter p l2); [destruct X|cbn in L; lia].
  Qed.
End Choose.

(** C63: a file is taken exactly if it is the only one or better than all the others, that is: its version is
    right and theirs is not, or its priority is higher, or its search path comes first. *)
Theorem choose_iff r cs c : natural_cands r cs ->
  (choose r cs = File c <-> cs = [c] \/ (exists l1 l2, cs = l1 ++ c :: l2 /\ l1 ++ l2 <> [] /\ forall x, In x (l1 ++ l2) -> better r c x)).
Proof.
  intros [Nr Nc]. destruct cs as [|a [|b t]].
  - cbn. split; [discriminate|]. intros [X|(l1 & l2 & X & _)]; [discriminate|destruct l1; discriminate].
  - cbn. split; [intros X; injection X as ->; auto|]. intros [X|(l1 & l2 & X & Y & _)]; [congruence|].
    destruct l1 as [|y l1]; cbn in X; [injection X as _ <-; now destruct Y|]. injection X as _ X. destruct l1; discriminate.
  - remember (b :: t) as u eqn:Eu. assert (Two : a :: u <> [c]) by (subst; discriminate).
    assert (Ec : choose r (a :: u) = if 1 <? length (filter (fun x => same_rank r x (max_cand r a u)) (a :: u)) then Ambiguous else File (max_cand r a u))
      by (rewrite Eu; reflexivity).
    rewrite Ec. clear Ec. destruct (max_cand_spec r u a) as [Im Mx]. set (best := max_cand r a u) in *.
    split.
    + destruct (1 <? _) eqn:L; [discriminate|]. intros X. injection X as <-. right. apply in_split in Im as (l1 & l2 & Es).
      exists l1, l2. split; auto. split.
      * intros N. apply app_eq_nil in N as [-> ->]. subst u. discriminate Es.
      * intros x Ix. assert (Sr : same_rank r best best = true) by (apply same_rank_num; split; apply not_true_iff_false; rewrite cand_lt_num; lia).
        rewrite Es in L. pose proof (filter_two (fun x => same_rank r x best) _ _ _ Sr L x Ix) as NS. cbn in NS.
        assert (Ix' : In x (a :: u)) by (rewrite Es; apply in_app_iff in Ix as [Ix|Ix]; apply in_app_iff; [auto|right; now right]).
        assert (Ib : In best (a :: u)) by (rewrite Es; apply in_app_iff; right; now left).
        apply cand_lt_iff; auto. pose proof (Mx x Ix') as M. destruct (cand_lt r x best) eqn:B; auto.
        assert (Z : same_rank r x best = true) by (apply same_rank_num; auto). congruence.
    + intros [X|(l1 & l2 & Es & _ & Bt)]; [contradiction|]. rewrite Es in Nc, Im, Mx |- *.
      assert (Nx : forall x, In x (l1 ++ l2) -> In x (l1 ++ c :: l2)) by (intros x Ix; apply in_app_iff in Ix as [Ix|Ix]; apply in_app_iff; [auto|right; now right]).
      assert (Ic : In c (l1 ++ c :: l2)) by (apply in_app_iff; right; now left).
      assert (Eb : best = c).
      { apply in_app_iff in Im. assert (D : best = c \/ In best (l1 ++ l2)).
        { destruct Im as [X|[X|X]]; [right; apply in_app_iff; auto|left; auto|right; apply in_app_iff; auto]. }
        destruct D as [D|D]; auto. exfalso. pose proof (Bt _ D) as B. apply (cand_lt_iff r Nr best c) in B; auto. rewrite (Mx c Ic) in B. discriminate B. }
      rewrite Eb. replace (1 <? length (filter (fun x => same_rank r x c) (l1 ++ c :: l2))) with false; auto.
      symmetry. apply Nat.ltb_ge.
      assert (Z : forall l, (forall x, In x l -> In x (l1 ++ l2)) -> filter (fun x => same_rank r x c) l = []).
      { intros l Sub. induction l as [|y l IH]; cbn; auto. rewrite IH by (intros x X; apply Sub; now right).
        assert (Iy : In y (l1 ++ l2)) by (apply Sub; now left). pose proof (Bt y Iy) as B. apply (cand_lt_iff r Nr y c) in B; auto.
        destruct (same_rank r y c) eqn:SR; auto. apply same_rank_num in SR as [X _]. congruence. }
      rewrite filter_app. cbn. rewrite Z by (intros x X; apply in_app_iff; auto). cbn.
      destruct (same_rank r c c); rewrite Z by (intros x X; apply in_app_iff; auto); cbn; lia.
Qed.
Theorem choose_none r cs : choose r cs = NoFile <-> cs = [].
Proof.
  destruct cs as [|a [|b t]]; split; auto; try discriminate. unfold choose. destruct (1 <? _); discriminate.
Qed.
(** C63: the order in which the files are found does not matter. *)
Theorem choose_order r cs cs' c : natural_cands r cs ->
  Permutation.Permutation cs cs' -> choose r cs = File c -> choose r cs' = File c.
Proof.
  intros N P X. assert (N' : natural_cands r cs').
  { destruct N as [A B]. split; auto. intros x Ix. apply B. eapply Permutation.Permutation_in; [apply Permutation.Permutation_sym|]; eauto. }
  apply choose_iff in X; auto. apply choose_iff; auto. destruct X as [-> |(l1 & l2 & -> & NE & Bt)].
  - left. now apply Permutation.Permutation_length_1_inv in P.
  - right. assert (Ic : In c cs') by (eapply Permutation.Permutation_in; eauto; apply in_app_iff; right; now left).
    apply in_split in Ic as (k1 & k2 & ->). exists k1, k2. split; auto. apply Permutation.Permutation_app_inv in P. split.
    + intros Z. rewrite Z in P. apply Permutation.Permutation_sym, Permutation.Permutation_nil in P. contradiction.
    + intros x Ix. apply Bt. eapply Permutation.Permutation_in; [apply Permutation.Permutation_sym|]; eauto.
Qed.

(** ** What does not hold, and examples *)
Module Demo.
  Definition any : range := Build_range (Build_version 0 0 0 0) (Build_version 0 0 0 0).
  Definition at_least (v : Z) : range := Build_range (Build_version v 0 0 0) (Build_version 0 0 0 0).
  Definition between (v w : Z) : range := Build_range (Build_version v 0 0 0) (Build_version w 0 0 0).
  Definition need (n : nat) : dep := Build_dep [n] any true false.
  Definition want (n : nat) : dep := Build_dep [n] any false false.
  Definition need_v (n : nat) (r : range) : dep := Build_dep [n] r true false.
  Definition want_v (n : nat) (r : range) : dep := Build_dep [n] r false false.
  Definition plain (ds : list dep) (v : Z) : desc := Build_desc ds (Build_version v 0 0 0) true true.
  Definition invalid (ds : list dep) (v : Z) : desc := Build_desc ds (Build_version v 0 0 0) true false.
  Definition table (l : list (nat * desc)) (n : name) (_ : range) : option desc :=
    match n with [x] => option_map snd (find (fun p => fst p =? x) l) | _ => None end.
  Definition no_faulty (_ : name) : bool := false.
  Definition only_faulty (n : nat) (x : name) : bool := name_eqb x [n].
  Definition summary (o : outcome) : option (list (name * bool)) :=
    match o with Modules ms => Some (map (fun m => (m_name m, m_present m)) ms) | _ => None end.

  (** Two modules that share a third one; an optional one that is not valid takes along the one that only it
      needs. *)
  Definition t1 := table [(1, plain [need 3] 1); (2, plain [need 3; want 4] 1); (3, plain [] 1); (4, invalid [need 5] 1); (5, plain [] 1)].
  Example diamond : summary (resolve no_faulty t1 100 [need 1; need 2])
    = Some [([3], true); ([1], true); ([5], false); ([4], false); ([2], true)].
  Proof. vm_compute. reflexivity. Qed.
  Example cycle : resolve no_faulty (table [(1, plain [need 2] 1); (2, plain [want 1] 1)]) 100 [want 1] = LoadError (ECycle [1]).
  Proof. vm_compute. reflexivity. Qed.
  Example missing : resolve no_faulty (table [(1, plain [need 2] 1)]) 100 [need 1] = LoadError (ENotFound [2]).
  Proof. vm_compute. reflexivity. Qed.
  (** The hypotheses of the theorems above hold in the first example. *)
  Lemma t1_natural : natural_env no_faulty t1 [need 1; need 2].
  Proof.
    assert (A : forall n r k, t1 n r = Some k -> natural (k_version k) /\ forall d, In d (k_deps k) -> natural (r_min (d_range d))).
    { intros n r k. unfold t1, table. destruct n as [|x [|y n]]; try discriminate. cbn [find option_map fst].
      repeat match goal with |- context [?a =? ?b] => destruct (a =? b) end; cbn; intros X; try discriminate X; injection X as <-;
      (split; [unfold natural; cbn; lia|]); cbn; intros d Id; repeat destruct Id as [<-|Id]; try destruct Id; unfold natural; cbn; lia. }
    split.
    - intros n r k X. eapply A; eauto.
    - intros l d. destruct l as [n|]; cbn.
      + intros (r & k & _ & X & Id). eapply A; eauto.
      + intros [<-|[<-|[]]]; unfold natural; cbn; lia.
  Qed.
  Example diamond_loaded : exists ms rs, load no_faulty t1 100 [need 1; need 2] = Some (inl ms) /\ setup ms = Some rs
    /\ length ms = 5 /\ hchain no_faulty [need 1; need 2] ms [3].
  Proof.
    eexists _, _. split; [vm_compute; reflexivity|]. split; [vm_compute; reflexivity|]. split; [reflexivity|].
    eapply hchain_more with (n := [1]).
    - change [1] with (d_name (need 1)). eapply hchain_one; [now left|reflexivity|right; left; reflexivity|reflexivity|discriminate].
    - unfold hard. eexists _, _, [], (need 3), []. split; [right; left; reflexivity|]. repeat split. intros x [].
  Qed.
  Example ends : load no_faulty t1 100 [need 1; need 2] <> None.
  Proof.
    apply (load_terminates no_faulty t1 [need 1; need 2] [[1]; [2]; [3]; [4]; [5]] 2).
    - intros l d. destruct l as [n|]; cbn.
      + intros (r & k & _ & X & Id). unfold t1, table in X. destruct n as [|x [|y n]]; try discriminate. cbn [find option_map fst] in X.
        repeat match type of X with context [?a =? ?b] => destruct (a =? b) end; cbn in X; try discriminate X; injection X as <-;
        cbn in Id; repeat destruct Id as [<-|Id]; try destruct Id; cbn; auto 10.
      + intros [<-|[<-|[]]]; cbn; auto.
    - intros n r k. unfold t1, table. destruct n as [|x [|y n]]; try discriminate. cbn [find option_map fst].
      repeat match goal with |- context [?a =? ?b] => destruct (a =? b) end; cbn; intros X; try discriminate X; injection X as <-; cbn; lia.
    - cbn. lia.
  Qed.
End Demo.
Import Demo.

(** A required Depends item of the product on a module that does not exist goes unnoticed if another
    Depends item on it that is not required comes first; in the other order it is an error. *)
Theorem late_required_refuted : exists look d1 d2, d_name d1 = d_name d2 /\ d_required d2 = true
  /\ (forall n r, look n r = None)
  /\ summary (resolve no_faulty look 100 [d1; d2]) = Some [(d_name d2, false)]
  /\ resolve no_faulty look 100 [d2; d1] = LoadError (ENotFound (d_name d2)).
Proof.
  exists (table []), (want 1), (need 1). split; [reflexivity|]. split; [reflexivity|].
  split; [intros [|x [|y n]] r; reflexivity|]. split; vm_compute; reflexivity.
Qed.
(** The same within a module: it is present although something that it requires is not. *)
Theorem late_required_module_refuted : exists look k d ms, look [1] any = Some k /\ In d (k_deps k) /\ d_required d = true
  /\ resolve no_faulty look 100 [need 1] = Modules ms
  /\ (exists m, In m ms /\ m_name m = [1] /\ m_present m = true) /\ (exists m, In m ms /\ m_name m = d_name d /\ m_present m = false).
Proof.
  eexists (table [(1, plain [want 2; need 2] 1)]), _, (need 2), _. split; [reflexivity|]. split; [right; left; reflexivity|].
  split; [reflexivity|]. split; [vm_compute; reflexivity|]. split.
  - eexists. split; [right; left; reflexivity|split; reflexivity].
  - eexists. split; [left; reflexivity|split; reflexivity].
Qed.
(** A chain of required Depends items leads to a product that is disabled.  There is no error, and
    the module that needs it is present, if the module was first asked for by something that is not required. *)
Theorem disabled_dependency_refuted : exists faulty look ms, faulty [3] = true
  /\ (exists k, look [2] any = Some k /\ In (need 3) (k_deps k))
  /\ resolve faulty look 100 [want 1; need 2] = Modules ms
  /\ (exists m, In m ms /\ m_name m = [2] /\ m_present m = true /\ m_required m = true)
  /\ resolve faulty look 100 [need 2; want 1] = LoadError (EDisabled [3]).
Proof.
  eexists (only_faulty 3), (table [(1, plain [need 2] 1); (2, plain [need 3] 1)]), _. split; [reflexivity|].
  split; [eexists; split; [reflexivity|left; reflexivity]|]. split; [vm_compute; reflexivity|].
  split; [eexists; split; [left; reflexivity|repeat split]|]. vm_compute; reflexivity.
Qed.
(** A maximum is lost if the first Depends item has none: the product gets a version that it excludes. *)
Theorem version_maximum_refuted : exists look d1 d2 ms, d_name d1 = d_name d2 /\ d_required d2 = true
  /\ resolve no_faulty look 100 [d1; d2] = Modules ms
  /\ (exists m k, In m ms /\ m_name m = d_name d2 /\ m_present m = true /\ m_desc m = Some k /\ ~ in_range (d_range d2) (k_version k))
  /\ resolve no_faulty look 100 [d2; d1] = SetupError.
Proof.
  eexists (table [(1, plain [] 3)]), (need_v 1 (at_least 1)), (need_v 1 (between 1 2)), _. split; [reflexivity|]. split; [reflexivity|].
  split; [vm_compute; reflexivity|]. split.
  - eexists _, _. split; [left; reflexivity|]. split; [reflexivity|]. split; [reflexivity|]. split; [reflexivity|].
    unfold in_range, unbounded, lex_lt. cbn. intros [_ [X|X]]; [discriminate X|lia].
  - vm_compute; reflexivity.
Qed.
(** A Depends item that is not required can make a module fail that is required and is fine for all that require
    it. *)
Theorem optional_range_refuted : exists look d1 d2, d_required d2 = false
  /\ summary (resolve no_faulty look 100 [d1]) = Some [(d_name d1, true)] /\ resolve no_faulty look 100 [d1; d2] = SetupError.
Proof.
  exists (table [(1, plain [] 1)]), (need 1), (want_v 1 (at_least 2)). split; [reflexivity|]. split; vm_compute; reflexivity.
Qed.
(** A module that gets a longer chain later on does not pass it on to its dependencies: module 4 is
    needed by module 3, but its values win over those of module 3. *)
Theorem chain_order_refuted : exists look deps ms m m' d, load no_faulty look 100 deps = Some (inl ms) /\ In m ms /\ In m' ms
  /\ uses no_faulty deps ms (Some (m_name m)) d /\ d_name d = m_name m' /\ m_chain m' < m_chain m.
Proof.
  eexists (table [(1, plain [need 2] 1); (2, plain [need 3] 1); (3, plain [need 4] 1); (4, plain [] 1)]), [need 3; need 1], _, _, _, (need 4).
  split; [vm_compute; reflexivity|]. split; [right; left; reflexivity|]. split; [left; reflexivity|]. split.
  - split; [|reflexivity]. eexists _, _. split; [right; left; reflexivity|]. split; [reflexivity|]. split; [reflexivity|]. left. reflexivity.
  - split; [reflexivity|]. cbn. lia.
Qed.

Module Demo_choice.
  Definition cands : list cand :=
    [Build_cand 0 5 1 (Build_version 3 0 0 0); Build_cand 1 0 1 (Build_version 1 0 0 0); Build_cand 2 0 0 (Build_version 1 5 0 0)].
  Example chosen : choose (between 1 2) cands = File (Build_cand 2 0 0 (Build_version 1 5 0 0)) /\ choose any cands = File (Build_cand 0 5 1 (Build_version 3 0 0 0))
    /\ natural_cands (between 1 2) cands.
  Proof.
    split; [reflexivity|]. split; [reflexivity|]. split; [unfold natural; cbn; lia|].
    intros c [<-|[<-|[<-|[]]]]; unfold natural; cbn; lia.
  Qed.
  Example ambiguous : choose any [Build_cand 0 0 0 (Build_version 1 0 0 0); Build_cand 1 0 0 (Build_version 2 0 0 0)] = Ambiguous.
  Proof. reflexivity. Qed.
End Demo_choice.

Print Assumptions load_terminates.
Print Assumptions load_fuel.
Print Assumptions load_error.
Print Assumptions modules_once.
Print Assumptions modules_complete.
Print Assumptions modules_reachable.
Print Assumptions module_origin.
Print Assumptions modules_sorted.
Print Assumptions modules_acyclic.
Print Assumptions modules_no_prefix.
Print Assumptions direct_not_disabled.
Print Assumptions required_reason.
Print Assumptions required_direct.
Print Assumptions minimal_iff.
Print Assumptions version_minima.
Print Assumptions version_ranges_partial.
Print Assumptions chain_path.
Print Assumptions chain_grows_partial.
Print Assumptions setup_error_iff.
Print Assumptions setup_present.
Print Assumptions required_present.
Print Assumptions present_sound.
Print Assumptions choose_iff.
Print Assumptions choose_none.
Print Assumptions choose_order.
Print Assumptions late_required_refuted.
Print Assumptions late_required_module_refuted.
Print Assumptions disabled_dependency_refuted.
Print Assumptions version_maximum_refuted.
Print Assumptions optional_range_refuted.
Print Assumptions chain_order_refuted.
