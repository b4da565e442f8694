(** Module providers: what a product is given is what the provider gives for
    that product, whatever was asked before, as long as all products find the
    same file for a provider and the files do not change; each provider runs
    once; the search paths of real runs exist. All three fail without their
    conditions. *)

From Coq Require Import String Ascii.
From Coq Require Import List Bool NArith Lia Permutation.
From Verif Require Import Str ProvidersModel.
Import ListNotations.
Open Scope list_scope.

(** ** Specification *)

(** The file for a provider under one search path. *)
Inductive under (w : world) (sp : str) (n : qname) : lookup_type -> place -> Prop :=
| under_named pr : w (NamedFile sp n) = Some pr -> under w sp n Named (NamedFile sp n)
| under_both pr : w (NamedFile sp n) = None -> w (ScopedFile sp n) = Some pr ->
    under w sp n Named (ScopedFile sp n)
| under_scoped pr : w (ScopedFile sp n) = Some pr -> under w sp n Scoped (ScopedFile sp n).

(** The file for a provider: the one under the first search path with one. *)
Inductive found (w : world) (n : qname) (l : lookup_type) : list str -> place -> Prop :=
| found_here sp sps p : under w sp n l p -> found w n l (sp :: sps) p
| found_later sp sps p : (forall q, ~ under w sp n l q) -> found w n l sps p ->
    found w n l (sp :: sps) p.

(** What running the provider gives for a request. *)
Definition run_gives (pr : provider) (r : request) : list (dir * str) :=
  List.map (fun x => ((pname r, config r, qbs r), x))
    (gives pr (config r) (qbs r)
       (if eager pr (config r) (qbs r) then None else Some (wanted r))).

(** The answer to a request is the one of a provider run for it. *)
Inductive right (w : world) (r : request) : option place -> list (dir * str) -> Prop :=
| right_none : (forall p, ~ found w (pname r) (how r) (paths r) p) -> right w r None []
| right_some p pr : found w (pname r) (how r) (paths r) p -> w p = Some pr ->
    right w r (Some p) (run_gives pr r).

Definition is_right (w : world) (r : request) (i : info) : Prop :=
  right w r (i_file i) (i_paths i).

(** A run of the tool: the files, whether it is a dry one, whether running is
    forced, the requests. *)
Definition one_run := (world * bool * bool * list request)%type.

Definition files_of (x : one_run) : world := fst (fst (fst x)).
Definition is_dry (x : one_run) : bool := snd (fst (fst x)).
Definition is_forced (x : one_run) : bool := snd (fst x).
Definition asked (x : one_run) : list request := snd x.

(** The disk after some runs. *)
Definition after (h : list one_run) (d : disk) : disk :=
  fold_left (fun d x => snd (resolve (files_of x) (is_dry x) (is_forced x) (asked x) d)) h d.

Definition answers (x : one_run) (d : disk) : list info :=
  fst (fst (resolve (files_of x) (is_dry x) (is_forced x) (asked x) d)).

Definition run_now (x : one_run) (d : disk) : list (key * place) :=
  snd (fst (resolve (files_of x) (is_dry x) (is_forced x) (asked x) d)).

Definition empty_disk : disk := Disk [] [].

(** Two runs agree on a provider: whoever asks finds the same file, with the
    same contents. *)
Definition agree (x y : one_run) : Prop :=
  forall a b, In a (asked x) -> In b (asked y) ->
    pname a = pname b -> how a = how b ->
    forall p, (found (files_of x) (pname a) (how a) (paths a) p <->
               found (files_of y) (pname b) (how b) (paths b) p)
              /\ (found (files_of x) (pname a) (how a) (paths a) p ->
                  files_of x p = files_of y p).

(** ** Keys *)

Lemma name_eqb_spec a b : name_eqb a b = true <-> a = b.
Proof.
  revert b. induction a as [|x a IH]; intros [|y b]; simpl; try (split; congruence).
  rewrite andb_true_iff, str_eqb_eq, IH. split; [intros [-> ->]; reflexivity|].
  intro E. inversion E. auto.
Qed.

Lemma module_eqb_spec a b : module_eqb a b = true <-> a = b.
Proof.
  destruct a as [a|], b as [b|]; simpl; try (split; congruence).
  rewrite name_eqb_spec. split; [intros ->; reflexivity|intro E; inversion E; reflexivity].
Qed.

Lemma key_eqb_spec a b : key_eqb a b = true <-> a = b.
Proof.
  destruct a as [n m c q h], b as [n' m' c' q' h']. unfold key_eqb. simpl.
  rewrite !andb_true_iff, name_eqb_spec, module_eqb_spec, !str_eqb_eq.
  split.
  - intros [[[[-> ->] ->] ->] Hh]. destruct h, h'; simpl in Hh; congruence.
  - intro E. inversion E. subst. destruct h'; simpl; auto.
Qed.

Lemma find_info_in c k i : find_info c k = Some i -> In (k, i) c.
Proof.
  induction c as [|[k' i'] c IH]; simpl; [discriminate|].
  destruct (key_eqb k k') eqn:E.
  - apply key_eqb_spec in E. subst. intro H. inversion H. auto.
  - auto.
Qed.

Lemma find_info_none c k : find_info c k = None -> ~ In k (List.map fst c).
Proof.
  induction c as [|[k' i'] c IH]; simpl; [intros _ []|].
  destruct (key_eqb k k') eqn:E; [discriminate|].
  intros H [X|X]; [|exact (IH H X)].
  subst. assert (key_eqb k k = true) by (apply key_eqb_spec; reflexivity). congruence.
Qed.

(** ** Finding the file *)

Lemma under_some w sp n l p : under w sp n l p -> exists pr, w p = Some pr.
Proof. intros [pr H|pr _ H|pr H]; eauto. Qed.

Lemma under_fun w sp n l p q : under w sp n l p -> under w sp n l q -> p = q.
Proof. intros H K. destruct H; inversion K; congruence. Qed.

Lemma found_fun w n l sps p q : found w n l sps p -> found w n l sps q -> p = q.
Proof.
  intro H. revert q. induction H as [sp sps p U|sp sps p U F IH]; intros q K; inversion K as [sp' sps' q' U' E1 E2|sp' sps' q' U' F' E1 E2]; subst.
  - exact (under_fun _ _ _ _ _ _ U U').
  - exfalso. exact (U' _ U).
  - exfalso. exact (U _ U').
  - apply IH. assumption.
Qed.

Lemma found_some w n l sps p : found w n l sps p -> exists pr, w p = Some pr.
Proof. induction 1 as [sp sps p U|]; [exact (under_some _ _ _ _ _ U)|assumption]. Qed.

Lemma find_file_spec w n l sps :
  (forall p, find_file w sps n l = Some p <-> found w n l sps p).
Proof.
  induction sps as [|sp sps IH]; intro p; simpl.
  - split; [discriminate|intro H; inversion H].
  - assert (U : forall q, under w sp n l q <->
        q = (match l with
             | Named => if is_there w (NamedFile sp n) then NamedFile sp n else ScopedFile sp n
             | Scoped => ScopedFile sp n end)
        /\ is_there w q = true).
    { intro q. unfold is_there. split.
      - intros [pr H|pr H1 H2|pr H]; [rewrite H; auto| rewrite H1, H2; auto | rewrite H; auto].
      - intros [-> H]. destruct l.
        + destruct (w (NamedFile sp n)) eqn:E.
          * exact (under_named _ _ _ _ E).
          * destruct (w (ScopedFile sp n)) eqn:E2; [|discriminate].
            exact (under_both _ _ _ _ E E2).
        + destruct (w (ScopedFile sp n)) eqn:E2; [|discriminate].
          exact (under_scoped _ _ _ _ E2). }
    set (q0 := match l with
             | Named => if is_there w (NamedFile sp n) then NamedFile sp n else ScopedFile sp n
             | Scoped => ScopedFile sp n end) in *.
    destruct (is_there w q0) eqn:E.
    + split.
      * intro H. inversion H. subst p. apply found_here. apply U. auto.
      * intro H. f_equal. apply (found_fun w n l (sp :: sps)); [|exact H].
        apply found_here. apply U. auto.
    + rewrite IH. split.
      * intro H. apply found_later; [|exact H]. intros q Q. apply U in Q.
        destruct Q as [-> Q]. congruence.
      * intro H. inversion H; subst; [|assumption].
        exfalso. apply U in H3. destruct H3 as [-> Q]. congruence.
Qed.

Lemma find_file_none w n l sps :
  find_file w sps n l = None -> forall p, ~ found w n l sps p.
Proof. intros H p F. apply find_file_spec in F. congruence. Qed.

(** ** One answer *)

(** Every entry of the cache would be the answer of a run now, for every
    request of a list with that key. *)
Definition fits (w : world) (rs : list request) (e : key * info) : Prop :=
  forall r m, In r rs -> fst e = key_of r m -> (m = None \/ m = Some (wanted r)) ->
    is_right w r (snd e).

(** Eager entries come from eager providers. *)
Definition same_file (w : world) (rs : list request) : Prop :=
  forall a b, In a rs -> In b rs -> pname a = pname b -> how a = how b ->
    forall p, found w (pname a) (how a) (paths a) p <-> found w (pname b) (how b) (paths b) p.

Lemma key_of_inj r r' m m' : key_of r m = key_of r' m' ->
  pname r = pname r' /\ m = m' /\ config r = config r' /\ qbs r = qbs r' /\ how r = how r'.
Proof. intro E. inversion E. auto. Qed.

(** The entry for a request with a given file. *)
Lemma fits_new w rs r p pr dry :
  same_file w rs -> In r rs ->
  found w (pname r) (how r) (paths r) p -> w p = Some pr ->
  let m := if eager pr (config r) (qbs r) then None else Some (wanted r) in
  fits w rs (key_of r m,
             Info (Some p) (List.map (fun x => (dir_of r, x)) (gives pr (config r) (qbs r) m)) dry).
Proof.
  intros SF Hr F Wp m r' m' Hr' E M. simpl in *.
  apply key_of_inj in E. destruct E as [En [Em [Ec [Eq Eh]]]].
  unfold is_right. simpl.
  replace (List.map (fun x => (dir_of r, x)) (gives pr (config r) (qbs r) m)) with (run_gives pr r').
  - apply right_some; [|exact Wp]. apply (proj1 (SF r r' Hr Hr' En Eh p) F).
  - unfold run_gives, dir_of. rewrite En, Ec, Eq. f_equal.
    unfold m in *. rewrite <- Ec, <- Eq.
    destruct (eager pr (config r) (qbs r)).
    + reflexivity.
    + destruct M as [M|M]; congruence.
Qed.

Lemma fits_none w rs r b :
  same_file w rs -> In r rs ->
  (forall p, ~ found w (pname r) (how r) (paths r) p) ->
  fits w rs (key_of r (Some (wanted r)), Info None [] b).
Proof.
  intros SF Hr F r' m' Hr' E M. simpl in *.
  apply key_of_inj in E. destruct E as [En [Em [Ec [Eq Eh]]]].
  unfold is_right. simpl. apply right_none. intros p K.
  exact (F p (proj2 (SF r r' Hr Hr' En Eh p) K)).
Qed.

Lemma ask_right w dry rs r s :
  same_file w rs -> In r rs -> (forall e, In e (infos s) -> fits w rs e) ->
  is_right w r (fst (ask w dry r s))
  /\ (forall e, In e (infos (snd (ask w dry r s))) -> fits w rs e).
Proof.
  intros SF Hr C. unfold ask.
  destruct (find_info (infos s) (key_of r None)) eqn:E1.
  { simpl. split; [|exact C]. apply find_info_in in E1.
    apply (C _ E1 r None Hr eq_refl). auto. }
  destruct (find_info (infos s) (key_of r (Some (wanted r)))) eqn:E2.
  { simpl. split; [|exact C]. apply find_info_in in E2.
    apply (C _ E2 r (Some (wanted r)) Hr eq_refl). auto. }
  destruct (find_file w (paths r) (pname r) (how r)) as [p|] eqn:F.
  - apply find_file_spec in F. destruct (found_some _ _ _ _ _ F) as [pr W]. rewrite W.
    pose proof (fits_new w rs r p pr dry SF Hr F W) as N0. simpl in N0.
    simpl. split.
    + apply (N0 r (if eager pr (config r) (qbs r) then None else Some (wanted r)) Hr eq_refl).
      destruct (eager pr (config r) (qbs r)); auto.
    + intros e [<- | He]; [exact N0|exact (C e He)].
  - pose proof (find_file_none _ _ _ _ F) as NF. simpl. split.
    + apply right_none. exact NF.
    + intros e [<- | He]; [|exact (C e He)]. apply fits_none; assumption.
Qed.

Lemma ask_all_right w dry rs : same_file w rs -> forall l s,
  incl l rs -> (forall e, In e (infos s) -> fits w rs e) ->
  Forall2 (is_right w) l (fst (ask_all w dry l s))
  /\ (forall e, In e (infos (snd (ask_all w dry l s))) -> fits w rs e).
Proof.
  intro SF. induction l as [|r l IH]; intros s I0 C; simpl.
  - split; [constructor|exact C].
  - destruct (ask_right w dry rs r s SF (I0 r (or_introl eq_refl)) C) as [R C1].
    destruct (ask w dry r s) as [i s1]. simpl in *.
    destruct (IH s1 (fun x X => I0 x (or_intror X)) C1) as [R2 C2].
    destruct (ask_all w dry l s1) as [o s2]. simpl in *.
    split; [constructor; assumption|exact C2].
Qed.

(** ** Runs *)

(** Within one run that takes over nothing. *)
Theorem answers_right w dry rs ds force old :
  force = true \/ old = [] -> same_file w rs ->
  Forall2 (is_right w) rs (fst (ask_all w dry rs (start force old ds))).
Proof.
  intros F SF. apply (ask_all_right w dry rs SF rs); [apply incl_refl|].
  intros e He. unfold start, restored in He. simpl in He.
  destruct F as [-> | ->]; [destruct He|]. destruct force; destruct He.
Qed.

(** The answers do not depend on the order of the requests. *)
Lemma right_fun w r f f' l l' : right w r f l -> right w r f' l' -> f = f' /\ l = l'.
Proof.
  intros H K. destruct H as [H|p pr F W]; inversion K as [H'|p' pr' F' W']; subst.
  - auto.
  - exfalso. exact (H _ F').
  - exfalso. exact (H' _ F).
  - assert (p = p') by (eapply found_fun; eauto). subst. rewrite W in W'. inversion W'. auto.
Qed.

Lemma forall2_in {A B} (P : A -> B -> Prop) l m a b :
  Forall2 P l m -> In (a, b) (combine l m) -> P a b.
Proof.
  induction 1; simpl; [intros []|]. intros [E|E]; [inversion E; subst; assumption|auto].
Qed.

Theorem order_free w dry dry' rs rs' ds ds' r i i' :
  same_file w rs -> Permutation rs rs' ->
  In (r, i) (combine rs (fst (ask_all w dry rs (start true [] ds)))) ->
  In (r, i') (combine rs' (fst (ask_all w dry' rs' (start true [] ds')))) ->
  i_file i = i_file i' /\ i_paths i = i_paths i'.
Proof.
  intros SF P H K.
  assert (SF' : same_file w rs').
  { intros a b Ha Hb En Eh. exact (SF a b (Permutation_in a (Permutation_sym P) Ha)
      (Permutation_in b (Permutation_sym P) Hb) En Eh). }
  pose proof (answers_right w dry rs ds true [] (or_introl eq_refl) SF) as R.
  pose proof (answers_right w dry' rs' ds' true [] (or_introl eq_refl) SF') as R'.
  apply (forall2_in _ _ _ _ _ R) in H. apply (forall2_in _ _ _ _ _ R') in K.
  exact (right_fun _ _ _ _ _ _ H K).
Qed.

(** Over a history of runs. *)

(** An entry is what some request of some earlier run was given. *)
Definition from_run (h : list one_run) (e : key * info) : Prop :=
  exists x r m, In x h /\ In r (asked x) /\ fst e = key_of r m
    /\ ((m = Some (wanted r) /\ i_file (snd e) = None /\ i_paths (snd e) = []
         /\ (forall p, ~ found (files_of x) (pname r) (how r) (paths r) p))
        \/ exists p pr, found (files_of x) (pname r) (how r) (paths r) p
            /\ files_of x p = Some pr
            /\ m = (if eager pr (config r) (qbs r) then None else Some (wanted r))
            /\ i_file (snd e) = Some p
            /\ i_paths (snd e) = run_gives pr r).

Lemma from_run_more h h' e : incl h h' -> from_run h e -> from_run h' e.
Proof. intros I0 [x [r [m [Hx H]]]]. exists x, r, m. split; [exact (I0 x Hx)|exact H]. Qed.

Lemma ask_from h x r s : In x h -> In r (asked x) ->
  (forall e, In e (infos s) -> from_run h e) ->
  forall e, In e (infos (snd (ask (files_of x) (is_dry x) r s))) -> from_run h e.
Proof.
  intros Hx Hr C. unfold ask.
  destruct (find_info (infos s) (key_of r None)); [exact C|].
  destruct (find_info (infos s) (key_of r (Some (wanted r)))); [exact C|].
  destruct (find_file (files_of x) (paths r) (pname r) (how r)) as [p|] eqn:F.
  - apply find_file_spec in F. destruct (found_some _ _ _ _ _ F) as [pr W]. rewrite W. simpl.
    intros e [<- | He]; [|exact (C e He)].
    exists x, r, (if eager pr (config r) (qbs r) then None else Some (wanted r)).
    split; [exact Hx|]. split; [exact Hr|]. split; [reflexivity|]. right.
    exists p, pr. simpl. auto 10.
  - pose proof (find_file_none _ _ _ _ F) as NF. simpl.
    intros e [<- | He]; [|exact (C e He)].
    exists x, r, (Some (wanted r)). split; [exact Hx|]. split; [exact Hr|].
    split; [reflexivity|]. left. simpl. auto.
Qed.

Lemma ask_all_from h x : In x h -> forall l s, incl l (asked x) ->
  (forall e, In e (infos s) -> from_run h e) ->
  forall e, In e (infos (snd (ask_all (files_of x) (is_dry x) l s))) -> from_run h e.
Proof.
  intro Hx. induction l as [|r l IH]; intros s I0 C; simpl; [exact C|].
  pose proof (ask_from h x r s Hx (I0 r (or_introl eq_refl)) C) as C1.
  destruct (ask (files_of x) (is_dry x) r s) as [i s1]. simpl in C1.
  pose proof (IH s1 (fun y Y => I0 y (or_intror Y)) C1) as C2.
  destruct (ask_all (files_of x) (is_dry x) l s1). exact C2.
Qed.

Lemma restored_from h force c : (forall e, In e c -> from_run h e) ->
  forall e, In e (restored force c) -> from_run h e.
Proof.
  intros C e He. unfold restored in He. destruct force; [destruct He|].
  apply in_map_iff in He. destruct He as [e0 [<- H0]]. exact (C e0 H0).
Qed.

Lemma after_app h x d :
  after (h ++ [x]) d
  = snd (resolve (files_of x) (is_dry x) (is_forced x) (asked x) (after h d)).
Proof. unfold after. rewrite fold_left_app. reflexivity. Qed.

Lemma stored_from h : forall e, In e (stored (after h empty_disk)) -> from_run h e.
Proof.
  induction h as [|x h IH] using rev_ind; intros e He; [destruct He|].
  rewrite after_app in He.
  set (d := after h empty_disk) in *. unfold resolve in He.
  assert (C : forall e, In e (restored (is_forced x) (stored d)) -> from_run (h ++ [x]) e).
  { apply restored_from. intros e0 H0. apply (from_run_more h); [|exact (IH e0 H0)].
    intros y Y. apply in_or_app. auto. }
  pose proof (ask_all_from (h ++ [x]) x (in_or_app h [x] x (or_intror (or_introl eq_refl)))
                (asked x) (start (is_forced x) (stored d) (present d)) (incl_refl _) C) as A0.
  destruct (ask_all (files_of x) (is_dry x) (asked x)
              (start (is_forced x) (stored d) (present d))) as [o s].
  simpl in *. destruct (is_dry x); simpl in He.
  - apply (from_run_more h); [|exact (IH e He)]. intros y Y. apply in_or_app. auto.
  - exact (A0 e He).
Qed.

Theorem history_right_partial h x :
  (forall y, In y h -> is_forced x = false -> agree y x) -> agree x x ->
  Forall2 (is_right (files_of x)) (asked x) (answers x (after h empty_disk)).
Proof.
  intros Ag Ax. unfold answers, resolve.
  assert (SF : same_file (files_of x) (asked x)).
  { intros a b Ha Hb En Eh p. exact (proj1 (Ax a b Ha Hb En Eh p)). }
  assert (C : forall e, In e (restored (is_forced x) (stored (after h empty_disk))) ->
              fits (files_of x) (asked x) e).
  { intros e He. destruct (is_forced x) eqn:Fx; [destruct He|].
    assert (FR : from_run h e).
    { apply (restored_from h false (stored (after h empty_disk))); [|exact He].
      apply stored_from. }
    destruct FR as [y [r [m [Hy [Hr [Ek FR]]]]]].
    intros r' m' Hr' Ek' M. rewrite Ek in Ek'. apply key_of_inj in Ek'.
    destruct Ek' as [En [Em [Ec [Eq Eh]]]].
    pose proof (Ag y Hy eq_refl r r' Hr Hr' En Eh) as AG.
    unfold is_right. destruct FR as [[_ [-> [-> NF]]]|[p [pr [F [W [Hm [-> ->]]]]]]].
    - apply right_none. intros p K. exact (NF p (proj2 (proj1 (AG p)) K)).
    - destruct (AG p) as [A1 A2].
      replace (run_gives pr r) with (run_gives pr r').
      + apply right_some; [exact (proj1 A1 F)|]. rewrite <- (A2 F). exact W.
      + unfold run_gives. rewrite En, Ec, Eq. f_equal.
        rewrite Ec, Eq in Hm.
        destruct (eager pr (config r') (qbs r')); [reflexivity|].
        destruct M as [M|M]; congruence. }
  pose proof (ask_all_right (files_of x) (is_dry x) (asked x) SF (asked x)
     (start (is_forced x) (stored (after h empty_disk)) (present (after h empty_disk)))
     (incl_refl _) C) as [R _].
  destruct (ask_all (files_of x) (is_dry x) (asked x) _) as [o s]. exact R.
Qed.

(** ** Each provider runs once *)

Definition keyed (s : state) (old : cache) : Prop :=
  NoDup (List.map fst (ran s))
  /\ (forall k, In k (List.map fst (ran s)) -> In k (List.map fst (infos s)))
  /\ (forall k, In k (List.map fst old) -> In k (List.map fst (infos s)))
  /\ (forall k, In k (List.map fst (ran s)) -> ~ In k (List.map fst old)).

Lemma ask_keyed w dry r s old : keyed s old -> keyed (snd (ask w dry r s)) old.
Proof.
  intros K. unfold ask.
  destruct (find_info (infos s) (key_of r None)) eqn:E1; [exact K|].
  destruct (find_info (infos s) (key_of r (Some (wanted r)))) eqn:E2; [exact K|].
  apply find_info_none in E1. apply find_info_none in E2.
  destruct K as [ND [RI [OI NO]]].
  assert (Less : forall i, keyed (State ((key_of r (Some (wanted r)), i) :: infos s) (dirs s) (ran s)) old).
  { intro i. split; [exact ND|]. simpl. split; [intros k H; right; exact (RI k H)|].
    split; [intros k H; right; exact (OI k H)|exact NO]. }
  destruct (find_file w (paths r) (pname r) (how r)) as [p|]; [|apply Less].
  destruct (w p) as [pr|]; [|apply Less].
  simpl. set (m := if eager pr (config r) (qbs r) then None else Some (wanted r)).
  assert (NI : ~ In (key_of r m) (List.map fst (infos s))).
  { unfold m. destruct (eager pr (config r) (qbs r)); assumption. }
  split; [|split; [|split]]; simpl.
  - constructor; [|exact ND]. intro H. exact (NI (RI _ H)).
  - intros k [H|H]; [left; exact H|right; exact (RI k H)].
  - intros k H. right. exact (OI k H).
  - intros k [<- |H]; [|exact (NO k H)]. intro H. exact (NI (OI _ H)).
Qed.

Lemma ask_all_keyed w dry l : forall s old, keyed s old -> keyed (snd (ask_all w dry l s)) old.
Proof.
  induction l as [|r l IH]; intros s old K; simpl; [exact K|].
  pose proof (ask_keyed w dry r s old K) as K1.
  destruct (ask w dry r s) as [i s1]. simpl in K1. specialize (IH s1 old K1).
  destruct (ask_all w dry l s1). exact IH.
Qed.

(** No provider runs twice for the same name, configuration and kind of
    lookup, and module if it is not eager, and none whose result is stored. *)
Theorem runs_once x d :
  NoDup (List.map fst (run_now x d))
  /\ (is_forced x = false ->
      forall k, In k (List.map fst (run_now x d)) -> ~ In k (List.map fst (stored d))).
Proof.
  unfold run_now, resolve.
  pose proof (ask_all_keyed (files_of x) (is_dry x) (asked x)
    (start (is_forced x) (stored d) (present d))
    (restored (is_forced x) (stored d))) as K.
  destruct (ask_all (files_of x) (is_dry x) (asked x) _) as [o s]. simpl in *.
  destruct K as [ND [_ [_ NO]]].
  { split; [constructor|]. simpl. split; [intros k []|]. split; [auto|intros k []]. }
  split; [exact ND|]. intros F k H. specialize (NO k H). rewrite F in NO. simpl in NO.
  unfold restored in NO. rewrite map_map in NO. simpl in NO. exact NO.
Qed.

(** An eager provider that ran is not run again for any module. *)
Definition eager_first (w : world) (rs : list request) (l : list (key * place)) : Prop :=
  forall k p, In (k, p) l -> exists r pr, In r rs
    /\ found w (pname r) (how r) (paths r) p /\ w p = Some pr
    /\ k = key_of r (if eager pr (config r) (qbs r) then None else Some (wanted r)).

Lemma ask_eager w dry rs r s : In r rs ->
  eager_first w rs (ran s) -> eager_first w rs (ran (snd (ask w dry r s))).
Proof.
  intros Hr E. unfold ask.
  destruct (find_info (infos s) (key_of r None)); [exact E|].
  destruct (find_info (infos s) (key_of r (Some (wanted r)))); [exact E|].
  destruct (find_file w (paths r) (pname r) (how r)) as [p|] eqn:F; [|exact E].
  destruct (w p) as [pr|] eqn:W; [|exact E].
  apply find_file_spec in F. simpl. intros k q [H|H]; [|exact (E k q H)].
  inversion H. subst. exists r, pr. auto.
Qed.

Lemma ask_all_eager w dry rs l : forall s, incl l rs ->
  eager_first w rs (ran s) -> eager_first w rs (ran (snd (ask_all w dry l s))).
Proof.
  induction l as [|r l IH]; intros s I0 E; simpl; [exact E|].
  pose proof (ask_eager w dry rs r s (I0 r (or_introl eq_refl)) E) as E1.
  destruct (ask w dry r s) as [i s1]. simpl in E1.
  specialize (IH s1 (fun x X => I0 x (or_intror X)) E1).
  destruct (ask_all w dry l s1). exact IH.
Qed.

(** Only providers that somebody asked for run, from the file that they find. *)
Theorem runs_asked x d k p :
  In (k, p) (run_now x d) ->
  exists r pr, In r (asked x) /\ found (files_of x) (pname r) (how r) (paths r) p
    /\ files_of x p = Some pr
    /\ k_name k = pname r /\ k_config k = config r /\ k_qbs k = qbs r /\ k_how k = how r
    /\ k_module k = (if eager pr (config r) (qbs r) then None else Some (wanted r)).
Proof.
  unfold run_now, resolve.
  pose proof (ask_all_eager (files_of x) (is_dry x) (asked x) (asked x)
    (start (is_forced x) (stored d) (present d)) (incl_refl _)) as E.
  destruct (ask_all (files_of x) (is_dry x) (asked x) _) as [o s]. simpl in *.
  intro H. destruct (E (fun k p (X : False) => match X with end) k p H)
    as [r [pr [Hr [F [W ->]]]]].
  exists r, pr. simpl. auto 10.
Qed.

(** ** The search paths exist *)

Definition there (ds : list dir) (i : info) : Prop :=
  forall d s, In (d, s) (i_paths i) -> In d ds.

Lemma ask_there w dry r s :
  (forall e, In e (infos s) -> there (dirs s) (snd e)) ->
  there (dirs (snd (ask w dry r s))) (fst (ask w dry r s))
  /\ (forall e, In e (infos (snd (ask w dry r s))) -> there (dirs (snd (ask w dry r s))) (snd e))
  /\ incl (dirs s) (dirs (snd (ask w dry r s))).
Proof.
  intro C. unfold ask.
  destruct (find_info (infos s) (key_of r None)) eqn:E1.
  { simpl. split; [|split; [exact C|apply incl_refl]]. apply find_info_in in E1.
    exact (C _ E1). }
  destruct (find_info (infos s) (key_of r (Some (wanted r)))) eqn:E2.
  { simpl. split; [|split; [exact C|apply incl_refl]]. apply find_info_in in E2.
    exact (C _ E2). }
  assert (Less : forall d x, In (d, x) (i_paths (Info None [] false)) -> In d (dirs s))
    by (intros d x []).
  assert (None0 : forall e, In e ((key_of r (Some (wanted r)), Info None [] false) :: infos s) ->
     there (dirs s) (snd e)).
  { intros e [<- |He]; [exact Less|exact (C e He)]. }
  destruct (find_file w (paths r) (pname r) (how r)) as [p|] eqn:F.
  2: { simpl. split; [exact Less|]. split; [exact None0|apply incl_refl]. }
  destruct (w p) as [pr|] eqn:W.
  2: { simpl. split; [exact Less|]. split; [exact None0|apply incl_refl]. }
  simpl.
  set (ps := gives pr (config r) (qbs r) _).
  set (ds := match ps with [] => dirs s | _ => dir_of r :: dirs s end).
  assert (I0 : incl (dirs s) ds).
  { unfold ds. destruct ps; [apply incl_refl|]. intros d D. right. exact D. }
  assert (T : forall d x, In (d, x) (List.map (fun x => (dir_of r, x)) ps) -> In d ds).
  { intros d x H. apply in_map_iff in H. destruct H as [y [E H]]. inversion E. subst.
    unfold ds. destruct ps; [destruct H|]. left. reflexivity. }
  split; [exact T|]. split; [|exact I0].
  intros e [<- |He]; [exact T|]. intros d x H. apply I0. exact (C e He d x H).
Qed.

Lemma ask_all_there w dry l : forall s,
  (forall e, In e (infos s) -> there (dirs s) (snd e)) ->
  Forall (there (dirs (snd (ask_all w dry l s)))) (fst (ask_all w dry l s))
  /\ (forall e, In e (infos (snd (ask_all w dry l s))) ->
        there (dirs (snd (ask_all w dry l s))) (snd e))
  /\ incl (dirs s) (dirs (snd (ask_all w dry l s))).
Proof.
  induction l as [|r l IH]; intros s C; simpl.
  - split; [constructor|]. split; [exact C|apply incl_refl].
  - destruct (ask_there w dry r s C) as [T [C1 I1]].
    destruct (ask w dry r s) as [i s1]. simpl in *.
    destruct (IH s1 C1) as [T2 [C2 I2]].
    destruct (ask_all w dry l s1) as [o s2]. simpl in *.
    split; [constructor; [intros d x H; exact (I2 _ (T d x H))|exact T2]|].
    split; [exact C2|]. intros d D. exact (I2 _ (I1 _ D)).
Qed.

Lemma restored_there force c ds :
  (forall e, In e c -> there ds (snd e)) ->
  forall e, In e (restored force c) -> there ds (snd e).
Proof.
  intros C e He. unfold restored in He. destruct force; [destruct He|].
  apply in_map_iff in He. destruct He as [e0 [<- H0]]. exact (C e0 H0).
Qed.

(** If no run is a dry one, all search paths that products are given are
    there. *)
Theorem paths_exist_partial h x :
  (forall y, In y h -> is_dry y = false) -> is_dry x = false ->
  forall i d s, In i (answers x (after h empty_disk)) -> In (d, s) (i_paths i) ->
    In d (present (after (h ++ [x]) empty_disk)).
Proof.
  intros ND Dx.
  assert (C : forall e, In e (stored (after h empty_disk)) ->
              there (present (after h empty_disk)) (snd e)).
  { revert ND. clear x Dx. induction h as [|x h IH] using rev_ind; intros ND e He; [destruct He|].
    rewrite after_app in He |- *. set (d := after h empty_disk) in *.
    assert (Dx : is_dry x = false) by (apply ND, in_or_app; right; left; reflexivity).
    assert (Ch : forall e, In e (stored d) -> there (present d) (snd e)).
    { apply IH. intros y Y. apply ND, in_or_app. auto. }
    unfold resolve in *. rewrite Dx in *.
    pose proof (ask_all_there (files_of x) false (asked x)
      (start (is_forced x) (stored d) (present d)) (restored_there _ _ _ Ch)) as [_ [A0 _]].
    destruct (ask_all (files_of x) false (asked x) _) as [o s]. simpl in *.
    exact (A0 e He). }
  intros i d s Hi Hp. rewrite after_app. set (d0 := after h empty_disk) in *.
  unfold answers, resolve in *. rewrite Dx in *.
  pose proof (ask_all_there (files_of x) false (asked x)
      (start (is_forced x) (stored d0) (present d0)) (restored_there _ _ _ C)) as [A0 _].
  destruct (ask_all (files_of x) false (asked x) _) as [o s0]. simpl in *.
  rewrite Forall_forall in A0. exact (A0 i Hi d s Hp).
Qed.

(** A dry run stores nothing, and touches the output of no provider that it
    did not run. *)
Theorem dry_run_keeps x d :
  is_dry x = true ->
  stored (after [x] d) = stored d
  /\ (forall y, In y (present d) ->
        (forall k p, In (k, p) (run_now x d) -> k_name k <> fst (fst y)) ->
        In y (present (after [x] d)))
  /\ (forall k p y, In (k, p) (run_now x d) -> k_name k = fst (fst y) ->
        ~ In y (present (after [x] d))).
Proof.
  intro Dx. unfold after, run_now, resolve. cbn [fold_left].
  unfold resolve. rewrite Dx.
  set (s0 := start (is_forced x) (stored d) (present d)).
  pose (J := fun s : state =>
     incl (present d) (dirs s)
     /\ (forall k i, In (k, i) (infos s) -> i_transient i = true ->
           exists k' p, In (k', p) (ran s) /\ k_name k' = k_name k)
     /\ (forall k p, In (k, p) (ran s) -> exists i, In (k, i) (infos s) /\ i_transient i = true)).
  assert (J0 : J s0).
  { unfold J, s0, start. simpl. split; [apply incl_refl|]. split; [|intros k p []].
    intros k i H T. exfalso. unfold restored in H. destruct (is_forced x); [destruct H|].
    apply in_map_iff in H. destruct H as [e [E _]]. inversion E. subst. discriminate. }
  assert (JS : forall r s, J s -> J (snd (ask (files_of x) true r s))).
  { intros r s [J1 [J2 J3]]. unfold ask.
    destruct (find_info (infos s) (key_of r None)); [exact (conj J1 (conj J2 J3))|].
    destruct (find_info (infos s) (key_of r (Some (wanted r)))); [exact (conj J1 (conj J2 J3))|].
    assert (L : J (State ((key_of r (Some (wanted r)), Info None [] false) :: infos s)
                    (dirs s) (ran s))).
    { split; [exact J1|]. simpl. split.
      - intros k i [H|H] T; [inversion H; subst; discriminate|exact (J2 k i H T)].
      - intros k p H. destruct (J3 k p H) as [i [Hi T]]. exists i. auto. }
    destruct (find_file (files_of x) (paths r) (pname r) (how r)) as [p|]; [|exact L].
    destruct (files_of x p) as [pr|]; [|exact L].
    simpl. split; [|split]; simpl.
    - intros y Y. apply J1 in Y.
      destruct (gives pr (config r) (qbs r) _); [exact Y|right; exact Y].
    - intros k i [H|H] T.
      + inversion H. subst. eexists _, _. split; [left; reflexivity|reflexivity].
      + destruct (J2 k i H T) as [k' [q [Hq E]]]. exists k', q. auto.
    - intros k q [H|H].
      + inversion H. subst. eexists. split; [left; reflexivity|reflexivity].
      + destruct (J3 k q H) as [i [Hi T]]. exists i. auto. }
  assert (JA : forall l s, J s -> J (snd (ask_all (files_of x) true l s))).
  { induction l as [|r l IH]; intros s Js; simpl; [exact Js|].
    pose proof (JS r s Js) as J1. destruct (ask (files_of x) true r s) as [i s1].
    specialize (IH s1 J1). destruct (ask_all (files_of x) true l s1). exact IH. }
  pose proof (JA (asked x) s0 J0) as [J1 [J2 J3]].
  destruct (ask_all (files_of x) true (asked x) s0) as [o s]. simpl in *.
  split; [reflexivity|]. unfold cleanup. split.
  - intros y Y H. apply filter_In. split; [exact (J1 y Y)|].
    apply negb_true_iff. destruct (existsb _ (infos s)) eqn:E; [|reflexivity].
    exfalso. apply existsb_exists in E. destruct E as [[k i] [Hk E]]. simpl in E.
    apply andb_true_iff in E. destruct E as [T E]. apply name_eqb_spec in E.
    destruct (J2 k i Hk T) as [k' [p [Hr Ek]]]. apply (H k' p Hr). congruence.
  - intros k p y Hr Ek Y. apply filter_In in Y. destruct Y as [_ Y].
    apply negb_true_iff in Y. destruct (J3 k p Hr) as [i [Hi T]].
    assert (X : existsb (fun e => i_transient (snd e)
                   && name_eqb (fst (fst y)) (k_name (fst e))) (infos s) = true).
    { apply existsb_exists. exists (k, i). split; [exact Hi|]. simpl. rewrite T. simpl.
      apply name_eqb_spec. congruence. }
    congruence.
Qed.

(** ** The providers for a module *)

Lemma up_to_spec m n x : n <= length m ->
  (In x (up_to n m) <-> exists t, m = x ++ t /\ x <> [] /\ length x <= n).
Proof.
  revert x. induction n as [|n IH]; intros x L.
  - simpl. split; [intros []|]. intros [t [_ [H K]]]. destruct x; [congruence|simpl in K; lia].
  - cbn [up_to In]. rewrite (IH x ltac:(lia)). split.
    + intros [<- |[t [E [H K]]]].
      * exists (skipn (S n) m). split; [symmetry; apply firstn_skipn|].
        split; [|rewrite firstn_length; lia].
        intro E. apply (f_equal (@length str)) in E. rewrite firstn_length in E. cbn [length] in E. lia.
      * exists t. split; [exact E|]. split; [exact H|lia].
    + intros [t [E [H K]]]. destruct (PeanoNat.Nat.eq_dec (length x) (S n)) as [Q|Q].
      * left. rewrite E, <- Q, firstn_app, firstn_all, PeanoNat.Nat.sub_diag. simpl.
        apply app_nil_r.
      * right. exists t. split; [exact E|]. split; [exact H|lia].
Qed.

(** Without named providers these are the ones of all prefixes of the name of
    the module, the longer first. *)
Theorem scoped_providers m :
  (forall n l, In (n, l) (to_run None m) <->
     l = Scoped /\ n <> [] /\ exists t, m = n ++ t)
  /\ (forall a b c n l n' l', to_run None m = a ++ (n, l) :: b ++ (n', l') :: c ->
        length n' < length n).
Proof.
  split.
  - intros n l. simpl. rewrite in_map_iff. split.
    + intros [x [E H]]. inversion E. subst. apply up_to_spec in H; [|lia].
      destruct H as [t [E2 [H K]]]. split; [reflexivity|]. split; [exact H|]. exists t. exact E2.
    + intros [-> [H [t E]]]. exists n. split; [reflexivity|]. apply up_to_spec; [lia|].
      exists t. split; [exact E|]. split; [exact H|]. rewrite E, app_length. apply PeanoNat.Nat.le_add_r.
  - assert (B : forall k, k <= length m -> forall x, In x (up_to k m) -> length x <= k).
    { intros k K x H. apply up_to_spec in H; [|exact K]. destruct H as [t [_ [_ H]]]. exact H. }
    assert (G : forall k, k <= length m -> forall a b c x y,
        List.map (fun n => (n, Scoped)) (up_to k m) = a ++ x :: b ++ y :: c ->
        length (fst y) < length (fst x)).
    { induction k as [|k IH]; intros K a b c x y E; [destruct a; discriminate|].
      cbn [up_to List.map] in E. destruct a as [|a0 a].
      - cbn [app] in E. assert (E1 := f_equal (hd x) E). assert (E2 := f_equal (@tl _) E).
        cbn [hd tl] in E1, E2. rewrite <- E1. cbn [fst]. rewrite firstn_length.
        assert (Y : In y (List.map (fun n => (n, Scoped)) (up_to k m)))
          by (rewrite E2; apply in_or_app; right; left; reflexivity).
        apply in_map_iff in Y. destruct Y as [z [<- Z]]. cbn [fst].
        apply (B k ltac:(lia)) in Z. lia.
      - assert (E2 := f_equal (@tl _) E). apply (IH ltac:(lia) a b c x y E2). }
    intros a b c n l n' l' E. exact (G (length m) (le_n _) a b c (n, l) (n', l') E).
Qed.

(** What a product is given for a module, if each provider is run for it. *)
Inductive given (w : world) (sps : list str) (m : qname) (conf : qname -> str) (q : str)
  : list (qname * lookup_type) -> outcome -> Prop :=
| given_end : given w sps m conf q [] (Paths false [])
| given_unknown n r :
    (forall p, ~ found w n Named sps p) -> given w sps m conf q ((n, Named) :: r) (Unknown n)
| given_skip n r o :
    (forall p, ~ found w n Scoped sps p) -> given w sps m conf q r o ->
    given w sps m conf q ((n, Scoped) :: r) o
| given_error n l p r n' :
    found w n l sps p -> given w sps m conf q r (Unknown n') ->
    given w sps m conf q ((n, l) :: r) (Unknown n')
| given_more n l p pr r b ps :
    found w n l sps p -> w p = Some pr -> given w sps m conf q r (Paths b ps) ->
    given w sps m conf q ((n, l) :: r)
      (Paths true (run_gives pr (Request sps n m (conf n) q l) ++ ps)).

Theorem execute_right w dry rs sps m conf q ps s :
  same_file w rs ->
  (forall n l, In (n, l) ps -> In (Request sps n m (conf n) q l) rs) ->
  (forall e, In e (infos s) -> fits w rs e) ->
  given w sps m conf q ps (fst (execute w dry sps m conf q ps s))
  /\ (forall e, In e (infos (snd (execute w dry sps m conf q ps s))) -> fits w rs e).
Proof.
  intro SF. revert s. induction ps as [|[n l] ps IH]; intros s Q C; simpl.
  - split; [constructor|exact C].
  - set (r := Request sps n m (conf n) q l) in *.
    destruct (ask_right w dry rs r s SF (Q n l (or_introl eq_refl)) C) as [R C1].
    destruct (ask w dry r s) as [i s1]. simpl in R, C1.
    specialize (IH s1 (fun n0 l0 H => Q n0 l0 (or_intror H)) C1). destruct IH as [G C2].
    unfold is_right in R. inversion R as [NF Ef Ep|p pr F W Ef Ep].
    + destruct l.
      * simpl. split; [constructor; exact NF|exact C1].
      * split; [|exact C2]. apply given_skip; [exact NF|exact G].
    + destruct (execute w dry sps m conf q ps s1) as [o s2]. simpl in *.
      split; [|exact C2]. destruct o as [n'|b l0].
      * eapply given_error; eauto.
      * eapply given_more; eauto.
Qed.

(** ** Examples and refutations *)

Definition txt (s : String.string) : str := List.map Ascii.N_of_ascii (String.list_ascii_of_string s).
Arguments txt s%string.

Module Demo.

  Definition qt : provider :=
    Provider (fun _ _ => true) (fun c _ _ => [txt "qt" ++ c]).
  Definition conan : provider :=
    Provider (fun _ _ => false)
      (fun _ _ m => match m with Some (x :: _) => [x] | _ => [] end).
  Definition empty_provider : provider := Provider (fun _ _ => true) (fun _ _ _ => []).

  (* The Qt provider in the share directory, the conan one below /p. *)
  Definition disk1 : world := fun p =>
    match p with
    | ScopedFile sp n =>
        if str_eqb sp (txt "/share") && name_eqb n [txt "Qt"] then Some qt else None
    | NamedFile sp n =>
        if str_eqb sp (txt "/p") && name_eqb n [txt "conan"] then Some conan else None
    end.

  Definition sps := [txt "/p"; txt "/share"].
  Definition ask_qt c := Request sps [txt "Qt"] [txt "Qt"; txt "core"] (txt c) [] Scoped.
  Arguments ask_qt c%string.
  Definition ask_qtgui := Request sps [txt "Qt"] [txt "Qt"; txt "gui"] (txt "a") [] Scoped.
  Definition ask_zlib := Request sps [txt "conan"] [txt "zlib"] [] [] Named.
  Definition ask_png := Request sps [txt "conan"] [txt "png"] [] [] Named.
  Definition all := [ask_qt "a"; ask_qtgui; ask_zlib; ask_png; ask_qt "b"; ask_zlib].

  Lemma all_same : same_file disk1 all.
  Proof.
    intros a b Ha Hb En Eh p. simpl in Ha, Hb.
    repeat destruct Ha as [<- |Ha]; try destruct Ha;
      repeat destruct Hb as [<- |Hb]; try destruct Hb; try discriminate; reflexivity.
  Qed.

  Example demo_right :
    Forall2 (is_right disk1) all (fst (ask_all disk1 false all (start true [] []))).
  Proof. apply answers_right; [auto|exact all_same]. Qed.

  (* The Qt provider runs once for each configuration, the other one once for
     each module. *)
  Example demo_runs :
    List.map (fun e => (k_module (fst e), k_config (fst e)))
      (run_now (disk1, false, false, all) empty_disk)
    = [(None, txt "b"); (Some [txt "png"], []); (Some [txt "zlib"], []); (None, txt "a")]
    /\ List.map i_paths (answers (disk1, false, false, all) empty_disk)
    = [[(([txt "Qt"], txt "a", []), txt "qta")]; [(([txt "Qt"], txt "a", []), txt "qta")];
       [(([txt "conan"], [], []), txt "zlib")]; [(([txt "conan"], [], []), txt "png")];
       [(([txt "Qt"], txt "b", []), txt "qtb")]; [(([txt "conan"], [], []), txt "zlib")]]
    /\ run_now (disk1, false, false, all) (after [(disk1, false, false, all)] empty_disk) = [].
  Proof. vm_compute. repeat split. Qed.

  Example demo_history :
    Forall2 (is_right disk1) all
      (answers (disk1, false, false, all)
         (after [(disk1, true, false, [ask_qt "b"]); (disk1, false, false, [ask_qtgui; ask_png])]
            empty_disk)).
  Proof.
    apply (history_right_partial
             [(disk1, true, false, [ask_qt "b"]); (disk1, false, false, [ask_qtgui; ask_png])]
             (disk1, false, false, all)).
    - intros y Hy _ a b Ha Hb En Eh p. split; [|reflexivity || intros _].
      + assert (X : In a all /\ In b all /\ files_of y = disk1).
        { simpl in Hy. split; [|split; [exact Hb|]].
          - destruct Hy as [<- |[<- |[]]]; simpl in Ha |- *; tauto.
          - destruct Hy as [<- |[<- |[]]]; reflexivity. }
        destruct X as [Xa [Xb ->]]. exact (all_same a b Xa Xb En Eh p).
      + simpl in Hy. destruct Hy as [<- |[<- |[]]]; reflexivity.
    - intros a b Ha Hb En Eh p. split; [|reflexivity]. exact (all_same a b Ha Hb En Eh p).
  Qed.

  Example demo_exist :
    In ([txt "Qt"], txt "b", [])
      (present (after ([(disk1, false, false, [ask_qt "b"])] ++ [(disk1, false, true, all)])
         empty_disk)).
  Proof.
    apply (paths_exist_partial [(disk1, false, false, [ask_qt "b"])] (disk1, false, true, all))
      with (i := Info (Some (ScopedFile (txt "/share") [txt "Qt"]))
                   [(([txt "Qt"], txt "b", []), txt "qtb")] false) (s := txt "qtb").
    - intros y [<- |[]]. reflexivity.
    - reflexivity.
    - vm_compute. tauto.
    - left. reflexivity.
  Qed.

  Example demo_dry :
    let d := after [(disk1, false, false, [ask_zlib; ask_qt "a"])] empty_disk in
    let x := (disk1, true, false, [ask_qt "a"; ask_png]) in
    present (after [x] d) = [([txt "Qt"], txt "a", [])] /\ stored (after [x] d) = stored d.
  Proof. vm_compute. auto. Qed.

  Example demo_scoped :
    to_run None [txt "Qt"; txt "core"; txt "private"]
    = [([txt "Qt"; txt "core"; txt "private"], Scoped); ([txt "Qt"; txt "core"], Scoped);
       ([txt "Qt"], Scoped)].
  Proof. reflexivity. Qed.

  Example demo_execute :
    fst (execute disk1 false sps [txt "Qt"; txt "core"] (fun _ => txt "a") []
           (to_run None [txt "Qt"; txt "core"]) (start true [] []))
    = Paths true [(([txt "Qt"], txt "a", []), txt "qta")]
    /\ fst (execute disk1 false sps [txt "zlib"] (fun _ => []) []
             (to_run (Some [[txt "conan"]; [txt "vcpkg"]]) [txt "zlib"]) (start true [] []))
    = Unknown [txt "vcpkg"].
  Proof. vm_compute. auto. Qed.

End Demo.

(** Two products with search paths of their own: the second one gets the first
    one's provider, or none at all although it has one. *)
Theorem own_search_path_refuted :
  (exists w rs i, List.In i (combine rs (fst (ask_all w false rs (start true [] []))))
     /\ ~ is_right w (fst i) (snd i) /\ i_file (snd i) = None)
  /\ (exists w rs i, List.In i (combine rs (fst (ask_all w false rs (start true [] []))))
     /\ ~ is_right w (fst i) (snd i) /\ i_file (snd i) <> None)
  /\ (exists w rs r i i',
        In (r, i) (combine rs (fst (ask_all w false rs (start true [] []))))
        /\ In (r, i') (combine (rev rs) (fst (ask_all w false (rev rs) (start true [] []))))
        /\ i_file i <> i_file i').
Proof.
  assert (F : found Demo.disk1 [txt "conan"] Named [txt "/p"] (NamedFile (txt "/p") [txt "conan"])).
  { apply found_here. apply under_named with (pr := Demo.conan). vm_compute. reflexivity. }
  split; [|split].
  - exists Demo.disk1, [Request [txt "/share"] [txt "conan"] [txt "zlib"] [] [] Named;
                        Request [txt "/p"] [txt "conan"] [txt "zlib"] [] [] Named].
    exists (Request [txt "/p"] [txt "conan"] [txt "zlib"] [] [] Named, Info None [] false).
    split; [vm_compute; tauto|]. split; [|reflexivity].
    intro R. unfold is_right in R. simpl in R. inversion R as [NF|]. exact (NF _ F).
  - exists (fun p => if match p with NamedFile _ _ => true | _ => false end
                     then Some Demo.conan else None).
    exists [Request [txt "/a"] [txt "conan"] [txt "zlib"] [] [] Named;
            Request [txt "/b"] [txt "conan"] [txt "zlib"] [] [] Named].
    exists (Request [txt "/b"] [txt "conan"] [txt "zlib"] [] [] Named,
            Info (Some (NamedFile (txt "/a") [txt "conan"]))
                 [(([txt "conan"], [], []), txt "zlib")] false).
    split; [vm_compute; tauto|]. split; [|discriminate].
    intro R. unfold is_right in R. simpl in R. inversion R as [|p pr F' W E1 E2].
    simpl in *. inversion F' as [sp sps p' U|sp sps p' U F2]; subst.
    + inversion U.
    + inversion F2.
  - exists Demo.disk1, [Request [txt "/share"] [txt "conan"] [txt "zlib"] [] [] Named;
                        Request [txt "/p"] [txt "conan"] [txt "zlib"] [] [] Named].
    exists (Request [txt "/p"] [txt "conan"] [txt "zlib"] [] [] Named).
    exists (Info None [] false), (Info (Some (NamedFile (txt "/p") [txt "conan"]))
                 [(([txt "conan"], [], []), txt "zlib")] false).
    split; [vm_compute; tauto|]. split; [vm_compute; tauto|discriminate].
Qed.

(** A provider whose file is changed or added after its result was stored is
    not run again when the project is resolved again, and the file is not read
    either, so that later changes to it go unnoticed. *)
Theorem changed_provider_refuted :
  (exists w w' r i, In i (answers (w', false, false, [r]) (after [(w, false, false, [r])] empty_disk))
     /\ ~ is_right w' r i /\ i_file i <> None
     /\ run_now (w', false, false, [r]) (after [(w, false, false, [r])] empty_disk) = [])
  /\ (exists w w' r i, In i (answers (w', false, false, [r]) (after [(w, false, false, [r])] empty_disk))
     /\ ~ is_right w' r i /\ i_file i = None).
Proof.
  split.
  - exists Demo.disk1, (fun p => match Demo.disk1 p with
                         | Some _ => Some Demo.empty_provider | None => None end).
    exists (Demo.ask_qt "a").
    exists (Info (Some (ScopedFile (txt "/share") [txt "Qt"]))
              [(([txt "Qt"], txt "a", []), txt "qta")] false).
    split; [vm_compute; tauto|]. split; [|split; [discriminate|vm_compute; reflexivity]].
    intro R. unfold is_right in R. simpl in R. inversion R as [|p pr F W E1 E2].
    subst. vm_compute in W. inversion W. subst. discriminate.
  - exists (fun _ => None), Demo.disk1, (Demo.ask_qt "a"), (Info None [] false).
    split; [vm_compute; tauto|]. split; [|reflexivity].
    intro R. unfold is_right in R. simpl in R. inversion R as [NF|].
    apply (NF (ScopedFile (txt "/share") [txt "Qt"])). simpl.
    apply found_later.
    + intros p U. inversion U. vm_compute in H. discriminate.
    + apply found_here. apply under_scoped with (pr := Demo.qt). vm_compute. reflexivity.
Qed.

(** A dry run with another configuration removes the output of the stored one:
    the next run gives products search paths that do not exist. *)
Theorem dry_run_removes_refuted :
  exists w r r' i d s,
    let h := [(w, false, false, [r]); (w, true, false, [r'])] in
    let x := (w, false, false, [r]) in
    In i (answers x (after h empty_disk)) /\ In (d, s) (i_paths i)
    /\ ~ In d (present (after (h ++ [x]) empty_disk)).
Proof.
  exists Demo.disk1, (Demo.ask_qt "a"), (Demo.ask_qt "b").
  exists (Info (Some (ScopedFile (txt "/share") [txt "Qt"]))
              [(([txt "Qt"], txt "a", []), txt "qta")] false).
  exists ([txt "Qt"], txt "a", []), (txt "qta").
  split; [vm_compute; tauto|]. split; [left; reflexivity|]. vm_compute. tauto.
Qed.

Print Assumptions answers_right.
Print Assumptions order_free.
Print Assumptions history_right_partial.
Print Assumptions runs_once.
Print Assumptions runs_asked.
Print Assumptions paths_exist_partial.
Print Assumptions dry_run_keeps.
Print Assumptions scoped_providers.
Print Assumptions execute_right.
Print Assumptions own_search_path_refuted.
Print Assumptions changed_provider_refuted.
Print Assumptions dry_run_removes_refuted.
