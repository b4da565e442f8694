(** Where installed files go. *)
From Coq Require Import List Bool Arith NArith Lia.
From Verif Require Import Str PathModel PathTheorems.
Import ListNotations.
Local Open Scope N_scope.

(** ** Specification *)

(** No step upwards. *)
Definition descends (p : str) : Prop := ~ In [46; 46] (parts p).

(** The files of a product are installed below the install root, in the directory given by prefix and install directory. *)
Definition install_dir (root : place) (ps : install_properties) : place := steps (steps root (i_prefix ps)) (i_dir ps).

(** The root is taken from the options, or else from the project. *)
Definition root_is (option_root effective_root : str) (rs : list str) : Prop :=
  Forall proper rs /\ (option_root = abs_path rs \/ (option_root = [] /\ effective_root = abs_path rs)).

(** ** Proofs *)

Lemma descends_names st p : descends p -> exists names, Forall proper names /\ steps st p = names ++ st.
Proof. intros H. destruct (steps_no_up st p H) as (names & F & E & _). eauto. Qed.

Lemma abs_begins ns t : begins_with_slash (abs_path ns ++ t) = true.
Proof. destruct ns; reflexivity. Qed.
Lemma steps_abs_path ns : Forall proper ns -> steps [] (abs_path ns) = rev ns.
Proof. intros F. pose proof (go_abs [] ns F) as K. rewrite go_absolute in K by (destruct ns; reflexivity). exact K. Qed.

Lemma descends_app a b : descends a -> descends b -> descends (a ++ 47 :: b).
Proof. unfold descends. rewrite parts_app. intros Ha Hb K. apply in_app_or in K. tauto. Qed.
Lemma descends_abs ns : Forall proper ns -> descends (abs_path ns).
Proof. intros F. exact (parts_abs_path ns F). Qed.

Lemma abs_path_prefix a b : starts_with (abs_path a) (abs_path (a ++ b)) = true.
Proof.
  destruct a as [|x a].
  - cbn [app abs_path]. destruct b; reflexivity.
  - rewrite abs_path_app by discriminate. apply starts_with_spec. eauto.
Qed.

(** The target directory, in the usual way of writing. *)
Lemma target_dir rs ps : Forall proper rs -> descends (i_prefix ps) -> descends (i_dir ps) ->
  exists names, Forall proper names /\ install_dir (rev rs) ps = names ++ rev rs
    /\ clean_path (abs_path rs ++ slash :: i_prefix ps ++ slash :: i_dir ps) = abs_path (rs ++ rev names).
Proof.
  intros F Hp Hd. destruct (descends_names (rev rs) (i_prefix ps) Hp) as (l1 & F1 & E1).
  destruct (descends_names (l1 ++ rev rs) (i_dir ps) Hd) as (l2 & F2 & E2).
  exists (l2 ++ l1). unfold install_dir. rewrite E1, E2, app_assoc. split; [apply Forall_app; now split|]. split; [reflexivity|].
  change slash with 47.
  assert (D : descends (abs_path rs ++ 47 :: i_prefix ps ++ 47 :: i_dir ps)).
  { apply descends_app; [now apply descends_abs|]. now apply descends_app. }
  destruct (clean_no_up _ (abs_begins rs _) D) as (names & Fn & W & ->). f_equal.
  rewrite !steps_app, steps_abs_path, E1, E2 in W by exact F.
  rewrite <- (rev_involutive names), <- W. rewrite !rev_app_distr, rev_involutive, <- app_assoc. reflexivity.
Qed.

(** What is appended to the target directory. *)
Lemma target_file ds rest : Forall proper ds -> descends rest ->
  exists names, Forall proper names /\ steps (rev ds) rest = names ++ rev ds
    /\ clean_path (abs_path ds ++ slash :: rest) = abs_path (ds ++ rev names).
Proof.
  intros F Hr. destruct (descends_names (rev ds) rest Hr) as (l & Fl & E). exists l. split; [exact Fl|]. split; [exact E|].
  change slash with 47. destruct (clean_no_up _ (abs_begins ds _) (descends_app _ _ (descends_abs ds F) Hr)) as (names & Fn & W & ->).
  f_equal. rewrite steps_app, steps_abs_path, E in W by exact F.
  rewrite <- (rev_involutive names), <- W, rev_app_distr, rev_involutive. reflexivity.
Qed.

Lemma root_eq (opt eff : str) rs : root_is opt eff rs -> (match opt with [] => eff | _ => opt end) = abs_path rs.
Proof. intros [F [->|[-> ->]]]; [|reflexivity]. destruct rs; reflexivity. Qed.
Lemma abs_path_ne ns : match abs_path ns with [] => True | _ => False end -> False.
Proof. destruct ns; exact (fun x => x). Qed.

(** ** Theorems *)

(** Without an install source base, a file goes into the install directory under its own name. *)
Theorem install_layout home opt eff rs source_dir file ps :
  root_is opt eff rs -> i_install ps = true -> i_source_base ps = [] ->
  descends (i_prefix ps) -> descends (i_dir ps) -> proper (file_name file) ->
  exists t, target_file_path home opt eff source_dir file ps = Target t
            /\ is_absolute Unix t = true /\ go [] t = file_name file :: install_dir (rev rs) ps
            /\ inside (go [] t) (rev rs).
Proof.
  intros R Hi Hb Hp Hd Hf. unfold target_file_path. rewrite Hi, Hb, (root_eq _ _ _ R). cbn [negb]. destruct R as [F _].
  destruct (target_dir rs ps F Hp Hd) as (names & Fn & E & C).
  replace (match abs_path rs with [] => i_root ps | _ => abs_path rs end) with (abs_path rs) by (destruct rs; reflexivity).
  rewrite C, abs_path_prefix.
  assert (Fd : Forall proper (rs ++ rev names)) by (apply Forall_app; split; [exact F|now apply Forall_rev]).
  assert (Df : descends (file_name file)).
  { destruct Hf as (_ & _ & H3 & H4). unfold descends. rewrite parts_name by exact H4. intros [K|[]]. now apply H3. }
  destruct (target_file (rs ++ rev names) (file_name file) Fd Df) as (l & Fl & El & Cl). rewrite Cl.
  eexists. split; [reflexivity|].
  assert (Fa : Forall proper ((rs ++ rev names) ++ rev l)) by (apply Forall_app; split; [exact Fd|now apply Forall_rev]).
  rewrite (go_abs [] _ Fa). rewrite !rev_app_distr, !rev_involutive in *.
  rewrite steps_name, step_proper in El by (exact Hf || apply Hf). rewrite <- El, E. split; [|split; [reflexivity|]].
  - destruct rs; [|reflexivity]. destruct (rev names); [|reflexivity]. destruct (rev l); reflexivity.
  - exists (file_name file :: names). split; [discriminate|]. split; [now constructor|reflexivity].
Qed.

(** *** Files below a source base *)

Lemma truncate_times ns u : Forall proper ns ->
  exists ns', Forall proper ns' /\ rev ns' = fold_left step (repeat dotdot u) (rev ns)
    /\ forall names, Forall proper names -> names <> [] ->
       up_steps (flat_map (cons 47) ns) (join_slash (repeat dotdot u ++ names)) = (flat_map (cons 47) ns', join_slash names).
Proof.
  revert ns. induction u as [|u IH]; intros ns F.
  - exists ns. split; [exact F|]. split; [reflexivity|]. intros names Fn Hn. cbn [repeat app].
    destruct Fn as [|n l (H1 & H2 & H3 & H4) Fn]; [congruence|].
    assert (Pj : parts (join_slash (n :: l)) = n :: l).
    { apply parts_join; [discriminate|]. constructor; [exact H4|now apply proper_no_slash]. }
    destruct (join_slash (n :: l)) as [|a [|b [|c r]]]; try reflexivity. cbn [up_steps].
    destruct ((a =? 46) && (b =? 46) && (c =? slash)) eqn:Q; [|reflexivity]. exfalso.
    apply andb_prop in Q. destruct Q as [Q Q3]. apply andb_prop in Q. destruct Q as [Q1 Q2]. apply N.eqb_eq in Q1, Q2, Q3. subst a b c.
    change (46 :: 46 :: slash :: r) with (dotdot ++ 47 :: r) in Pj. rewrite parts_app, parts_name in Pj by (cbn; intuition discriminate).
    injection Pj as <- _. now apply H3.
  - destruct (IH (removelast ns) (removelast_proper ns F)) as (ns' & F' & W & U). exists ns'. split; [exact F'|]. split.
    + rewrite W, rev_removelast. reflexivity.
    + intros names Fn Hn. cbn [repeat app]. specialize (U names Fn Hn).
      destruct (repeat dotdot u ++ names) as [|x l] eqn:Q; [destruct u; [now subst|discriminate]|].
      change (join_slash (dotdot :: x :: l)) with (46 :: 46 :: slash :: join_slash (x :: l)). cbn [up_steps].
      change ((46 =? 46) && (46 =? 46) && (slash =? slash)) with true. cbn iota. rewrite truncate_abs by exact F. exact U.
Qed.

(** Resolving a clean relative path yields the usual way of writing, except that the root is written as the empty string. *)
Lemma up_dots ns u : Forall proper ns -> exists ns', Forall proper ns'
  /\ up_steps (flat_map (cons 47) ns) (join_slash (repeat dotdot (S u))) = (flat_map (cons 47) ns', dotdot)
  /\ rev (removelast ns') = fold_left step (repeat dotdot (S u)) (rev ns).
Proof.
  revert ns. induction u as [|u IH]; intros ns F.
  - exists ns. split; [exact F|]. split; [reflexivity|]. now rewrite rev_removelast.
  - destruct (IH (removelast ns) (removelast_proper ns F)) as (ns' & F' & U & W). exists ns'. split; [exact F'|]. split.
    + change (join_slash (repeat dotdot (S (S u)))) with (46 :: 46 :: slash :: join_slash (repeat dotdot (S u))). cbn [up_steps].
      change ((46 =? 46) && (46 =? 46) && (slash =? slash)) with true. cbn iota. rewrite truncate_abs by exact F. exact U.
    + rewrite W, rev_removelast. reflexivity.
Qed.

Lemma resolve_clean_relative home ds base :
  Forall proper ds -> base <> [] -> begins_with_slash base = false -> home_relative (clean_path base) = false ->
  exists ls, Forall proper ls /\ rev ls = steps (rev ds) base
    /\ (resolve_path Unix home (abs_path ds) (clean_path base) = abs_path ls
        \/ resolve_path Unix home (abs_path ds) (clean_path base) = flat_map (cons 47) ls).
Proof.
  intros F Hb B Hh. destruct (clean_relative base B Hb) as (u & names & Fn & E & W).
  destruct (clean_has_no_detours base Hb) as [B' _]. rewrite B in B'.
  apply orb_false_iff in Hh. destruct Hh as [Hh1 Hh2].
  unfold resolve_path. assert (Aa : is_absolute Unix (abs_path ds) = true) by (destruct ds; reflexivity). rewrite Aa.
  cbn [is_current_drive negb andb].
  assert (Ar : is_absolute Unix (clean_path base) = false) by (destruct (clean_path base); [reflexivity|]; cbn in B' |- *; now rewrite B').
  rewrite Ar, Hh1. change slash with 47. rewrite Hh2. rewrite (chop_written (abs_path ds) ds).
  2:{ split; [exact F|now left]. }
  2:{ destruct ds as [|[|x n] ds]; [discriminate|inversion F as [|? ? (K & _) _]; congruence|].
      inversion F as [|? ? (_ & _ & _ & K) _]; subst. intros Q. injection Q as Q _. apply K. left. now symmetry. }
  clear Hh1 Hh2 B' Ar Aa. destruct names as [|n names].
  - rewrite app_nil_r in *. destruct u as [|u].
    + cbn [repeat] in *. rewrite E. cbn [str_eqb dot N.eqb Pos.eqb andb]. exists ds. split; [exact F|]. split; [exact (W (rev ds))|now left].
    + assert (Ed : clean_path base = join_slash (repeat dotdot (S u))) by exact E. rewrite Ed.
      assert (Nd : str_eqb (join_slash (repeat dotdot (S u))) dot = false) by (destruct u; reflexivity). rewrite Nd.
      destruct (up_dots ds u F) as (ns' & F' & U & Wn). rewrite U. change (str_eqb dotdot dotdot) with true. cbn iota.
      cbn [str_eqb negb orb]. rewrite truncate_abs by exact F'. exists (removelast ns'). split; [now apply removelast_proper|].
      split; [rewrite Wn; apply W|now right].
  - assert (Ed : clean_path base = join_slash (repeat dotdot u ++ n :: names)).
    { rewrite E. destruct (repeat dotdot u ++ n :: names) eqn:Q; [destruct u; discriminate|reflexivity]. }
    rewrite Ed. assert (Nd : str_eqb (join_slash (repeat dotdot u ++ n :: names)) dot = false).
    { apply str_eqb_neq. intros K. pose proof (parts_join (repeat dotdot u ++ n :: names)) as P. rewrite K in P.
      specialize (P ltac:(destruct u; discriminate) (dots_no_slash u _ Fn)). cbn in P. destruct u as [|u]; [|discriminate].
      injection P as <- <-. inversion Fn as [|? ? (_ & H2 & _) _]. now apply H2. }
    rewrite Nd. destruct (truncate_times ds u F) as (ns' & F' & Wn & U). rewrite (U (n :: names) Fn ltac:(discriminate)).
    assert (Pj : parts (join_slash (n :: names)) = n :: names).
    { apply parts_join; [discriminate|]. now apply proper_no_slash. }
    assert (N2 : str_eqb (join_slash (n :: names)) dotdot = false).
    { apply str_eqb_neq. intros K. rewrite K in Pj. cbn in Pj. injection Pj as <- _. inversion Fn as [|? ? (_ & _ & H3 & _) _]. now apply H3. }
    assert (N0 : str_eqb (join_slash (n :: names)) [] = false).
    { apply str_eqb_neq. intros K. rewrite K in Pj. cbn in Pj. injection Pj as <- _. inversion Fn as [|? ? (H0 & _) _]. now apply H0. }
    rewrite N2, N0. cbn [negb orb]. exists (ns' ++ n :: names). split; [apply Forall_app; now split|]. split.
    + rewrite <- W, fold_left_app, <- Wn, fold_proper by exact Fn. now rewrite rev_app_distr.
    + right. rewrite join_abs, flat_map_app. reflexivity.
Qed.

Lemma resolve_clean_absolute home ds base :
  Forall proper ds -> begins_with_slash base = true -> descends base ->
  exists ls, Forall proper ls /\ rev ls = steps [] base /\ resolve_path Unix home (abs_path ds) (clean_path base) = abs_path ls.
Proof.
  intros F B D. destruct (clean_no_up base B D) as (names & Fn & W & E). exists names. split; [exact Fn|]. split; [now symmetry|].
  rewrite E. apply resolve_absolute; [destruct ds; reflexivity|destruct names; reflexivity|reflexivity].
Qed.

Lemma clean_abs ds : Forall proper ds -> clean_path (abs_path ds) = abs_path ds.
Proof.
  intros F. destruct (clean_no_up (abs_path ds)) as (names & Fn & W & E); [destruct ds; reflexivity|now apply descends_abs|].
  rewrite E. f_equal. rewrite steps_abs_path in W by exact F. rewrite <- (rev_involutive names), <- W. apply rev_involutive.
Qed.

(** A source base that makes sense: relative to the source directory, or absolute and without double dots.  A tilde stands for the
    home directory. *)
Definition sensible_base (base : str) : Prop :=
  base <> [] /\ (begins_with_slash base = true -> descends base) /\ home_relative (clean_path base) = false.

(** With an install source base, the directories between the base and the file are reproduced. *)
Theorem install_below_base home opt eff rs ds ls fs ps :
  root_is opt eff rs -> i_install ps = true ->
  Forall proper ds -> sensible_base (i_source_base ps) -> go (rev ds) (i_source_base ps) = rev ls ->
  descends (i_prefix ps) -> descends (i_dir ps) -> Forall proper ls -> fs <> [] -> Forall proper fs ->
  exists t, target_file_path home opt eff (abs_path ds) (abs_path (ls ++ fs)) ps = Target t
            /\ is_absolute Unix t = true /\ go [] t = rev fs ++ install_dir (rev rs) ps
            /\ inside (go [] t) (rev rs).
Proof.
  intros R Hi Fds (Hb & Hb1 & Hb2) Hl Hp Hd Fls Hfs Ffs. unfold target_file_path. rewrite Hi, (root_eq _ _ _ R). cbn [negb].
  destruct R as [F _].
  destruct (target_dir rs ps F Hp Hd) as (names & Fn & E & C).
  replace (match abs_path rs with [] => i_root ps | _ => abs_path rs end) with (abs_path rs) by (destruct rs; reflexivity).
  rewrite C. rewrite (clean_abs ds Fds).
  assert (Loc : exists local, resolve_path Unix home (abs_path ds) (clean_path (i_source_base ps)) = local
                 /\ (local = abs_path ls \/ local = flat_map (cons 47) ls)).
  { eexists. split; [reflexivity|]. destruct (begins_with_slash (i_source_base ps)) eqn:B.
    - destruct (resolve_clean_absolute home ds _ Fds B (Hb1 eq_refl)) as (ls' & Fl' & W & Q). left. rewrite Q. f_equal.
      rewrite (go_absolute _ _ B) in Hl. rewrite <- (rev_involutive ls'), W, Hl. apply rev_involutive.
    - destruct (resolve_clean_relative home ds _ Fds Hb B Hb2) as (ls' & Fl' & W & Q).
      rewrite (go_relative _ _ B) in Hl.
      assert (K : ls' = ls) by (rewrite <- (rev_involutive ls'), W, Hl; apply rev_involutive). now subst ls'. }
  destruct Loc as (local & El & Hloc).
  assert (Rest : starts_with local (abs_path (ls ++ fs)) = true
                 /\ skipn (length local + (if ends_with_slash local then 0 else 1)) (abs_path (ls ++ fs)) = join_slash fs).
  { destruct fs as [|f fs]; [congruence|]. destruct ls as [|l ls].
    - assert (Q : abs_path ([] ++ f :: fs) = 47 :: join_slash (f :: fs)) by (symmetry; apply join_abs).
      rewrite Q. destruct Hloc as [->| ->]; split; reflexivity.
    - assert (Q : local = abs_path (l :: ls)) by (destruct Hloc; assumption). rewrite Q.
      rewrite abs_no_slash_end by exact Fls. rewrite abs_path_app by discriminate.
      change (flat_map (cons 47) (f :: fs)) with (abs_path (f :: fs)). rewrite <- (join_abs f fs). split.
      + apply starts_with_spec. eauto.
      + rewrite Nat.add_comm. change (47 :: join_slash (f :: fs)) with ([47] ++ join_slash (f :: fs)). rewrite app_assoc.
        replace (1 + length (abs_path (l :: ls)))%nat with (length (abs_path (l :: ls) ++ [47])) by (rewrite app_length; cbn; lia).
        rewrite skipn_app, skipn_all, Nat.sub_diag. reflexivity. }
  destruct Rest as [R1 R2].
  assert (Df : descends (join_slash fs)).
  { unfold descends. rewrite parts_join by (exact Hfs || now apply proper_no_slash). intros K. rewrite Forall_forall in Ffs.
    destruct (Ffs _ K) as (_ & _ & K' & _). now apply K'. }
  assert (Fd : Forall proper (rs ++ rev names)) by (apply Forall_app; split; [exact F|now apply Forall_rev]).
  destruct (target_file (rs ++ rev names) (join_slash fs) Fd Df) as (l & Fl & El' & Cl).
  assert (Ef : steps (rev (rs ++ rev names)) (join_slash fs) = rev fs ++ names ++ rev rs).
  { rewrite steps_join by (now apply proper_no_slash). rewrite fold_proper by exact Ffs. now rewrite rev_app_distr, rev_involutive. }
  assert (Fin : exists t, (if starts_with local (abs_path (ls ++ fs)) then
              Target (clean_path (abs_path (rs ++ rev names) ++ slash :: skipn (length local + (if ends_with_slash local then 0 else 1)) (abs_path (ls ++ fs))))
              else NotBelowBase) = Target t
            /\ is_absolute Unix t = true /\ go [] t = rev fs ++ install_dir (rev rs) ps /\ inside (go [] t) (rev rs)).
  { rewrite R1, R2, Cl. eexists. split; [reflexivity|].
    assert (Fa : Forall proper ((rs ++ rev names) ++ rev l)) by (apply Forall_app; split; [exact Fd|now apply Forall_rev]).
    rewrite (go_abs [] _ Fa). rewrite Ef in El'. rewrite !rev_app_distr, !rev_involutive in *.
    rewrite <- El', E. split; [|split; [reflexivity|]].
    - destruct rs; [|reflexivity]. destruct (rev names); [|reflexivity]. destruct (rev l); reflexivity.
    - exists (rev fs ++ names). split; [|split].
      + intros K. apply app_eq_nil in K. destruct K as [K _]. apply Hfs. rewrite <- (rev_involutive fs), K. reflexivity.
      + apply Forall_app. split; [now apply Forall_rev|exact Fn].
      + now rewrite <- app_assoc. }
  clear -Fin El Hb. revert El Hb. destruct (i_source_base ps) as [|b0 b1]; [congruence|]. intros El _. rewrite El. exact Fin.
Qed.

(** C29.  What is true of the check: with neither prefix nor directory stepping upwards, no file leaves the install root. *)
Theorem install_inside_partial home opt eff rs source_dir file ps t :
  root_is opt eff rs -> i_source_base ps = [] -> descends (i_prefix ps) -> descends (i_dir ps) -> proper (file_name file) ->
  target_file_path home opt eff source_dir file ps = Target t -> inside (go [] t) (rev rs).
Proof.
  intros R Hb Hp Hd Hf E. destruct (i_install ps) eqn:Hi; [|unfold target_file_path in E; rewrite Hi in E; discriminate].
  destruct (install_layout home opt eff rs source_dir file ps R Hi Hb Hp Hd Hf) as (t' & E' & _ & _ & I'). congruence.
Qed.

(** The check compares characters, not directories: root /i, prefix ../ij. *)
Theorem install_inside_refuted : exists home opt eff rs source_dir file ps t,
  root_is opt eff rs /\ i_source_base ps = [] /\ proper (file_name file)
  /\ target_file_path home opt eff source_dir file ps = Target t /\ ~ inside (go [] t) (rev rs).
Proof.
  exists [], [47; 105], [], [[105]], [47; 115], [47; 115; 47; 102],
    {| i_install := true; i_dir := []; i_prefix := [46; 46; 47; 105; 106]; i_source_base := []; i_root := [] |}, [47; 105; 106; 47; 102].
  split; [split; [repeat constructor; try discriminate; cbn; intuition discriminate|now left]|].
  split; [reflexivity|]. split; [repeat split; try discriminate; cbn; intuition discriminate|]. split; [reflexivity|].
  intros (names & _ & _ & K). vm_compute in K. apply (f_equal (fun l => last l [])) in K. rewrite last_last in K. discriminate.
Qed.

(** With a source base there is no check at all. *)
Theorem install_base_inside_refuted : exists home opt eff rs source_dir file ps t,
  root_is opt eff rs /\ i_source_base ps <> [] /\ target_file_path home opt eff source_dir file ps = Target t
  /\ ~ inside (go [] t) (rev rs).
Proof.
  exists [], [47; 105], [], [[105]], [47; 115], [47; 115; 47; 102],
    {| i_install := true; i_dir := []; i_prefix := [46; 46; 47; 106]; i_source_base := [46]; i_root := [] |}, [47; 106; 47; 102].
  split; [split; [repeat constructor; try discriminate; cbn; intuition discriminate|now left]|].
  split; [discriminate|]. split; [reflexivity|].
  intros (names & _ & _ & K). vm_compute in K. apply (f_equal (fun l => last l [])) in K. rewrite last_last in K. discriminate.
Qed.

(** A file beside the base whose path begins with the same characters is accepted, with a truncated path: /s/fbx/y and base /s/f. *)
Theorem install_beside_base_refuted : exists home opt eff source_dir file ps t,
  go (go [] source_dir) (i_source_base ps) = [[102]; [115]] /\ ~ inside (go [] file) [[102]; [115]]
  /\ target_file_path home opt eff source_dir file ps = Target t /\ go [] t = [[121]; [120]; [105]].
Proof.
  exists [], [47; 105], [], [47; 115], [47; 115; 47; 102; 98; 120; 47; 121],
    {| i_install := true; i_dir := []; i_prefix := []; i_source_base := [102]; i_root := [] |}, [47; 105; 47; 120; 47; 121].
  split; [reflexivity|]. split; [|split; reflexivity].
  intros (names & _ & _ & K). vm_compute in K. destruct names as [|n1 [|n2 [|n3 names]]]; try discriminate.
  apply (f_equal (@length str)) in K. cbn in K. rewrite app_length in K. cbn in K. lia.
Qed.

(** ** Examples *)
Module Demo.
  (** Root /i, prefix usr, directory ./inc, source directory /s, base ../s/./f, file /s/f/g/h. *)
  Definition ps : install_properties :=
    {| i_install := true; i_dir := [46; 47; 105; 110; 99]; i_prefix := [47; 117; 115; 114]; i_source_base := [46; 46; 47; 115; 47; 46; 47; 102]; i_root := [] |}.
  Ltac pr := repeat constructor; try discriminate; cbn; intuition discriminate.
  Example root_ok : root_is [] [47; 105] [[105]]. Proof. split; [pr|now right]. Qed.
  Example base_ok : sensible_base (i_source_base ps). Proof. split; [discriminate|split; [discriminate|reflexivity]]. Qed.
  Example base_place : go (rev [[115]]) (i_source_base ps) = rev [[115]; [102]]. Proof. reflexivity. Qed.
  Example descends_ok : descends (i_prefix ps) /\ descends (i_dir ps). Proof. split; cbn; unfold descends; cbn; intuition discriminate. Qed.
  Example names_ok : Forall proper [[115]; [102]] /\ Forall proper [[103]; [104]]. Proof. split; pr. Qed.
  (** /i/usr/inc/g/h *)
  Example result : target_file_path [] [] [47; 105] [47; 115] [47; 115; 47; 102; 47; 103; 47; 104] ps
    = Target [47; 105; 47; 117; 115; 114; 47; 105; 110; 99; 47; 103; 47; 104].
  Proof. reflexivity. Qed.
End Demo.

Print Assumptions install_layout.
Print Assumptions install_below_base.
Print Assumptions install_inside_partial.
Print Assumptions install_inside_refuted.
Print Assumptions install_base_inside_refuted.
Print Assumptions install_beside_base_refuted.
