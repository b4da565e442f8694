(** The command line: exactly which command lines are accepted and what they
    mean, in which order options and assignments may come, and the build
    configurations that the assignments make. *)

From Coq Require Import String Ascii.
From Coq Require Import List Bool NArith Lia.
From Verif Require Import Str ParserModel.
Import ListNotations.
Open Scope list_scope.

Definition txt (s : String.string) : str := List.map Ascii.N_of_ascii (String.list_ascii_of_string s).
Arguments txt s%string.

(** ** Specification *)

(** The ways to write an option. *)
Definition named (o : opt) (s : str) : Prop :=
  s = dash :: dash :: long o \/ exists c, short o = Some c /\ s = [dash; c].

(** The options of a command. *)
Definition allowed (c : command) (o : opt) : Prop :=
  In o (supported_options c) \/ (o = SettingsDir /\ c <> HelpCmd).

(** An assignment; some commands have only those of configurations. *)
Definition is_assignment (c : command) (s : str) : Prop :=
  exists k v, s = k ++ colon :: v /\ k <> [] /\ ~ In colon k
    /\ (forall x r, k = x :: r -> x <> dash)
    /\ (In File (supported_options c) \/ k = config_key).

Definition digit (c : N) : Prop := (48 <= c <= 57)%N.

(** A group of short options, each with a number or without, and the arguments
    that it stands for. *)
Inductive group : str -> list str -> Prop :=
| group_end : group [] []
| group_one c ds r ps : ~ digit c -> Forall digit ds -> group r ps ->
    group (c :: ds ++ r)
          (match ds with [] => [dash; c] :: ps | _ => [dash; c] :: ds :: ps end).

(** The meaning of the arguments of a command: options, assignments and
    parameters for the program to run. The first list has the options that came
    before. *)
Inductive spells (acc : opt -> str -> bool) (c : command)
  : list opt -> list str -> list (opt * option str) -> list str -> list str -> Prop :=
| sp_end u : spells acc c u [] [] [] []
| sp_target u t : c = Run -> spells acc c u ([dash; dash] :: t) [] [] t
| sp_assign u s r os l t :
    is_assignment c s -> spells acc c u r os l t -> spells acc c u (s :: r) os (s :: l) t
| sp_flag u s o r os l t :
    named o s -> allowed c o -> takes_argument o = false ->
    (In o u -> repeatable o = true) ->
    spells acc c (o :: u) r os l t -> spells acc c u (s :: r) ((o, None) :: os) l t
| sp_arg u s o a r os l t :
    named o s -> allowed c o -> takes_argument o = true -> acc o a = true ->
    (In o u -> repeatable o = true) ->
    spells acc c (o :: u) r os l t -> spells acc c u (s :: a :: r) ((o, Some a) :: os) l t
| sp_group u x y g ps r os l t :
    x <> dash -> group (x :: y :: g) ps -> spells acc c u (ps ++ r) os l t ->
    spells acc c u ((dash :: x :: y :: g) :: r) os l t.

Definition regular (c : command) : Prop := c <> HelpCmd /\ c <> VersionCmd /\ c <> Session.

(** ** The names of options *)

Definition all_opts : list opt :=
  [File; BuildDirectory; LogLevel; Verbose; Quiet; Jobs; KeepGoing; DryRun; ForceProbes;
   ShowProgress; ChangedFiles; Products; Tags; NoInstall; InstallRoot; RemoveFirst; NoBuild;
   ForceTimestampCheck; ForceOutputCheck; BuildNonDefault; LogTime; CommandEchoMode;
   SettingsDir; JobLimits; RespectProjectJobLimits; Generator; WaitLock; RunEnvConfig;
   DeprecationWarnings].

Lemma all_opts_all o : In o all_opts.
Proof. destruct o; simpl; tauto. Qed.

Definition same_opt (a b : opt) : bool := if opt_dec a b then true else false.
Definition both (a b : opt) : bool :=
  (str_eqb (long a) (long b)
   || match short a, short b with Some x, Some y => N.eqb x y | _, _ => false end).

Lemma names_checked :
  forallb (fun a => forallb (fun b => same_opt a b || negb (both a b)) all_opts) all_opts = true.
Proof. vm_compute. reflexivity. Qed.

Lemma short_not_dash o c : short o = Some c -> c <> dash.
Proof. destruct o; simpl; intro E; inversion E; discriminate. Qed.

Lemma long_not_empty o : long o <> [].
Proof. destruct o; discriminate. Qed.

(** No two options can be written in the same way. *)
Theorem names_distinct a b s : named a s -> named b s -> a = b.
Proof.
  intros A0 B0.
  assert (E : both a b = true).
  { unfold both. destruct A0 as [A0|[x [Sx A0]]], B0 as [B0|[y [Sy B0]]]; subst s.
    - injection B0 as B1. rewrite B1, str_eqb_refl. reflexivity.
    - inversion B0. exfalso. apply (short_not_dash _ _ Sy). congruence.
    - inversion B0. exfalso. apply (short_not_dash _ _ Sx). assumption.
    - inversion B0. subst. rewrite Sx, Sy, N.eqb_refl. apply orb_true_r. }
  pose proof names_checked as C. rewrite forallb_forall in C.
  specialize (C a (all_opts_all a)). rewrite forallb_forall in C.
  specialize (C b (all_opts_all b)). rewrite E in C. unfold same_opt in C.
  destruct (opt_dec a b); [assumption|discriminate].
Qed.

Lemma is_option_named o s : is_option o s = true <-> named o s.
Proof.
  unfold is_option, short_is, named. rewrite orb_true_iff. split.
  - intros [H|H].
    + destruct (short o) as [c|] eqn:E; [|discriminate]. apply str_eqb_eq in H. right. eauto.
    + apply str_eqb_eq in H. left. auto.
  - intros [H|[c [E H]]].
    + right. apply str_eqb_eq. auto.
    + left. rewrite E. apply str_eqb_eq. auto.
Qed.

Lemma find_option_spec l s o : find_option l s = Some o <-> In o l /\ named o s.
Proof.
  induction l as [|x l IH]; simpl; [split; [discriminate|intros [[] _]]|].
  destruct (is_option x s) eqn:E.
  - apply is_option_named in E. split.
    + intro H. inversion H. subst. auto.
    + intros [_ H]. f_equal. exact (names_distinct _ _ _ E H).
  - rewrite IH. split; [tauto|]. intros [[<- |H] K]; [|auto].
    apply is_option_named in K. congruence.
Qed.

Lemma actual_allowed c o : In o (actual_options c) <-> allowed c o.
Proof.
  unfold actual_options, allowed. rewrite in_app_iff.
  destruct c; simpl; intuition congruence.
Qed.

(** ** Groups *)

Lemma is_digit_spec c : is_digit c = true <-> digit c.
Proof. unfold is_digit, digit. rewrite andb_true_iff, !N.leb_le. tauto. Qed.

Lemma split_group_digits ds r : Forall digit ds ->
  split_group (ds ++ r) = (ds ++ fst (split_group r), snd (split_group r)).
Proof.
  induction 1 as [|d ds D _ IH]; simpl.
  - destruct (split_group r); reflexivity.
  - rewrite IH. apply is_digit_spec in D. rewrite D. reflexivity.
Qed.

Lemma group_split g ps : group g ps -> split_group g = ([], ps).
Proof.
  induction 1 as [|c ds r ps Hc Hd G IH]; [reflexivity|].
  simpl. rewrite (split_group_digits ds r Hd), IH. simpl.
  destruct (is_digit c) eqn:E; [apply is_digit_spec in E; tauto|].
  rewrite app_nil_r. destruct ds; reflexivity.
Qed.

Lemma split_group_form g : exists ds r, g = ds ++ r /\ Forall digit ds
  /\ fst (split_group g) = ds /\ group r (snd (split_group g)).
Proof.
  induction g as [|c g IH].
  - exists [], []. split; [reflexivity|]. split; [constructor|]. split; [reflexivity|constructor].
  - destruct IH as [ds [r [E [D [F G]]]]]. simpl.
    destruct (split_group g) as [p out]. simpl in F, G. subst p.
    destruct (is_digit c) eqn:K.
    + apply is_digit_spec in K. exists (c :: ds), r. subst g. simpl.
      split; [reflexivity|]. split; [constructor; assumption|]. auto.
    + exists [], (c :: g). split; [reflexivity|]. split; [constructor|]. split; [reflexivity|].
      subst g. simpl. assert (K' : ~ digit c) by (rewrite <- is_digit_spec; congruence).
      pose proof (group_one c ds r out K' D G) as X. destruct ds; exact X.
Qed.

Lemma split_group_group g ps : split_group g = ([], ps) -> group g ps.
Proof.
  intro H. destruct (split_group_form g) as [ds [r [E [D [F G]]]]].
  rewrite H in F, G. simpl in F, G. subst ds. simpl in E. subst r. exact G.
Qed.

(** ** One option *)

Lemma named_form o s : named o s ->
  is_group s = false /\ s <> [dash; dash] /\ starts_dash s = true /\ (forall x, s <> [x]).
Proof.
  intros [->|[c [E ->]]].
  - destruct (long o) as [|x l] eqn:L; [exfalso; exact (long_not_empty o L)|].
    simpl. repeat split; try discriminate; reflexivity.
  - simpl. pose proof (short_not_dash _ _ E) as D.
    split; [reflexivity|]. split; [intro K; inversion K; contradiction|]. split; [reflexivity|discriminate].
Qed.

Lemma used_spec o p : used o p = true <-> In o (List.map fst (options p)).
Proof.
  unfold used. rewrite existsb_exists, in_map_iff. split.
  - intros [e [H E]]. exists e. destruct (opt_dec o (fst e)); [auto|discriminate].
  - intros [e [E H]]. exists e. split; [exact H|]. subst. destruct (opt_dec (fst e) (fst e)); congruence.
Qed.

Lemma use_option_ok acc c s rest p p' rest' :
  use_option acc c s rest p = Ok (p', rest') <->
  exists o, named o s /\ allowed c o
    /\ (In o (List.map fst (options p)) -> repeatable o = true)
    /\ ((takes_argument o = false /\ p' = add_option p o None /\ rest' = rest)
        \/ exists a, takes_argument o = true /\ acc o a = true
             /\ p' = add_option p o (Some a) /\ rest = a :: rest').
Proof.
  unfold use_option. split.
  - destruct (find_option (actual_options c) s) as [o|] eqn:F; [|discriminate].
    apply find_option_spec in F. destruct F as [F1 F2]. apply actual_allowed in F1.
    destruct (used o p && negb (repeatable o)) eqn:U; [discriminate|].
    assert (R : In o (List.map fst (options p)) -> repeatable o = true).
    { intro H. apply used_spec in H. rewrite H in U. simpl in U.
      destruct (repeatable o); [reflexivity|discriminate]. }
    destruct (takes_argument o) eqn:T.
    + destruct rest as [|a rest]; [discriminate|]. destruct (acc o a) eqn:Q; [|discriminate].
      intro H. inversion H. subst. exists o. split; [exact F2|]. split; [exact F1|].
      split; [exact R|]. right. exists a. auto.
    + intro H. inversion H. subst. exists o. auto 10.
  - intros [o [F2 [F1 [R W]]]].
    assert (F : find_option (actual_options c) s = Some o).
    { apply find_option_spec. split; [apply actual_allowed; exact F1|exact F2]. }
    rewrite F.
    assert (U : used o p && negb (repeatable o) = false).
    { destruct (used o p) eqn:U; [|reflexivity]. apply used_spec in U. rewrite (R U). reflexivity. }
    rewrite U. destruct W as [[T [-> ->]]|[a [T [Q [-> ->]]]]]; rewrite T; [reflexivity|].
    rewrite Q. reflexivity.
Qed.

(** ** Assignments *)

Lemma cut_spec s k v : cut s = Some (k, v) <-> s = k ++ colon :: v /\ ~ In colon k.
Proof.
  revert k v. induction s as [|c s IH]; intros k v; simpl.
  - split; [discriminate|]. intros [E _]. destruct k; discriminate.
  - destruct (N.eqb c colon) eqn:E.
    + apply N.eqb_eq in E. subst c. split.
      * intro H. inversion H. subst. split; [reflexivity|intros []].
      * intros [H K]. destruct k as [|x k]; [inversion H; reflexivity|].
        inversion H. subst. exfalso. apply K. left. reflexivity.
    + apply N.eqb_neq in E. split.
      * destruct (cut s) as [[k0 v0]|] eqn:C; [|discriminate].
        intro H. inversion H. subst. destruct (proj1 (IH k0 v) eq_refl) as [C1 C2].
        split; [rewrite C1; reflexivity|]. intros [K|K]; [congruence|contradiction].
      * intros [H K]. destruct k as [|x k]; [inversion H; congruence|].
        inversion H. subst x s.
        assert (X : cut (k ++ colon :: v) = Some (k, v)).
        { apply IH. split; [reflexivity|]. intro Z. apply K. right. exact Z. }
        rewrite X. reflexivity.
Qed.

Lemma can_resolve_spec c : can_resolve c = true <-> In File (supported_options c).
Proof.
  unfold can_resolve. rewrite existsb_exists. split.
  - intros [o [H E]]. destruct (opt_dec o File); [subst; exact H|discriminate].
  - intro H. exists File. split; [exact H|]. destruct (opt_dec File File); congruence.
Qed.

Lemma config_start k v : ~ In colon k ->
  (starts_with (config_key ++ [colon]) (k ++ colon :: v) = true <-> k = config_key).
Proof.
  intro NC. rewrite starts_with_spec. split.
  - intros [t E]. rewrite <- app_assoc in E. simpl in E.
    assert (C1 : cut (k ++ colon :: v) = Some (k, v)) by (apply cut_spec; auto).
    assert (C2 : cut (k ++ colon :: v) = Some (config_key, t)).
    { apply cut_spec. split; [exact E|]. vm_compute. intuition discriminate. }
    congruence.
  - intros ->. exists v. rewrite <- app_assoc. reflexivity.
Qed.

Lemma parse_assignment_ok c s p p' : starts_dash s = false ->
  (parse_assignment c s p = Ok p' <->
   is_assignment c s /\ p' = Parsed (options p) (assignments p ++ [s]) (target p)).
Proof.
  intro SD. unfold parse_assignment. split.
  - destruct (cut s) as [[k v]|] eqn:C; [|discriminate].
    destruct k as [|x k]; [discriminate|].
    destruct (negb (can_resolve c) && negb (starts_with (config_key ++ [colon]) s)) eqn:R;
      [discriminate|].
    intro H. inversion H. split; [|reflexivity].
    apply cut_spec in C. destruct C as [E NC]. exists (x :: k), v.
    split; [exact E|]. split; [discriminate|]. split; [exact NC|]. split.
    + intros y r K D. inversion K. subst. simpl in SD. discriminate.
    + apply andb_false_iff in R. destruct R as [R|R]; apply negb_false_iff in R.
      * left. apply can_resolve_spec. exact R.
      * right. rewrite E in R. apply (config_start (x :: k) v NC) in R. exact R.
  - intros [[k [v [E [NE [NC [ND CR]]]]]] ->].
    assert (C : cut s = Some (k, v)) by (apply cut_spec; auto).
    rewrite C. destruct k as [|x k]; [congruence|].
    assert (R : negb (can_resolve c) && negb (starts_with (config_key ++ [colon]) s) = false).
    { apply andb_false_iff. destruct CR as [CR|CR].
      - left. apply negb_false_iff, can_resolve_spec. exact CR.
      - right. apply negb_false_iff. rewrite E. apply (config_start (x :: k) v NC). exact CR. }
    rewrite R. reflexivity.
Qed.

Lemma assignment_no_dash c s : is_assignment c s -> starts_dash s = false.
Proof.
  intros [k [v [-> [NE [_ [ND _]]]]]]. destruct k as [|x k]; [congruence|].
  simpl. apply N.eqb_neq. exact (ND x k eq_refl).
Qed.

(** ** Weights *)

Lemma weight_app a b : weight (a ++ b) = (weight a + weight b)%nat.
Proof. unfold weight. induction a; simpl; [reflexivity|]. rewrite IHa. lia. Qed.

Lemma weight_cons s l : weight (s :: l) = ((if is_group s then List.length s else 1) + weight l)%nat.
Proof. reflexivity. Qed.

Lemma digits_no_group ds : Forall digit ds -> is_group ds = false.
Proof.
  intro D. destruct ds as [|a [|b [|c r]]]; try reflexivity. simpl.
  inversion D as [|x l Da _]. subst. unfold digit in Da.
  assert (N.eqb a dash = false) as -> by (apply N.eqb_neq; unfold dash; lia). reflexivity.
Qed.

Lemma group_weight g ps : group g ps -> (weight ps <= List.length g)%nat.
Proof.
  induction 1 as [|c ds r ps Hc D G IH]; [reflexivity|].
  simpl List.length. rewrite app_length.
  destruct ds as [|d ds]; rewrite ?weight_cons.
  - simpl. lia.
  - rewrite (digits_no_group _ D). cbn [is_group List.length]. lia.
Qed.

(** ** The loop *)

Definition same_used (u : list opt) (p : parsed) : Prop :=
  forall o, In o u <-> In o (List.map fst (options p)).

Lemma same_used_add u p o a : same_used u p -> same_used (o :: u) (add_option p o a).
Proof.
  intros H x. unfold add_option. simpl. rewrite map_app, in_app_iff. simpl.
  rewrite (H x). tauto.
Qed.

Lemma loop_spec acc c : forall n input p u,
  (weight input <= n)%nat -> target p = [] -> same_used u p ->
  parse_loop acc c n input p <> Out
  /\ forall p', parse_loop acc c n input p = Ok p' <->
       exists os l t, spells acc c u input os l t
         /\ p' = Parsed (options p ++ os) (assignments p ++ l) t.
Proof.
  induction n as [|n IH]; intros input p u W T SU.
  - destruct input as [|s rest].
    + simpl. split; [discriminate|]. intro p'. split.
      * intro H. inversion H. subst. exists [], [], []. split; [constructor|].
        rewrite !app_nil_r. destruct p'. simpl in *. congruence.
      * intros [os [l [t [H ->]]]]. inversion H. subst. rewrite !app_nil_r.
        destruct p. simpl in *. congruence.
    + exfalso. rewrite weight_cons in W. destruct (is_group s) eqn:G.
      * destruct s as [|a [|b [|d r]]]; try discriminate. simpl in W. lia.
      * lia.
  - destruct input as [|s rest].
    { simpl. split; [discriminate|]. intro p'. split.
      * intro H. inversion H. subst. exists [], [], []. split; [constructor|].
        rewrite !app_nil_r. destruct p'. simpl in *. congruence.
      * intros [os [l [t [H ->]]]]. inversion H. subst. rewrite !app_nil_r.
        destruct p. simpl in *. congruence. }
    cbn [parse_loop]. unfold parse_next.
    destruct (is_run c && str_eqb s [dash; dash]) eqn:RT.
    { apply andb_true_iff in RT. destruct RT as [R1 R2]. apply str_eqb_eq in R2. subst s.
      assert (Rc : c = Run) by (clear - R1; destruct c; simpl in R1; congruence).
      assert (Fin : parse_loop acc c n [] (Parsed (options p) (assignments p) rest)
                    = Ok (Parsed (options p) (assignments p) rest)) by (destruct n; reflexivity).
      rewrite Fin. split; [discriminate|]. intro p'. split.
      - intro H. inversion H. exists [], [], rest. rewrite !app_nil_r.
        split; [apply sp_target; exact Rc|reflexivity].
      - intros [os [l [t [H ->]]]]. inversion H; subst.
        + rewrite !app_nil_r. reflexivity.
        + match goal with X : is_assignment _ _ |- _ => apply assignment_no_dash in X; discriminate end.
        + match goal with X : named _ _ |- _ => apply named_form in X; destruct X as [_ [X _]]; congruence end.
        + match goal with X : named _ _ |- _ => apply named_form in X; destruct X as [_ [X _]]; congruence end. }
    assert (NT : c = Run -> s <> [dash; dash]).
    { intros -> ->. simpl in RT. discriminate. }
    destruct (starts_dash s) eqn:SD.
    + unfold parse_option.
      destruct s as [|d [|x s]]; [discriminate| |].
      { split; [discriminate|]. intro p'. split; [discriminate|].
        intros [os [l [t [H _]]]]. exfalso. inversion H; subst.
        - match goal with X : is_assignment _ _ |- _ => apply assignment_no_dash in X; congruence end.
        - match goal with X : named _ _ |- _ => apply named_form in X; destruct X as [_ [_ [_ X]]]; exact (X d eq_refl) end.
        - match goal with X : named _ _ |- _ => apply named_form in X; destruct X as [_ [_ [_ X]]]; exact (X d eq_refl) end. }
      simpl in SD. apply N.eqb_eq in SD. subst d.
      destruct (is_group (dash :: x :: s)) eqn:G.
      * (* a group *)
        destruct s as [|y s]; [discriminate|].
        assert (X : x <> dash).
        { unfold is_group in G. rewrite N.eqb_refl in G. simpl in G.
          apply negb_true_iff, N.eqb_neq in G. exact G. }
        cbn [tl]. destruct (split_group (x :: y :: s)) as [q ps] eqn:SG.
        destruct q as [|q0 q].
        -- pose proof (split_group_group _ _ SG) as GR.
           assert (W' : (weight (ps ++ rest) <= n)%nat).
           { rewrite weight_cons, G in W. rewrite weight_app.
             pose proof (group_weight _ _ GR). simpl List.length in *. lia. }
           destruct (IH (ps ++ rest) p u W' T SU) as [I1 I2]. split; [exact I1|].
           intro p'. rewrite I2. split.
           ++ intros [os [l [t [H ->]]]]. exists os, l, t. split; [|reflexivity].
              eapply sp_group; eauto.
           ++ intros [os [l [t [H ->]]]]. exists os, l, t. split; [|reflexivity].
              inversion H; subst.
              ** exfalso. match goal with Q : is_assignment _ _ |- _ => apply assignment_no_dash in Q; discriminate end.
              ** exfalso. match goal with Q : named _ _ |- _ => apply named_form in Q; destruct Q as [Q _]; congruence end.
              ** exfalso. match goal with Q : named _ _ |- _ => apply named_form in Q; destruct Q as [Q _]; congruence end.
              ** match goal with Q : group _ ?z |- _ =>
                   apply group_split in Q; rewrite SG in Q; inversion Q; subst; assumption end.
        -- split; [discriminate|]. intro p'. split; [discriminate|].
           intros [os [l [t [H _]]]]. exfalso. inversion H; subst.
           ++ match goal with Q : is_assignment _ _ |- _ => apply assignment_no_dash in Q; discriminate end.
           ++ match goal with Q : named _ _ |- _ => apply named_form in Q; destruct Q as [Q _]; congruence end.
           ++ match goal with Q : named _ _ |- _ => apply named_form in Q; destruct Q as [Q _]; congruence end.
           ++ match goal with Q : group _ ?z |- _ => apply group_split in Q; rewrite SG in Q; discriminate end.
      * (* a single option *)
        set (s1 := dash :: x :: s) in *.
        assert (Uo : forall p1 rest1,
            use_option acc c s1 rest p = Ok (p1, rest1) ->
            (weight rest1 <= n)%nat /\ target p1 = []).
        { intros p1 rest1 H. apply use_option_ok in H.
          destruct H as [o [_ [_ [_ [[_ [-> ->]]|[a [_ [_ [-> ->]]]]]]]]].
          - split; [rewrite weight_cons, G in W; lia|exact T].
          - split; [|exact T]. rewrite !weight_cons, G in W. lia. }
        destruct (use_option acc c s1 rest p) as [[p1 rest1]|e|] eqn:UO.
        -- pose proof UO as UO'. apply use_option_ok in UO'.
           destruct UO' as [o [Nm [Al [Rp Wh]]]].
           destruct (Uo p1 rest1 eq_refl) as [W1 T1].
           assert (SU1 : same_used (o :: u) p1).
           { destruct Wh as [[_ [-> _]]|[a [_ [_ [-> _]]]]]; apply same_used_add; exact SU. }
           destruct (IH rest1 p1 (o :: u) W1 T1 SU1) as [I1 I2]. split; [exact I1|].
           intro p'. rewrite I2. split.
           ++ intros [os [l [t [H ->]]]].
              destruct Wh as [[Ta [-> ->]]|[a [Ta [Ac [-> ->]]]]].
              ** exists ((o, None) :: os), l, t. split.
                 --- eapply sp_flag; eauto. intro K. apply Rp, SU. exact K.
                 --- simpl. rewrite <- app_assoc. reflexivity.
              ** exists ((o, Some a) :: os), l, t. split.
                 --- eapply sp_arg; eauto. intro K. apply Rp, SU. exact K.
                 --- simpl. rewrite <- app_assoc. reflexivity.
           ++ intros [os [l [t [H ->]]]]. inversion H; subst.
              ** exfalso. exact (NT eq_refl eq_refl).
              ** exfalso. match goal with Q : is_assignment _ _ |- _ => apply assignment_no_dash in Q; discriminate end.
              ** assert (o0 = o) by (eapply names_distinct; eauto). subst o0.
                 destruct Wh as [[Ta [-> ->]]|[a [Ta [Ac [-> ->]]]]]; [|congruence].
                 exists os0, l, t. split; [assumption|]. simpl. rewrite <- app_assoc. reflexivity.
              ** assert (o0 = o) by (eapply names_distinct; eauto). subst o0.
                 destruct Wh as [[Ta [-> ->]]|[a0 [Ta [Ac [-> Er]]]]]; [congruence|].
                 inversion Er. subst.
                 exists os0, l, t. split; [assumption|]. simpl. rewrite <- app_assoc. reflexivity.
              ** exfalso. unfold s1, is_group in G. rewrite N.eqb_refl in G. simpl in G.
                 apply negb_false_iff, N.eqb_eq in G. contradiction.
        -- split; [discriminate|]. intro p'. split; [discriminate|].
           intros [os [l [t [H _]]]]. exfalso.
           assert (NoU : forall p1 r1, use_option acc c s1 rest p <> Ok (p1, r1)) by (rewrite UO; discriminate).
           inversion H; subst.
           ++ exact (NT eq_refl eq_refl).
           ++ match goal with Q : is_assignment _ _ |- _ => apply assignment_no_dash in Q; discriminate end.
           ++ apply (NoU (add_option p o None) rest). apply use_option_ok. exists o.
              split; [assumption|]. split; [assumption|]. split; [|left; auto].
              intro K. apply SU in K. auto.
           ++ apply (NoU (add_option p o (Some a)) r). apply use_option_ok. exists o.
              split; [assumption|]. split; [assumption|]. split; [|right; exists a; auto].
              intro K. apply SU in K. auto.
           ++ unfold s1, is_group in G. rewrite N.eqb_refl in G. simpl in G.
              apply negb_false_iff, N.eqb_eq in G. contradiction.
        -- exfalso. revert UO. unfold use_option.
           destruct (find_option (actual_options c) s1); [|discriminate].
           destruct (used o p && negb (repeatable o)); [discriminate|].
           destruct (takes_argument o); [|discriminate].
           destruct rest as [|a0 rest]; [discriminate|]. destruct (acc o a0); discriminate.
    + (* an assignment *)
      assert (W1 : (weight rest <= n)%nat).
      { rewrite weight_cons in W. destruct s as [|a [|b [|d r]]]; simpl in W, SD; try lia.
        rewrite SD in W. simpl in W. lia. }
      destruct (parse_assignment c s p) as [p1|e|] eqn:PA.
      * apply (parse_assignment_ok c s p p1 SD) in PA. destruct PA as [IA ->].
        set (p1 := Parsed (options p) (assignments p ++ [s]) (target p)).
        destruct (IH rest p1 u W1 T SU) as [I1 I2]. split; [exact I1|].
        intro p'. rewrite I2. split.
        -- intros [os [l [t [H ->]]]]. exists os, (s :: l), t.
           split; [apply sp_assign; assumption|]. simpl. rewrite <- app_assoc. reflexivity.
        -- intros [os [l [t [H ->]]]]. inversion H; subst.
           ++ discriminate.
           ++ exists os, l0, t. split; [assumption|]. simpl. rewrite <- app_assoc. reflexivity.
           ++ exfalso. match goal with Q : named _ _ |- _ => apply named_form in Q; destruct Q as [_ [_ [Q _]]]; congruence end.
           ++ exfalso. match goal with Q : named _ _ |- _ => apply named_form in Q; destruct Q as [_ [_ [Q _]]]; congruence end.
           ++ discriminate.
      * split; [discriminate|]. intro p'. split; [discriminate|].
        intros [os [l [t [H _]]]]. exfalso.
        assert (NoA : ~ is_assignment c s).
        { intro IA. assert (X : parse_assignment c s p = Ok (Parsed (options p) (assignments p ++ [s]) (target p))).
          { apply parse_assignment_ok; auto. } congruence. }
        inversion H; subst.
        -- discriminate.
        -- contradiction.
        -- match goal with Q : named _ _ |- _ => apply named_form in Q; destruct Q as [_ [_ [Q _]]]; congruence end.
        -- match goal with Q : named _ _ |- _ => apply named_form in Q; destruct Q as [_ [_ [Q _]]]; congruence end.
        -- discriminate.
      * exfalso. revert PA. unfold parse_assignment.
        destruct (cut s) as [[[|k0 k] v]|]; try discriminate.
        destruct (negb (can_resolve c) && negb (starts_with (config_key ++ [colon]) s)); discriminate.
Qed.

(** Exactly the command lines of the grammar are accepted, and they mean what
    the grammar says. *)
Theorem parse_exact acc c args :
  parse_command acc c args <> Out
  /\ forall p, parse_command acc c args = Ok p <->
       spells acc c [] args (options p) (assignments p) (target p).
Proof.
  unfold parse_command.
  destruct (loop_spec acc c (weight args) args (Parsed [] [] []) [] (le_n _) eq_refl
              (fun o => conj (fun X => X) (fun X => X))) as [L1 L2].
  split; [exact L1|]. intro p. rewrite L2. simpl. split.
  - intros [os [l [t [H ->]]]]. exact H.
  - intro H. exists (options p), (assignments p), (target p). destruct p. auto.
Qed.

(** ** The whole line *)


Definition help_switch (s : str) : Prop := s = txt "-h" \/ s = txt "--help".
Definition version_switch (s : str) : Prop := s = txt "-V" \/ s = txt "--version".

Lemma one_of_spec l s : one_of l s = true <-> In s l.
Proof.
  unfold one_of. rewrite existsb_exists. split.
  - intros [x [H E]]. apply str_eqb_eq in E. subst. exact H.
  - intro H. exists s. split; [exact H|apply str_eqb_refl].
Qed.

Lemma help_spec s : one_of help_switches s = true <-> help_switch s.
Proof.
  rewrite one_of_spec. unfold help_switch. simpl. split.
  - intros [H|[H|[]]]; [left|right]; rewrite <- H; reflexivity.
  - intros [H|H]; [left|right; left]; rewrite H; reflexivity.
Qed.

Lemma version_spec s : one_of version_switches s = true <-> version_switch s.
Proof.
  rewrite one_of_spec. unfold version_switch. simpl. split.
  - intros [H|[H|[]]]; [left|right]; rewrite <- H; reflexivity.
  - intros [H|H]; [left|right; left]; rewrite H; reflexivity.
Qed.

Lemma command_from_name c : command_from (name c) = Some c.
Proof. destruct c; vm_compute; reflexivity. Qed.

Lemma command_from_some s c : command_from s = Some c -> s = name c.
Proof.
  unfold command_from. intro H. apply find_some in H. destruct H as [_ H].
  apply str_eqb_eq in H. congruence.
Qed.

Lemma perform_regular acc c args : regular c ->
  forall c' p, perform acc c args = Ok (Perform c' p) <->
    c' = c /\ spells acc c [] args (options p) (assignments p) (target p).
Proof.
  intros R c' p. destruct (parse_exact acc c args) as [_ E]. rewrite <- E.
  assert (X : perform acc c args = match parse_command acc c args with
                                   | Ok p => Ok (Perform c p) | Err e => Err e | Out => Out end).
  { destruct R as [R1 [R2 R3]]. destruct c; try congruence; reflexivity. }
  rewrite X. destruct (parse_command acc c args) as [q|e|]; split; try discriminate.
  - intro H. inversion H. auto.
  - intros [-> H]. inversion H. reflexivity.
  - intros [_ H]. discriminate.
  - intros [_ H]. discriminate.
Qed.

(** A line with a command is performed by it, if no switch for help is in the
    line. What is missing: the line is not looked at in order, see below. *)
Theorem line_right_partial acc c rest :
  regular c -> (forall s, In s rest -> ~ help_switch s) ->
  forall c' p, parse_line acc (name c :: rest) = Ok (Perform c' p) <->
    c' = c /\ spells acc c [] rest (options p) (assignments p) (target p).
Proof.
  intros R NH c' p. unfold parse_line. rewrite command_from_name.
  assert (existsb (one_of help_switches) rest = false) as ->.
  { apply not_true_iff_false. rewrite existsb_exists. intros [s [H E]].
    apply help_spec in E. exact (NH s H E). }
  apply perform_regular. exact R.
Qed.

(** A line without a command is one of the build command. *)
Theorem line_default acc args :
  (forall a rest, args = a :: rest ->
     (forall c, a <> name c) /\ ~ help_switch a /\ ~ version_switch a) ->
  forall c p, parse_line acc args = Ok (Perform c p) <->
    c = Build /\ spells acc Build [] args (options p) (assignments p) (target p).
Proof.
  assert (RB : regular Build) by (unfold regular; repeat split; discriminate).
  intros H c p. destruct args as [|a rest]; [apply (perform_regular acc Build []); exact RB|].
  destruct (H a rest eq_refl) as [NC [NH NV]]. unfold parse_line.
  destruct (command_from a) as [c0|] eqn:C.
  { apply command_from_some in C. exfalso. exact (NC c0 C). }
  assert (one_of help_switches a = false) as ->
    by (apply not_true_iff_false; rewrite help_spec; exact NH).
  assert (one_of version_switches a = false) as ->
    by (apply not_true_iff_false; rewrite version_spec; exact NV).
  apply perform_regular. exact RB.
Qed.

(** The switches themselves: help for a command and the version. *)
Theorem line_switches acc a :
  (help_switch a -> parse_line acc [a] = Ok (ShowHelp [])
     /\ forall c, parse_line acc [a; name c] = Ok (ShowHelp [name c])
        /\ parse_line acc [name c; a] = Ok (ShowHelp [name c]))
  /\ (version_switch a -> parse_line acc [a] = Ok ShowVersion).
Proof.
  split.
  - intros [->| ->]; (split; [reflexivity|]); intro c; destruct c; split; reflexivity.
  - intros [->| ->]; reflexivity.
Qed.

(** The parameters for the program to run are searched for switches of qbs,
    and so are the arguments of options. *)
Theorem help_taken_refuted :
  (exists acc t, spells acc Run [] ([dash; dash] :: t) [] [] t
     /\ parse_line acc (name Run :: [dash; dash] :: t) = Ok (ShowHelp [name Run]))
  /\ (exists acc a, spells acc Build [] [txt "-f"; a] [(File, Some a)] [] []
       /\ parse_line acc [name Build; txt "-f"; a] = Ok (ShowHelp [name Build])).
Proof.
  split.
  - exists (fun _ _ => true), [txt "--help"]. split; [apply sp_target; reflexivity|reflexivity].
  - exists (fun _ _ => true), (txt "-h"). split; [|reflexivity].
    apply sp_arg; try reflexivity; [right; exists 102%N; split; reflexivity|left; simpl; auto|intros []|constructor].
Qed.

(** ** Build configurations *)

(** The name of a property; without a module it is one of qbs. *)
Definition full (k : str) : str := if memN dot k then k else txt "qbs." ++ k.

Definition names_config (k : str) : Prop := k = txt "config" \/ k = txt "qbs.configurationName".

(** The properties in front of the first configuration, and the configurations
    with theirs. *)
Inductive parts : list str -> list (str * str) -> list (str * list (str * str)) -> Prop :=
| parts_end : parts [] [] []
| parts_config k v r g ss : ~ In colon k -> names_config k -> parts r g ss ->
    parts ((k ++ colon :: v) :: r) [] ((v, g) :: ss)
| parts_prop k v r g ss : ~ In colon k -> ~ names_config k -> parts r g ss ->
    parts ((k ++ colon :: v) :: r) ((k, v) :: g) ss.

(** The last assignment to a property; none at all. *)
Definition assigned (l : list (str * str)) (k v : str) : Prop :=
  exists a k' b, l = a ++ (k', v) :: b /\ full k' = k
    /\ forall k2 v2, In (k2, v2) b -> full k2 <> k.
Definition unassigned (l : list (str * str)) (k : str) : Prop :=
  forall k2 v2, In (k2, v2) l -> full k2 <> k.

(** What a configuration is made of: its name, its own properties, and those
    for all configurations. *)
Definition configuration (g : list (str * str)) (s : str * list (str * str)) (m : props) : Prop :=
  NoDup (List.map fst m)
  /\ forall k v, In (k, v) m <->
       (k = txt "qbs.configurationName" /\ v = fst s)
       \/ (k <> txt "qbs.configurationName"
           /\ (assigned (snd s) k v \/ (unassigned (snd s) k /\ assigned g k v))).

(** Only the first configuration of a name counts. *)
Inductive firsts {A : Type} : list str -> list (str * A) -> list (str * A) -> Prop :=
| firsts_end seen : firsts seen [] []
| firsts_new seen n a l r : ~ In n seen -> firsts (n :: seen) l r ->
    firsts seen ((n, a) :: l) ((n, a) :: r)
| firsts_old seen n a l r : In n seen -> firsts seen l r -> firsts seen ((n, a) :: l) r.

Definition or_default {A : Type} (l : list (str * list A)) : list (str * list A) :=
  match l with [] => [(txt "default", [])] | _ => l end.

Lemma value_In k v m : NoDup (List.map fst m) -> (value k m = Some v <-> In (k, v) m).
Proof.
  induction m as [|[k' v'] m IH]; simpl; intro ND; [split; [discriminate|intros []]|].
  inversion ND as [|x l NI ND' [Ex El]]. subst.
  destruct (str_eqb k k') eqn:E.
  - apply str_eqb_eq in E. subst k'. split.
    + intro H. inversion H. auto.
    + intros [H|H]; [inversion H; reflexivity|]. exfalso. apply NI, in_map_iff. exists (k, v). auto.
  - rewrite (IH ND'). split; [auto|]. intros [H|H]; [|exact H].
    inversion H. subst. rewrite str_eqb_refl in E. discriminate.
Qed.

Lemma value_insert k v m k' :
  value k' (insert k v m) = if str_eqb k' k then Some v else value k' m.
Proof.
  induction m as [|[k2 v2] m IH]; simpl; [reflexivity|].
  destruct (str_eqb k k2) eqn:E; simpl.
  - apply str_eqb_eq in E. subst. destruct (str_eqb k' k2); reflexivity.
  - rewrite IH. destruct (str_eqb k' k2) eqn:E2; [|reflexivity].
    apply str_eqb_eq in E2. subst. destruct (str_eqb k2 k) eqn:E3; [|reflexivity].
    apply str_eqb_eq in E3. subst. rewrite str_eqb_refl in E. discriminate.
Qed.

Lemma insert_keys k v m x : In x (List.map fst (insert k v m)) <-> x = k \/ In x (List.map fst m).
Proof.
  induction m as [|[k2 v2] m IH]; simpl; [intuition|].
  destruct (str_eqb k k2) eqn:E; simpl.
  - apply str_eqb_eq in E. subst. intuition.
  - rewrite IH. intuition.
Qed.

Lemma insert_nodup k v m : NoDup (List.map fst m) -> NoDup (List.map fst (insert k v m)).
Proof.
  induction m as [|[k2 v2] m IH]; simpl; intro ND.
  - constructor; [intros []|constructor].
  - inversion ND as [|x l NI ND']. subst.
    destruct (str_eqb k k2) eqn:E; simpl.
    + apply str_eqb_eq in E. subst. constructor; assumption.
    + constructor; [|auto]. rewrite insert_keys. intros [H|H]; [|contradiction].
      subst. rewrite str_eqb_refl in E. discriminate.
Qed.

Lemma property_name_full k : property_name k = full k.
Proof. reflexivity. Qed.

(** The values that a list of assignments gives, over those of a map. *)
Definition over (l : list (str * str)) (m m' : props) : Prop :=
  (NoDup (List.map fst m) -> NoDup (List.map fst m'))
  /\ forall k v, value k m' = Some v <->
       assigned l k v \/ (unassigned l k /\ value k m = Some v).

Lemma assigned_cons k' v' l k v :
  assigned ((k', v') :: l) k v <->
  assigned l k v \/ (unassigned l k /\ full k' = k /\ v' = v).
Proof.
  split.
  - intros [a [k2 [b [E [F U]]]]]. destruct a as [|e a]; inversion E; subst.
    + right. split; [exact U|auto].
    + left. exists a, k2, b. auto.
  - intros [[a [k2 [b [-> [F U]]]]]|[U [F ->]]].
    + exists ((k', v') :: a), k2, b. auto.
    + exists [], k', l. auto.
Qed.

Lemma unassigned_cons k' v' l k :
  unassigned ((k', v') :: l) k <-> full k' <> k /\ unassigned l k.
Proof.
  split.
  - intro H. split; [apply (H k' v'); left; reflexivity|]. intros k2 v2 K. apply (H k2 v2). right. exact K.
  - intros [H1 H2] k2 v2 [K|K]; [inversion K; subst; exact H1|exact (H2 k2 v2 K)].
Qed.

Lemma assigned_or l k : (exists v, assigned l k v) \/ unassigned l k.
Proof.
  induction l as [|[k' v'] l IH]; [right; intros ? ? []|].
  destruct IH as [[v H]|H].
  - left. exists v. apply assigned_cons. auto.
  - destruct (str_dec (full k') k) as [E|E].
    + left. exists v'. apply assigned_cons. auto.
    + right. apply unassigned_cons. auto.
Qed.

Lemma assigned_not l k v : assigned l k v -> ~ unassigned l k.
Proof.
  intros [a [k' [b [-> [F _]]]]] U. apply (U k' v); [|exact F].
  apply in_or_app. right. left. reflexivity.
Qed.

Lemma assigned_fun l k v v' : assigned l k v -> assigned l k v' -> v = v'.
Proof.
  induction l as [|[k0 v0] l IH].
  - intros [a [k' [b [E _]]]]. destruct a; discriminate.
  - rewrite !assigned_cons. intros [H1|[U1 [F1 E1]]] [H2|[U2 [F2 E2]]].
    + auto.
    + exfalso. exact (assigned_not _ _ _ H1 U2).
    + exfalso. exact (assigned_not _ _ _ H2 U1).
    + congruence.
Qed.

Lemma names_config_spec k :
  (str_eqb k config_key || str_eqb k name_key = true) <-> names_config k.
Proof.
  rewrite orb_true_iff, !str_eqb_eq. unfold names_config.
  change (txt "config") with config_key.
  change (txt "qbs.configurationName") with name_key. tauto.
Qed.

Lemma sections_spec l g ss : parts l g ss -> forall cur m,
  exists m1 ms, sections l cur m = (cur, m1) :: ms
    /\ over g m m1
    /\ Forall2 (fun s e => fst s = fst e /\ over (snd s) [] (snd e)) ss ms.
Proof.
  induction 1 as [|k v r g ss NC N P IH|k v r g ss NC N P IH]; intros cur m.
  - exists m, []. split; [reflexivity|]. split; [|constructor].
    split; [auto|]. intros k v. split.
    + intro H. right. split; [intros ? ? []|exact H].
    + intros [[a [k' [b [E _]]]]|[_ H]]; [destruct a; discriminate|exact H].
  - simpl. assert (C : cut (k ++ colon :: v) = Some (k, v)) by (apply cut_spec; auto).
    rewrite C. apply names_config_spec in N. rewrite N.
    destruct (IH v []) as [m1 [ms [E [O F]]]]. exists m, ((v, m1) :: ms).
    split; [rewrite E; reflexivity|]. split.
    + split; [auto|]. intros k0 v0. split.
      * intro H. right. split; [intros ? ? []|exact H].
      * intros [[a [k' [b [E0 _]]]]|[_ H]]; [destruct a; discriminate|exact H].
    + constructor; [|exact F]. split; [reflexivity|exact O].
  - simpl. assert (C : cut (k ++ colon :: v) = Some (k, v)) by (apply cut_spec; auto).
    rewrite C. destruct (str_eqb k config_key || str_eqb k name_key) eqn:Q.
    { apply names_config_spec in Q. contradiction. }
    destruct (IH cur (insert (property_name k) v m)) as [m1 [ms [E [[O1 O2] F]]]].
    exists m1, ms. split; [exact E|]. split; [|exact F]. split.
    + intro ND. apply O1, insert_nodup, ND.
    + intros k0 v0. rewrite O2, value_insert, property_name_full, assigned_cons, unassigned_cons.
      destruct (str_eqb k0 (full k)) eqn:E0.
      * apply str_eqb_eq in E0. subst k0. split.
        -- intros [H|[U H]]; [auto|]. inversion H. auto.
        -- intros [[H|[U [_ H]]]|[[H _] _]]; [auto| |congruence]. subst. auto.
      * assert (NE : full k <> k0).
        { intro X. subst. rewrite str_eqb_refl in E0. discriminate. }
        tauto.
Qed.

Lemma with_global_value g : NoDup (List.map fst g) -> forall m k,
  value k (with_global g m) = match value k m with Some v => Some v | None => value k g end.
Proof.
  unfold with_global. induction g as [|[k' v'] g IH]; simpl; intros ND m k.
  - destruct (value k m); reflexivity.
  - inversion ND as [|x l NI ND']. subst. rewrite IH by exact ND'.
    destruct (value k' m) as [w|] eqn:V.
    + destruct (value k m) eqn:K; [reflexivity|].
      destruct (str_eqb k k') eqn:E; [|reflexivity]. apply str_eqb_eq in E. congruence.
    + rewrite value_insert. destruct (str_eqb k k') eqn:E; [|reflexivity].
      apply str_eqb_eq in E. subst. rewrite V. reflexivity.
Qed.

Lemma with_global_nodup g : forall m, NoDup (List.map fst m) ->
  NoDup (List.map fst (with_global g m)).
Proof.
  unfold with_global. induction g as [|[k' v'] g IH]; simpl; intros m ND; [exact ND|].
  apply IH. destruct (value k' m); [exact ND|]. apply insert_nodup. exact ND.
Qed.

Lemma configuration_built g mg s e :
  NoDup (List.map fst mg) -> over g [] mg -> over (snd s) [] (snd e) -> fst s = fst e ->
  configuration g s (insert name_key (fst e) (with_global mg (snd e))).
Proof.
  intros NDg [_ Og] [O1 O2] E.
  assert (ND : NoDup (List.map fst (insert name_key (fst e) (with_global mg (snd e))))).
  { apply insert_nodup, with_global_nodup, O1. constructor. }
  split; [exact ND|]. intros k v. rewrite <- (value_In k v _ ND), value_insert.
  change (txt "qbs.configurationName") with name_key.
  destruct (str_eqb k name_key) eqn:K.
  - apply str_eqb_eq in K. subst k. rewrite E. split.
    + intro H. inversion H. auto.
    + intros [[_ ->]|[H _]]; [reflexivity|congruence].
  - assert (NE : k <> name_key) by (intro X; subst; rewrite str_eqb_refl in K; discriminate).
    rewrite (with_global_value mg NDg).
    pose proof (O2 k) as OS. pose proof (Og k) as OG. simpl in OS, OG.
    destruct (value k (snd e)) as [w|] eqn:V.
    + destruct (proj1 (OS w) eq_refl) as [H|[_ H]]; [|discriminate]. split.
      * intro X. inversion X. subst. right. auto.
      * intros [[X _]|[_ [X|[U _]]]]; [contradiction| |].
        -- f_equal. exact (assigned_fun _ _ _ _ H X).
        -- exfalso. exact (assigned_not _ _ _ H U).
    + assert (U : unassigned (snd s) k).
      { destruct (assigned_or (snd s) k) as [[w W]|U]; [|exact U].
        assert (X : None = Some w) by (apply OS; auto). discriminate. }
      rewrite OG. split.
      * intros [X|[_ X]]; [|discriminate]. right. auto.
      * intros [[X _]|[_ [X|[_ X]]]]; [contradiction| |auto].
        exfalso. exact (assigned_not _ _ _ X U).
Qed.

Lemma configs_spec g mg ss es :
  NoDup (List.map fst mg) -> over g [] mg ->
  Forall2 (fun s e => fst s = fst e /\ over (snd s) [] (snd e)) ss es ->
  forall done seen, 
  Forall (fun c => exists n, value name_key c = Some n) done ->
  (forall n, In n seen <-> exists c, In c done /\ value name_key c = Some n) ->
  exists new used_, configs mg es done = done ++ new
    /\ firsts seen ss used_ /\ Forall2 (configuration g) used_ new.
Proof.
  intros NDg Og F. induction F as [|[n l] [n' m] ss es [E O] F IH]; intros done seen D S0.
  - exists [], []. rewrite app_nil_r. split; [reflexivity|]. split; constructor.
  - simpl in E. subst n'. simpl.
    destruct (existsb (fun c => match value name_key c with
                           | Some n' => str_eqb n n' | None => str_eqb n [] end) done) eqn:X.
    + apply existsb_exists in X. destruct X as [c [Hc Hv]].
      rewrite Forall_forall in D. destruct (D c Hc) as [n1 V]. rewrite V in Hv.
      apply str_eqb_eq in Hv. subst n1.
      assert (D' : Forall (fun c => exists n, value name_key c = Some n) done)
        by (apply Forall_forall; exact D).
      destruct (IH done seen D' S0) as [new [us [E1 [E2 E3]]]].
      exists new, us. split; [exact E1|]. split; [|exact E3].
      apply firsts_old; [|exact E2]. apply S0. eauto.
    + set (c1 := insert name_key n (with_global mg m)).
      assert (V1 : value name_key c1 = Some n).
      { unfold c1. rewrite value_insert, str_eqb_refl. reflexivity. }
      destruct (IH (done ++ [c1]) (n :: seen)) as [new [us [E1 [E2 E3]]]].
      * apply Forall_app. split; [exact D|]. constructor; [eauto|constructor].
      * intro n0. simpl. rewrite S0. split.
        -- intros [<-|[c [Hc Hv]]].
           ++ exists c1. split; [apply in_or_app; right; left; reflexivity|exact V1].
           ++ exists c. split; [apply in_or_app; left; exact Hc|exact Hv].
        -- intros [c [Hc Hv]]. apply in_app_or in Hc. destruct Hc as [Hc|[<-|[]]].
           ++ right. eauto.
           ++ left. congruence.
      * exists (c1 :: new), ((n, l) :: us). split.
        -- rewrite E1. rewrite <- app_assoc. reflexivity.
        -- split.
           ++ apply firsts_new; [|exact E2]. intro H. apply S0 in H. destruct H as [c [Hc Hv]].
              apply not_true_iff_false in X. apply X. apply existsb_exists. exists c.
              split; [exact Hc|]. rewrite Hv. apply str_eqb_refl.
           ++ constructor; [|exact E3]. apply (configuration_built g mg (n, l) (n, m)); auto.
Qed.

(** The configurations that are built: one for each name, in order, with the
    properties of its first section and those in front of all sections. *)
Theorem configurations_right l g ss :
  parts l g ss ->
  exists cs, firsts [] (or_default ss) cs
    /\ Forall2 (configuration g) cs (build_configurations l).
Proof.
  intro P. destruct (sections_spec l g ss P [] []) as [mg [ms [E [Og F]]]].
  assert (NDg : NoDup (List.map fst mg)) by (apply Og; constructor).
  unfold build_configurations. rewrite E.
  assert (G : forall ss es,
    Forall2 (fun s e => fst s = fst e /\ over (snd s) [] (snd e)) ss es ->
    exists cs, firsts [] ss cs /\ Forall2 (configuration g) cs (configs mg es [])).
  { intros ss0 es0 F0.
    destruct (configs_spec g mg ss0 es0 NDg Og F0 [] [] (Forall_nil _)) as [new [us [E1 [E2 E3]]]].
    - intro n. split; [intros []|intros [c [[] _]]].
    - exists us. rewrite E1. auto. }
  destruct F as [|s e ss ms H F].
  - apply (G (or_default (@nil (str * list (str * str)))) [(default_name, [])]).
    constructor; [|constructor]. split; [reflexivity|]. split; [auto|].
    intros k v. simpl. split; [discriminate|].
    intros [[a [k' [b [X _]]]]|[_ X]]; [destruct a; discriminate|discriminate].
  - apply (G (s :: ss) (e :: ms)). constructor; assumption.
Qed.

(** All arguments that are accepted as assignments have parts. *)
Theorem parts_exist acc c u args os l t :
  spells acc c u args os l t -> exists g ss, parts l g ss.
Proof.
  induction 1; eauto using parts_end.
  destruct IHspells as [g [ss P]].
  destruct H as [k [v [-> [_ [NC _]]]]].
  destruct (str_eqb k config_key || str_eqb k name_key) eqn:Q.
  - apply names_config_spec in Q. exists [], ((v, g) :: ss). constructor; assumption.
  - exists ((k, v) :: g), ss. constructor; [assumption| |assumption].
    intro X. apply names_config_spec in X. congruence.
Qed.

(** Keys without a module mean those of qbs. The name of the configuration is
    the exception: such an assignment is accepted and has no effect. *)
Theorem unqualified_name_refuted :
  exists k v, full k = txt "qbs.configurationName"
    /\ is_assignment Build (k ++ colon :: v)
    /\ build_configurations [full k ++ colon :: v] = [[(full k, v)]]
    /\ build_configurations [k ++ colon :: v] = build_configurations [].
Proof.
  exists (txt "configurationName"), (txt "x"). split; [reflexivity|]. split.
  - exists (txt "configurationName"), (txt "x"). split; [reflexivity|].
    split; [discriminate|]. split; [vm_compute; intuition discriminate|].
    split; [|left; simpl; auto]. intros x r H. inversion H. discriminate.
  - split; vm_compute; reflexivity.
Qed.

(** ** The options as documented *)

(** How an option is written, whether it takes an argument, and the commands
    that have it; besides the one for the settings, which all but help have. *)
Definition building := [Build; Install; Run].
Definition resolving := Resolve :: building.

Definition manual (o : opt) : string * option string * bool * list command :=
  (match o with
   | File => ("file", Some "f", true, Generate :: Shell :: ListProducts :: resolving)
   | BuildDirectory =>
       ("build-directory", Some "d", true,
        app [Generate; Clean; Shell; Status; UpdateTimestamps; DumpNodesTree; ListProducts] resolving)
   | LogLevel => ("log-level", None, true, Generate :: UpdateTimestamps :: resolving)
   | Verbose => ("more-verbose", Some "v", false, Generate :: Clean :: UpdateTimestamps :: resolving)
   | Quiet => ("less-verbose", Some "q", false, Generate :: Clean :: UpdateTimestamps :: resolving)
   | Jobs => ("jobs", Some "j", true, resolving)
   | KeepGoing => ("keep-going", Some "k", false, Clean :: building)
   | DryRun => ("dry-run", Some "n", false, Clean :: resolving)
   | ForceProbes => ("force-probe-execution", None, false, resolving)
   | ShowProgress => ("show-progress", None, false, Generate :: Clean :: resolving)
   | ChangedFiles => ("changed-files", None, true, building)
   | Products =>
       ("products", Some "p", true, app [Clean; Shell; UpdateTimestamps; DumpNodesTree] building)
   | Tags => ("tags", None, true, [ListProducts])
   | NoInstall => ("no-install", None, false, [Build])
   | InstallRoot => ("install-root", None, true, [Generate; Install; Run])
   | RemoveFirst => ("clean-install-root", None, false, building)
   | NoBuild => ("no-build", None, false, [Install; Run])
   | ForceTimestampCheck => ("check-timestamps", None, false, building)
   | ForceOutputCheck => ("check-outputs", None, false, building)
   | BuildNonDefault => ("all-products", None, false, building)
   | LogTime => ("log-time", Some "t", false, Generate :: Clean :: resolving)
   | CommandEchoMode => ("command-echo-mode", None, true, building)
   | SettingsDir => ("settings-dir", None, true, [Clean])
   | JobLimits => ("job-limits", None, true, building)
   | RespectProjectJobLimits => ("enforce-project-job-limits", None, false, building)
   | Generator => ("generator", Some "g", true, [Generate])
   | WaitLock => ("wait-lock", None, false, building)
   | RunEnvConfig => ("setup-run-env-config", None, true, [Run])
   | DeprecationWarnings => ("deprecation-warnings", None, true, resolving)
   end)%string.

Definition all_commands : list command :=
  [Resolve; Build; Clean; Run; Shell; Status; UpdateTimestamps; Install; DumpNodesTree;
   ListProducts; HelpCmd; Generate; VersionCmd; Session].

Definition same_command (a b : command) : {a = b} + {a <> b}.
Proof. decide equality. Defined.

Lemma manual_checked :
  forallb (fun o => forallb (fun c =>
    Bool.eqb (existsb (fun x => if opt_dec x o then true else false) (supported_options c))
             (existsb (fun x => if same_command x c then true else false) (snd (manual o))))
    all_commands) all_opts = true.
Proof. vm_compute. reflexivity. Qed.

Theorem options_as_documented c o :
  let '(w, l, a, cs) := manual o in
  (forall s, named o s <-> s = txt "--" ++ txt w \/ exists x, l = Some x /\ s = txt "-" ++ txt x)
  /\ takes_argument o = a
  /\ (repeatable o = true <-> o = Verbose \/ o = Quiet)
  /\ (In o (supported_options c) <-> In c cs)
  /\ (allowed c o <-> In c cs \/ o = SettingsDir /\ c <> HelpCmd).
Proof.
  assert (Q : In o (supported_options c) <-> In c (snd (manual o))).
  { pose proof manual_checked as H. rewrite forallb_forall in H. specialize (H o (all_opts_all o)).
    rewrite forallb_forall in H. specialize (H c ltac:(destruct c; simpl; tauto)).
    apply Bool.eqb_prop in H. split; intro X.
    - assert (Y : existsb (fun x => if opt_dec x o then true else false) (supported_options c) = true).
      { apply existsb_exists. exists o. split; [exact X|]. destruct (opt_dec o o); [reflexivity|contradiction]. }
      rewrite H in Y. apply existsb_exists in Y. destruct Y as [x [Y E]].
      destruct (same_command x c); [subst; exact Y|discriminate].
    - assert (Y : existsb (fun x => if same_command x c then true else false) (snd (manual o)) = true).
      { apply existsb_exists. exists c. split; [exact X|]. destruct (same_command c c); [reflexivity|contradiction]. }
      rewrite <- H in Y. apply existsb_exists in Y. destruct Y as [x [Y E]].
      destruct (opt_dec x o); [subst; exact Y|discriminate]. }
  assert (P : let '(w, l, a, cs) := manual o in
    (forall s, named o s <-> s = txt "--" ++ txt w \/ exists x, l = Some x /\ s = txt "-" ++ txt x)
    /\ takes_argument o = a /\ (repeatable o = true <-> o = Verbose \/ o = Quiet)).
  { clear Q. destruct o; cbn beta iota zeta delta [manual]; (split; [|split; [reflexivity|]]);
      try (split; [intro X; first [discriminate X | auto]
                  |intros [X|X]; first [discriminate X | reflexivity]]).
    all: intro s; unfold named; split; (intros [X|[x [E X]]]; [left; exact X|right]);
      simpl in E; first [discriminate E
                        |injection E as <-; eexists; split; [reflexivity|exact X]]. }
  destruct (manual o) as [[[w l] a] cs]. destruct P as [P1 [P2 P3]]. simpl in Q.
  split; [exact P1|]. split; [exact P2|]. split; [exact P3|]. split; [exact Q|].
  unfold allowed. rewrite Q. reflexivity.
Qed.

(** The properties of a later section of the same name are dropped. *)
Theorem repeated_section_refuted :
  exists l, parts l [] [(txt "a", [(txt "x", txt "1")]); (txt "a", [(txt "y", txt "2")])]
    /\ forall m k v, In m (build_configurations l) -> In (k, v) m -> v <> txt "2".
Proof.
  exists [txt "config:a"; txt "x:1"; txt "config:a"; txt "y:2"]. split.
  - apply (parts_config (txt "config") (txt "a")); [vm_compute; intuition discriminate|left; reflexivity|].
    apply (parts_prop (txt "x") (txt "1"));
      [vm_compute; intuition discriminate|intros [H|H]; discriminate|].
    apply (parts_config (txt "config") (txt "a")); [vm_compute; intuition discriminate|left; reflexivity|].
    apply (parts_prop (txt "y") (txt "2"));
      [vm_compute; intuition discriminate|intros [H|H]; discriminate|constructor].
  - vm_compute. intros m k v [<-|[]] [H|[H|[]]]; inversion H; discriminate.
Qed.

Module Demo.
  Definition any : opt -> str -> bool := fun _ _ => true.

  (** qbs run -vkj4 -d out a.b:1 config:x c:2 -- -v *)
  Definition line : list str :=
    [txt "-vkj4"; txt "-d"; txt "out"; txt "a.b:1"; txt "config:x"; txt "c:2"; txt "--"; txt "-v"].

  Example line_parsed :
    parse_line any (txt "run" :: line) =
    Ok (Perform Run (Parsed
      [(Verbose, None); (KeepGoing, None); (Jobs, Some (txt "4")); (BuildDirectory, Some (txt "out"))]
      [txt "a.b:1"; txt "config:x"; txt "c:2"] [txt "-v"])).
  Proof. vm_compute. reflexivity. Qed.

  Example line_spelled :
    spells any Run [] line
      [(Verbose, None); (KeepGoing, None); (Jobs, Some (txt "4")); (BuildDirectory, Some (txt "out"))]
      [txt "a.b:1"; txt "config:x"; txt "c:2"] [txt "-v"].
  Proof.
    apply (proj2 (parse_exact any Run line)
      (Parsed
      [(Verbose, None); (KeepGoing, None); (Jobs, Some (txt "4")); (BuildDirectory, Some (txt "out"))]
      [txt "a.b:1"; txt "config:x"; txt "c:2"] [txt "-v"])).
    vm_compute. reflexivity.
  Qed.

  Example line_no_help : forall s, In s line -> ~ help_switch s.
  Proof.
    unfold line. intros s H [->| ->]; vm_compute in H;
      repeat (destruct H as [H|H]; [discriminate H|]); exact H.
  Qed.

  Example line_configs :
    build_configurations [txt "a.b:1"; txt "config:x"; txt "c:2"; txt "config:y"; txt "a.b:3"] =
    [[(txt "qbs.c", txt "2"); (txt "a.b", txt "1"); (txt "qbs.configurationName", txt "x")];
     [(txt "a.b", txt "3"); (txt "qbs.configurationName", txt "y")]].
  Proof. vm_compute. reflexivity. Qed.

  Example bad_lines :
    parse_command any Status [txt "a.b:1"] = Err NoAssignmentsHere
    /\ parse_command any Build [txt "-4v"] = Err NumericOption
    /\ parse_command any Build [txt "-nn"] = Err Repeated
    /\ parse_command any Build [txt "-j"] = Err MissingArgument.
  Proof. vm_compute. auto. Qed.
End Demo.

Print Assumptions parse_exact.
Print Assumptions options_as_documented.
Print Assumptions names_distinct.
Print Assumptions line_right_partial.
Print Assumptions line_default.
Print Assumptions line_switches.
Print Assumptions help_taken_refuted.
Print Assumptions configurations_right.
Print Assumptions parts_exist.
Print Assumptions unqualified_name_refuted.
Print Assumptions repeated_section_refuted.
