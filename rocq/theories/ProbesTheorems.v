(** Theorems about probes: re-used results are those that running the scripts would give, and no script is run without need. *)
From Coq Require Import List Bool NArith Lia.
From Verif Require Import Str ProbesModel.
Import ListNotations.
Open Scope N_scope.

(** * Specification *)
(** What a configure script assigns, the files of imports that it uses, and what else it looks at. *)
Fixpoint outcome (w : world) (s : scope) (p : prog) : str -> str :=
  match p with
  | Done v => v
  | Import n k => outcome w s (k (map (fun f => option_map data (w f)) (bound s n)))
  | Look f k => outcome w s (k (option_map data (w f)))
  end.
Fixpoint imported (w : world) (s : scope) (p : prog) : list path :=
  match p with
  | Done v => []
  | Import n k => bound s n ++ imported w s (k (map (fun f => option_map data (w f)) (bound s n)))
  | Look f k => imported w s (k (option_map data (w f)))
  end.
Fixpoint looked (w : world) (s : scope) (p : prog) : list path :=
  match p with
  | Done v => []
  | Import n k => looked w s (k (map (fun f => option_map data (w f)) (bound s n)))
  | Look f k => f :: looked w s (k (option_map data (w f)))
  end.
Section Spec.
  Context (meaning : str -> props -> prog).
  Definition script_of (i : item) : prog := meaning (i_script i) (i_init i).
  (** The values that an item should have. *)
  Definition wanted (w : world) (i : item) : props :=
    if i_cond i then map (fun e : str * str => (fst e, outcome w (i_scope i) (script_of i) (fst e))) (i_init i) else i_init i.
  Definition well_formed (i : item) : Prop := NoDup (map fst (i_init i)).
  (** The same item of a project has the same text each time it is looked at. *)
  Definition same_place (l : list item) : Prop :=
    forall a b, In a l -> In b l -> i_loc a = i_loc b -> i_script a = i_script b /\ i_scope a = i_scope b /\ i_id a = i_id b.
  (** Items between which results are exchanged over time have the same imports. *)
  Definition same_imports (l0 l : list item) : Prop :=
    forall a b, In a l0 -> In b l -> i_product a = i_product b -> (i_product a = None -> i_id a = i_id b) ->
      i_script a = i_script b -> i_init a = i_init b -> i_scope a = i_scope b.
  (** A file that is not newer than a run has the contents that it had in that run. *)
  Definition clock_ok (g0 g : generation) : Prop :=
    forall f i, g_world g f = Some i -> mtime i <= g_now g0 -> option_map data (g_world g0 f) = Some (data i).
  (** Nothing else that scripts look at has changed. *)
  Definition calm (g0 g : generation) : Prop :=
    forall a f, In a (g_items g0) \/ In a (g_items g) -> i_cond a = true -> In f (looked (g_world g0) (i_scope a) (script_of a)) ->
      option_map data (g_world g0 f) = option_map data (g_world g f).
End Spec.

(** * Proofs *)
Lemma props_eqb_spec a : forall b, props_eqb a b = true <-> a = b.
Proof.
  induction a as [|[k v] a IH]; destruct b as [|[k' v'] b]; cbn; try (split; congruence).
  rewrite !andb_true_iff, !str_eqb_eq, IH. split; [intros [[-> ->] ->]; reflexivity|intros E; injection E; auto].
Qed.
Lemma lookup_map {B} (f : str -> B) (l : props) k : In k (map fst l) -> lookup k (map (fun e : str * str => (fst e, f (fst e))) l) = Some (f k).
Proof.
  induction l as [|[k' v] l IH]; cbn; [contradiction|]. intros [->|H]; [rewrite str_eqb_refl; reflexivity|].
  destruct (str_eqb k k') eqn:E; [apply str_eqb_eq in E; congruence|auto].
Qed.
Lemma lookup_nodup {B} (l : list (str * B)) k v : NoDup (map fst l) -> In (k, v) l -> lookup k l = Some v.
Proof.
  induction l as [|[k' v'] l IH]; cbn; intros ND H; [contradiction|]. inversion ND as [|? ? N1 N2]; subst. destruct H as [H|H].
  - injection H as -> ->. rewrite str_eqb_refl. reflexivity.
  - destruct (str_eqb k k') eqn:E; [|auto]. apply str_eqb_eq in E. subst. exfalso. apply N1. apply (in_map fst) in H. exact H.
Qed.

(** ** Running a script *)
Lemma add_files now l : forall acc, (forall f t, In (f, t) (fold_left (add_file now) l acc) -> In (f, t) acc \/ (In f l /\ t = now)) /\
  (forall f, In f (map fst acc) \/ In f l -> In f (map fst (fold_left (add_file now) l acc))).
Proof.
  induction l as [|x l IH]; intros acc; cbn [fold_left].
  - split; [auto|]. intros f [H|[]]. exact H.
  - destruct (IH (add_file now acc x)) as (I1 & I2).
    assert (A1 : forall f t, In (f, t) (add_file now acc x) -> In (f, t) acc \/ (f = x /\ t = now)).
    { intros f t. unfold add_file. destruct (existsb _ acc); [auto|]. intros H. apply in_app_or in H. destruct H as [H|[H|[]]]; [auto|]. injection H as <- <-. auto. }
    assert (A2 : forall f, In f (map fst acc) \/ f = x -> In f (map fst (add_file now acc x))).
    { intros f. unfold add_file. destruct (existsb (fun e : path * N => str_eqb (fst e) x) acc) eqn:E.
      - intros [H| ->]; [exact H|]. apply existsb_exists in E. destruct E as (e & He & E). apply str_eqb_eq in E. rewrite <- E. apply in_map. exact He.
      - rewrite map_app, in_app_iff. cbn. intros [H|H]; auto. }
    split.
    + intros f t H. destruct (I1 f t H) as [H1|(H1 & H2)]; [|cbn; auto]. destruct (A1 f t H1) as [H2|(H2 & H3)]; cbn; auto.
    + intros f [H|[H|H]]; apply I2; [left; apply A2; auto|left; apply A2; auto|auto].
Qed.
Lemma exec_ok w s now p : forall used, fst (exec w s now p used) = outcome w s p /\
  (forall f t, In (f, t) (snd (exec w s now p used)) -> In (f, t) used \/ (In f (imported w s p) /\ t = now)) /\
  (forall f, In f (map fst used) \/ In f (imported w s p) -> In f (map fst (snd (exec w s now p used)))).
Proof.
  induction p as [v|n k IH|f k IH]; intros used; cbn [exec outcome imported].
  - cbn. split; [reflexivity|]. split; [auto|]. intros f [H|[]]. exact H.
  - destruct (IH (map (content w) (bound s n)) (fold_left (add_file now) (bound s n) used)) as (E & I1 & I2).
    destruct (add_files now (bound s n) used) as (A1 & A2).
    split; [exact E|]. split.
    + intros f t H. destruct (I1 f t H) as [H1|(H1 & H2)]; [|right; split; [apply in_or_app; right; exact H1|exact H2]].
      destruct (A1 f t H1) as [H2|(H2 & H3)]; [auto|right; split; [apply in_or_app; left; exact H2|exact H3]].
    + intros f H. apply I2. rewrite in_app_iff in H. destruct H as [H|[H|H]]; [left; apply A2; auto|left; apply A2; auto|right; exact H].
  - apply IH.
Qed.
Lemma same_outcome w0 w s p :
  (forall f, In f (imported w0 s p) \/ In f (looked w0 s p) -> option_map data (w0 f) = option_map data (w f)) ->
  outcome w s p = outcome w0 s p.
Proof.
  induction p as [v|n k IH|f k IH]; cbn [outcome imported looked]; intros H.
  - reflexivity.
  - assert (E : map (fun f => option_map data (w0 f)) (bound s n) = map (fun f => option_map data (w f)) (bound s n)).
    { apply map_ext_in. intros f Hf. apply H. left. apply in_or_app. auto. }
    rewrite <- E. apply IH. intros f Hf. apply H. rewrite in_app_iff. destruct Hf; auto.
  - rewrite <- (H f); [|right; left; reflexivity]. apply IH. intros g Hg. apply H. destruct Hg as [Hg|Hg]; [auto|right; right; exact Hg].
Qed.

(** ** Stored results *)
Section Main.
  Context (meaning : str -> props -> prog).
  (** The probe has the results of running the script of [a] in a run [g0]. *)
  Record fits (g0 : generation) (a : item) (p : probe) : Prop := {
    ft_cond : p_cond p = i_cond a; ft_init : p_init p = i_init a; ft_script : p_script p = i_script a; ft_id : i_product a = None -> p_id p = i_id a;
    ft_values : p_values p = wanted meaning (g_world g0) a;
    ft_times : forall f t, In (f, t) (p_imports p) -> t = g_now g0 /\ i_cond a = true /\ In f (imported (g_world g0) (i_scope a) (script_of meaning a));
    ft_files : i_cond a = true -> forall f, In f (imported (g_world g0) (i_scope a) (script_of meaning a)) -> In (f, g_now g0) (p_imports p) }.
  Lemma run_fits g i : fits g i (run_probe meaning (g_world g) (g_now g) i).
  Proof.
    unfold run_probe. destruct (i_cond i) eqn:C.
    - destruct (exec_ok (g_world g) (i_scope i) (g_now g) (meaning (i_script i) (i_init i)) []) as (E1 & E2 & E3).
      destruct (exec (g_world g) (i_scope i) (g_now g) (meaning (i_script i) (i_init i)) []) as [f used]. cbn [fst snd] in *.
      constructor; cbn; auto.
      + unfold wanted. rewrite C, E1. reflexivity.
      + intros x t H. destruct (E2 x t H) as [[]|(H1 & H2)]. auto.
      + intros _ x H. assert (X : In x (map fst used)) by (apply E3; auto). apply in_map_iff in X. destruct X as ([x' t] & Ex & Hx). cbn in Ex. subst x'.
        destruct (E2 x t Hx) as [[]|(_ & ->)]. exact Hx.
    - constructor; cbn; auto; [unfold wanted; rewrite C; reflexivity|intros f t []|congruence].
  Qed.
  Lemma fits_effective g i p r : well_formed i -> fits g i p -> effective {| of := i; from := p; ran := r |} = wanted meaning (g_world g) i.
  Proof.
    intros WF [_ _ _ _ V _ _]. unfold effective. cbn. rewrite V. unfold wanted in *. destruct (i_cond i).
    - apply map_ext_in. intros e He. f_equal.
      rewrite (lookup_map (outcome (g_world g) (i_scope i) (script_of meaning i)) (i_init i) (fst e) (in_map fst _ _ He)). reflexivity.
    - rewrite <- (map_id (i_init i)) at 2. apply map_ext_in. intros [k v] He. cbn. rewrite (lookup_nodup _ k v WF He). reflexivity.
  Qed.
  Lemma matches_spec w c i p : probe_matches w c i p = true <->
    p_cond p = i_cond i /\ p_init p = i_init i /\
    (c = true -> p_script p = i_script i /\ forall f t, In (f, t) (p_imports p) -> exists x, w f = Some x /\ mtime x <= t).
  Proof.
    unfold probe_matches. rewrite !andb_true_iff, Bool.eqb_true_iff, props_eqb_spec.
    assert (X : needs_reconfigure w p = false <-> forall f t, In (f, t) (p_imports p) -> exists x, w f = Some x /\ mtime x <= t).
    { unfold needs_reconfigure. split.
      - intros H f t Hf. destruct (w f) as [x|] eqn:E.
        + exists x. split; [reflexivity|]. destruct (t <? mtime x) eqn:L; [|apply N.ltb_ge; exact L]. exfalso.
          assert (C : existsb (fun e : path * N => match w (fst e) with None => true | Some i => snd e <? mtime i end) (p_imports p) = true); [|congruence].
          apply existsb_exists. exists (f, t). cbn. rewrite E. auto.
        + exfalso. assert (C : existsb (fun e : path * N => match w (fst e) with None => true | Some i => snd e <? mtime i end) (p_imports p) = true); [|congruence].
          apply existsb_exists. exists (f, t). cbn. rewrite E. auto.
      - intros H. apply not_true_is_false. intros C. apply existsb_exists in C. destruct C as ([f t] & Hf & C). destruct (H f t Hf) as (x & Ex & L).
        cbn in C. rewrite Ex in C. apply N.ltb_lt in C. lia. }
    destruct c; cbn [negb orb].
    - rewrite andb_true_iff, negb_true_iff, str_eqb_eq, X. split; [intros ((H1 & H2) & H3); auto|intros (H1 & H2 & H3); auto].
    - split; [intros ((H1 & H2) & _); repeat split; auto; discriminate|intros (H1 & H2 & _); auto].
  Qed.
  (** Where results of earlier runs come from. *)
  Definition stems (pre : list generation) (b : item) (p : probe) : Prop :=
    exists g0 g1, In g0 pre /\ In g1 pre /\ In b (g_items g1) /\ fits g0 b p.
  Definition valid (pre : list generation) (st : store) : Prop :=
    (forall p, In p (in_project st) -> exists b, i_product b = None /\ stems pre b p) /\
    (forall n l p, lookup n (in_product st) = Some l -> In p l -> exists b, i_product b = Some n /\ stems pre b p).
  Definition ordered (pre : list generation) (g : generation) : Prop :=
    forall g0, In g0 pre -> clock_ok g0 g /\ same_imports (g_items g0) (g_items g) /\ calm meaning g0 g.
  Lemma outcome_kept g0 g b p : (forall f, In f (looked (g_world g0) (i_scope b) (script_of meaning b)) -> i_cond b = true -> option_map data (g_world g0 f) = option_map data (g_world g f)) ->
    clock_ok g0 g -> fits g0 b p -> (forall f t, In (f, t) (p_imports p) -> exists x, g_world g f = Some x /\ mtime x <= t) ->
    wanted meaning (g_world g) b = wanted meaning (g_world g0) b.
  Proof.
    intros CL CK F R. unfold wanted. destruct (i_cond b) eqn:C; [|reflexivity].
    rewrite (same_outcome (g_world g0) (g_world g)); [reflexivity|]. intros f [Hf|Hf]; [|auto].
    pose proof (ft_files _ _ _ F C f Hf) as U. destruct (R f _ U) as (x & Ex & L). rewrite Ex. exact (CK f x Ex L).
  Qed.
  (** An old result that is used has the right values. *)
  Lemma old_ok pre g old force i p : valid pre old -> ordered pre g -> In i (g_items g) -> find_old (g_world g) force old i = Some p ->
    exists g0, In g0 pre /\ fits g0 i p /\ wanted meaning (g_world g) i = wanted meaning (g_world g0) i.
  Proof.
    intros (V1 & V2) O Hi F. unfold find_old in F. destruct force; [discriminate|].
    assert (X : exists b, i_product b = i_product i /\ (i_product b = None -> i_id b = i_id i /\ p_id p = i_id i) /\ stems pre b p /\ probe_matches (g_world g) true i p = true).
    { destruct (i_product i) as [n|] eqn:P.
      - destruct (lookup n (in_product old)) as [l|] eqn:L; [|discriminate]. apply find_some in F. destruct F as (F1 & F2).
        destruct (V2 n l p L F1) as (b & Pb & St). exists b. split; [exact Pb|]. split; [congruence|]. auto.
      - apply find_some in F. destruct F as (F1 & F2). apply andb_true_iff in F2. destruct F2 as (F2 & F3). apply str_eqb_eq in F2.
        destruct (V1 p F1) as (b & Pb & St). exists b. split; [exact Pb|]. split; [|split; [exact St|exact F3]]. intros _.
        destruct St as (g0 & g1 & _ & _ & _ & Ft). rewrite <- (ft_id _ _ _ Ft Pb). auto. }
    destruct X as (b & Pb & Ib & (g0 & g1 & H0 & H1 & Hb & Ft) & M). apply matches_spec in M. destruct M as (M1 & M2 & M3). destruct (M3 eq_refl) as (M4 & M5).
    assert (Cb : i_cond b = i_cond i) by (rewrite <- (ft_cond _ _ _ Ft); exact M1).
    assert (Nb : i_init b = i_init i) by (rewrite <- (ft_init _ _ _ Ft); exact M2).
    assert (Sb : i_script b = i_script i) by (rewrite <- (ft_script _ _ _ Ft); exact M4).
    assert (Sc : i_scope b = i_scope i).
    { apply (proj1 (proj2 (O g1 H1)) b i Hb Hi Pb); [intros Pn; apply (Ib Pn)|exact Sb|exact Nb]. }
    assert (Sm : script_of meaning b = script_of meaning i) by (unfold script_of; rewrite Sb, Nb; reflexivity).
    assert (Wb : forall w, wanted meaning w b = wanted meaning w i) by (intros w; unfold wanted; rewrite Cb, Nb, Sm, Sc; reflexivity).
    exists g0. split; [exact H0|]. split.
    - destruct Ft as [T1 T2 T3 T4 T5 T6 T7]. rewrite Wb in T5. rewrite Cb, Sc, Sm in T6, T7. constructor; auto; try congruence.
      intros Pn. rewrite <- Pb in Pn. apply (Ib Pn).
    - rewrite <- !Wb. apply (outcome_kept g0 g b p); [|apply (O g0 H0)|exact Ft|exact M5].
      intros f Hf C. apply (proj2 (proj2 (O g0 H0)) i f); [right; exact Hi|congruence|]. rewrite <- Sc, <- Sm. exact Hf.
  Qed.
  (** Results of the present run. *)
  Definition cur_ok (g : generation) (cur : list probe) : Prop :=
    forall p, In p cur -> exists a, In a (g_items g) /\ p = run_probe meaning (g_world g) (g_now g) a.
  Lemma current_ok g cur i p : same_place (g_items g) -> cur_ok g cur -> In i (g_items g) -> find_current (g_world g) cur i = Some p -> fits g i p.
  Proof.
    intros SP CO Hi F. apply find_some in F. destruct F as (F1 & F2). apply andb_true_iff in F2. destruct F2 as (F2 & F3). apply str_eqb_eq in F2.
    apply matches_spec in F3. destruct F3 as (M1 & M2 & _). destruct (CO p F1) as (a & Ha & E). pose proof (run_fits g a) as Ft. rewrite <- E in Ft.
    assert (La : i_loc a = i_loc i).
    { rewrite <- F2, E. unfold run_probe. destruct (if i_cond a then _ else _). reflexivity. }
    assert (Ia : p_id p = i_id a). { rewrite E. unfold run_probe. destruct (if i_cond a then _ else _). reflexivity. }
    destruct (SP a i Ha Hi La) as (S1 & S2 & S3). destruct Ft as [T1 T2 T3 T4 T5 T6 T7].
    assert (Cb : i_cond a = i_cond i) by congruence. assert (Nb : i_init a = i_init i) by congruence.
    assert (Sm : script_of meaning a = script_of meaning i) by (unfold script_of; rewrite S1, Nb; reflexivity).
    assert (Wb : wanted meaning (g_world g) a = wanted meaning (g_world g) i) by (unfold wanted; rewrite Cb, Nb, Sm, S2; reflexivity).
    rewrite Wb in T5. rewrite Cb, S2, Sm in T6, T7. constructor; auto; congruence.
  Qed.
  (** What holds for the results of a run. *)
  Definition good (pre : list generation) (g : generation) (r : result) : Prop :=
    In (of r) (g_items g) /\ (exists g0, (In g0 pre \/ g0 = g) /\ fits g0 (of r) (from r)) /\
    (well_formed (of r) -> effective r = wanted meaning (g_world g) (of r)).
  Lemma resolve_all_ok pre g old : valid pre old -> ordered pre g -> same_place (g_items g) ->
    forall items cur, (forall i, In i items -> In i (g_items g)) -> cur_ok g cur ->
    forall r, In r (resolve_all meaning (g_world g) (g_now g) (g_force g) old cur items) -> good pre g r.
  Proof.
    intros V O SP. induction items as [|i items IH]; intros cur Sub CO r Hr; [contradiction|]. cbn [resolve_all] in Hr.
    pose proof (Sub i (or_introl eq_refl)) as Hi. assert (Sub' : forall j, In j items -> In j (g_items g)) by (intros j Hj; apply Sub; right; exact Hj).
    unfold resolve_probe in Hr. destruct (find_old (g_world g) (g_force g) old i) as [p|] eqn:E1.
    - destruct Hr as [<-|Hr]; [|exact (IH cur Sub' CO r Hr)]. destruct (old_ok pre g old _ i p V O Hi E1) as (g0 & H0 & Ft & W).
      split; [exact Hi|]. cbn. split; [exists g0; auto|]. intros WF. rewrite W. apply fits_effective; assumption.
    - destruct (find_current (g_world g) cur i) as [p|] eqn:E2.
      + destruct Hr as [<-|Hr]; [|exact (IH cur Sub' CO r Hr)]. pose proof (current_ok g cur i p SP CO Hi E2) as Ft.
        split; [exact Hi|]. cbn. split; [exists g; auto|]. intros WF. apply fits_effective; assumption.
      + destruct Hr as [<-|Hr].
        * pose proof (run_fits g i) as Ft. split; [exact Hi|]. cbn [of from]. split; [exists g; auto|]. intros WF. apply fits_effective; assumption.
        * apply (IH (cur ++ [run_probe meaning (g_world g) (g_now g) i]) Sub'); [|exact Hr].
          intros p Hp. apply in_app_or in Hp. destruct Hp as [Hp|[<-|[]]]; [auto|]. exists i. auto.
  Qed.
  (** What is stored. *)
  Lemma store_spec rs : forall st,
    (forall p, In p (in_project (fold_left add_result rs st)) <-> In p (in_project st) \/ exists r, In r rs /\ i_product (of r) = None /\ from r = p) /\
    (forall n p, (exists l, lookup n (in_product (fold_left add_result rs st)) = Some l /\ In p l) <->
       (exists l, lookup n (in_product st) = Some l /\ In p l) \/ exists r, In r rs /\ i_product (of r) = Some n /\ from r = p).
  Proof.
    induction rs as [|r rs IH]; intros st; cbn [fold_left].
    - split; intros; (split; [auto|intros [H|(r & [] & _)]; exact H]).
    - destruct (IH (add_result st r)) as (I1 & I2). split.
      + intros p. rewrite I1. unfold add_result. destruct (i_product (of r)) as [n|] eqn:P; cbn [in_project].
        * split; (intros [H|(x & H1 & H2 & H3)]; [auto|]); right; exists x; cbn; [auto|]. destruct H1 as [<-|H1]; [congruence|auto].
        * rewrite in_app_iff. cbn. split.
          -- intros [[H|[H|[]]]|(x & H1 & H2 & H3)]; [auto|right; exists r; auto|right; exists x; auto].
          -- intros [H|(x & [<-|H1] & H2 & H3)]; [auto|auto|right; exists x; auto].
      + intros n p. rewrite I2. unfold add_result. destruct (i_product (of r)) as [m|] eqn:P; cbn [in_product].
        * assert (K : (exists l, lookup n (match lookup m (in_product st) with
              | None => in_product st ++ [(m, [from r])]
              | Some _ => map (fun e => if str_eqb (fst e) m then (m, snd e ++ [from r]) else e) (in_product st) end) = Some l /\ In p l) <->
              (exists l, lookup n (in_product st) = Some l /\ In p l) \/ (n = m /\ from r = p)).
          { generalize (in_product st) as L. intros L. clear.
            assert (A1 : lookup m L = None -> forall v, lookup n (L ++ [(m, v)]) = match lookup n L with Some l => Some l | None => if str_eqb n m then Some v else None end).
            { intros _ v. induction L as [|[k l] L IH]; cbn; [destruct (str_eqb n m); reflexivity|]. destruct (str_eqb n k); [reflexivity|exact IH]. }
            assert (A2 : lookup n (map (fun e : str * list probe => if str_eqb (fst e) m then (m, snd e ++ [from r]) else e) L) =
              match lookup n L with Some l => Some (if str_eqb n m then l ++ [from r] else l) | None => None end).
            { clear A1. induction L as [|[k l] L IH]; cbn; [reflexivity|]. destruct (str_eqb k m) eqn:E; cbn.
              - apply str_eqb_eq in E. subst k. destruct (str_eqb n m) eqn:E2; [reflexivity|exact IH].
              - destruct (str_eqb n k) eqn:E2; [|exact IH]. apply str_eqb_eq in E2. subst k. rewrite E. reflexivity. }
            destruct (lookup m L) as [lm|] eqn:Lm.
            - rewrite A2. destruct (str_eqb n m) eqn:E.
              + apply str_eqb_eq in E. subst n. rewrite Lm. split.
                * intros (l & H & Hp). injection H as <-. apply in_app_or in Hp. destruct Hp as [Hp|[Hp|[]]]; [left; eauto|auto].
                * intros [(l & H & Hp)|(_ & H)]; (eexists; split; [reflexivity|]); apply in_or_app; cbn; [left; congruence|auto].
              + apply str_eqb_neq in E. destruct (lookup n L) as [l|]; split.
                * intros H. left. exact H.
                * intros [H|(H & _)]; [exact H|contradiction].
                * intros H. left. exact H.
                * intros [H|(H & _)]; [exact H|contradiction].
            - rewrite (A1 eq_refl). destruct (str_eqb n m) eqn:E.
              + apply str_eqb_eq in E. subst n. rewrite Lm. split.
                * intros (l & H & Hp). injection H as <-. destruct Hp as [Hp|[]]. auto.
                * intros [(l & H & Hp)|(_ & H)]; [discriminate|]. eexists. split; [reflexivity|]. left. exact H.
              + apply str_eqb_neq in E. destruct (lookup n L) as [l|]; split.
                * intros H. left. exact H.
                * intros [H|(H & _)]; [exact H|contradiction].
                * intros H. left. exact H.
                * intros [H|(H & _)]; [exact H|contradiction]. }
          rewrite K. split.
          -- intros [[H|(-> & H)]|(x & H1 & H2 & H3)]; [auto|right; exists r; cbn; auto|right; exists x; cbn; auto].
          -- intros [H|(x & [<-|H1] & H2 & H3)]; [auto| |right; exists x; auto]. left. right. split; congruence.
        * split; (intros [H|(x & H1 & H2 & H3)]; [auto|]); right; exists x; cbn; [auto|]. destruct H1 as [<-|H1]; [congruence|auto].
  Qed.
  Lemma store_valid pre g rs : (forall r, In r rs -> good pre g r) -> valid (pre ++ [g]) (store_of rs).
  Proof.
    intros G. destruct (store_spec rs {| in_project := []; in_product := [] |}) as (S1 & S2).
    assert (K : forall r, In r rs -> stems (pre ++ [g]) (of r) (from r)).
    { intros r Hr. destruct (G r Hr) as (G1 & (g0 & G2 & G3) & _). exists g0, g. split; [|split; [|split; [exact G1|exact G3]]].
      - apply in_or_app. cbn. destruct G2; auto.
      - apply in_or_app. cbn. auto. }
    split.
    - intros p Hp. apply S1 in Hp. destruct Hp as [[]|(r & Hr & P & <-)]. exists (of r). auto.
    - intros n l p Hl Hp. destruct (proj1 (S2 n p)) as [(l' & C & _)|(r & Hr & P & <-)]; [exists l; auto|discriminate C|]. exists (of r). auto.
  Qed.
  Lemma generations_ok gs : forall pre old, valid pre old ->
    (forall g1 g g2, gs = g1 ++ g :: g2 -> same_place (g_items g) /\ ordered (pre ++ g1) g) ->
    forall g rs r, In (g, rs) (generations meaning old gs) -> In r rs ->
      In g gs /\ In (of r) (g_items g) /\ (well_formed (of r) -> effective r = wanted meaning (g_world g) (of r)).
  Proof.
    induction gs as [|h gs IH]; intros pre old V H g rs r Hg Hr; [contradiction|]. cbn [generations] in Hg.
    destruct (H [] h gs eq_refl) as (SP & O). rewrite app_nil_r in O.
    assert (G : forall r, In r (resolve_gen meaning old h) -> good pre h r).
    { apply resolve_all_ok; auto. intros p []. }
    destruct Hg as [Hg|Hg].
    - injection Hg as <- <-. destruct (G r Hr) as (G1 & _ & G3). split; [left; reflexivity|]. auto.
    - destruct (IH (pre ++ [h]) (store_of (resolve_gen meaning old h)) (store_valid pre h _ G)) with (g := g) (rs := rs) (r := r) as (X1 & X2); auto.
      + intros g1 g' g2 E. rewrite <- app_assoc. cbn. apply (H (h :: g1) g' g2). rewrite E. reflexivity.
      + split; [right; exact X1|exact X2].
  Qed.
End Main.

Definition nothing : store := {| in_project := []; in_product := [] |}.
(** ** C78: each time a project is resolved, probes have the values that running their scripts would give *)
Theorem probes_fresh meaning gs :
  (forall g, In g gs -> same_place (g_items g)) ->
  (forall g1 g0 g2 g g3, gs = g1 ++ g0 :: g2 ++ g :: g3 -> clock_ok g0 g /\ same_imports (g_items g0) (g_items g) /\ calm meaning g0 g) ->
  forall g rs r, In (g, rs) (generations meaning nothing gs) -> In r rs ->
    In (of r) (g_items g) /\ (well_formed (of r) -> effective r = wanted meaning (g_world g) (of r)).
Proof.
  intros SP H g rs r Hg Hr.
  apply (generations_ok meaning gs [] nothing) with (rs := rs); auto.
  - split; [intros p []|intros n l p C; discriminate].
  - intros g1 h g3 E. split; [apply SP; rewrite E; apply in_or_app; right; left; reflexivity|].
    intros g0 H0. cbn in H0. apply in_split in H0. destruct H0 as (l1 & l2 & ->). apply (H l1 g0 l2 h g3). rewrite E, <- app_assoc. reflexivity.
Qed.
Lemma all_items meaning w now force old : forall items cur, map of (resolve_all meaning w now force old cur items) = items.
Proof.
  induction items as [|i items IH]; intros cur; [reflexivity|]. cbn [resolve_all]. destruct (resolve_probe meaning w now force old cur i) as [[p cur'] b].
  cbn. rewrite IH. reflexivity.
Qed.
(** There is a result for each item, in their order. *)
Theorem probes_all meaning gs g rs : In (g, rs) (generations meaning nothing gs) -> map of rs = g_items g.
Proof.
  generalize nothing. induction gs as [|h gs IH]; intros old H; [contradiction|]. destruct H as [H|H]; [|exact (IH _ H)]. injection H as <- <-. apply all_items.
Qed.
(** If running probes is forced, nothing that was stored matters. *)
Theorem probes_forced meaning old g r : same_place (g_items g) -> g_force g = true -> In r (resolve_gen meaning old g) -> well_formed (of r) ->
  effective r = wanted meaning (g_world g) (of r).
Proof.
  intros SP F Hr WF. unfold resolve_gen in Hr. rewrite F in Hr.
  assert (E : forall items cur, resolve_all meaning (g_world g) (g_now g) true old cur items = resolve_all meaning (g_world g) (g_now g) true nothing cur items).
  { induction items as [|i items IH]; intros cur; [reflexivity|]. cbn [resolve_all]. unfold resolve_probe. cbn [find_old].
    destruct (find_current (g_world g) cur i); cbv zeta; rewrite IH; reflexivity. }
  rewrite E, <- F in Hr. apply (resolve_all_ok meaning [] g nothing) in Hr; auto.
  - apply Hr. exact WF.
  - split; [intros p []|intros n l p C; discriminate].
  - intros g0 [].
  - intros p [].
Qed.

(** ** C79: no script is run without need *)
Lemma run_fields meaning w now i : p_loc (run_probe meaning w now i) = i_loc i /\ p_cond (run_probe meaning w now i) = i_cond i /\
  p_init (run_probe meaning w now i) = i_init i /\ p_script (run_probe meaning w now i) = i_script i /\ p_id (run_probe meaning w now i) = i_id i.
Proof. unfold run_probe. destruct (if i_cond i then _ else _). cbn. auto. Qed.
(** In a run, the script of an item with the same values is run once, and never for a disabled one. *)
Theorem probes_once meaning old g :
  NoDup (map (fun r => (i_loc (of r), i_init (of r))) (filter ran (resolve_gen meaning old g))) /\
  forall r, In r (resolve_gen meaning old g) -> ran r = true -> i_cond (of r) = true.
Proof.
  assert (K : forall items cur, let rs := resolve_all meaning (g_world g) (g_now g) (g_force g) old cur items in
    NoDup (map (fun r => (i_loc (of r), i_init (of r))) (filter ran rs)) /\
    forall r, In r rs -> ran r = true -> i_cond (of r) = true /\ forall p, In p cur -> p_loc p = i_loc (of r) -> p_init p = i_init (of r) -> p_cond p = true -> False).
  { induction items as [|i items IH]; intros cur; cbn [resolve_all].
    - split; [constructor|intros r []].
    - unfold resolve_probe. destruct (find_old (g_world g) (g_force g) old i) as [p|].
      + destruct (IH cur) as (I1 & I2). cbv zeta. cbn [filter ran]. split; [exact I1|]. intros r [<-|Hr] R; [discriminate R|]. auto.
      + destruct (find_current (g_world g) cur i) as [p|] eqn:E.
        * destruct (IH cur) as (I1 & I2). cbv zeta. cbn [filter ran]. split; [exact I1|]. intros r [<-|Hr] R; [discriminate R|]. auto.
        * set (q := run_probe meaning (g_world g) (g_now g) i) in *. destruct (run_fields meaning (g_world g) (g_now g) i) as (R1 & R2 & R3 & _). fold q in R1, R2, R3.
          destruct (IH (cur ++ [q])) as (I1 & I2). cbv zeta.
          assert (D : forall r, In r (resolve_all meaning (g_world g) (g_now g) (g_force g) old (cur ++ [q]) items) -> ran r = true ->
            i_cond (of r) = true /\ forall p, In p cur -> p_loc p = i_loc (of r) -> p_init p = i_init (of r) -> p_cond p = true -> False).
          { intros r Hr R. destruct (I2 r Hr R) as (J1 & J2). split; [exact J1|]. intros p Hp. apply J2. apply in_or_app. auto. }
          cbn [filter ran]. destruct (i_cond i) eqn:C.
          -- split.
             ++ cbn [map of]. constructor; [|exact I1]. intros H. apply in_map_iff in H. destruct H as (r & Er & Hr). apply filter_In in Hr. destruct Hr as (Hr & R).
                injection Er as E1 E2. destruct (I2 r Hr R) as (_ & J). apply (J q); [apply in_or_app; right; left; reflexivity| | |]; congruence.
             ++ intros r [<-|Hr] R; [|auto]. cbn [of]. split; [exact C|]. intros p Hp L1 L2 L3. unfold find_current in E. apply (find_none _ _ E) in Hp.
                rewrite L1, str_eqb_refl in Hp. cbn [andb] in Hp. rewrite (proj2 (matches_spec _ _ _ _)) in Hp; [discriminate|].
                split; [congruence|]. split; [exact L2|discriminate].
          -- split; [exact I1|]. intros r [<-|Hr] R; [discriminate R|auto]. }
  destruct (K (g_items g) []) as (K1 & K2). split; [exact K1|]. intros r Hr R. apply (K2 r Hr R).
Qed.
(** What a result looks like. *)
Lemma result_like meaning old g : same_place (g_items g) -> forall r, In r (resolve_gen meaning old g) ->
  p_cond (from r) = i_cond (of r) /\ p_init (from r) = i_init (of r) /\ p_script (from r) = i_script (of r) /\
  (i_product (of r) = None -> p_id (from r) = i_id (of r)).
Proof.
  intros SP. unfold resolve_gen.
  assert (K : forall items cur, (forall i, In i items -> In i (g_items g)) ->
    (forall p, In p cur -> exists a, In a (g_items g) /\ p = run_probe meaning (g_world g) (g_now g) a) ->
    forall r, In r (resolve_all meaning (g_world g) (g_now g) (g_force g) old cur items) ->
    p_cond (from r) = i_cond (of r) /\ p_init (from r) = i_init (of r) /\ p_script (from r) = i_script (of r) /\
    (i_product (of r) = None -> p_id (from r) = i_id (of r))).
  { induction items as [|i items IH]; intros cur Sub CO r Hr; [contradiction|]. cbn [resolve_all] in Hr.
    pose proof (Sub i (or_introl eq_refl)) as Hi. assert (Sub' : forall j, In j items -> In j (g_items g)) by (intros j Hj; apply Sub; right; exact Hj).
    unfold resolve_probe in Hr. destruct (find_old (g_world g) (g_force g) old i) as [p|] eqn:E1.
    - destruct Hr as [<-|Hr]; [|exact (IH cur Sub' CO r Hr)]. cbn [of from]. unfold find_old in E1. destruct (g_force g); [discriminate|].
      destruct (i_product i) as [n|].
      + destruct (lookup n (in_product old)); [|discriminate]. apply find_some in E1. destruct E1 as (_ & E1). apply matches_spec in E1.
        destruct E1 as (M1 & M2 & M3). destruct (M3 eq_refl). repeat split; auto. discriminate.
      + apply find_some in E1. destruct E1 as (_ & E1). apply andb_true_iff in E1. destruct E1 as (E0 & E1). apply str_eqb_eq in E0. apply matches_spec in E1.
        destruct E1 as (M1 & M2 & M3). destruct (M3 eq_refl). repeat split; auto.
    - destruct (find_current (g_world g) cur i) as [p|] eqn:E2.
      + destruct Hr as [<-|Hr]; [|exact (IH cur Sub' CO r Hr)]. cbn [of from]. apply find_some in E2. destruct E2 as (F1 & F2).
        apply andb_true_iff in F2. destruct F2 as (F2 & F3). apply str_eqb_eq in F2. apply matches_spec in F3. destruct F3 as (M1 & M2 & _).
        destruct (CO p F1) as (a & Ha & ->). destruct (run_fields meaning (g_world g) (g_now g) a) as (R1 & R2 & R3 & R4 & R5).
        destruct (SP a i Ha Hi) as (S1 & S2 & S3); [congruence|]. repeat split; congruence.
      + destruct Hr as [<-|Hr].
        * cbn [of from]. destruct (run_fields meaning (g_world g) (g_now g) i) as (R1 & R2 & R3 & R4 & R5). auto.
        * apply (IH (cur ++ [run_probe meaning (g_world g) (g_now g) i]) Sub'); [|exact Hr].
          intros p Hp. apply in_app_or in Hp. destruct Hp as [Hp|[<-|[]]]; [auto|]. exists i. auto. }
  apply K; [auto|intros p []].
Qed.
(** If a project is resolved again, items that were there before are not run again unless a file they imported is newer, or it is forced. *)
Theorem probes_idle meaning old g g' i : same_place (g_items g) -> g_force g' = false -> In i (g_items g) ->
  (forall r f t, In r (resolve_gen meaning old g) -> In (f, t) (p_imports (from r)) -> exists x, g_world g' f = Some x /\ mtime x <= t) ->
  forall r, In r (resolve_gen meaning (store_of (resolve_gen meaning old g)) g') -> of r = i -> ran r = false.
Proof.
  intros SP F Hi U. set (rs := resolve_gen meaning old g) in *.
  assert (X : exists r0, In r0 rs /\ of r0 = i).
  { assert (In i (map of rs)) as H by (unfold rs, resolve_gen; rewrite all_items; exact Hi). apply in_map_iff in H. destruct H as (r0 & E & H). exists r0. auto. }
  destruct X as (r0 & H0 & E0). destruct (result_like meaning old g SP r0 H0) as (L1 & L2 & L3 & L4). rewrite E0 in *.
  assert (M : probe_matches (g_world g') true i (from r0) = true).
  { apply matches_spec. split; [exact L1|]. split; [exact L2|]. intros _. split; [exact L3|]. intros f t. apply (U r0 f t H0). }
  destruct (store_spec rs nothing) as (S1 & S2). change (fold_left add_result rs nothing) with (store_of rs) in S1, S2.
  assert (FO : find_old (g_world g') false (store_of rs) i <> None).
  { unfold find_old. destruct (i_product i) as [n|] eqn:P.
    - destruct (proj2 (S2 n (from r0))) as (l & Hl & Hp); [right; exists r0; rewrite E0; auto|]. rewrite Hl. intros C. apply (find_none _ _ C) in Hp. congruence.
    - pose proof (proj2 (S1 (from r0)) (or_intror (ex_intro _ r0 (conj H0 (conj (eq_trans (f_equal i_product E0) P) eq_refl))))) as Hp.
      intros C. apply (find_none _ _ C) in Hp. rewrite (L4 eq_refl), str_eqb_refl, M in Hp. discriminate. }
  intros r Hr Er. unfold resolve_gen in Hr. rewrite F in Hr. revert Hr. generalize ([] : list probe). induction (g_items g') as [|j items IH]; intros cur Hr; [contradiction|].
  cbn [resolve_all] in Hr. unfold resolve_probe in Hr. destruct (find_old (g_world g') false (store_of rs) j) as [p|] eqn:E1.
  - destruct Hr as [<-|Hr]; [reflexivity|exact (IH _ Hr)].
  - destruct (find_current (g_world g') cur j) as [p|].
    + destruct Hr as [<-|Hr]; [reflexivity|exact (IH _ Hr)].
    + destruct Hr as [<-|Hr]; [|exact (IH _ Hr)]. cbn [of] in Er. subst j. contradiction.
Qed.

(** ** Where results are not the right ones *)
Definition loop2 (meaning : str -> props -> prog) (g g' : generation) : list result := resolve_gen meaning (store_of (resolve_gen meaning nothing g)) g'.
Definition some_item (prod loc : str) (s : scope) : item :=
  {| i_product := Some prod; i_id := [7]; i_loc := loc; i_cond := true; i_init := [([1], [])]; i_script := [5]; i_scope := s |}.
Definition show (l : list (option str)) : str := match l with Some d :: _ => d | _ => [] end.
Definition a_world (d : str) (t : N) : world := fun f => if str_eqb f [2] then Some {| mtime := t; data := d |} else if str_eqb f [3] then Some {| mtime := 1; data := [33] |} else None.
(** Other files that a script looks at are not compared: the old result is used although the file has changed, be it newer or not. *)
Theorem probes_world_refuted : exists meaning g g' r,
  same_place (g_items g) /\ g_items g = g_items g' /\ clock_ok g g' /\ same_imports (g_items g) (g_items g') /\ g_force g' = false /\
  In r (loop2 meaning g g') /\ well_formed (of r) /\ effective r <> wanted meaning (g_world g') (of r).
Proof.
  exists (fun _ _ => Look [2] (fun d => Done (fun _ => show [d]))).
  exists {| g_world := a_world [20] 3; g_now := 4; g_force := false; g_items := [some_item [9] [8] []] |}.
  exists {| g_world := a_world [21] 6; g_now := 7; g_force := false; g_items := [some_item [9] [8] []] |}.
  eexists. split; [|split; [reflexivity|split; [|split; [|split; [reflexivity|split; [left; reflexivity|split]]]]]].
  - intros a b [<-|[]] [<-|[]] _. auto.
  - intros f i. cbn. unfold a_world. destruct (str_eqb f [2]) eqn:E; [intros H L; injection H as <-; cbn in L; lia|].
    destruct (str_eqb f [3]); [intros H _; injection H as <-; reflexivity|discriminate].
  - intros a b [<-|[]] [<-|[]]. auto.
  - vm_compute. repeat constructor. intros [].
  - vm_compute. discriminate.
Qed.
(** The import statements of the file are not compared: if a name stands for another file, the old result is used. *)
Theorem probes_import_refuted : exists meaning g g' r,
  same_place (g_items g) /\ same_place (g_items g') /\ g_world g = g_world g' /\ calm meaning g g' /\
  map i_loc (g_items g) = map i_loc (g_items g') /\ map i_id (g_items g) = map i_id (g_items g') /\ g_force g' = false /\
  In r (loop2 meaning g g') /\ well_formed (of r) /\ effective r <> wanted meaning (g_world g') (of r).
Proof.
  exists (fun _ _ => Import [1] (fun l => Done (fun _ => show l))).
  exists {| g_world := a_world [20] 3; g_now := 4; g_force := false; g_items := [some_item [9] [8] [([1], [[2]])]] |}.
  exists {| g_world := a_world [20] 3; g_now := 7; g_force := false; g_items := [some_item [9] [8] [([1], [[3]])]] |}.
  eexists. split; [|split; [|split; [reflexivity|split; [|split; [reflexivity|split; [reflexivity|split; [reflexivity|split; [left; reflexivity|split]]]]]]]].
  - intros a b [<-|[]] [<-|[]] _. auto.
  - intros a b [<-|[]] [<-|[]] _. auto.
  - intros a f _ _ _. reflexivity.
  - vm_compute. repeat constructor. intros [].
  - vm_compute. discriminate.
Qed.
(** Old results of a product are not told apart by place or id: of two probes in different files with the same text, but different imports, one
    gets the values of the other when the project is resolved again, although nothing has changed. *)
Theorem probes_mixed_refuted : exists meaning g r,
  same_place (g_items g) /\ NoDup (map i_loc (g_items g)) /\ calm meaning g g /\ g_force g = false /\
  (forall x, In x (resolve_gen meaning nothing g) -> effective x = wanted meaning (g_world g) (of x)) /\
  In r (loop2 meaning g g) /\ well_formed (of r) /\ effective r <> wanted meaning (g_world g) (of r).
Proof.
  exists (fun _ _ => Import [1] (fun l => Done (fun _ => show l))).
  exists {| g_world := a_world [20] 3; g_now := 4; g_force := false; g_items := [some_item [9] [8] [([1], [[2]])]; some_item [9] [18] [([1], [[3]])]] |}.
  eexists. split; [|split; [|split; [|split; [reflexivity|split; [|split; [right; left; reflexivity|split]]]]]].
  - intros a b [<-|[<-|[]]] [<-|[<-|[]]] L; cbn in L; auto; discriminate.
  - cbn. repeat constructor; cbn; intuition discriminate.
  - intros a f _ _ _. reflexivity.
  - intros x [<-|[<-|[]]]; vm_compute; reflexivity.
  - vm_compute. repeat constructor. intros [].
  - vm_compute. discriminate.
Qed.

(** * Examples *)
Module Demo.
  Definition meaning : str -> props -> prog := fun _ ps => Import [1] (fun l => Done (fun k => k ++ show l)).
  Definition it prod loc := some_item prod loc [([1], [[2]])].
  Definition items := [it [9] [8]; it [10] [8]; some_item [10] [12] [([1], [[2]])]].
  Definition g1 := {| g_world := a_world [20] 3; g_now := 4; g_force := false; g_items := items |}.
  Definition g2 := {| g_world := a_world [20] 3; g_now := 5; g_force := false; g_items := items |}.
  Definition g3 := {| g_world := a_world [21] 6; g_now := 7; g_force := false; g_items := items |}.
  Example place : same_place items.
  Proof. intros a b [<-|[<-|[<-|[]]]] [<-|[<-|[<-|[]]]] L; cbn in L; auto; discriminate. Qed.
  Example pairs : forall a b, In (a, b) [(g1, g2); (g2, g3); (g1, g3)] -> clock_ok a b /\ same_imports (g_items a) (g_items b) /\ calm meaning a b.
  Proof.
    intros a b H.
    assert (E : g_items a = items /\ g_items b = items) by (destruct H as [H|[H|[H|[]]]]; injection H as <- <-; auto). destruct E as (Ea & Eb).
    split; [|split].
    - intros f i. destruct H as [H|[H|[H|[]]]]; injection H as <- <-; cbn; unfold a_world; (destruct (str_eqb f [2]); [intros H L; injection H as <-; cbn in *; try reflexivity; lia|]);
        (destruct (str_eqb f [3]); [intros H _; injection H as <-; reflexivity|discriminate]).
    - rewrite Ea, Eb. intros x y [<-|[<-|[<-|[]]]] [<-|[<-|[<-|[]]]] _ _ _ _; reflexivity.
    - rewrite <- Ea in *. intros x f _ _ L. cbn in L. contradiction.
  Qed.
  Example runs : map (fun e => map ran (snd e)) (generations meaning nothing [g1; g2; g3]) = [[true; false; true]; [false; false; false]; [true; false; true]].
  Proof. reflexivity. Qed.
  Example values : map (fun e => map effective (snd e)) (generations meaning nothing [g1; g2; g3])
    = [[[([1], [1; 20])]; [([1], [1; 20])]; [([1], [1; 20])]]; [[([1], [1; 20])]; [([1], [1; 20])]; [([1], [1; 20])]]; [[([1], [1; 21])]; [([1], [1; 21])]; [([1], [1; 21])]]].
  Proof. reflexivity. Qed.
End Demo.

Print Assumptions probes_fresh.
Print Assumptions probes_all.
Print Assumptions probes_forced.
Print Assumptions probes_once.
Print Assumptions probes_idle.
Print Assumptions probes_world_refuted.
Print Assumptions probes_import_refuted.
Print Assumptions probes_mixed_refuted.
