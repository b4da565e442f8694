(** Theorems about restoring a stored project: what is not resolved again would be the same if it were, and nothing is resolved again without
    a reason. *)
From Coq Require Import List Bool NArith Lia.
From Verif Require Import Str RestoreModel.
Import ListNotations.
Open Scope N_scope.

(** * Specification *)
(** The questions that the resolver asks. *)
Fixpoint asked (w : world) (pa : params) (p : prog) : list query :=
  match p with Ret _ _ _ _ => [] | Ask q k => q :: asked w pa (k (ask w pa q)) end.
(** What it comes up with. *)
Fixpoint outcome_of (w : world) (pa : params) (p : prog) : list product * list path * bool * str :=
  match p with Ret ps pv pb rest => (ps, pv, pb, rest) | Ask q k => outcome_of w pa (k (ask w pa q)) end.
Definition products_of (w : world) (pa : params) (p : prog) : list product := fst (fst (fst (outcome_of w pa p))).
Definition providers_of (w : world) (pa : params) (p : prog) : list path := snd (fst (fst (outcome_of w pa p))).
Definition probes_of (w : world) (pa : params) (p : prog) : bool := snd (fst (outcome_of w pa p)).
(** The questions whose answers are watched. *)
Definition watched (q : query) : Prop :=
  match q with Canonical _ | Content _ => False | Env v => v <> ld_preload | _ => True end.
(** If the stored parameters are to be used, then the project is resolved with them, also with the profiles as they were. *)
Definition params_now (pa0 pa : params) : params :=
  {| env := if override pa then env pa else env pa0;
     overridden := if override pa then overridden pa else overridden pa0;
     top_profile := match top_profile pa with [] => top_profile pa0 | p => p end;
     override := override pa; only_restore := only_restore pa; force_resolve := force_resolve pa; force_probes := force_probes pa |}.
Definition world_now (w0 w : world) (pa : params) : world :=
  {| file := file w; entries := entries w; canonical := canonical w; found := found w; found_in := found_in w;
     profile := if override pa then profile w else profile w0 |}.
(** When a file counts as older than the resolving: files of module providers were written while the project was resolved. *)
Definition reference (providers : list path) (start stop : N) (p : path) (t : N) : Prop :=
  (exists d rest, In d providers /\ p = d ++ rest) /\ t = stop \/ (forall d rest, In d providers -> p <> d ++ rest) /\ t = start.
(** A file that is older than the resolving still has the contents that the resolver saw. *)
Definition clock_ok (w0 w : world) (pa0 : params) (p : prog) (start stop : N) : Prop :=
  forall f i t, In (Read f) (asked w0 pa0 p) -> file w f = Some i -> reference (providers_of w0 pa0 p) start stop f t -> mtime i <= t ->
    exists i0, file w0 f = Some i0 /\ data i0 = data i.
Definition sources_stay (w0 w : world) (pa0 : params) (p : prog) : Prop :=
  forall pr f, In (Source pr f) (asked w0 pa0 p) -> file w0 f <> None -> file w f <> None.
(** Source files and wildcards belong to products that are there in the end. *)
Definition well_formed (w0 : world) (pa0 : params) (p : prog) : Prop :=
  (forall pr f, In (Source pr f) (asked w0 pa0 p) -> exists x, In x (products_of w0 pa0 p) /\ p_name x = pr) /\
  (forall pr s, In (Wildcards pr s) (asked w0 pa0 p) -> exists x, In x (products_of w0 pa0 p) /\ p_name x = pr).

(** * Proofs *)
Lemma is_none_spec {A} (o : option A) : negb (is_none o) = true <-> o <> None.
Proof. destruct o; cbn; split; congruence. Qed.
Lemma opt_eqb_spec a b : opt_eqb a b = true <-> a = b.
Proof.
  destruct a, b; cbn; try (split; congruence). rewrite str_eqb_eq. split; congruence.
Qed.
Lemma list_eqb_spec a : forall b, list_eqb a b = true <-> a = b.
Proof.
  induction a as [|x a IH]; destruct b as [|y b]; cbn; try (split; congruence).
  rewrite andb_true_iff, str_eqb_eq, IH. split; [intros [-> ->]; reflexivity|intros E; injection E; auto].
Qed.
Lemma mem_spec x l : mem x l = true <-> In x l.
Proof.
  unfold mem. rewrite existsb_exists. split.
  - intros (y & Hy & E). apply str_eqb_eq in E. subst. exact Hy.
  - intros H. exists x. split; [exact H|apply str_eqb_refl].
Qed.
Lemma lookup_None {A} k (m : list (str * A)) : ~ In k (List.map fst m) -> lookup k m = None.
Proof.
  induction m as [|[k' v] m IH]; cbn; intros H; [reflexivity|].
  destruct (str_eqb k k') eqn:E; [apply str_eqb_eq in E; subst; exfalso; auto|apply IH; auto].
Qed.
Lemma map_eqb_spec a b : map_eqb a b = true <-> forall k, lookup k a = lookup k b.
Proof.
  unfold map_eqb. rewrite forallb_forall. split.
  - intros H k. destruct (in_dec str_dec k (List.map fst a ++ List.map fst b)) as [I|I].
    + apply opt_eqb_spec. exact (H k I).
    + rewrite (lookup_None k a), (lookup_None k b); [reflexivity| |]; intros C; apply I; apply in_or_app; auto.
  - intros H k _. apply opt_eqb_spec. apply H.
Qed.
Lemma lookup_without k x m : k <> x -> lookup k (without x m) = lookup k m.
Proof.
  intros D. unfold without. induction m as [|[k' v] m IH]; cbn; [reflexivity|].
  destruct (str_eqb x k') eqn:E; cbn.
  - apply str_eqb_eq in E. subst k'. apply str_eqb_neq in D. rewrite D. exact IH.
  - destruct (str_eqb k k'); [reflexivity|exact IH].
Qed.
Lemma lookup_without_same x m : lookup x (without x m) = None.
Proof.
  unfold without. induction m as [|[k' v] m IH]; cbn; [reflexivity|].
  destruct (str_eqb x k') eqn:E; cbn; [exact IH|]. rewrite E. exact IH.
Qed.
Lemma put_keeps {A} (f : str -> A) k k' m : In (k', f k') m -> In (k', f k') (put k (f k) m).
Proof.
  induction m as [|[x v] m IH]; cbn; [tauto|].
  intros [E|H].
  - injection E as -> ->. destruct (str_eqb k k') eqn:E; cbn; [|auto].
    apply str_eqb_eq in E. subst. auto.
  - destruct (str_eqb k x); cbn; auto.
Qed.
Lemma put_In {A} k (v : A) m : In (k, v) (put k v m).
Proof. induction m as [|[x v'] m IH]; cbn; [auto|]. destruct (str_eqb k x); cbn; auto. Qed.
Lemma put_only {A} (f : str -> A) k m e : In e (put k (f k) m) -> In e m \/ e = (k, f k).
Proof.
  induction m as [|[x v] m IH]; cbn; [intros [<-|[]]; auto|].
  destruct (str_eqb k x); cbn; intros [<-|H]; auto. destruct (IH H); auto.
Qed.
Lemma put_entries_keeps (g : path -> N -> list str) p f p' f' m :
  In (p', f', g p' f') m -> In (p', f', g p' f') (put_entries p f (g p f) m).
Proof.
  induction m as [|[[x y] v] m IH]; cbn; [tauto|].
  intros [E|H].
  - injection E as -> -> ->. destruct (str_eqb p p' && (f =? f')) eqn:E; cbn; [|auto].
    apply andb_true_iff in E. destruct E as (E1 & E2). apply str_eqb_eq in E1. apply N.eqb_eq in E2. subst. auto.
  - destruct (str_eqb p x && (f =? y)); cbn; auto.
Qed.
Lemma put_entries_In p f l m : In (p, f, l) (put_entries p f l m).
Proof. induction m as [|[[x y] v] m IH]; cbn; [auto|]. destruct (str_eqb p x && (f =? y)); cbn; auto. Qed.
Lemma put_entries_only p f l m e : In e (put_entries p f l m) -> In e m \/ e = (p, f, l).
Proof.
  induction m as [|[[x y] v] m IH]; cbn; [intros [<-|[]]; auto|].
  destruct (str_eqb p x && (f =? y)); cbn; intros [<-|H]; auto. destruct (IH H); auto.
Qed.

(** What the record has for a question. *)
Definition covered (w : world) (r : record) (q : query) : Prop :=
  match q with
  | Read p => In p (r_files r)
  | ProfileConfig n _ => In (n, profile w n) (r_profiles r)
  | Exists p => In (p, exists_now w p) (r_exists r)
  | Entries p f => In (p, f, entries w p f) (r_entries r)
  | Modified p => In (p, last_modified w p) (r_modified r)
  | Source pr p => exists_now w p = false -> In (pr, p) (r_missing r)
  | Wildcards pr s =>
      In (pr, {| w_spec := s; w_found := found w s; w_dirs := List.map (fun d => (d, last_modified w d)) (found_in w s) |}) (r_wildcards r)
  | _ => True
  end.
Lemma note_covers w q r : covered w (note w q r) q.
Proof.
  destruct q as [p| |n k| |p|p f|p|p|pr p|pr s|p]; cbn; try exact I; try apply put_In; try apply put_entries_In.
  - destruct (mem p (r_files r)) eqn:E; cbn; [apply mem_spec; exact E|apply in_or_app; cbn; auto].
  - intros E. rewrite E. cbn. apply in_or_app. cbn. auto.
  - apply in_or_app. cbn. auto.
Qed.
Lemma note_keeps w q q' r : covered w r q -> covered w (note w q' r) q.
Proof.
  destruct q as [p| |n k| |p|p f|p|p|pr p|pr s|p]; intros H; try exact I;
    destruct q' as [p'| |n' k'| |p'|p' f'|p'|p'|pr' p'|pr' s'|p']; cbn [note covered] in *; try exact H;
    try (destruct (exists_now w p'); cbn; exact H).
  - destruct (mem p' (r_files r)); cbn; [exact H|apply in_or_app; auto].
  - cbn. apply (put_keeps (profile w)). exact H.
  - cbn. apply (put_keeps (exists_now w)). exact H.
  - cbn. apply (put_entries_keeps (entries w)). exact H.
  - cbn. apply (put_keeps (last_modified w)). exact H.
  - intros E. specialize (H E). destruct (exists_now w p'); cbn; [exact H|apply in_or_app; auto].
  - cbn. apply in_or_app. auto.
Qed.
(** And nothing else is there. *)
Record only (w : world) (qs : list query) (r : record) : Prop := {
  o_files : forall p, In p (r_files r) -> In (Read p) qs;
  o_exists : forall e, In e (r_exists r) -> In (Exists (fst e)) qs /\ snd e = exists_now w (fst e);
  o_entries : forall e, In e (r_entries r) -> In (Entries (fst (fst e)) (snd (fst e))) qs /\ snd e = entries w (fst (fst e)) (snd (fst e));
  o_modified : forall e, In e (r_modified r) -> In (Modified (fst e)) qs /\ snd e = last_modified w (fst e);
  o_canonical : r_canonical r = [];
  o_profiles : forall e, In e (r_profiles r) -> (exists k, In (ProfileConfig (fst e) k) qs) /\ snd e = profile w (fst e);
  o_missing : forall e, In e (r_missing r) -> In (Source (fst e) (snd e)) qs /\ file w (snd e) = None;
  o_wildcards : forall e, In e (r_wildcards r) -> exists s, In (Wildcards (fst e) s) qs /\
    snd e = {| w_spec := s; w_found := found w s; w_dirs := List.map (fun d => (d, last_modified w d)) (found_in w s) |} }.
Lemma only_weaken w qs qs' r : (forall q, In q qs -> In q qs') -> only w qs r -> only w qs' r.
Proof.
  intros H [A1 A2 A3 A4 A5 A6 A7 A8]. constructor; auto.
  - intros e He. destruct (A2 e He). auto.
  - intros e He. destruct (A3 e He). auto.
  - intros e He. destruct (A4 e He). auto.
  - intros e He. destruct (A6 e He) as ((k & X) & Y). split; [exists k; auto|exact Y].
  - intros e He. destruct (A7 e He). auto.
  - intros e He. destruct (A8 e He) as (s & X & Y). exists s. auto.
Qed.
Lemma note_only w qs q r : only w qs r -> only w (q :: qs) (note w q r).
Proof.
  intros H. apply (only_weaken _ _ (q :: qs)) in H; [|intros; right; auto]. destruct H as [A1 A2 A3 A4 A5 A6 A7 A8].
  destruct q as [p| |n k| |p|p f|p|p|pr p|pr s|p]; cbn [note]; try (constructor; assumption).
  - constructor; cbn [r_files r_exists r_entries r_modified r_canonical r_profiles r_missing r_wildcards]; auto.
    intros x Hx. destruct (mem p (r_files r)); [auto|]. apply in_app_or in Hx. destruct Hx as [Hx|[<-|[]]]; [auto|cbn; auto].
  - constructor; cbn [r_files r_exists r_entries r_modified r_canonical r_profiles r_missing r_wildcards]; auto.
    intros e He. apply (put_only (profile w)) in He. destruct He as [He| ->]; [auto|].
    cbn. split; [exists k; auto|reflexivity].
  - constructor; cbn [r_files r_exists r_entries r_modified r_canonical r_profiles r_missing r_wildcards]; auto.
    intros e He. apply (put_only (exists_now w)) in He. destruct He as [He| ->]; [auto|]. cbn. auto.
  - constructor; cbn [r_files r_exists r_entries r_modified r_canonical r_profiles r_missing r_wildcards]; auto.
    intros e He. apply put_entries_only in He. destruct He as [He| ->]; [auto|]. cbn. auto.
  - constructor; cbn [r_files r_exists r_entries r_modified r_canonical r_profiles r_missing r_wildcards]; auto.
    intros e He. apply (put_only (last_modified w)) in He. destruct He as [He| ->]; [auto|]. cbn. auto.
  - destruct (exists_now w p) eqn:E; [constructor; assumption|].
    constructor; cbn [r_files r_exists r_entries r_modified r_canonical r_profiles r_missing r_wildcards]; auto.
    intros e He. apply in_app_or in He. destruct He as [He|[<-|[]]]; [auto|]. cbn. split; [auto|].
    unfold exists_now in E. destruct (file w p); [discriminate E|reflexivity].
  - constructor; cbn [r_files r_exists r_entries r_modified r_canonical r_profiles r_missing r_wildcards]; auto.
    intros e He. apply in_app_or in He. destruct He as [He|[<-|[]]]; [auto|]. exists s. cbn. auto.
Qed.
Definition final_record (w : world) (pa : params) (p : prog) (r : record) : record := snd (run w pa p r).
Lemma run_split w pa p : forall r, run w pa p r = (outcome_of w pa p, final_record w pa p r).
Proof.
  unfold final_record. induction p as [ps pv pb rest|q k IH]; intros r; cbn; [reflexivity|apply IH].
Qed.
Lemma final_keeps w pa p : forall r q, covered w r q -> covered w (final_record w pa p r) q.
Proof.
  unfold final_record. induction p as [ps pv pb rest|q k IH]; intros r q' H; cbn; [exact H|].
  apply IH. apply note_keeps. exact H.
Qed.
Lemma final_covers w pa p : forall r q, In q (asked w pa p) -> covered w (final_record w pa p r) q.
Proof.
  induction p as [ps pv pb rest|q k IH]; intros r q' H; cbn in H; [contradiction|].
  destruct H as [<-|H]; unfold final_record; cbn.
  - apply final_keeps. apply note_covers.
  - apply (IH _ (note w q r) q'). exact H.
Qed.
Lemma final_only w pa p : forall r qs, only w qs r -> only w (qs ++ asked w pa p) (final_record w pa p r).
Proof.
  induction p as [ps pv pb rest|q k IH]; intros r qs H; unfold final_record; cbn.
  - rewrite app_nil_r. exact H.
  - apply note_only with (q := q) in H. apply (IH (ask w pa q)) in H. revert H. apply only_weaken.
    intros x Hx. cbn in Hx. destruct Hx as [<-|Hx]; [apply in_or_app; cbn; auto|].
    apply in_app_or in Hx. apply in_or_app. cbn. tauto.
Qed.
Lemma only_empty w : only w [] empty.
Proof. constructor; cbn; try contradiction; reflexivity. Qed.
(** Same answers, same outcome. *)
Lemma same_outcome w pa w' pa' p :
  (forall q, In q (asked w pa p) -> ask w' pa' q = ask w pa q) -> outcome_of w' pa' p = outcome_of w pa p.
Proof.
  induction p as [ps pv pb rest|q k IH]; intros H; cbn; [reflexivity|].
  cbn in H. rewrite (H q (or_introl eq_refl)). apply IH. intros q' Hq. apply H. right. exact Hq.
Qed.

Lemma existsb_false {A} (f : A -> bool) l : existsb f l = false -> forall x, In x l -> f x = false.
Proof.
  intros H x Hx. destruct (f x) eqn:E; [|reflexivity]. rewrite <- H. symmetry. apply existsb_exists. exists x. auto.
Qed.
Lemma existsb_none {A} (f : A -> bool) l : (forall x, In x l -> f x = false) -> existsb f l = false.
Proof.
  intros H. destruct (existsb f l) eqn:E; [|reflexivity]. apply existsb_exists in E. destruct E as (x & Hx & E).
  rewrite (H x Hx) in E. discriminate E.
Qed.
Section Restored.
  Context (w0 : world) (pa0 : params) (p : prog) (start stop : N) (pa : params) (w : world).
  Let st := resolve w0 pa0 p start stop.
  Let rec := final_record w0 pa0 p empty.
  Lemma st_eq : st = {| s_products := products_of w0 pa0 p; s_providers := providers_of w0 pa0 p; s_probes := probes_of w0 pa0 p;
    s_rest := snd (outcome_of w0 pa0 p); s_record := rec; s_start := start; s_end := stop; s_env := env pa0; s_overridden := overridden pa0;
    s_profile := top_profile pa0; s_config := final (profile w0 (top_profile pa0)) (overridden pa0) |}.
  Proof.
    unfold st, resolve. rewrite run_split. unfold products_of, providers_of, probes_of.
    destruct (outcome_of w0 pa0 p) as [[[ps pv] pb] rest]. reflexivity.
  Qed.
  Lemma rec_only : only w0 (asked w0 pa0 p) rec.
  Proof. apply (final_only w0 pa0 p empty []). apply only_empty. Qed.

  (** What the decision to keep a project says. *)
  Lemma keep_inv : only_restore pa = false -> track st pa w = Keep ->
    (override pa = true -> (forall k, lookup k (final (profile w (given_profile st pa)) (overridden pa)) = lookup k (s_config st)) /\
       forall e, In e (r_profiles rec) -> forall k, lookup k (final (profile w (fst e)) (overridden pa)) = lookup k (final (snd e) (overridden pa0))) /\
    (override pa = false -> given_profile st pa = top_profile pa0) /\
    (forall x, In x (products_of w0 pa0 p) -> product_changed st w x = false) /\
    (forall f, In f (r_files rec) -> ~ In f (List.map p_file (products_of w0 pa0 p)) -> file_changed st w f = false) /\
    env_changed st pa = false /\
    (forall e, In e (r_exists rec) -> exists_now w (fst e) = snd e) /\
    (forall e, In e (r_entries rec) -> entries w (fst (fst e)) (snd (fst e)) = snd e) /\
    (forall e, In e (r_modified rec) -> last_modified w (fst e) = snd e) /\ force_resolve pa = false.
  Proof.
    intros O K. unfold track in K. rewrite O in K.
    assert (R : s_record st = rec) by (rewrite st_eq; reflexivity).
    assert (PR : s_products st = products_of w0 pa0 p) by (rewrite st_eq; reflexivity).
    assert (OV : s_overridden st = overridden pa0) by (rewrite st_eq; reflexivity).
    assert (SP : s_profile st = top_profile pa0) by (rewrite st_eq; reflexivity).
    rewrite R, PR in K.
    destruct (config_same st pa w) as [same|] eqn:C; [|discriminate K].
    match type of K with (if ?b then _ else _) = _ => destruct b eqn:B; [discriminate K|] end.
    repeat (apply orb_false_iff in B; destruct B as (B & ?)).
    apply negb_false_iff in B. subst same.
    unfold config_same in C. rewrite R, OV, SP in C.
    split; [|split; [|split; [|split; [|split; [|split; [|split; [|split]]]]]]].
    - intros E. rewrite E in C. injection C as C. apply andb_true_iff in C. destruct C as (C1 & C2). split.
      + apply map_eqb_spec. exact C1.
      + rewrite forallb_forall in C2. intros e He. apply map_eqb_spec. exact (C2 e He).
    - intros E. rewrite E in C. destruct (_ && _); [discriminate C|].
      destruct (str_eqb (given_profile st pa) (top_profile pa0)) eqn:E'; [apply str_eqb_eq; exact E'|discriminate C].
    - intros x Hx. revert x Hx. apply existsb_false. assumption.
    - intros f Hf Hn. match goal with H : existsb (file_changed st w) _ = false |- _ => apply (existsb_false _ _ H) end.
      apply filter_In. split; [exact Hf|]. apply negb_true_iff. destruct (mem f _) eqn:E; [|reflexivity].
      apply mem_spec in E. contradiction.
    - assumption.
    - intros e He. match goal with H : existsb _ (r_exists rec) = false |- _ => pose proof (existsb_false _ _ H e He) as E end.
      cbn beta in E. apply negb_false_iff in E. apply Bool.eqb_prop in E. exact E.
    - intros e He. match goal with H : existsb _ (r_entries rec) = false |- _ => pose proof (existsb_false _ _ H e He) as E end.
      cbn beta in E. apply negb_false_iff in E. apply list_eqb_spec in E. exact E.
    - intros e He. match goal with H : existsb _ (r_modified rec) = false |- _ => pose proof (existsb_false _ _ H e He) as E end.
      cbn beta in E. apply negb_false_iff in E. apply N.eqb_eq in E. exact E.
    - assumption.
  Qed.
  Lemma given_now : given_profile st pa = top_profile (params_now pa0 pa).
  Proof. unfold given_profile, params_now. cbn. rewrite st_eq. reflexivity. Qed.
End Restored.

(** ** C73: a project that is used as it is stored has the same answers to all watched questions *)
Theorem restore_answers w0 pa0 p start stop pa w :
  start <= stop -> well_formed w0 pa0 p -> clock_ok w0 w pa0 p start stop -> sources_stay w0 w pa0 p -> only_restore pa = false ->
  track (resolve w0 pa0 p start stop) pa w = Keep ->
  forall q, In q (asked w0 pa0 p) -> watched q -> ask (world_now w0 w pa) (params_now pa0 pa) q = ask w0 pa0 q.
Proof.
  intros LE (WF1 & WF2) CK SS OR K q Hq W.
  destruct (keep_inv w0 pa0 p start stop pa w OR K) as (K1 & K2 & K3 & K4 & K5 & K6 & K7 & K8 & K9).
  rewrite given_now in K1, K2.
  pose proof (final_covers w0 pa0 p empty q Hq) as CV.
  set (st := resolve w0 pa0 p start stop) in *. set (rc := final_record w0 pa0 p empty) in *.
  assert (R : s_record st = rc) by (unfold st; rewrite st_eq; reflexivity).
  assert (ST : s_start st = start) by (unfold st; rewrite st_eq; reflexivity).
  assert (EN : s_end st = stop) by (unfold st; rewrite st_eq; reflexivity).
  assert (PV : s_providers st = providers_of w0 pa0 p) by (unfold st; rewrite st_eq; reflexivity).
  assert (SE : s_env st = env pa0) by (unfold st; rewrite st_eq; reflexivity).
  assert (SC : s_config st = final (profile w0 (top_profile pa0)) (overridden pa0)) by (unfold st; rewrite st_eq; reflexivity).
  destruct q as [f|k|n k|v|f|f fl|f|f|pr f|pr s|f]; cbn [watched] in W; try (exfalso; exact W); cbn [ask covered] in *.
  - (* files *) cbn [world_now file].
    assert (X : exists i, file w f = Some i /\ exists t, reference (providers_of w0 pa0 p) start stop f t /\ mtime i <= t).
    { assert (REF : exists t, reference (providers_of w0 pa0 p) start stop f t /\
                 t = if existsb (fun d => starts_with d f) (providers_of w0 pa0 p) then stop else start).
      { destruct (existsb (fun d => starts_with d f) (providers_of w0 pa0 p)) eqn:E.
        - exists stop. split; [|reflexivity]. left. split; [|reflexivity]. apply existsb_exists in E. destruct E as (d & Hd & E).
          apply starts_with_spec in E. destruct E as (t & E). exists d, t. auto.
        - exists start. split; [|reflexivity]. right. split; [|reflexivity]. intros d rest Hd C. pose proof (existsb_false _ _ E d Hd) as F.
          cbn beta in F. assert (starts_with d f = true) by (apply starts_with_spec; exists rest; exact C). congruence. }
      destruct REF as (t & REF & Et).
      destruct (in_dec str_dec f (List.map p_file (products_of w0 pa0 p))) as [I|I].
      - apply in_map_iff in I. destruct I as (x & <- & Hx). specialize (K3 x Hx). unfold product_changed in K3.
        destruct (file w (p_file x)) as [i|]; [|discriminate K3].
        apply orb_false_iff in K3. destruct K3 as (K3 & _). apply orb_false_iff in K3. destruct K3 as (K3 & _).
        rewrite ST in K3. apply N.ltb_ge in K3. exists i. split; [reflexivity|]. exists t. split; [exact REF|].
        rewrite Et. destruct (existsb _ _); lia.
      - specialize (K4 f CV I). unfold file_changed in K4. destruct (file w f) as [i|]; [|discriminate K4].
        rewrite ST, EN, PV in K4. apply N.ltb_ge in K4. exists i. split; [reflexivity|]. exists t. split; [exact REF|]. rewrite Et. exact K4. }
    destruct X as (i & Ei & t & REF & LT). rewrite Ei. destruct (CK f i t Hq Ei REF LT) as (i0 & E0 & ED). rewrite E0. cbn. rewrite ED. reflexivity.
  - (* configuration *) f_equal. unfold world_now, params_now in *. cbn [profile top_profile overridden] in *.
    destruct (override pa) eqn:OV.
    + destruct (K1 eq_refl) as (K1a & _). rewrite SC in K1a. apply K1a.
    + rewrite (K2 eq_refl). reflexivity.
  - (* profiles *) f_equal. unfold world_now, params_now in *. cbn [profile top_profile overridden] in *.
    destruct (override pa) eqn:OV; [|reflexivity].
    destruct (K1 eq_refl) as (_ & K1b). exact (K1b _ CV k).
  - (* environment *) f_equal. unfold params_now. cbn [env]. unfold env_changed in K5. destruct (override pa) eqn:OV; [|reflexivity].
    cbn in K5. apply negb_false_iff in K5. rewrite map_eqb_spec in K5. specialize (K5 v).
    rewrite !lookup_without in K5 by exact W. rewrite SE in K5. symmetry. exact K5.
  - (* File.exists *) f_equal. exact (K6 _ CV).
  - f_equal. exact (K7 _ CV).
  - f_equal. exact (K8 _ CV).
  - (* source files *) f_equal. unfold exists_now in *. cbn [world_now file].
    destruct (file w0 f) as [i0|] eqn:E0.
    + destruct (file w f) eqn:E1; [reflexivity|]. exfalso. apply (SS pr f Hq); [congruence|exact E1].
    + destruct (file w f) as [i|] eqn:E1; [|reflexivity]. exfalso. specialize (CV eq_refl).
      destruct (WF1 pr f Hq) as (x & Hx & En). specialize (K3 x Hx). unfold product_changed in K3.
      destruct (file w (p_file x)); [|discriminate K3].
      apply orb_false_iff in K3. destruct K3 as (K3 & _). apply orb_false_iff in K3. destruct K3 as (_ & K3).
      rewrite R in K3. pose proof (existsb_false _ _ K3 _ CV) as F. cbn [fst snd] in F. unfold exists_now in F.
      rewrite E1, En, str_eqb_refl in F. discriminate F.
  - (* wildcards *) f_equal. cbn [world_now found]. destruct (WF2 pr s Hq) as (x & Hx & En). specialize (K3 x Hx). unfold product_changed in K3.
    destruct (file w (p_file x)); [|discriminate K3].
    apply orb_false_iff in K3. destruct K3 as (_ & K3). rewrite R in K3. pose proof (existsb_false _ _ K3 _ CV) as F. cbn [fst snd] in F.
    rewrite En, str_eqb_refl in F. cbn [andb] in F. unfold wildcards_changed in F. apply orb_false_iff in F. destruct F as (_ & F).
    cbn [w_found w_spec] in F. apply negb_false_iff in F. apply list_eqb_spec in F. symmetry. exact F.
Qed.

(** ** C73: … and would be the same if it were resolved again *)
Theorem restore_sound w0 pa0 p start stop pa w :
  start <= stop -> well_formed w0 pa0 p -> clock_ok w0 w pa0 p start stop -> sources_stay w0 w pa0 p ->
  (forall q, In q (asked w0 pa0 p) -> watched q) -> only_restore pa = false ->
  track (resolve w0 pa0 p start stop) pa w = Keep ->
  outcome_of (world_now w0 w pa) (params_now pa0 pa) p = outcome_of w0 pa0 p.
Proof.
  intros LE WF CK SS WA OR K. apply same_outcome. intros q Hq.
  apply (restore_answers w0 pa0 p start stop pa w LE WF CK SS OR K q Hq (WA q Hq)).
Qed.

(** ** C74: nothing has changed, so nothing is resolved again *)
Theorem restore_idle w0 pa0 p start stop pa w :
  only_restore pa = false -> force_resolve pa = false -> force_probes pa = false \/ probes_of w0 pa0 p = false ->
  (if override pa then
     (forall v, v <> ld_preload -> lookup v (env pa) = lookup v (env pa0)) /\
     (forall k, lookup k (final (profile w (top_profile (params_now pa0 pa))) (overridden pa)) = lookup k (final (profile w0 (top_profile pa0)) (overridden pa0))) /\
     (forall n k', In (ProfileConfig n k') (asked w0 pa0 p) ->
        forall k, lookup k (final (profile w n) (overridden pa)) = lookup k (final (profile w0 n) (overridden pa0)))
   else
     (overridden pa = [] \/ forall k, lookup k (overridden pa) = lookup k (overridden pa0)) /\ (top_profile pa = [] \/ top_profile pa = top_profile pa0)) ->
  (forall f, In (Read f) (asked w0 pa0 p) -> ~ In f (List.map p_file (products_of w0 pa0 p)) ->
     exists i, file w f = Some i /\ forall t, reference (providers_of w0 pa0 p) start stop f t -> mtime i <= t) ->
  (forall x, In x (products_of w0 pa0 p) -> exists i, file w (p_file x) = Some i /\ mtime i <= start) ->
  (forall f, In (Exists f) (asked w0 pa0 p) -> (file w f <> None <-> file w0 f <> None)) ->
  (forall f fl, In (Entries f fl) (asked w0 pa0 p) -> entries w f fl = entries w0 f fl) ->
  (forall f, In (Modified f) (asked w0 pa0 p) -> last_modified w f = last_modified w0 f) ->
  (forall pr f, In (Source pr f) (asked w0 pa0 p) -> file w0 f = None -> file w f = None) ->
  (forall pr s, In (Wildcards pr s) (asked w0 pa0 p) -> found w s = found w0 s /\
     forall d, In d (found_in w0 s) -> last_modified w d <= last_modified w0 d) ->
  track (resolve w0 pa0 p start stop) pa w = Keep.
Proof.
  intros OR FR FP CFG FI PF HE HD HM HS HW.
  pose proof (rec_only w0 pa0 p) as [O1 O2 O3 O4 O5 O6 O7 O8].
  set (rc := final_record w0 pa0 p empty) in *. set (st := resolve w0 pa0 p start stop).
  assert (R : s_record st = rc) by (unfold st; rewrite st_eq; reflexivity).
  assert (PR : s_products st = products_of w0 pa0 p) by (unfold st; rewrite st_eq; reflexivity).
  assert (PB : s_probes st = probes_of w0 pa0 p) by (unfold st; rewrite st_eq; reflexivity).
  assert (ST : s_start st = start) by (unfold st; rewrite st_eq; reflexivity).
  assert (EN : s_end st = stop) by (unfold st; rewrite st_eq; reflexivity).
  assert (PV : s_providers st = providers_of w0 pa0 p) by (unfold st; rewrite st_eq; reflexivity).
  assert (SE : s_env st = env pa0) by (unfold st; rewrite st_eq; reflexivity).
  assert (OV : s_overridden st = overridden pa0) by (unfold st; rewrite st_eq; reflexivity).
  assert (SP : s_profile st = top_profile pa0) by (unfold st; rewrite st_eq; reflexivity).
  assert (SC : s_config st = final (profile w0 (top_profile pa0)) (overridden pa0)) by (unfold st; rewrite st_eq; reflexivity).
  assert (GN : given_profile st pa = top_profile (params_now pa0 pa)) by apply given_now.
  unfold track. rewrite OR, FR, R, PR, PB, O5.
  assert (C : config_same st pa w = Some true).
  { unfold config_same. rewrite R, OV, SP, SC, GN. destruct (override pa).
    - destruct CFG as (_ & C1 & C2). f_equal. apply andb_true_iff. split; [apply map_eqb_spec; exact C1|].
      apply forallb_forall. intros e He. destruct (O6 e He) as ((k' & Hk) & Es). apply map_eqb_spec. intros k.
      rewrite Es. exact (C2 _ _ Hk k).
    - destruct CFG as (C1 & C2). destruct C1 as [C1|C1].
      + rewrite C1. cbn [andb]. unfold params_now. cbn [top_profile]. destruct C2 as [C2|C2]; rewrite C2.
        * rewrite str_eqb_refl. reflexivity.
        * destruct (top_profile pa0); rewrite str_eqb_refl; reflexivity.
      + apply map_eqb_spec in C1. rewrite C1. rewrite andb_false_r. unfold params_now. cbn [top_profile].
        destruct C2 as [C2|C2]; rewrite C2.
        * rewrite str_eqb_refl. reflexivity.
        * destruct (top_profile pa0); rewrite str_eqb_refl; reflexivity. }
  rewrite C. cbn [negb orb existsb].
  assert (B1 : existsb (product_changed st w) (products_of w0 pa0 p) = false).
  { apply existsb_none. intros x Hx. unfold product_changed. destruct (PF x Hx) as (i & Ei & LT). rewrite Ei, R, ST.
    apply orb_false_iff. split; [apply orb_false_iff; split|].
    - apply N.ltb_ge. exact LT.
    - apply existsb_none. intros e He. destruct (O7 e He) as (Q & E0). unfold exists_now. rewrite (HS _ _ Q E0). apply andb_false_r.
    - apply existsb_none. intros e He. destruct (O8 e He) as (s & Q & ->). destruct (HW _ _ Q) as (F1 & F2).
      unfold wildcards_changed. cbn [w_dirs w_found w_spec].
      replace (list_eqb (found w0 s) (found w s)) with true by (symmetry; apply list_eqb_spec; symmetry; exact F1).
      rewrite orb_false_r. replace (existsb _ _) with false; [apply andb_false_r|]. symmetry.
      apply existsb_none. intros d Hd. apply in_map_iff in Hd. destruct Hd as (d' & <- & Hd). cbn. apply N.ltb_ge. exact (F2 d' Hd). }
  assert (B2 : force_probes pa && probes_of w0 pa0 p = false) by (destruct FP as [-> | ->]; [reflexivity|apply andb_false_r]).
  assert (B3 : existsb (file_changed st w) (filter (fun f => negb (mem f (List.map p_file (products_of w0 pa0 p)))) (r_files rc)) = false).
  { apply existsb_none. intros f Hf. apply filter_In in Hf. destruct Hf as (Hf & Hn). apply negb_true_iff in Hn.
    destruct (FI f (O1 f Hf)) as (i & Ei & LT).
    { intros I. apply mem_spec in I. congruence. }
    unfold file_changed. rewrite Ei, PV, ST, EN. apply N.ltb_ge. apply LT.
    destruct (existsb (fun d => starts_with d f) (providers_of w0 pa0 p)) eqn:E.
    - left. split; [|reflexivity]. apply existsb_exists in E. destruct E as (d & Hd & E).
      apply starts_with_spec in E. destruct E as (t & E). exists d, t. auto.
    - right. split; [|reflexivity]. intros d rest Hd X. pose proof (existsb_false _ _ E d Hd) as F.
      cbn beta in F. assert (starts_with d f = true) by (apply starts_with_spec; exists rest; exact X). congruence. }
  assert (B4 : env_changed st pa = false).
  { unfold env_changed. destruct (override pa) eqn:OVR; [|reflexivity]. destruct CFG as (C1 & _). cbn [andb]. apply negb_false_iff.
    apply map_eqb_spec. intros k. rewrite SE. destruct (str_dec k ld_preload) as [->|D].
    - rewrite !lookup_without_same. reflexivity.
    - rewrite !lookup_without by exact D. symmetry. exact (C1 k D). }
  rewrite B1, B2, B3, B4. cbn [orb].
  rewrite (existsb_none _ (r_exists rc)), (existsb_none _ (r_entries rc)), (existsb_none _ (r_modified rc)); [reflexivity| | |].
  - intros e He. destruct (O4 e He) as (Q & E). rewrite E, (HM _ Q), N.eqb_refl. reflexivity.
  - intros e He. destruct (O3 e He) as (Q & E). rewrite E, (HD _ _ Q). apply negb_false_iff. apply list_eqb_spec. reflexivity.
  - intros e He. destruct (O2 e He) as (Q & E). rewrite E. pose proof (HE _ Q) as X. unfold exists_now.
    destruct (file w (fst e)), (file w0 (fst e)); cbn; try reflexivity; exfalso; intuition congruence.
Qed.

(** ** C74: properties and profiles that differ from the stored ones are not silently ignored *)
Theorem restore_rejects w0 pa0 p start stop pa w : only_restore pa = false -> override pa = false ->
  (track (resolve w0 pa0 p start stop) pa w = Rejected <->
   (overridden pa <> [] /\ exists k, lookup k (overridden pa) <> lookup k (overridden pa0)) \/
   (top_profile pa <> [] /\ top_profile pa <> top_profile pa0)).
Proof.
  intros OR OV. set (st := resolve w0 pa0 p start stop).
  assert (SO : s_overridden st = overridden pa0) by (unfold st; rewrite st_eq; reflexivity).
  assert (SP : s_profile st = top_profile pa0) by (unfold st; rewrite st_eq; reflexivity).
  unfold track. rewrite OR. unfold config_same. rewrite OV, SO, SP. unfold given_profile. rewrite SP.
  assert (D1 : (match overridden pa with [] => false | _ => true end) && negb (map_eqb (overridden pa) (overridden pa0)) = true <->
               overridden pa <> [] /\ exists k, lookup k (overridden pa) <> lookup k (overridden pa0)).
  { rewrite andb_true_iff, negb_true_iff. split; intros (X & Y).
    - split; [destruct (overridden pa); congruence|].
      unfold map_eqb in Y. clear -Y. induction (List.map fst (overridden pa) ++ List.map fst (overridden pa0)) as [|k l IH]; [discriminate Y|].
      cbn in Y. apply andb_false_iff in Y. destruct Y as [Y|Y]; [|auto]. exists k. intros C. apply opt_eqb_spec in C. congruence.
    - split; [destruct (overridden pa); congruence|]. destruct Y as (k & Y). destruct (map_eqb _ _) eqn:E; [|reflexivity].
      rewrite map_eqb_spec in E. exfalso. apply Y, E. }
  assert (D2 : negb (str_eqb (match top_profile pa with [] => top_profile pa0 | p => p end) (top_profile pa0)) = true <->
               top_profile pa <> [] /\ top_profile pa <> top_profile pa0).
  { rewrite negb_true_iff. destruct (top_profile pa) as [|c l] eqn:E.
    - rewrite str_eqb_refl. split; [discriminate|intros (X & _); congruence].
    - rewrite str_eqb_neq. split; [intros X; split; [discriminate|exact X]|intros (_ & X); exact X]. }
  destruct ((match overridden pa with [] => false | _ => true end) && negb (map_eqb (overridden pa) (overridden pa0))) eqn:E1.
  - split; [intros _; left; apply D1; reflexivity|reflexivity].
  - destruct (negb (str_eqb (match top_profile pa with [] => top_profile pa0 | p => p end) (top_profile pa0))) eqn:E2.
    + split; [intros _; right; apply D2; reflexivity|reflexivity].
    + cbv zeta. split; [intros X; match type of X with (if ?b then _ else _) = _ => destruct b; discriminate X end|].
      intros [X|X]; [apply D1 in X|apply D2 in X]; discriminate X.
Qed.

(** ** C74: a forced resolve happens; a project that is only to be restored stays *)
Theorem restore_forced w0 pa0 p start stop pa w :
  (only_restore pa = false -> force_resolve pa = true -> track (resolve w0 pa0 p start stop) pa w <> Keep) /\
  (only_restore pa = false -> override pa = true -> force_probes pa = true -> probes_of w0 pa0 p = true ->
     track (resolve w0 pa0 p start stop) pa w = ReResolve) /\
  (only_restore pa = true -> track (resolve w0 pa0 p start stop) pa w = Keep).
Proof.
  assert (PB : s_probes (resolve w0 pa0 p start stop) = probes_of w0 pa0 p) by (rewrite st_eq; reflexivity).
  split; [|split].
  - intros OR FR. unfold track. rewrite OR. destruct (config_same _ _ _); [|discriminate]. cbv zeta. rewrite FR, orb_true_r. discriminate.
  - intros OR OV FP HP. unfold track. rewrite OR. unfold config_same. rewrite OV. cbv zeta. rewrite FP, PB, HP. cbn [andb].
    rewrite orb_true_r. reflexivity.
  - intros OR. unfold track. rewrite OR. reflexivity.
Qed.

(** ** C73: what is not noticed *)
(** A world of one project file, written at time 3, and of another file. *)
Definition one_world (other : option info) (link : path) : world :=
  {| file := fun p => if str_eqb p [1] then Some {| mtime := 3; data := [10] |} else if str_eqb p [2] then other else None;
     entries := fun _ _ => []; canonical := fun p => if str_eqb p [2] then link else p; found := fun _ => []; found_in := fun _ => [];
     profile := fun _ => [] |}.
Definition plain (e : map) : params :=
  {| env := e; overridden := []; top_profile := [7]; override := true; only_restore := false; force_resolve := false; force_probes := false |}.
Definition flat (a : answer) : str :=
  match a with Flag b => if b then [1] else [0] | Data (Some d) => 1 :: d | Data None => [0] | Names l => concat l | Time t => [t] end.
(** Asks one question after reading the project file; the answer is the outcome. *)
Definition asks (q : query) : prog :=
  Ask (Read [1]) (fun _ => Ask q (fun a => Ret [{| p_name := [5]; p_file := [1] |}] [] false (flat a))).
(** A link that leads somewhere else now: File.canonicalFilePath() is not recorded, although there is code to check its results. *)
Theorem restore_canonical_refuted : exists w0 w pa p start stop,
  start <= stop /\ well_formed w0 pa p /\ clock_ok w0 w pa p start stop /\ sources_stay w0 w pa p /\
  (forall q, In q (asked w0 pa p) -> watched q \/ q = Canonical [2]) /\
  track (resolve w0 pa p start stop) pa w = Keep /\ outcome_of w pa p <> outcome_of w0 pa p.
Proof.
  exists (one_world (Some {| mtime := 3; data := [] |}) [8]), (one_world (Some {| mtime := 3; data := [] |}) [9]), (plain []), (asks (Canonical [2])), 4, 5.
  split; [lia|]. split; [|split; [|split; [|split; [|split]]]].
  - split; cbn; intros ? ? H; decompose [or] H; discriminate || contradiction.
  - intros f i t Hf E _ _. cbn in Hf. destruct Hf as [Hf|[Hf|[]]]; [|discriminate Hf]. injection Hf as <-. exists i. split; [exact E|reflexivity].
  - intros pr f H. cbn in H. destruct H as [H|[H|[]]]; discriminate H.
  - cbn. intros q [<-|[<-|[]]]; cbn; auto.
  - vm_compute. reflexivity.
  - vm_compute. discriminate.
Qed.
(** A source file that is gone. *)
Theorem restore_source_refuted : exists w0 w pa p start stop,
  start <= stop /\ well_formed w0 pa p /\ clock_ok w0 w pa p start stop /\ (forall q, In q (asked w0 pa p) -> watched q) /\
  track (resolve w0 pa p start stop) pa w = Keep /\ outcome_of w pa p <> outcome_of w0 pa p.
Proof.
  exists (one_world (Some {| mtime := 3; data := [] |}) [2]), (one_world None [2]), (plain []), (asks (Source [5] [2])), 4, 5.
  split; [lia|]. split; [|split; [|split; [|split]]].
  - split; cbn; intros ? ? H; [|decompose [or] H; discriminate || contradiction].
    destruct H as [H|[H|[]]]; [discriminate H|]. injection H as <- <-. eexists. split; [left; reflexivity|reflexivity].
  - intros f i t Hf E _ _. cbn in Hf. destruct Hf as [Hf|[Hf|[]]]; [|discriminate Hf]. injection Hf as <-. exists i. split; [exact E|reflexivity].
  - cbn. intros q [<-|[<-|[]]]; exact I.
  - vm_compute. reflexivity.
  - vm_compute. discriminate.
Qed.
(** A qbs file that was replaced by an older one. *)
Theorem restore_old_file_refuted : exists w0 w pa p start stop,
  start <= stop /\ well_formed w0 pa p /\ sources_stay w0 w pa p /\ (forall q, In q (asked w0 pa p) -> watched q) /\
  track (resolve w0 pa p start stop) pa w = Keep /\ outcome_of w pa p <> outcome_of w0 pa p.
Proof.
  exists (one_world (Some {| mtime := 3; data := [20] |}) [2]), (one_world (Some {| mtime := 2; data := [21] |}) [2]), (plain []), (asks (Read [2])), 4, 5.
  split; [lia|]. split; [|split; [|split; [|split]]].
  - split; cbn; intros ? ? H; decompose [or] H; discriminate || contradiction.
  - intros pr f H. cbn in H. destruct H as [H|[H|[]]]; discriminate H.
  - cbn. intros q [<-|[<-|[]]]; exact I.
  - vm_compute. reflexivity.
  - vm_compute. discriminate.
Qed.
(** A file that is read by a script, whatever its time. *)
Theorem restore_content_refuted : exists w0 w pa p start stop,
  start <= stop /\ well_formed w0 pa p /\ clock_ok w0 w pa p start stop /\ sources_stay w0 w pa p /\
  (forall q, In q (asked w0 pa p) -> watched q \/ q = Content [2]) /\
  track (resolve w0 pa p start stop) pa w = Keep /\ outcome_of w pa p <> outcome_of w0 pa p.
Proof.
  exists (one_world (Some {| mtime := 3; data := [20] |}) [2]), (one_world (Some {| mtime := 9; data := [21] |}) [2]), (plain []), (asks (Content [2])), 4, 5.
  split; [lia|]. split; [|split; [|split; [|split; [|split]]]].
  - split; cbn; intros ? ? H; decompose [or] H; discriminate || contradiction.
  - intros f i t Hf E _ _. cbn in Hf. destruct Hf as [Hf|[Hf|[]]]; [|discriminate Hf]. injection Hf as <-. exists i. split; [exact E|reflexivity].
  - intros pr f H. cbn in H. destruct H as [H|[H|[]]]; discriminate H.
  - cbn. intros q [<-|[<-|[]]]; cbn; auto.
  - vm_compute. reflexivity.
  - vm_compute. discriminate.
Qed.

(** Values given on the command line win over those of the profile, for the
    configuration of the project and of each profile; other keys keep the
    profile's value. *)
Inductive first_value (k v : str) : list (str * str) -> Prop :=
| value_here m : first_value k v ((k, v) :: m)
| value_later k' v' m : k' <> k -> first_value k v m -> first_value k v ((k', v') :: m).
Lemma lookup_first k v (m : list (str * str)) : first_value k v m -> lookup k m = Some v.
Proof.
  induction 1 as [|k' v' m NE F IH]; cbn [lookup].
  - rewrite str_eqb_refl. reflexivity.
  - destruct (str_eqb k k') eqn:E; [|exact IH]. apply str_eqb_eq in E. congruence.
Qed.
Lemma lookup_over k (a b : list (str * str)) :
  lookup k (a ++ b) = match lookup k a with Some v => Some v | None => lookup k b end.
Proof. induction a as [|[k' v] a IH]; cbn [lookup app]; [reflexivity|]. destruct (str_eqb k k'); [reflexivity|exact IH]. Qed.
Lemma lookup_absent k (m : list (str * str)) : ~ In k (List.map fst m) -> lookup k m = None.
Proof.
  induction m as [|[k' v] m IH]; cbn [lookup List.map fst In]; [reflexivity|]. intros H.
  destruct (str_eqb k k') eqn:E; [apply str_eqb_eq in E; subst; exfalso; apply H; left; reflexivity|].
  apply IH. intros C. apply H. right. exact C.
Qed.
Theorem restore_overrides w pa k v n :
  (first_value k v (overridden pa) -> ask w pa (Config k) = Data (Some v) /\ ask w pa (ProfileConfig n k) = Data (Some v)) /\
  (~ In k (List.map fst (overridden pa)) -> first_value k v (profile w (top_profile pa)) -> ask w pa (Config k) = Data (Some v)) /\
  (~ In k (List.map fst (overridden pa)) -> first_value k v (profile w n) -> ask w pa (ProfileConfig n k) = Data (Some v)).
Proof.
  unfold ask, final. rewrite !lookup_over. split; [|split].
  - intros F. rewrite (lookup_first k v _ F). split; reflexivity.
  - intros NI F. rewrite (lookup_absent k _ NI), (lookup_first k v _ F). reflexivity.
  - intros NI F. rewrite (lookup_absent k _ NI), (lookup_first k v _ F). reflexivity.
Qed.

Module Demo.
  (** A project with a file, a question about another file, an environment variable, wildcards and a source file that is missing. *)
  Definition big : prog :=
    Ask (Read [1]) (fun _ => Ask (Exists [2]) (fun a => Ask (Env [3]) (fun b => Ask (Config [4]) (fun c => Ask (Source [5] [6]) (fun d =>
    Ask (Wildcards [5] [9]) (fun e => Ret [{| p_name := [5]; p_file := [1] |}] [] false (flat a ++ flat b ++ flat c ++ flat d ++ flat e))))))).
  Definition w0 : world := one_world None [2].
  Definition pa0 : params := plain [([3], [33])].
  Lemma big_wf : well_formed w0 pa0 big.
  Proof.
    split; intros pr x H; cbn in H; decompose [or] H; try discriminate; try contradiction;
      (match goal with E : _ = _ |- _ => injection E as <- <- end); eexists; (split; [left; reflexivity|reflexivity]).
  Qed.
  Lemma big_clock : clock_ok w0 w0 pa0 big 4 5.
  Proof. intros f i t _ E _ _. exists i. auto. Qed.
  Lemma big_sources : sources_stay w0 w0 pa0 big.
  Proof. intros pr f _ H. exact H. Qed.
  Lemma big_watched : forall q, In q (asked w0 pa0 big) -> watched q.
  Proof. cbn. intros q H. decompose [or] H; subst; cbn; try exact I; try discriminate; contradiction. Qed.
  Example demo_keep : track (resolve w0 pa0 big 4 5) pa0 w0 = Keep.
  Proof. vm_compute. reflexivity. Qed.
  Example demo_sound : outcome_of (world_now w0 w0 pa0) (params_now pa0 pa0) big = outcome_of w0 pa0 big.
  Proof.
    apply (restore_sound w0 pa0 big 4 5 pa0 w0); [lia|exact big_wf|exact big_clock|exact big_sources|exact big_watched|reflexivity|exact demo_keep].
  Qed.
  (** Changes that are noticed: the file is there, the variable has another value, the project file is newer. *)
  Example demo_file : track (resolve w0 pa0 big 4 5) pa0 (one_world (Some {| mtime := 1; data := [] |}) [2]) = ReResolve.
  Proof. vm_compute. reflexivity. Qed.
  Example demo_env : track (resolve w0 pa0 big 4 5) (plain [([3], [34])]) w0 = ReResolve.
  Proof. vm_compute. reflexivity. Qed.
  Example demo_time : track (resolve w0 pa0 big 2 5) pa0 w0 = ReResolve.
  Proof. vm_compute. reflexivity. Qed.
  Definition stored_only : params :=
    {| env := []; overridden := [([4], [44])]; top_profile := []; override := false; only_restore := false; force_resolve := false; force_probes := false |}.
  Example demo_overrides : ask w0 stored_only (Config [4]) = Data (Some [44]).
  Proof. exact (proj1 (proj1 (restore_overrides w0 stored_only [4] [44] []) (value_here _ _ _))). Qed.
  Example demo_rejected : track (resolve w0 pa0 big 4 5) stored_only w0 = Rejected.
  Proof. vm_compute. reflexivity. Qed.
End Demo.
Print Assumptions restore_answers.
Print Assumptions restore_sound.
Print Assumptions restore_idle.
Print Assumptions restore_rejects.
Print Assumptions restore_forced.
Print Assumptions restore_overrides.
Print Assumptions restore_canonical_refuted.
Print Assumptions restore_source_refuted.
Print Assumptions restore_old_file_refuted.
Print Assumptions restore_content_refuted.
