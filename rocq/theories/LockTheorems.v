(** Two builds never use a build graph at the same time, and locking leaves no directories behind. *)
From Coq Require Import List Bool Arith NArith Lia.
From Verif Require Import Str LockModel.
Import ListNotations.

(** ** Specification *)
(** A tree of files: what is there, is in a directory. *)
Definition sound (t : tree) : Prop := forall n q e, look t (n :: q) = Some e -> look t q = Some EDir.
(** The processes that have the lock. *)
Definition holder (m : machine) (i : nat) : Prop := exists p c, nth_error (m_procs m) i = Some p /\ pr_at p = HasLock c.
(** What can happen from a state with any files and no processes. *)
Definition happens (native : bool) (dir : place) (t : tree) (l : list action) (m : machine) : Prop :=
  acts native dir {| m_tree := t; m_procs := [] |} l = Some m.
Definition inside (q p : place) : Prop := exists l, p = l ++ q.

(** ** Trees *)
Lemma place_eqb_eq a b : place_eqb a b = true <-> a = b.
Proof.
  revert b. induction a as [|x a IH]; intros [|y b]; cbn; try (split; congruence). rewrite andb_true_iff, str_eqb_eq, IH.
  split; [intros [-> ->]; reflexivity|intros [= -> ->]; auto].
Qed.
Lemma place_eqb_neq a b : place_eqb a b = false <-> a <> b.
Proof. rewrite <- place_eqb_eq. destruct (place_eqb a b); split; congruence. Qed.
Lemma place_eqb_refl a : place_eqb a a = true.
Proof. now apply place_eqb_eq. Qed.
Lemma look_cons p e t q : q <> [] -> look ((p, e) :: t) q = if place_eqb p q then Some e else look t q.
Proof. intros H. destruct q; [congruence|]. cbn [look find fst]. destruct (place_eqb p (s :: q)); reflexivity. Qed.
Lemma look_drop_other t p q : q <> p -> look (drop t p) q = look t q.
Proof.
  intros H. destruct q as [|n q]; [reflexivity|]. unfold look. f_equal. induction t as [|[a e] t IH]; [reflexivity|].
  cbn [drop filter find fst]. destruct (place_eqb a p) eqn:E; cbn [negb].
  - apply place_eqb_eq in E. subst a. rewrite (proj2 (place_eqb_neq p (n :: q))) by congruence. exact IH.
  - cbn [find fst]. destruct (place_eqb a (n :: q)); [reflexivity|exact IH].
Qed.
Lemma look_drop_same t p : p <> [] -> look (drop t p) p = None.
Proof.
  intros H. destruct p as [|n p]; [congruence|]. unfold look. induction t as [|[a e] t IH]; [reflexivity|].
  cbn [drop filter fst]. destruct (place_eqb a (n :: p)) eqn:E; cbn [negb]; [exact IH|]. cbn [find fst]. rewrite E. exact IH.
Qed.
Lemma look_in t p e : In (p, e) t -> look t p <> None.
Proof.
  intros H. destruct p as [|n p]; [discriminate|]. unfold look.
  destruct (find (fun e0 => place_eqb (fst e0) (n :: p)) t) eqn:F; [discriminate|]. exfalso.
  pose proof (find_none _ _ F _ H) as K. cbn in K. rewrite str_eqb_refl, place_eqb_refl in K. discriminate.
Qed.
Lemma look_found t n p e : look t (n :: p) = Some e -> In (n :: p, e) t.
Proof.
  unfold look. destruct (find _ t) as [[a e']|] eqn:F; [|discriminate]. intros [= <-]. apply find_some in F. destruct F as [F1 F2].
  cbn [fst] in F2. apply place_eqb_eq in F2. now subst a.
Qed.
Lemma child_spec t p : existsb (child_of p) t = true <-> exists n, look t (n :: p) <> None.
Proof.
  rewrite existsb_exists. split.
  - intros ([a e] & H & K). unfold child_of in K. cbn [fst] in K. destruct a as [|n q]; [discriminate|]. apply place_eqb_eq in K. subst q.
    exists n. exact (look_in _ _ _ H).
  - intros [n H]. destruct (look t (n :: p)) as [e|] eqn:E; [|congruence]. exists (n :: p, e). split; [now apply look_found|].
    unfold child_of. cbn [fst]. apply place_eqb_refl.
Qed.
Lemma shows_spec t p : shows_any t p = true <-> exists n, hidden n = false /\ look t (n :: p) <> None.
Proof.
  unfold shows_any. rewrite existsb_exists. split.
  - intros ([a e] & H & K). apply andb_prop in K. destruct K as [K1 K2]. unfold child_of in K1. cbn [fst] in *. destruct a as [|n q]; [discriminate|].
    apply place_eqb_eq in K1. subst q. exists n. split; [now apply negb_true_iff|]. exact (look_in _ _ _ H).
  - intros (n & Hn & H). destruct (look t (n :: p)) as [e|] eqn:E; [|congruence]. exists (n :: p, e). split; [now apply look_found|].
    unfold child_of. cbn [fst]. now rewrite place_eqb_refl, Hn.
Qed.
Lemma length_neq (n : str) (p : place) : n :: p <> p.
Proof. intros E. apply (f_equal (@length str)) in E. cbn in E. lia. Qed.

(** *** Creating directories *)
Lemma mkpath_spec p : forall t t', mkpath t p = Some t' ->
  forall q, (inside q p -> look t' q = Some EDir) /\ (look t' q = look t q \/ inside q p /\ look t q = None).
Proof.
  induction p as [|n p IH]; intros t t' H q.
  - injection H as <-. split; [intros [l E]|now left]. symmetry in E. apply app_eq_nil in E. destruct E as [_ ->]. reflexivity.
  - cbn [mkpath] in H. destruct (mkpath t p) as [t1|] eqn:E; [|discriminate]. destruct (IH _ _ E q) as [A B].
    assert (In1 : inside q p -> inside q (n :: p)) by (intros [l ->]; now exists (n :: l)).
    assert (Inv : inside q (n :: p) -> q = n :: p \/ inside q p).
    { intros [[|x l] K]; [now left|right]. injection K as _ K. now exists l. }
    destruct (look t1 (n :: p)) as [[]|] eqn:L; try discriminate; injection H as <-.
    + split; [|intuition]. intros K. destruct (Inv K) as [->|K']; [exact L|now apply A].
    + destruct q as [|m q]; [split; [reflexivity|now left]|]. rewrite look_cons by discriminate.
      destruct (place_eqb (n :: p) (m :: q)) eqn:Q.
      * apply place_eqb_eq in Q. rewrite <- Q in *. split; [reflexivity|]. right. split; [now exists []|].
        destruct B as [B|[B _]]; [congruence|]. exfalso. destruct B as [l B]. apply (f_equal (@length str)) in B. rewrite app_length in B. cbn in B. lia.
      * apply place_eqb_neq in Q. split; [|intuition]. intros K. destruct (Inv K) as [K'|K']; [congruence|now apply A].
Qed.
Lemma mkpath_sound t p t' : sound t -> mkpath t p = Some t' -> sound t'.
Proof.
  intros S H n q e L. destruct (mkpath_spec p t t' H (n :: q)) as [_ [B|[B _]]]; destruct (mkpath_spec p t t' H q) as [A' [B'|[B' C']]].
  - rewrite B' . rewrite B in L. exact (S _ _ _ L).
  - now apply A'.
  - apply A'. destruct B as [l ->]. exists (l ++ [n]). now rewrite <- app_assoc.
  - now apply A'.
Qed.

(** *** Removing directories *)
Lemma rmdir_spec t p t' : rmdir t p = Some t' ->
  p <> [] /\ look t p = Some EDir /\ (forall n, look t (n :: p) = None) /\ look t' p = None /\ forall q, q <> p -> look t' q = look t q.
Proof.
  unfold rmdir. destruct p as [|n p]; [discriminate|]. destruct (look t (n :: p)) as [[]|] eqn:L; try discriminate.
  destruct (existsb (child_of (n :: p)) t) eqn:E; [discriminate|]. intros [= <-]. split; [discriminate|]. split; [reflexivity|]. split.
  - intros m. destruct (look t (m :: n :: p)) eqn:K; [|reflexivity]. exfalso.
    assert (existsb (child_of (n :: p)) t = true); [|congruence]. apply child_spec. exists m. congruence.
  - split; [apply look_drop_same; discriminate|]. intros q Hq. now apply look_drop_other.
Qed.
Lemma rmdir_sound t p t' : sound t -> rmdir t p = Some t' -> sound t'.
Proof.
  intros S H n q e L. destruct (rmdir_spec _ _ _ H) as (_ & _ & C & D & O).
  destruct (list_eq_dec str_dec (n :: q) p) as [E|E]; [rewrite E in L; congruence|]. rewrite O in L by exact E.
  destruct (list_eq_dec str_dec q p) as [->|E2]; [rewrite C in L; discriminate|]. rewrite O by exact E2. exact (S _ _ _ L).
Qed.
Lemma remove_spec c : forall t t' w, remove_dirs t c = (t', w) ->
  forall p, look t' p <> look t p -> In p c /\ look t p = Some EDir /\ look t' p = None.
Proof.
  induction c as [|p c IH]; intros t t' w H q K; cbn [remove_dirs] in H; [injection H as <- _; congruence|].
  destruct (shows_any t p); [injection H as <- _; congruence|]. destruct (rmdir t p) as [t1|] eqn:R.
  - destruct (rmdir_spec _ _ _ R) as (_ & L & _ & D & O). destruct (list_eq_dec str_dec q p) as [->|E].
    + split; [now left|]. split; [exact L|]. destruct (look t' p) eqn:Q; [|reflexivity]. exfalso.
      destruct (IH _ _ _ H p) as (_ & X & _); congruence.
    + rewrite <- (O q E) in K |- *. destruct (IH _ _ _ H q K) as (A & B & C). split; [now right|auto].
  - destruct (remove_dirs t c) as [t1 w1] eqn:Q. injection H as <- _. destruct (IH _ _ _ Q q K) as (A & B & C). split; [now right|auto].
Qed.
Lemma remove_sound c : forall t t' w, sound t -> remove_dirs t c = (t', w) -> sound t'.
Proof.
  induction c as [|p c IH]; intros t t' w S H; cbn [remove_dirs] in H; [injection H as <- _; exact S|].
  destruct (shows_any t p); [injection H as <- _; exact S|]. destruct (rmdir t p) as [t1|] eqn:R.
  - apply (IH _ _ _ (rmdir_sound _ _ _ S R) H).
  - destruct (remove_dirs t c) as [t1 w1] eqn:Q. injection H as <- _. exact (IH _ _ _ S Q).
Qed.

(** *** C124: only directories that did not exist before are removed, and only empty ones. *)
Lemma remember_in t p q : In q (remember_dirs t p) -> look t q = None /\ inside q p /\ q <> [].
Proof.
  induction p as [|n p IH]; intros H; [destruct H|]. cbn [remember_dirs] in H. unfold exists_at in H.
  destruct (look t (n :: p)) eqn:L; [destruct H|]. destruct H as [<-|H].
  - split; [exact L|]. split; [now exists []|discriminate].
  - destruct (IH H) as (A & [l B] & C). split; [exact A|]. split; [exists (n :: l); now rewrite B|exact C].
Qed.
Theorem cleanup_only_created before p after t' w : sound after -> remove_dirs after (remember_dirs before p) = (t', w) ->
  sound t' /\ forall q, look t' q <> look after q -> look before q = None /\ look after q = Some EDir /\ look t' q = None /\ inside q p.
Proof.
  intros S H. split; [exact (remove_sound _ _ _ _ S H)|]. intros q K. destruct (remove_spec _ _ _ _ H q K) as (A & B & C).
  apply remember_in in A. destruct A as (A & D & _). auto.
Qed.

(** What is in none of the remembered directories but remembered directories, is removed. *)
Lemma remove_empty t p : forall t1, sound t1 ->
  (forall q, In q (remember_dirs t p) -> look t1 q = Some EDir \/ look t1 q = None) ->
  forall t' w, remove_dirs t1 (remember_dirs t p) = (t', w) ->
  forall q, In q (remember_dirs t p) -> (forall l, look t1 (l ++ q) <> None -> In (l ++ q) (remember_dirs t p)) -> look t' q = None.
Proof.
  induction p as [|n p IH]; intros t1 S D t' w H q Hq E; [destruct Hq|]. cbn [remember_dirs] in *. unfold exists_at in *.
  destruct (look t (n :: p)) eqn:L; [destruct Hq|]. cbn [remove_dirs] in H.
  assert (Len : forall r, In r (remember_dirs t p) -> (length r <= length p)%nat).
  { intros r Hr. apply remember_in in Hr. destruct Hr as (_ & [l ->] & _). rewrite app_length. lia. }
  (* nothing is in the innermost directory *)
  assert (In1 : inside q (n :: p)).
  { destruct Hq as [<-|Hq]; [now exists []|]. apply remember_in in Hq. destruct Hq as (_ & [l ->] & _). now exists (n :: l). }
  assert (C : forall m, look t1 (m :: n :: p) = None).
  { intros m. destruct (look t1 (m :: n :: p)) eqn:K; [|reflexivity]. exfalso. destruct In1 as [l In1]. rewrite In1 in K.
    assert (W : look t1 ((m :: l) ++ q) <> None) by (cbn [app]; congruence). apply E in W. destruct W as [W|W].
    - cbn [app] in W. rewrite <- In1 in W. symmetry in W. now apply length_neq in W.
    - apply Len in W. cbn [app] in W. rewrite <- In1 in W. cbn in W. lia. }
  replace (shows_any t1 (n :: p)) with false in H.
  2:{ symmetry. destruct (shows_any t1 (n :: p)) eqn:K; [|reflexivity]. apply shows_spec in K. destruct K as (m & _ & K). rewrite C in K. congruence. }
  destruct (D (n :: p) (or_introl eq_refl)) as [Dn|Dn].
  - unfold rmdir in H. rewrite Dn in H.
    replace (existsb (child_of (n :: p)) t1) with false in H.
    2:{ symmetry. destruct (existsb (child_of (n :: p)) t1) eqn:K; [|reflexivity]. apply child_spec in K. destruct K as (m & K). rewrite C in K. congruence. }
    assert (R : rmdir t1 (n :: p) = Some (drop t1 (n :: p))).
    { unfold rmdir. rewrite Dn. destruct (existsb (child_of (n :: p)) t1) eqn:K; [|reflexivity]. apply child_spec in K. destruct K as (m & K). rewrite C in K. congruence. }
    destruct (rmdir_spec _ _ _ R) as (_ & _ & _ & Dr & Or).
    assert (X : forall r, In r (remember_dirs t p) -> r <> n :: p) by (intros r Hr ->; apply Len in Hr; cbn in Hr; lia).
    destruct Hq as [<-|Hq].
    + destruct (look t' (n :: p)) eqn:K; [|reflexivity]. exfalso. destruct (remove_spec _ _ _ _ H (n :: p)) as (_ & W & _); congruence.
    + apply (IH _ (rmdir_sound _ _ _ S R)) with (t' := t') (w := w); [|exact H|exact Hq|].
      * intros r Hr. rewrite Or by (now apply X). apply D. now right.
      * intros l K. destruct (list_eq_dec str_dec (l ++ q) (n :: p)) as [Q|Q]; [rewrite Q in K; congruence|]. rewrite Or in K by exact Q.
        apply E in K. destruct K as [K|K]; [congruence|exact K].
  - (* the directory is not there (any more) *)
    assert (R : rmdir t1 (n :: p) = None) by (unfold rmdir; now rewrite Dn). rewrite R in H.
    destruct (remove_dirs t1 (remember_dirs t p)) as [t2 w2] eqn:Q. injection H as <- _.
    destruct Hq as [<-|Hq].
    + destruct (look t2 (n :: p)) eqn:K; [|reflexivity]. exfalso. destruct (remove_spec _ _ _ _ Q (n :: p)) as (_ & W & _); congruence.
    + apply (IH _ S) with (t' := t2) (w := w2); [|exact Q|exact Hq|].
      * intros r Hr. apply D. now right.
      * intros l K. pose proof K as K0. apply E in K. destruct K as [K|K]; [rewrite <- K in K0; congruence|exact K].
Qed.
Theorem cleanup_removes_empty before p after t' w : sound after ->
  (forall q, In q (remember_dirs before p) -> look after q = Some EDir \/ look after q = None) ->
  remove_dirs after (remember_dirs before p) = (t', w) ->
  forall q, inside q p -> look before q = None -> (forall l, look after (l ++ q) <> None -> look before (l ++ q) = None /\ inside (l ++ q) p) -> sound before ->
  look t' q = None.
Proof.
  intros S D H q Iq Lq E Sb. assert (G : forall r, inside r p -> look before r = None -> In r (remember_dirs before p)).
  { clear - Sb. induction p as [|n p IH]; intros r [l E] L.
    - symmetry in E. apply app_eq_nil in E. destruct E as [_ ->]. discriminate L.
    - cbn [remember_dirs]. unfold exists_at. destruct l as [|x l].
      + cbn in E. subst r. rewrite L. now left.
      + injection E as -> E. assert (Hr : In r (remember_dirs before p)) by (apply IH; [now exists l|exact L]).
        destruct (look before (x :: p)) as [e|] eqn:K; [exfalso|now right]. apply Sb in K.
        assert (Up : forall l p r, p = l ++ r -> look before p <> None -> look before r <> None).
        { clear - Sb. induction l as [|y l IHl]; intros p r -> K; [exact K|]. apply (IHl (l ++ r) r eq_refl). cbn [app] in K.
          destruct (look before (y :: l ++ r)) as [e|] eqn:Q; [|congruence]. rewrite (Sb _ _ _ Q). discriminate. }
        apply (Up l p r E); congruence. }
  apply (remove_empty before p after S D t' w H); [now apply G|]. intros l K. destruct (E l K). now apply G.
Qed.
(** If nothing is put there, everything is as before. *)
Lemma remove_restores t p : sound t -> forall t1,
  (forall q, In q (remember_dirs t p) -> look t1 q = Some EDir) -> (forall q, ~ In q (remember_dirs t p) -> look t1 q = look t q) ->
  exists t', remove_dirs t1 (remember_dirs t p) = (t', []) /\ forall q, look t' q = look t q.
Proof.
  intros S. induction p as [|n p IH]; intros t1 D O.
  - exists t1. split; [reflexivity|]. intros q. apply O. intros [].
  - cbn [remember_dirs] in *. unfold exists_at in *. destruct (look t (n :: p)) eqn:L.
    + exists t1. split; [reflexivity|]. intros q. apply O. intros [].
    + assert (Len : forall r, In r (remember_dirs t p) -> (length r <= length p)%nat).
      { intros r Hr. apply remember_in in Hr. destruct Hr as (_ & [l ->] & _). rewrite app_length. lia. }
      assert (C : forall m, look t1 (m :: n :: p) = None).
      { intros m. rewrite O.
        - destruct (look t (m :: n :: p)) as [e|] eqn:K; [|reflexivity]. apply S in K. congruence.
        - intros [K|K]; [symmetry in K; now apply length_neq in K|]. apply Len in K. cbn in K. lia. }
      cbn [remove_dirs]. replace (shows_any t1 (n :: p)) with false.
      2:{ symmetry. destruct (shows_any t1 (n :: p)) eqn:K; [|reflexivity]. apply shows_spec in K. destruct K as (m & _ & K). rewrite C in K. congruence. }
      assert (R : rmdir t1 (n :: p) = Some (drop t1 (n :: p))).
      { unfold rmdir. rewrite (D (n :: p) (or_introl eq_refl)). destruct (existsb (child_of (n :: p)) t1) eqn:K; [|reflexivity]. apply child_spec in K. destruct K as (m & K). rewrite C in K. congruence. }
      rewrite R. destruct (rmdir_spec _ _ _ R) as (_ & _ & _ & Dr & Or). apply IH.
      * intros q Hq. rewrite Or; [apply D; now right|]. intros ->. apply Len in Hq. cbn in Hq. lia.
      * intros q Hq. destruct (list_eq_dec str_dec q (n :: p)) as [->|Q]; [congruence|]. rewrite Or by exact Q. apply O. intros [K|K]; congruence.
Qed.
Theorem cleanup_restores t p t1 : sound t -> mkpath t p = Some t1 ->
  exists t', remove_dirs t1 (remember_dirs t p) = (t', []) /\ forall q, look t' q = look t q.
Proof.
  intros S H. apply remove_restores; [exact S| |].
  - intros q Hq. apply remember_in in Hq. destruct Hq as (_ & Hq & _). exact (proj1 (mkpath_spec p t t1 H q) Hq).
  - intros q Hq. destruct (mkpath_spec p t t1 H q) as [_ [B|[B C]]]; [exact B|]. exfalso. apply Hq. clear - S B C.
    induction p as [|n p IH].
    + destruct B as [l B]. symmetry in B. apply app_eq_nil in B. destruct B as [_ ->]. discriminate C.
    + cbn [remember_dirs]. unfold exists_at. destruct B as [[|x l] B]; [cbn in B; subst q; rewrite C; now left|].
      injection B as -> B. assert (Hq : In q (remember_dirs t p)) by (apply IH; now exists l).
      destruct (look t (x :: p)) as [e|] eqn:K; [exfalso|now right]. apply S in K.
      revert K C. rewrite B. clear - S. induction l as [|y l IHl]; intros K C; [cbn in K; congruence|]. apply IHl; [|exact C]. exact (S _ _ _ K).
Qed.
(** A warning is about a directory created before in which no file is left that is not hidden. *)
Lemma remove_warned c : forall t t' w, remove_dirs t c = (t', w) -> forall p, In p w ->
  In p c /\ forall n, (forall r, n <> 46%N :: r) -> look t' (n :: p) = None.
Proof.
  induction c as [|q c IH]; intros t t' w H p Hp; cbn [remove_dirs] in H; [injection H as _ <-; destruct Hp|].
  destruct (shows_any t q) eqn:Sh; [injection H as _ <-; destruct Hp|]. destruct (rmdir t q) as [t1|].
  - destruct (IH _ _ _ H p Hp) as [A B]. split; [now right|exact B].
  - destruct (remove_dirs t c) as [t1 w1] eqn:Q. injection H as <- <-. destruct Hp as [<-|Hp].
    + split; [now left|]. intros n Hn. destruct (look t1 (n :: q)) as [e|] eqn:L; [exfalso|reflexivity].
      assert (X : look t (n :: q) <> None).
      { intros Y. destruct (remove_spec _ _ _ _ Q (n :: q)) as (_ & Z & _); congruence. }
      assert (shows_any t q = true); [|congruence]. apply shows_spec. exists n. split; [|exact X].
      unfold hidden. destruct n as [|k n]; [reflexivity|]. destruct (N.eq_dec k 46) as [->|K]; [exfalso; now apply (Hn n)|].
      destruct k as [|k]; [reflexivity|]. repeat (destruct k as [k|k|]; try reflexivity). congruence.
    + destruct (IH _ _ _ Q p Hp) as [A B]. split; [now right|exact B].
Qed.
Theorem cleanup_warning_partial before p after t' w q : remove_dirs after (remember_dirs before p) = (t', w) -> In q w ->
  look before q = None /\ inside q p /\ forall n, (forall r, n <> 46%N :: r) -> look t' (n :: q) = None.
Proof.
  intros H Hq. destruct (remove_warned _ _ _ _ H q Hq) as [A B]. apply remember_in in A. destruct A as (A & C & _). auto.
Qed.
(** A directory with hidden files only is kept, but with a warning that an empty directory could not be removed. *)
Theorem cleanup_warning_refuted : exists before p after t' w n, sound before /\ sound after /\
  remove_dirs after (remember_dirs before p) = (t', w) /\ In p w /\ look after (n :: p) = Some EFile.
Proof.
  set (b := [[98%N]]). set (h := [46; 120]%N). exists [], b, [(h :: b, EFile); (b, EDir)]. do 2 eexists. exists h. split; [|split].
  - intros n q e H. discriminate.
  - intros n q e H. apply look_found in H. destruct H as [H|[H|[]]]; injection H as <- <- _; reflexivity.
  - split; [reflexivity|]. split; [now left|reflexivity].
Qed.

(** ** C123: the lock *)
Definition good (dir : place) (m : machine) : Prop :=
  sound (m_tree m) /\ forall i, holder m i -> look (m_tree m) (lock_path dir) = Some (ELock i).
Definition moved (p : process) (l : at_line) : process :=
  {| pr_pid := pr_pid p; pr_host := pr_host p; pr_app := pr_app p; pr_wait := pr_wait p; pr_at := l |}.
Lemma nth_set_same ps i l p : nth_error ps i = Some p -> nth_error (set_at ps i l) i = Some (moved p l).
Proof. revert i. induction ps as [|q ps IH]; intros [|i] H; cbn in *; try discriminate; [now injection H as ->|now apply IH]. Qed.
Lemma nth_set_other ps i l j : j <> i -> nth_error (set_at ps i l) j = nth_error ps j.
Proof. revert i j. induction ps as [|q ps IH]; intros [|i] [|j] H; cbn; try reflexivity; try congruence. apply IH. congruence. Qed.
Lemma nth_set_none ps i l : nth_error ps i = None -> set_at ps i l = ps.
Proof. revert i. induction ps as [|q ps IH]; intros [|i] H; cbn in *; try reflexivity; try discriminate. f_equal. now apply IH. Qed.
Lemma set_holder ps i l j t : holder {| m_tree := t; m_procs := set_at ps i l |} j ->
  (j = i /\ exists c, l = HasLock c) \/ (j <> i /\ exists p c, nth_error ps j = Some p /\ pr_at p = HasLock c).
Proof.
  intros (p & c & H & K). cbn [m_procs] in H. destruct (Nat.eq_dec j i) as [->|Q].
  - left. split; [reflexivity|]. destruct (nth_error ps i) as [q|] eqn:E.
    + rewrite (nth_set_same _ _ _ _ E) in H. injection H as <-. now exists c.
    + rewrite nth_set_none, E in H by exact E. discriminate.
  - right. split; [exact Q|]. rewrite nth_set_other in H by exact Q. now exists p, c.
Qed.
Lemma good_keep dir m i l t' : good dir m -> (forall c, l <> HasLock c) -> sound t' ->
  look t' (lock_path dir) = look (m_tree m) (lock_path dir) -> good dir {| m_tree := t'; m_procs := set_at (m_procs m) i l |}.
Proof.
  intros [S G] NL S' E. split; [exact S'|]. intros j H. cbn [m_tree]. rewrite E. apply G. apply set_holder in H.
  destruct H as [[_ [c H]]|[_ (p & c & H)]]; [exfalso; now apply (NL c)|now exists p, c].
Qed.
Lemma good_only dir m i l t' : (forall j, j <> i -> ~ holder m j) -> sound t' ->
  (forall c, l = HasLock c -> look t' (lock_path dir) = Some (ELock i)) -> good dir {| m_tree := t'; m_procs := set_at (m_procs m) i l |}.
Proof.
  intros N S' L. split; [exact S'|]. intros j H. apply set_holder in H. destruct H as [[-> [c H]]|[Q (p & c & H & K)]]; [now apply (L c)|].
  exfalso. apply (N j Q). now exists p, c.
Qed.
Lemma sound_put t p e : sound t -> look t (tl p) = Some EDir -> (e = EDir \/ forall n, look t (n :: p) = None) -> sound ((p, e) :: t).
Proof.
  intros S D E n q e' L. rewrite look_cons in L by discriminate. destruct (list_eq_dec str_dec q []) as [->|Q]; [reflexivity|].
  rewrite look_cons by exact Q. destruct (place_eqb p q) eqn:P.
  - apply place_eqb_eq in P. subst q. destruct E as [->|E]; [reflexivity|]. destruct (place_eqb p (n :: p)) eqn:X.
    + apply place_eqb_eq in X. symmetry in X. now apply length_neq in X.
    + rewrite E in L. discriminate.
  - destruct (place_eqb p (n :: q)) eqn:X; [apply place_eqb_eq in X; subst p; exact D|exact (S _ _ _ L)].
Qed.
Lemma sound_drop t p : sound t -> (forall n, look t (n :: p) = None) -> sound (drop t p).
Proof.
  intros S E n q e L. destruct (list_eq_dec str_dec (n :: q) p) as [P|P].
  - rewrite P, look_drop_same in L; [discriminate|]. rewrite <- P. discriminate.
  - rewrite look_drop_other in L by exact P. destruct (list_eq_dec str_dec q p) as [->|Q]; [rewrite E in L; discriminate|].
    rewrite look_drop_other by exact Q. exact (S _ _ _ L).
Qed.
Lemma sound_leaf t p o : sound t -> look t p = Some (ELock o) \/ look t p = None -> forall n, look t (n :: p) = None.
Proof. intros S [L|L] n; (destruct (look t (n :: p)) as [e|] eqn:E; [|reflexivity]; apply S in E; congruence). Qed.
Lemma not_inside dir : ~ inside (lock_path dir) dir.
Proof. intros [l E]. apply (f_equal (@length str)) in E. rewrite app_length in E. cbn in E. lia. Qed.

Lemma next_not p c n : forall c', next_attempt p c n <> HasLock c'.
Proof. intros c'. unfold next_attempt. destruct (_ || _); discriminate. Qed.

Lemma good_go dir m i m' : good dir m -> go true dir m i = Some m' -> good dir m'.
Proof.
  intros G H. pose proof G as [S L]. unfold go in H. destruct (nth_error (m_procs m) i) as [p|] eqn:P; [|discriminate].
  assert (Nx : forall c n, good dir {| m_tree := m_tree m; m_procs := set_at (m_procs m) i (next_attempt p c n) |})
    by (intros; apply good_keep; [exact G|apply next_not|exact S|reflexivity]).
  assert (Nk : forall l, (forall c, l <> HasLock c) -> good dir {| m_tree := m_tree m; m_procs := set_at (m_procs m) i l |})
    by (intros; apply good_keep; [exact G|assumption|exact S|reflexivity]).
  assert (Free : forall o, look (m_tree m) (lock_path dir) = Some (ELock o) -> removable true (m_procs m) o = true -> forall j, j <> i -> ~ holder m j).
  { intros o LO R j _ Hj. pose proof Hj as (q & c & Q & A). apply L in Hj. rewrite LO in Hj. injection Hj as ->.
    unfold removable, has_lock in R. rewrite Q, A in R. discriminate. }
  destruct (pr_at p) as [|c n|c n|c n|c n|c|c f|f|] eqn:A; try discriminate.
  - injection H as <-. apply Nk. discriminate.
  - destruct (mkpath (m_tree m) dir) as [t'|] eqn:M; injection H as <-; [|apply Nk; discriminate].
    apply good_keep; [exact G|discriminate|exact (mkpath_sound _ _ _ S M)|].
    destruct (mkpath_spec _ _ _ M (lock_path dir)) as [_ [B|[B _]]]; [exact B|exfalso; exact (not_inside dir B)].
  - assert (Fl : good dir {| m_tree := m_tree m; m_procs := set_at (m_procs m) i (if pr_wait p then next_attempt p c n else AtInfo c n) |})
      by (destruct (pr_wait p); [apply Nx|apply Nk; discriminate]).
    destruct (look (m_tree m) (lock_path dir)) as [[| |o]|] eqn:LK; try (injection H as <-; exact Fl).
    + destruct (nth_error (m_procs m) o) as [q|]; [|injection H as <-; exact Fl].
      destruct (_ && removable true (m_procs m) o) eqn:C; injection H as <-; [|exact Fl]. apply andb_prop in C. destruct C as [_ C].
      apply good_only; [exact (Free o eq_refl C)| |intros; cbn [m_tree]; rewrite look_cons by discriminate; now rewrite place_eqb_refl].
      pose proof (sound_leaf _ _ o S (or_introl LK)) as Lf. apply sound_put; [now apply sound_drop| |right].
      * cbn [lock_path tl]. rewrite look_drop_other; [exact (S _ _ _ LK)|]. intros X. symmetry in X. now apply length_neq in X.
      * intros x. rewrite look_drop_other by apply length_neq. apply Lf.
    + destruct (look (m_tree m) dir) as [[]|] eqn:D; injection H as <-; try (apply Nk; discriminate).
      apply good_only; [| |intros; cbn [m_tree]; rewrite look_cons by discriminate; now rewrite place_eqb_refl].
      * intros j _ Hj. apply L in Hj. discriminate.
      * apply sound_put; [exact S|exact D|right; exact (sound_leaf _ _ O S (or_intror LK))].
  - destruct (look (m_tree m) (lock_path dir)) as [[| |o]|]; try (injection H as <-; apply Nx).
    destruct (nth_error (m_procs m) o) as [q|]; [|injection H as <-; apply Nx].
    destruct (opt_str_eqb _ _); injection H as <-; apply Nk; discriminate.
  - destruct (look (m_tree m) (lock_path dir)) as [[| |o]|] eqn:LK; try (injection H as <-; apply Nx).
    destruct (removable true (m_procs m) o) eqn:R; injection H as <-; [|apply Nx].
    apply good_only; [exact (Free o eq_refl R)|apply sound_drop; [exact S|exact (sound_leaf _ _ o S (or_introl LK))]|].
    intros c' E. exfalso. exact (next_not _ _ _ _ E).
  - injection H as <-. assert (LK : look (m_tree m) (lock_path dir) = Some (ELock i)) by (apply L; now exists p, c).
    apply good_only; [|apply sound_drop; [exact S|exact (sound_leaf _ _ i S (or_introl LK))]|discriminate].
    intros j Q Hj. apply L in Hj. congruence.
  - injection H as <-. destruct (remove_dirs (m_tree m) c) as [t' w] eqn:R. cbn [fst].
    destruct (look (m_tree m) (lock_path dir)) as [[| |o]|] eqn:LK.
    all: try (apply good_only; [intros j _ Hj; apply L in Hj; congruence|exact (remove_sound _ _ _ _ S R)|discriminate]).
    apply good_keep; [exact G|discriminate|exact (remove_sound _ _ _ _ S R)|]. cbn [m_tree] in *.
    destruct (look t' (lock_path dir)) as [e|] eqn:X.
    + rewrite <- X. destruct (option_map (fun _ => tt) (look t' (lock_path dir))) eqn:Y; [|rewrite X in Y; discriminate].
      assert (Z : look t' (lock_path dir) = look (m_tree m) (lock_path dir) \/ look t' (lock_path dir) <> look (m_tree m) (lock_path dir)).
      { rewrite X, LK. destruct e as [| |o']; [right; discriminate|right; discriminate|]. destruct (Nat.eq_dec o' o) as [->|W]; [now left|right; congruence]. }
      destruct Z as [Z|Z]; [exact Z|]. destruct (remove_spec _ _ _ _ R _ Z) as (_ & W & _). congruence.
    + exfalso. destruct (remove_spec _ _ _ _ R (lock_path dir)) as (_ & W & _); congruence.
Qed.
Lemma good_act dir m a m' : good dir m -> act true dir m a = Some m' -> good dir m'.
Proof.
  intros G H. pose proof G as [S L]. destruct a as [i|i|i|p|p e|p]; cbn [act] in H.
  - exact (good_go dir m i m' G H).
  - destruct (option_map pr_at (nth_error (m_procs m) i)) as [[]|]; try discriminate. injection H as <-. apply good_keep; [exact G|discriminate|exact S|reflexivity].
  - injection H as <-. apply good_keep; [exact G|discriminate|exact S|reflexivity].
  - destruct (name_by_pid _ _ _); [discriminate|]. destruct (pr_at p) eqn:A; try discriminate. injection H as <-.
    split; [exact S|]. intros i (q & c & Q & K). cbn [m_procs] in Q. apply L. exists q, c. split; [|exact K].
    destruct (Nat.lt_ge_cases i (length (m_procs m))) as [B|B]; [now rewrite nth_error_app1 in Q|]. exfalso. rewrite nth_error_app2 in Q by exact B.
    destruct (i - length (m_procs m))%nat as [|k]; [injection Q as <-; congruence|destruct k; discriminate].
  - destruct p as [|n p]; [discriminate|]. cbn [tl] in H.
    assert (E : look (m_tree m) (n :: p) = None /\ look (m_tree m) p = Some EDir /\ (n :: p) <> lock_path dir /\
      m' = {| m_tree := (n :: p, e) :: m_tree m; m_procs := m_procs m |}).
    { destruct e; try discriminate; (destruct (look (m_tree m) (n :: p)); [discriminate|]; destruct (look (m_tree m) p) as [[]|]; try discriminate;
      destruct (place_eqb (n :: p) (lock_path dir)) eqn:X; [discriminate|]; apply place_eqb_neq in X; injection H as <-; auto). }
    destruct E as (E1 & E2 & E3 & ->). split; [apply sound_put; [exact S|exact E2|right; exact (sound_leaf _ _ O S (or_intror E1))]|].
    intros i Hi. cbn [m_tree]. rewrite look_cons by discriminate. rewrite (proj2 (place_eqb_neq _ _) E3). apply L. destruct Hi as (q & c & Q). now exists q, c.
  - destruct (place_eqb p (lock_path dir) || existsb (child_of p) (m_tree m)) eqn:E; [discriminate|]. injection H as <-.
    apply orb_false_elim in E. destruct E as [E1 E2]. apply place_eqb_neq in E1. split.
    + apply sound_drop; [exact S|]. intros n. destruct (look (m_tree m) (n :: p)) eqn:X; [|reflexivity]. exfalso.
      assert (existsb (child_of p) (m_tree m) = true) by (apply child_spec; exists n; congruence). congruence.
    + intros i Hi. cbn [m_tree]. rewrite look_drop_other by congruence. apply L. destruct Hi as (q & c & Q). now exists q, c.
Qed.
Lemma good_acts dir l : forall m m', good dir m -> acts true dir m l = Some m' -> good dir m'.
Proof.
  induction l as [|a l IH]; intros m m' G H; cbn [acts] in H; [now injection H as <-|].
  destruct (act true dir m a) as [m1|] eqn:E; [|discriminate]. exact (IH _ _ (good_act _ _ _ _ G E) H).
Qed.
Lemma good_start dir t : sound t -> good dir {| m_tree := t; m_procs := [] |}.
Proof. intros S. split; [exact S|]. intros i (p & c & H & _). destruct i; discriminate. Qed.

(** Whatever processes are started, are stopped at any point and do, and whatever others do with other files:
    at most one process has the lock, and its lock file and build directory exist as long as it has. *)
Theorem lock_is_exclusive dir t l m i j : sound t -> happens true dir t l m -> holder m i -> holder m j -> i = j.
Proof.
  intros S H Hi Hj. apply good_acts in H; [|now apply good_start]. destruct H as [_ L]. apply L in Hi, Hj. congruence.
Qed.
Theorem held_directory_stays dir t l m i : sound t -> happens true dir t l m -> holder m i ->
  look (m_tree m) dir = Some EDir /\ look (m_tree m) (lock_name :: dir) = Some (ELock i).
Proof.
  intros S H Hi. apply good_acts in H; [|now apply good_start]. destruct H as [S' L]. apply L in Hi. split; [exact (S' _ _ _ Hi)|exact Hi].
Qed.

(** *** When the lock can be had *)
(** Nobody has the lock: there is no lock file, or its process has ended (or failed), and no process of this name has its id. *)
Definition runs (m : machine) (r : process) : Prop := In r (m_procs m) /\ pr_at r <> Exited.
Definition is_stale (m : machine) (host : N) (q : process) : Prop :=
  (forall c, pr_at q <> HasLock c) /\
  forall r, runs m r -> pr_host r = host -> pr_pid r = pr_pid q -> pr_app r <> pr_app q.

Lemma stale_name m host q : is_stale m host q -> opt_str_eqb (pr_app q) (name_by_pid (m_procs m) host (pr_pid q)) = false.
Proof.
  intros [_ H]. unfold opt_str_eqb, name_by_pid. destruct (find _ (m_procs m)) as [r|] eqn:F; [|reflexivity]. cbn [option_map].
  apply find_some in F. destruct F as [F1 F2]. apply andb_prop in F2. destruct F2 as [F2 F3]. apply andb_prop in F2. destruct F2 as [F2 F4].
  apply N.eqb_eq in F3, F4. assert (X : pr_app r <> pr_app q).
  { apply H; [|exact F4|exact F3]. split; [exact F1|]. unfold is_alive in F2. destruct (pr_at r); congruence. }
  destruct (str_eqb (pr_app q) (pr_app r)) eqn:Y; [apply str_eqb_eq in Y; congruence|reflexivity].
Qed.
Lemma in_set ps i l r : In r (set_at ps i l) -> In r ps \/ exists p, nth_error ps i = Some p /\ r = moved p l.
Proof.
  intros H. apply In_nth_error in H. destruct H as [j H]. destruct (Nat.eq_dec j i) as [->|Q].
  - destruct (nth_error ps i) as [p|] eqn:E; [rewrite (nth_set_same _ _ _ _ E) in H; injection H as <-; right; now exists p|].
    rewrite nth_set_none, E in H by exact E. discriminate.
  - rewrite nth_set_other in H by exact Q. left. exact (nth_error_In _ _ H).
Qed.
Lemma stale_set m i p l t host q : nth_error (m_procs m) i = Some p -> pr_at p <> Exited -> is_stale m host q ->
  is_stale {| m_tree := t; m_procs := set_at (m_procs m) i l |} host q.
Proof.
  intros P A [H1 H2]. split; [exact H1|]. intros r [R1 R2] Hh Hp. cbn [m_procs] in R1. apply in_set in R1. destruct R1 as [R1|(p' & P' & ->)].
  - apply H2; [now split|exact Hh|exact Hp].
  - rewrite P in P'. injection P' as <-. apply (H2 p); [|exact Hh|exact Hp]. split; [exact (nth_error_In _ _ P)|exact A].
Qed.
Lemma set_twice ps i l l' : set_at (set_at ps i l) i l' = set_at ps i l'.
Proof. revert i. induction ps as [|q ps IH]; intros [|i]; cbn; try reflexivity. f_equal. apply IH. Qed.

Lemma go_free native dir m i p c n : nth_error (m_procs m) i = Some p -> pr_at p = AtTry c n ->
  look (m_tree m) (lock_path dir) = None -> look (m_tree m) dir = Some EDir ->
  exists m', go native dir m i = Some m' /\ holder m' i.
Proof.
  intros P A LK D. unfold go. rewrite P, A, LK, D. eexists. split; [reflexivity|]. exists (moved p (HasLock c)), c. split; [|reflexivity].
  cbn [m_procs]. now apply nth_set_same.
Qed.
Lemma go_loop native dir m i p c n t' : nth_error (m_procs m) i = Some p -> pr_at p = AtLoop c n -> mkpath (m_tree m) dir = Some t' ->
  go native dir m i = Some {| m_tree := t'; m_procs := set_at (m_procs m) i (AtTry c n) |}.
Proof. intros P A M. unfold go. now rewrite P, A, M. Qed.
Lemma mkpath_dir t dir t' : mkpath t dir = Some t' -> look t' dir = Some EDir /\ look t' (lock_path dir) = look t (lock_path dir).
Proof.
  intros M. split; [apply (proj1 (mkpath_spec _ _ _ M dir)); now exists []|].
  destruct (mkpath_spec _ _ _ M (lock_path dir)) as [_ [B|[B _]]]; [exact B|exfalso; exact (not_inside dir B)].
Qed.
Lemma mkpath_again t dir : sound t -> look t dir = Some EDir -> mkpath t dir = Some t.
Proof.
  revert t. induction dir as [|n d IH]; intros t S D; [reflexivity|]. cbn [mkpath]. rewrite (IH t S (S _ _ _ D)), D. reflexivity.
Qed.

Theorem lock_available native dir m i p t' : sound (m_tree m) ->
  nth_error (m_procs m) i = Some p -> pr_at p = Idle -> mkpath (m_tree m) dir = Some t' ->
  (look (m_tree m) (lock_name :: dir) = None \/
   exists o q, look (m_tree m) (lock_name :: dir) = Some (ELock o) /\ o <> i /\ nth_error (m_procs m) o = Some q /\
     is_stale m (pr_host p) q /\ (pr_host q = pr_host p \/ pr_wait p = false)) ->
  exists k m', acts native dir m (repeat (Go i) k) = Some m' /\ holder m' i.
Proof.
  intros S P A M F.
  set (c := remember_dirs (m_tree m) dir).
  set (m1 := {| m_tree := m_tree m; m_procs := set_at (m_procs m) i (AtLoop c O) |}).
  assert (G1 : go native dir m i = Some m1) by (unfold go; now rewrite P, A).
  assert (P1 : nth_error (m_procs m1) i = Some (moved p (AtLoop c O))) by (apply nth_set_same; exact P).
  set (m2 := {| m_tree := t'; m_procs := set_at (m_procs m) i (AtTry c O) |}).
  assert (G2 : go native dir m1 i = Some m2).
  { rewrite (go_loop native dir m1 i _ c O t' P1 eq_refl M). unfold m1. cbn [m_procs]. now rewrite set_twice. }
  assert (P2 : nth_error (m_procs m2) i = Some (moved p (AtTry c O))) by (apply nth_set_same; exact P).
  destruct (mkpath_dir _ _ _ M) as [D' L']. pose proof (mkpath_sound _ _ _ S M) as S'.
  destruct F as [F|(o & q & F & Oi & Q & St & W)].
  - destruct (go_free native dir m2 i _ c O P2 eq_refl) as (m3 & G3 & H3); [cbn [m2 m_tree]; rewrite L'; exact F|exact D'|].
    exists 3, m3. split; [|exact H3]. cbn [repeat acts act]. now rewrite G1, G2, G3.
  - assert (Alive : pr_at p <> Exited) by congruence.
    assert (StX : forall t l, is_stale {| m_tree := t; m_procs := set_at (m_procs m) i l |} (pr_host p) q) by (intros; now apply (stale_set m i p)).
    assert (Nh : has_lock q = false) by (destruct St as [St _]; unfold has_lock; destruct (pr_at q); try reflexivity; exfalso; now apply (St created)).
    assert (QX : forall l, nth_error (set_at (m_procs m) i l) o = Some q) by (intros; rewrite nth_set_other; assumption).
    assert (RX : forall l, removable native (set_at (m_procs m) i l) o = true) by (intros; unfold removable; rewrite QX, Nh, andb_false_r; reflexivity).
    assert (LX : look t' (lock_path dir) = Some (ELock o)) by (rewrite L'; exact F).
    assert (NX : forall l, opt_str_eqb (pr_app q) (name_by_pid (set_at (m_procs m) i l) (pr_host p) (pr_pid q)) = false)
      by (intros l; exact (stale_name _ _ _ (StX t' l))).
    destruct (N.eq_dec (pr_host q) (pr_host p)) as [Hh|Hh].
    + assert (G3 : exists m3, go native dir m2 i = Some m3 /\ holder m3 i).
      { unfold go. rewrite P2. cbn [moved pr_at pr_host m2 m_tree m_procs]. rewrite LX, QX, Hh, N.eqb_refl, NX, RX. cbn [negb andb].
        eexists. split; [reflexivity|]. exists (moved (moved p (AtTry c O)) (HasLock c)), c. split; [|reflexivity]. cbn [m_procs].
        apply (nth_set_same _ i (HasLock c)). exact P2. }
      destruct G3 as (m3 & G3 & H3). exists 3, m3. split; [|exact H3]. cbn [repeat acts act]. now rewrite G1, G2, G3.
    + destruct W as [W|W]; [congruence|].
      set (m3 := {| m_tree := t'; m_procs := set_at (m_procs m) i (AtInfo c O) |}).
      assert (G3 : go native dir m2 i = Some m3).
      { unfold go. rewrite P2. cbn [moved pr_at pr_host pr_wait m2 m_tree m_procs]. rewrite LX, QX, (proj2 (N.eqb_neq _ _) Hh), W. cbn [andb].
        rewrite set_twice. reflexivity. }
      assert (P3 : nth_error (m_procs m3) i = Some (moved p (AtInfo c O))) by (apply nth_set_same; exact P).
      set (m4 := {| m_tree := t'; m_procs := set_at (m_procs m) i (AtStale c O) |}).
      assert (G4 : go native dir m3 i = Some m4).
      { unfold go. rewrite P3. cbn [moved pr_at pr_host m3 m_tree m_procs]. rewrite LX, QX, NX. rewrite set_twice. reflexivity. }
      assert (P4 : nth_error (m_procs m4) i = Some (moved p (AtStale c O))) by (apply nth_set_same; exact P).
      set (m5 := {| m_tree := drop t' (lock_path dir); m_procs := set_at (m_procs m) i (AtLoop c 1) |}).
      assert (G5 : go native dir m4 i = Some m5).
      { unfold go. rewrite P4. cbn [moved pr_at m4 m_tree m_procs]. rewrite LX, RX. rewrite set_twice. reflexivity. }
      assert (P5 : nth_error (m_procs m5) i = Some (moved p (AtLoop c 1))) by (apply nth_set_same; exact P).
      assert (S5 : sound (m_tree m5)) by (apply sound_drop; [exact S'|exact (sound_leaf _ _ o S' (or_introl LX))]).
      assert (D5 : look (m_tree m5) dir = Some EDir).
      { cbn [m5 m_tree]. rewrite look_drop_other; [exact D'|]. intros X. symmetry in X. now apply length_neq in X. }
      pose proof (go_loop native dir m5 i _ c 1 _ P5 eq_refl (mkpath_again _ _ S5 D5)) as G6. cbn [m5 m_procs m_tree] in G6. rewrite set_twice in G6.
      set (m6 := {| m_tree := drop t' (lock_path dir); m_procs := set_at (m_procs m) i (AtTry c 1) |}) in G6.
      destruct (go_free native dir m6 i (moved p (AtTry c 1)) c 1) as (m7 & G7 & H7); [apply nth_set_same; exact P|reflexivity|apply look_drop_same; discriminate|exact D5|].
      exists 7, m7. split; [|exact H7]. cbn [repeat acts act]. rewrite G1, G2, G3, G4, G5. fold m5 in G6. rewrite G6, G7. reflexivity.
Qed.

(** An attempt while another process has the lock does not succeed and does not change the files, but for the
    directories, which exist. *)
Theorem lock_refused native dir m i o p q c : sound (m_tree m) -> native = true \/ (pr_host q = pr_host p /\ name_by_pid (m_procs m) (pr_host p) (pr_pid q) = Some (pr_app q)) ->
  nth_error (m_procs m) i = Some p -> nth_error (m_procs m) o = Some q -> pr_at q = HasLock c -> o <> i ->
  look (m_tree m) (lock_name :: dir) = Some (ELock o) ->
  (exists c n, pr_at p = AtTry c n \/ pr_at p = AtLoop c n \/ pr_at p = AtInfo c n) ->
  exists m', go native dir m i = Some m' /\ m_tree m' = m_tree m /\ ~ holder m' i /\ nth_error (m_procs m') o = Some q.
Proof.
  intros S H P Q A Oi LK (c1 & n & W). unfold go. rewrite P. pose proof (S _ _ _ LK) as D.
  assert (R : native = true -> removable native (m_procs m) o = false) by (intros ->; unfold removable, has_lock; now rewrite Q, A).
  assert (Done : forall l, (forall c, l <> HasLock c) ->
    exists m', Some {| m_tree := m_tree m; m_procs := set_at (m_procs m) i l |} = Some m' /\ m_tree m' = m_tree m /\ ~ holder m' i /\ nth_error (m_procs m') o = Some q).
  { intros l Hl. eexists. split; [reflexivity|]. split; [reflexivity|]. split; [|cbn [m_procs]; now rewrite nth_set_other].
    intros Hi. apply set_holder in Hi. destruct Hi as [[_ [c2 Hi]]|[Hi _]]; [now apply (Hl c2)|congruence]. }
  destruct W as [W|[W|W]]; rewrite W.
  - change (lock_path dir) with (lock_name :: dir). rewrite LK, Q.
    replace (_ && _ && removable native (m_procs m) o) with false.
    + apply Done. intros c2. destruct (pr_wait p); [apply next_not|discriminate].
    + destruct H as [H|[H1 H2]]; [now rewrite (R H), andb_false_r|]. rewrite H2. cbn [opt_str_eqb]. now rewrite str_eqb_refl, andb_false_r.
  - rewrite (mkpath_again _ _ S D). apply Done. discriminate.
  - change (lock_path dir) with (lock_name :: dir). rewrite LK, Q. destruct (opt_str_eqb _ _); apply Done; discriminate.
Qed.

(** *** What is not so *)
Definition d0 : place := [[98%N]].
Definition qbs_app : str := [113; 98; 115]%N.
Definition pr (pid host : N) (wait : bool) : process := {| pr_pid := pid; pr_host := host; pr_app := qbs_app; pr_wait := wait; pr_at := Idle |}.
Lemma sound_nil : sound [].
Proof. intros n q e H. discriminate. Qed.

(** If the locks of open files do not work between two hosts, the name of the host is not looked at, and the lock of a
    process that runs on another host is removed. *)
Theorem lock_other_host_refuted : exists dir t l m i j, sound t /\ happens false dir t l m /\ holder m i /\ holder m j /\ i <> j.
Proof.
  exists d0, [], ([Start (pr 1 0 false); Start (pr 2 1 false)] ++ repeat (Go 0) 3 ++ repeat (Go 1) 7).
  eexists. exists 0, 1. split; [exact sound_nil|]. split; [vm_compute; reflexivity|].
  split; [do 2 eexists; split; reflexivity|]. split; [do 2 eexists; split; reflexivity|discriminate].
Qed.
(** The same on one host: the lock that is removed need not be the one that was looked at. *)
Theorem lock_removal_race_refuted : exists dir t l m i j, sound t /\ happens false dir t l m /\ holder m i /\ holder m j /\ i <> j /\
  Forall (fun p => pr_host p = 0%N) (m_procs m).
Proof.
  exists d0, [], ([Start (pr 1 0 false); Start (pr 2 0 false); Start (pr 3 0 false)] ++ repeat (Go 0) 3 ++ repeat (Go 1) 3 ++ [Crash 0; Go 1] ++
    repeat (Go 2) 3 ++ repeat (Go 1) 3).
  eexists. exists 1, 2. split; [exact sound_nil|]. split; [vm_compute; reflexivity|].
  split; [do 2 eexists; split; reflexivity|]. split; [do 2 eexists; split; reflexivity|]. split; [discriminate|]. repeat constructor.
Qed.
(** A process that unlocks removes the directory another one has just made sure exists: that one fails, although
    nobody has the lock. *)
Theorem lock_race_refuted : exists dir t l m i p, sound t /\ happens true dir t l m /\ (forall j, ~ holder m j) /\
  nth_error (m_procs m) i = Some p /\ pr_at p = Finished (Some Unknown) /\ look (m_tree m) dir = None.
Proof.
  exists d0, [], ([Start (pr 1 0 false); Start (pr 2 0 false)] ++ repeat (Go 0) 3 ++ repeat (Go 1) 2 ++ repeat (Go 0) 2 ++ repeat (Go 1) 2).
  eexists. exists 1. eexists. split; [exact sound_nil|]. split; [vm_compute; reflexivity|]. split.
  - intros [|[|j]] (p & c & H & K); cbn in H; try (injection H as <-; discriminate). destruct j; discriminate.
  - split; [reflexivity|]. split; reflexivity.
Qed.
(** After a crash, a process that gets the same id (the first process of a container, say) finds the lock taken: by itself. *)
Theorem lock_own_pid_refuted : exists dir t l m i p, sound t /\ happens true dir t l m /\ (forall j, ~ holder m j) /\
  nth_error (m_procs m) i = Some p /\ pr_at p = Finished (Some (AlreadyLocked (pr_pid p))).
Proof.
  exists d0, [], ([Start (pr 1 0 false)] ++ repeat (Go 0) 3 ++ [Crash 0; Start (pr 1 0 false)] ++ repeat (Go 1) 5).
  eexists. exists 1. eexists. split; [exact sound_nil|]. split; [vm_compute; reflexivity|]. split.
  - intros [|[|j]] (p & c & H & K); cbn in H; try (injection H as <-; discriminate). destruct j; discriminate.
  - split; reflexivity.
Qed.
(** A process told to wait waits for ever for a process of another host that has ended. *)
Theorem lock_wait_refuted : exists dir t l m i o p q, sound t /\ happens true dir t l m /\
  nth_error (m_procs m) i = Some p /\ pr_wait p = true /\ nth_error (m_procs m) o = Some q /\ pr_at q = Exited /\ is_stale m (pr_host p) q /\
  look (m_tree m) (lock_name :: dir) = Some (ELock o) /\
  forall k, exists m', acts true dir m (repeat (Go i) k) = Some m' /\ ~ holder m' i.
Proof.
  exists d0, [], ([Start (pr 1 0 false)] ++ repeat (Go 0) 3 ++ [Crash 0; Start (pr 2 1 true); Go 1]).
  set (T := [(lock_name :: d0, ELock 0); (d0, EDir)]).
  set (mk := fun l => {| m_tree := T; m_procs := [moved (pr 1 0 false) Exited; moved (pr 2 1 true) l] |}).
  exists (mk (AtLoop [] 0)), 1, 0, (moved (pr 2 1 true) (AtLoop [] 0)), (moved (pr 1 0 false) Exited).
  split; [exact sound_nil|]. split; [vm_compute; reflexivity|]. split; [reflexivity|]. split; [reflexivity|]. split; [reflexivity|]. split; [reflexivity|]. split.
  - split; [discriminate|]. intros r [[<-|[<-|[]]] R] H1 H2; discriminate.
  - split; [reflexivity|]. intros k.
    enough (G : forall k n, (exists l, acts true d0 (mk (AtLoop [] n)) (repeat (Go 1) k) = Some (mk l) /\ forall c, l <> HasLock c) /\
      (exists l, acts true d0 (mk (AtTry [] n)) (repeat (Go 1) k) = Some (mk l) /\ forall c, l <> HasLock c)).
    { destruct (G k 0) as [(l & E & Hl) _]. exists (mk l). split; [exact E|]. intros (p & c & H & K). injection H as <-. exact (Hl c K). }
    clear k. induction k as [|k IH]; intros n.
    + split; eexists; (split; [reflexivity|discriminate]).
    + cbn [repeat acts act]. split.
      * change (go true d0 (mk (AtLoop [] n)) 1) with (Some (mk (AtTry [] n))). apply IH.
      * replace (go true d0 (mk (AtTry [] n)) 1) with (Some (mk (AtLoop [] (S n)))); [apply IH|].
        unfold go. cbn [mk m_procs m_tree nth_error moved pr_at pr_wait pr]. change (look T (lock_path d0)) with (Some (ELock 0)). cbn [nth_error moved pr_host pr N.eqb andb].
        unfold next_attempt. cbn [pr_wait moved pr]. rewrite orb_true_r. reflexivity.
Qed.

Module Demo.
  (** Two builds of one directory: the second is refused while the first has the lock, and gets it afterwards; then the
      directory is gone again. *)
  Definition both := [Start (pr 1 0 false); Start (pr 2 0 false)] ++ repeat (Go 0) 3.
  Definition after (l : list action) : option (list at_line * tree) :=
    option_map (fun m => (List.map pr_at (m_procs m), m_tree m)) (acts true d0 {| m_tree := []; m_procs := [] |} l).
  Example second_refused : after (both ++ repeat (Go 1) 5) =
    Some ([HasLock [d0]; Finished (Some (AlreadyLocked 1))], [(lock_name :: d0, ELock 0); (d0, EDir)]).
  Proof. vm_compute. reflexivity. Qed.
  Example second_later : after (both ++ repeat (Go 0) 2 ++ repeat (Go 1) 3) = Some ([Finished None; HasLock [d0]], [(lock_name :: d0, ELock 1); (d0, EDir)]).
  Proof. vm_compute. reflexivity. Qed.
  Example all_gone : after (both ++ repeat (Go 0) 2 ++ repeat (Go 1) 5) = Some ([Finished None; Finished None], []).
  Proof. vm_compute. reflexivity. Qed.
  Example one_holder : exists m, happens true d0 [] both m /\ holder m 0.
  Proof. eexists. split; [vm_compute; reflexivity|]. do 2 eexists. split; reflexivity. Qed.
  (** A stale lock of this host and one of another. *)
  Definition crashed (host : N) : machine :=
    {| m_tree := [(lock_name :: d0, ELock 0); (d0, EDir)]; m_procs := [moved (pr 1 0 false) Exited; pr 2 host false] |}.
  Example stale_available host : exists k m', acts true d0 (crashed host) (repeat (Go 1) k) = Some m' /\ holder m' 1.
  Proof.
    apply (lock_available true d0 (crashed host) 1 (pr 2 host false) [(lock_name :: d0, ELock 0); (d0, EDir)]); try reflexivity.
    - intros n q e H. apply look_found in H. destruct H as [H|[H|[]]]; injection H as <- <- _; reflexivity.
    - right. exists 0, (moved (pr 1 0 false) Exited). split; [reflexivity|]. split; [discriminate|]. split; [reflexivity|]. split; [|now right].
      split; [discriminate|]. intros r [[<-|[<-|[]]] R] H1 H2; [exfalso; now apply R|discriminate].
  Qed.
  Example refused : exists m', go true d0 {| m_tree := [(lock_name :: d0, ELock 0); (d0, EDir)];
    m_procs := [moved (pr 1 0 false) (HasLock []); moved (pr 2 0 false) (AtTry [] 0)] |} 1 = Some m' /\
    m_tree m' = [(lock_name :: d0, ELock 0); (d0, EDir)] /\ ~ holder m' 1 /\ nth_error (m_procs m') 0 = Some (moved (pr 1 0 false) (HasLock [])).
  Proof.
    apply (lock_refused true d0 {| m_tree := [(lock_name :: d0, ELock 0); (d0, EDir)];
    m_procs := [moved (pr 1 0 false) (HasLock []); moved (pr 2 0 false) (AtTry [] 0)] |} 1 0 (moved (pr 2 0 false) (AtTry [] 0)) (moved (pr 1 0 false) (HasLock [])) []); try reflexivity; try discriminate.
    - intros n q e H. apply look_found in H. destruct H as [H|[H|[]]]; injection H as <- <- _; reflexivity.
    - now left.
    - exists [], 0. now left.
  Qed.
  (** Three directories are made; a file is put in the second of them, which stays with the first. *)
  Definition x3 : place := [[99%N]; [98%N]; [97%N]].
  Example some_removed : exists w, remove_dirs [([102%N] :: tl x3, EFile); (x3, EDir); (tl x3, EDir); (tl (tl x3), EDir)] (remember_dirs [] x3) =
    ([([102%N] :: tl x3, EFile); (tl x3, EDir); (tl (tl x3), EDir)], w).
  Proof. eexists. vm_compute. reflexivity. Qed.
  Example restored : exists t1, mkpath [([120%N] :: tl (tl x3), EFile); (tl (tl x3), EDir)] x3 = Some t1 /\
    remove_dirs t1 (remember_dirs [([120%N] :: tl (tl x3), EFile); (tl (tl x3), EDir)] x3) = ([([120%N] :: tl (tl x3), EFile); (tl (tl x3), EDir)], []).
  Proof. eexists. split; vm_compute; reflexivity. Qed.
End Demo.

Print Assumptions cleanup_only_created.
Print Assumptions cleanup_removes_empty.
Print Assumptions cleanup_restores.
Print Assumptions cleanup_warning_partial.
Print Assumptions cleanup_warning_refuted.
Print Assumptions lock_is_exclusive.
Print Assumptions held_directory_stays.
Print Assumptions lock_available.
Print Assumptions lock_refused.
Print Assumptions lock_other_host_refuted.
Print Assumptions lock_removal_race_refuted.
Print Assumptions lock_race_refuted.
Print Assumptions lock_own_pid_refuted.
Print Assumptions lock_wait_refuted.
