(** A rule is applied again for exactly those inputs for which something has changed, and afterwards there are the outputs that applying it to all inputs would give. *)
From Coq Require Import List Bool Arith Lia Sorting.Sorted.
From Verif Require Import RuleApplyModel.
Import ListNotations.

(** ** Specification *)

(** In the state [n], the rule makes [o] with the commands [c] from the input [x]. *)
Definition makes_with (n : node) (inputs : list nat -> Prop) (o c : nat) : Prop :=
  exists p t, In p (n_outs n) /\ o_id p = o /\ trafo_of n (o_trafo p) = Some t /\ inputs (t_inputs t) /\ t_commands t = c.
Definition made (n : node) (x o c : nat) : Prop := makes_with n (eq [x]) o c.
(** What the scripts say. *)
Definition told (f : list nat -> option (list nat * nat * nat)) (ins : list nat) (o c : nat) : Prop := exists outs seen, f ins = Some (outs, c, seen) /\ In o outs.
(** Reasons to apply the rule again to [x]: it is new, the artifacts that outputs explicitly depend on are other ones, one of them or [x] is newer than the last application and files were read then,
    or the tracked accesses of the scripts give other values now. *)
Definition explicit_differs (e : env) (n : node) : Prop := ~ forall o, In o (n_old_explicit n) <-> exists a, o = Some a /\ In a (e_explicit e).
Definition newer (e : env) (n : node) (x : nat) : Prop := n_consider n = true /\ exists a, (a = x \/ In a (e_explicit e)) /\ n_last n < e_time e a.
Definition outdated (e : env) (n : node) (x : nat) : Prop :=
  exists p t, In p (n_outs n) /\ trafo_of n (o_trafo p) = Some t /\ t_inputs t = [x] /\ t_track t = true /\ e_changed e t = true.
Definition reason (e : env) (n : node) (x : nat) : Prop := ~ In (Some x) (n_old n) \/ explicit_differs e n \/ newer e n x \/ outdated e n x.
(** A rule node without multiplex in between two builds. *)
Record single (P : nat -> Prop) (n : node) : Prop := {
  v_sorted : StronglySorted (fun p q => o_id p < o_id q) (n_outs n);
  v_out : forall p, In p (n_outs n) -> exists t x, trafo_of n (o_trafo p) = Some t /\ t_inputs t = [x] /\ In x (o_children p) /\ ~ In x (o_scanned p) /\ P x /\ In (o_id p) (t_outputs t);
  v_next : forall k t, trafo_of n k = Some t -> k < n_next n;
  v_share : forall p q t u, In p (n_outs n) -> In q (n_outs n) -> trafo_of n (o_trafo p) = Some t -> trafo_of n (o_trafo q) = Some u -> t_inputs t = t_inputs u -> o_trafo p = o_trafo q;
  v_outputs : forall p t i, In p (n_outs n) -> trafo_of n (o_trafo p) = Some t -> In i (t_outputs t) -> exists q, In q (n_outs n) /\ o_id q = i /\ o_trafo q = o_trafo p }.
Definition settled (n : node) : Prop := single (fun x => In (Some x) (n_old n)) n.
(** No input is a child of an output that is made from another input. *)
Definition apart (n : node) (l : list nat) : Prop := forall p x t, In p (n_outs n) -> In x l -> In x (o_children p) -> trafo_of n (o_trafo p) = Some t -> t_inputs t = [x].
(** Inputs are a set, and no script names an output twice. *)
Definition proper (e : env) : Prop := NoDup (e_inputs e) /\ forall ins outs c seen, e_script e ins = Some (outs, c, seen) -> NoDup outs.

(** ** Sets *)

Lemma mem_In x l : mem x l = true <-> In x l.
Proof. unfold mem. rewrite existsb_exists. split; [intros (y & I & E); apply Nat.eqb_eq in E; now subst|intros I; exists x; split; [auto|apply Nat.eqb_refl]]. Qed.
Lemma mem_not x l : mem x l = false <-> ~ In x l.
Proof. rewrite <- mem_In. destruct (mem x l); split; congruence. Qed.
Lemma mem_dec (x : nat) l : {In x l} + {~ In x l}.
Proof. destruct (mem x l) eqn:M; [left; now apply mem_In|right; now apply mem_not]. Qed.
Lemma diff_In x a b : In x (diff a b) <-> In x a /\ ~ In x b.
Proof. unfold diff. rewrite filter_In, negb_true_iff, mem_not. tauto. Qed.
Lemma union_In x a b : In x (union a b) <-> In x a \/ In x b.
Proof. unfold union. rewrite in_app_iff, diff_In. destruct (mem_dec x a); tauto. Qed.
Lemma diff_nil a : diff a [] = a.
Proof. unfold diff. induction a as [|x a IH]; [auto|]. cbn in *. now rewrite IH. Qed.
Lemma subset_spec a b : subset a b = true <-> incl a b.
Proof. unfold subset. rewrite forallb_forall. split; intros H x I; [apply mem_In; auto|apply mem_In; auto]. Qed.
Lemma same_spec a b : same a b = true <-> forall x, In x a <-> In x b.
Proof. unfold same. rewrite andb_true_iff, !subset_spec. unfold incl. split; [intros [H G] x; split; auto|intros H; split; intros x; apply H]. Qed.
Lemma filter_NoDup {A} (f : A -> bool) l : NoDup l -> NoDup (filter f l).
Proof. induction 1 as [|x l N ND IH]; cbn; [constructor|]. destruct (f x); [constructor; [rewrite filter_In; tauto|auto]|auto]. Qed.
Lemma app_NoDup {A} (a b : list A) : NoDup a -> NoDup b -> (forall x, In x a -> ~ In x b) -> NoDup (a ++ b).
Proof.
  induction a as [|x a IH]; cbn; [auto|]. intros NA NB D. inversion NA; subst. constructor; [|apply IH; auto]. rewrite in_app_iff. intros [H|H]; [auto|]. exact (D x (or_introl eq_refl) H).
Qed.
Lemma union_NoDup a b : NoDup a -> NoDup b -> NoDup (union a b).
Proof. intros NA NB. unfold union. apply app_NoDup; [auto|now apply filter_NoDup|]. intros x I J. apply diff_In in J. tauto. Qed.
Lemma old_has_In x l : old_has x l = true <-> In (Some x) l.
Proof.
  unfold old_has. rewrite existsb_exists. split; [intros ([y|] & I & E); [apply Nat.eqb_eq in E; now subst|discriminate]|intros I; exists (Some x); split; [auto|apply Nat.eqb_refl]].
Qed.
Lemma old_has_not x l : old_has x l = false <-> ~ In (Some x) l.
Proof. rewrite <- old_has_In. destruct (old_has x l); split; congruence. Qed.
Lemma same_old_spec l old : same_old l old = true <-> forall o, In o old <-> exists a, o = Some a /\ In a l.
Proof.
  unfold same_old. rewrite andb_true_iff, !forallb_forall. split.
  - intros [H G] o. split; [|intros (a & -> & I); apply old_has_In; auto]. intros I. specialize (G o I). destruct o as [y|]; [|discriminate]. exists y. split; [auto|now apply mem_In].
  - intros H. split; [intros x I; apply old_has_In, H; eauto|]. intros o I. apply H in I as (a & -> & I). now apply mem_In.
Qed.

(** ** The store of transformers and outputs *)

Lemma trafo_of_cons n k t j : trafo_of (set_trafos n ((k, t) :: n_trafos n)) j = if Nat.eqb k j then Some t else trafo_of n j.
Proof. unfold trafo_of. cbn. now destruct (Nat.eqb k j). Qed.
Lemma trafo_of_set n k f j : trafo_of (set_trafo n k f) j = if Nat.eqb j k then option_map f (trafo_of n j) else trafo_of n j.
Proof.
  unfold trafo_of, set_trafo, set_trafos. cbn [n_trafos]. induction (n_trafos n) as [|[i t] l IH]; cbn; [now destruct (Nat.eqb j k)|].
  destruct (Nat.eqb_spec i k) as [->|IK]; cbn.
  - destruct (Nat.eqb_spec k j) as [->|KJ]; [now rewrite Nat.eqb_refl|exact IH].
  - destruct (Nat.eqb_spec i j) as [->|IJ]; cbn; [|exact IH]. destruct (Nat.eqb_spec j k); [congruence|auto].
Qed.
Lemma trafo_of_outs n l j : trafo_of (set_outs n l) j = trafo_of n j.
Proof. reflexivity. Qed.
Definition sorted (l : list out) : Prop := StronglySorted (fun p q => o_id p < o_id q) l.
Definition at_id (l : list out) (i : nat) : option out := find (fun o => Nat.eqb (o_id o) i) l.
Lemma at_id_sorted l p : sorted l -> In p l <-> at_id l (o_id p) = Some p.
Proof.
  intros S. split.
  - unfold at_id. induction S as [|q l S IH F]; [easy|]. intros [->|I]; cbn; [now rewrite Nat.eqb_refl|]. rewrite Forall_forall in F. specialize (F p I). destruct (Nat.eqb_spec (o_id q) (o_id p)); [lia|auto].
  - intros H. unfold at_id in H. now apply find_some in H.
Qed.
Lemma at_id_In l i p : at_id l i = Some p -> In p l /\ o_id p = i.
Proof. intros H. apply find_some in H as [I E]. apply Nat.eqb_eq in E. auto. Qed.
Lemma at_id_put l o i : at_id (put o l) i = if Nat.eqb (o_id o) i then Some o else at_id l i.
Proof.
  unfold at_id. induction l as [|p l IH]; cbn [put find]; [now destruct (Nat.eqb (o_id o) i)|].
  destruct (Nat.eqb_spec (o_id o) (o_id p)) as [E|E]; cbn [find]; [destruct (Nat.eqb_spec (o_id o) i) as [E2|E2]; [auto|]; destruct (Nat.eqb_spec (o_id p) i); [congruence|auto]|].
  destruct (Nat.ltb (o_id o) (o_id p)); cbn [find]; [now destruct (Nat.eqb (o_id o) i)|]. rewrite IH. destruct (Nat.eqb_spec (o_id p) i) as [<-|]; [|auto]. destruct (Nat.eqb_spec (o_id o) (o_id p)); [congruence|auto].
Qed.
Lemma put_In o l p : In p (put o l) -> p = o \/ In p l.
Proof.
  induction l as [|q l IH]; cbn [put]; [intros [H|[]]; auto|]. destruct (Nat.eqb (o_id o) (o_id q)); [intros [H|H]; [auto|right; now right]|]. destruct (Nat.ltb (o_id o) (o_id q)); [intros [H|H]; auto|].
  intros [H|H]; [right; now left|]. apply IH in H as [H|H]; [auto|right; now right].
Qed.
Lemma put_sorted o l : sorted l -> sorted (put o l).
Proof.
  intros S. induction S as [|q l S IH F]; cbn [put]; [constructor; [constructor|constructor]|]. destruct (Nat.eqb_spec (o_id o) (o_id q)) as [E|E].
  - constructor; [auto|]. eapply Forall_impl; [|exact F]. cbn. intros a. lia.
  - destruct (Nat.ltb_spec (o_id o) (o_id q)) as [L|L].
    + constructor; [now constructor|]. constructor; [auto|]. eapply Forall_impl; [|exact F]. cbn. intros a. lia.
    + constructor; [exact IH|]. rewrite Forall_forall in F |- *. intros p I. apply put_In in I as [->|I]; [lia|now apply F].
Qed.
Lemma filter_sorted f l : sorted l -> sorted (filter f l).
Proof.
  intros S. induction S as [|q l S IH F]; cbn; [constructor|]. destruct (f q); [|auto]. constructor; [auto|]. rewrite Forall_forall in F |- *. intros p I. apply filter_In in I. apply F, I.
Qed.
Lemma map_sorted f l : (forall o, o_id (f o) = o_id o) -> sorted l -> sorted (map f l).
Proof.
  intros H S. induction S as [|q l S IH F]; cbn; [constructor|]. constructor; [auto|]. rewrite Forall_forall in F |- *. intros p I. apply in_map_iff in I as (p' & <- & I). rewrite !H. now apply F.
Qed.
Lemma at_id_filter f l i : (forall p, In p l -> o_id p = i -> f p = true) -> at_id (filter f l) i = at_id l i.
Proof.
  unfold at_id. induction l as [|p l IH]; cbn; [auto|]. intros H. destruct (f p) eqn:Fp; cbn; destruct (Nat.eqb_spec (o_id p) i) as [E|E]; auto.
  rewrite (H p (or_introl eq_refl) E) in Fp. discriminate.
Qed.
Lemma at_id_filter_none f l i : (forall p, In p l -> o_id p = i -> f p = false) -> at_id (filter f l) i = None.
Proof.
  unfold at_id. induction l as [|p l IH]; cbn; [auto|]. intros H. destruct (f p) eqn:Fp; cbn; [|auto]. destruct (Nat.eqb_spec (o_id p) i) as [E|E]; [|auto].
  rewrite (H p (or_introl eq_refl) E) in Fp. discriminate.
Qed.
Lemma at_id_map f l i : (forall o, o_id (f o) = o_id o) -> at_id (map f l) i = option_map f (at_id l i).
Proof. intros H. unfold at_id. induction l as [|p l IH]; cbn; [auto|]. rewrite H. now destruct (Nat.eqb (o_id p) i). Qed.

(** Two states in which transformers differ in their outputs and flags only. *)
Definition like (t u : trafo) : Prop := t_inputs t = t_inputs u /\ t_explicit t = t_explicit u /\ t_commands t = t_commands u /\ t_seen t = t_seen u.
Lemma remove_outputs_trafo l n j : exists f, (forall t, like (f t) t /\ t_track (f t) = t_track t /\ forall i, In i (t_outputs (f t)) <-> In i (t_outputs t) /\ ~ (In i l /\ exists p, find_out n i = Some p /\ o_trafo p = j)) /\
  trafo_of (remove_outputs n l) j = option_map f (trafo_of n j).
Proof.
  unfold remove_outputs. rewrite trafo_of_outs.
  assert (G : forall l m, (forall i, find_out m i = find_out n i) -> exists f, (forall t, like (f t) t /\ t_track (f t) = t_track t /\ forall i, In i (t_outputs (f t)) <-> In i (t_outputs t) /\ ~ (In i l /\ exists p, find_out n i = Some p /\ o_trafo p = j)) /\
    trafo_of (fold_left (fun n o => match find_out n o with Some p => set_trafo n (o_trafo p) (drop_output o) | None => n end) l m) j = option_map f (trafo_of m j)).
  { clear l. induction l as [|o l IH]; intros m E; cbn [fold_left].
    - exists (fun t => t). split; [intros t; split; [unfold like; auto|]; split; [auto|]; intros i; cbn; tauto|now destruct (trafo_of m j)].
    - rewrite E. destruct (find_out n o) as [p|] eqn:F.
      + destruct (IH (set_trafo m (o_trafo p) (drop_output o))) as (f & Hf & T); [intros i; apply E|]. rewrite T, trafo_of_set. destruct (Nat.eqb_spec j (o_trafo p)) as [->|NE].
        * exists (fun t => f (drop_output o t)). split; [|now destruct (trafo_of m (o_trafo p))]. intros t. destruct (Hf (drop_output o t)) as (L & K & H). split; [exact L|]. split; [exact K|]. intros i. rewrite H. cbn [drop_output t_outputs]. rewrite diff_In. cbn [In]. split.
          -- intros [[A B] C]. split; [auto|]. intros [[<-|D] D2]; [apply B; now left|]. apply C. auto.
          -- intros [A B]. split; [split; [auto|]|]; [|tauto]. intros [<-|[]]. apply B. split; [now left|]. exists p. auto.
        * exists f. split; [|auto]. intros t. destruct (Hf t) as (L & K & H). split; [exact L|]. split; [exact K|]. intros i. rewrite H. cbn [In]. split; [|tauto].
          intros [A B]. split; [auto|]. intros [[<-|D] D2]; [|auto]. destruct D2 as (p' & Fp & Tp). rewrite F in Fp. injection Fp as <-. congruence.
      + destruct (IH m E) as (f & Hf & T). exists f. split; [|auto]. intros t. destruct (Hf t) as (L & K & H). split; [exact L|]. split; [exact K|]. intros i. rewrite H. cbn [In]. split; [|tauto].
        intros [A B]. split; [auto|]. intros [[<-|D] (p & Fp & Tp)]; [congruence|]. apply B. split; [auto|eauto]. }
  apply G. auto.
Qed.
Lemma remove_outputs_outs l n : n_outs (remove_outputs n l) = filter (fun o => negb (mem (o_id o) l)) (n_outs n).
Proof. reflexivity. Qed.
Lemma remove_outputs_fields l n : n_next (remove_outputs n l) = n_next n /\ n_old (remove_outputs n l) = n_old n /\ n_old_explicit (remove_outputs n l) = n_old_explicit n /\ n_consider (remove_outputs n l) = n_consider n /\ n_last (remove_outputs n l) = n_last n.
Proof.
  unfold remove_outputs. cbn. assert (G : forall l m, let q := fold_left (fun n o => match find_out n o with Some p => set_trafo n (o_trafo p) (drop_output o) | None => n end) l m in
    n_next q = n_next m /\ n_old q = n_old m /\ n_old_explicit q = n_old_explicit m /\ n_consider q = n_consider m /\ n_last q = n_last m); [|apply G].
  clear l. induction l as [|o l IH]; intros m; cbn; [auto|]. destruct (find_out m o); [|apply IH]. apply (IH (set_trafo m _ _)).
Qed.

(** ** Creating outputs *)

Definition fields (n m : node) : Prop := n_next m = n_next n /\ n_old m = n_old n /\ n_old_explicit m = n_old_explicit n /\ n_consider m = n_consider n /\ n_last m = n_last n.
Lemma fields_refl n : fields n n.
Proof. unfold fields. auto. Qed.
Lemma fields_trans a b c : fields a b -> fields b c -> fields a c.
Proof. unfold fields. intros (A1 & A2 & A3 & A4 & A5) (B1 & B2 & B3 & B4 & B5). repeat split; congruence. Qed.
Definition recreated (n : node) (k : nat) (ins : list nat) (i : nat) : out :=
  match at_id (n_outs n) i with Some p => mkOut i k (union (o_children p) ins) (o_scanned p) (o_valid p) | None => mkOut i k ins [] false end.
Lemma create_all mult k ins outs : forall n tk old created n' old' created',
  sorted (n_outs n) -> NoDup outs -> trafo_of n k = Some tk -> (forall p, In p (n_outs n) -> In (o_id p) outs -> o_trafo p <> k) ->
  fold_left (create_output mult k ins) outs (Some (n, old, created)) = Some (n', old', created') ->
  sorted (n_outs n') /\ fields n n' /\
  (forall i, at_id (n_outs n') i = if mem i outs then Some (recreated n k ins i) else at_id (n_outs n) i) /\
  (forall j, j <> k -> trafo_of n' j = trafo_of n j) /\
  (exists t, trafo_of n' k = Some t /\ like t tk /\ forall i, In i (t_outputs t) <-> In i (t_outputs tk) \/ In i outs) /\
  (forall i, In i created' <-> In i created \/ In i outs /\ at_id (n_outs n) i = None) /\
  (old' = old /\ (forall i, In i outs -> at_id (n_outs n) i = None) \/ exists i p, In i outs /\ at_id (n_outs n) i = Some p /\ old' = Some (o_trafo p)) /\
  (mult = false -> forall i p t, In i outs -> at_id (n_outs n) i = Some p -> trafo_of n (o_trafo p) = Some t -> same (t_inputs t) ins = true).
Proof.
  assert (FN : forall outs, fold_left (create_output mult k ins) outs None = None) by (intros l; induction l; cbn; auto).
  induction outs as [|o outs IH]; intros n tk old created n' old' created' S ND TK NK; cbn [fold_left].
  - intros [= <- <- <-]. split; [auto|]. split; [apply fields_refl|]. split; [auto|]. split; [auto|]. split; [exists tk; split; [auto|]; split; [unfold like; auto|]; intros i; cbn; tauto|].
    split; [intros i; cbn; tauto|]. split; [left; split; [auto|easy]|]. intros _ i p t [].
  - inversion ND as [|? ? NI ND']; subst. unfold create_output at 2. change (find_out n o) with (at_id (n_outs n) o). destruct (at_id (n_outs n) o) as [p|] eqn:AO.
    + destruct (at_id_In _ _ _ AO) as [IP <-]. set (conf := match trafo_of n (o_trafo p) with Some t => negb mult && negb (same (t_inputs t) ins) | None => false end).
      destruct conf eqn:CF; [rewrite FN; discriminate|]. intros F.
      set (f := fun t => mkTrafo (t_inputs t) (t_explicit t) (union (t_outputs t) [o_id p]) (t_commands t) (match trafo_of n (o_trafo p) with Some t => t_track t | None => false end) (t_seen t)) in F.
      assert (PK : o_trafo p <> k) by (apply NK; [auto|now left]).
      set (m := set_outs (set_trafo n k f) (put (mkOut (o_id p) k (union (o_children p) ins) (o_scanned p) (o_valid p)) (n_outs (set_trafo n k f)))) in F.
      assert (TM : forall j, trafo_of m j = if Nat.eqb j k then option_map f (trafo_of n j) else trafo_of n j) by (intros j; apply trafo_of_set).
      assert (AM : forall i, at_id (n_outs m) i = if Nat.eqb (o_id p) i then Some (mkOut (o_id p) k (union (o_children p) ins) (o_scanned p) (o_valid p)) else at_id (n_outs n) i) by (intros i; exact (at_id_put (n_outs n) (mkOut (o_id p) k (union (o_children p) ins) (o_scanned p) (o_valid p)) i)).
      destruct (IH m (f tk) (Some (o_trafo p)) created n' old' created') as (S' & F' & A' & T' & K' & C' & O' & X'); [now apply put_sorted|auto|rewrite TM, Nat.eqb_refl, TK; auto| |exact F|].
      { intros q IQ JQ. unfold m in IQ. cbn in IQ. apply put_In in IQ as [->|IQ]; [cbn in JQ; contradiction|]. apply NK; [auto|now right]. }
      split; [auto|]. split; [exact F'|]. split.
      { intros i. rewrite A', AM. unfold recreated. rewrite !AM. cbn [mem existsb]. rewrite (Nat.eqb_sym i (o_id p)). destruct (Nat.eqb_spec (o_id p) i) as [<-|NE]; cbn [orb].
        - apply mem_not in NI. change (existsb (Nat.eqb (o_id p)) outs) with (mem (o_id p) outs). rewrite NI, AO. auto.
        - change (existsb (Nat.eqb i) outs) with (mem i outs). auto. }
      split; [intros j NJ; rewrite T', TM by auto; destruct (Nat.eqb_spec j k); congruence|]. split.
      { destruct K' as (t & TK' & L & O). exists t. split; [auto|]. split; [exact L|]. intros i. rewrite O. cbn [f t_outputs]. rewrite union_In. cbn [In]. tauto. }
      split.
      { intros i. rewrite C', AM. cbn [In]. destruct (Nat.eqb_spec (o_id p) i) as [<-|NE]; [|tauto]. split; [intros [H|[H _]]; [auto|contradiction]|intros [H|[_ H]]; [auto|congruence]]. }
      split.
      { right. destruct O' as [[-> _]|(i & q & I & AQ & ->)]; [exists (o_id p), p; split; [now left|auto]|]. rewrite AM in AQ. destruct (Nat.eqb_spec (o_id p) i) as [<-|NE]; [contradiction|]. exists i, q. split; [now right|auto]. }
      intros MU i q t [<-|I] AQ TQ.
      * rewrite AO in AQ. injection AQ as <-. unfold conf in CF. rewrite TQ, MU in CF. cbn in CF. now apply negb_false_iff in CF.
      * assert (NE : o_id p <> i) by (intros EE; rewrite EE in NI; contradiction). apply (X' MU i q t I); [rewrite AM; destruct (Nat.eqb_spec (o_id p) i); congruence|].
        rewrite TM. destruct (Nat.eqb_spec (o_trafo q) k) as [E|]; [|auto]. exfalso. destruct (at_id_In _ _ _ AQ) as [IQ <-]. apply (NK q); [auto|now right|auto].
    + intros F.
      set (f := fun t => mkTrafo (t_inputs t) (t_explicit t) (union (t_outputs t) [o]) (t_commands t) (t_track t) (t_seen t)) in F.
      set (m := set_outs (set_trafo n k f) (put (mkOut o k ins [] false) (n_outs (set_trafo n k f)))) in F.
      assert (TM : forall j, trafo_of m j = if Nat.eqb j k then option_map f (trafo_of n j) else trafo_of n j) by (intros j; apply trafo_of_set).
      assert (AM : forall i, at_id (n_outs m) i = if Nat.eqb o i then Some (mkOut o k ins [] false) else at_id (n_outs n) i) by (intros i; exact (at_id_put (n_outs n) (mkOut o k ins [] false) i)).
      destruct (IH m (f tk) old (created ++ [o]) n' old' created') as (S' & F' & A' & T' & K' & C' & O' & X'); [now apply put_sorted|auto|rewrite TM, Nat.eqb_refl, TK; auto| |exact F|].
      { intros q IQ JQ. unfold m in IQ. cbn in IQ. apply put_In in IQ as [->|IQ]; [cbn in JQ; contradiction|]. apply NK; [auto|now right]. }
      split; [auto|]. split; [exact F'|]. split.
      { intros i. rewrite A', AM. unfold recreated. rewrite !AM. cbn [mem existsb]. rewrite (Nat.eqb_sym i o). destruct (Nat.eqb_spec o i) as [<-|NE]; cbn [orb].
        - apply mem_not in NI. change (existsb (Nat.eqb o) outs) with (mem o outs). rewrite NI, AO. auto.
        - change (existsb (Nat.eqb i) outs) with (mem i outs). auto. }
      split; [intros j NJ; rewrite T', TM by auto; destruct (Nat.eqb_spec j k); congruence|]. split.
      { destruct K' as (t & TK' & L & O). exists t. split; [auto|]. split; [exact L|]. intros i. rewrite O. cbn [f t_outputs]. rewrite union_In. cbn [In]. tauto. }
      split.
      { intros i. rewrite C', AM, in_app_iff. cbn [In]. destruct (Nat.eqb_spec o i) as [<-|NE]; [|tauto]. split; [intros _; right; auto|intros _; left; right; now left]. }
      split.
      { destruct O' as [[-> H]|(i & q & I & AQ & ->)].
        - left. split; [auto|]. intros i [<-|I]; [auto|]. specialize (H i I). rewrite AM in H. destruct (Nat.eqb_spec o i); [congruence|auto].
        - right. rewrite AM in AQ. destruct (Nat.eqb_spec o i) as [<-|NE]; [contradiction|]. exists i, q. split; [now right|auto]. }
      intros MU i q t [<-|I] AQ TQ; [congruence|].
      assert (NE : o <> i) by (intros EE; rewrite EE in NI; contradiction). apply (X' MU i q t I); [rewrite AM; destruct (Nat.eqb_spec o i); congruence|].
      rewrite TM. destruct (Nat.eqb_spec (o_trafo q) k) as [E|]; [|auto]. exfalso. destruct (at_id_In _ _ _ AQ) as [IQ <-]. apply (NK q); [auto|now right|auto].
Qed.

Lemma at_id_map_outs l f n i : (forall o, o_id (f o) = o_id o) -> at_id (n_outs (map_outs l f n)) i = if mem i l then option_map f (at_id (n_outs n) i) else at_id (n_outs n) i.
Proof.
  intros H. unfold map_outs. cbn [n_outs set_outs]. rewrite at_id_map by (intros o; destruct (mem (o_id o) l); auto). destruct (at_id (n_outs n) i) as [p|] eqn:E; cbn; [|now destruct (mem i l)].
  apply at_id_In in E as [_ <-]. now destruct (mem (o_id p) l).
Qed.
Lemma map_outs_sorted l f n : (forall o, o_id (f o) = o_id o) -> sorted (n_outs n) -> sorted (n_outs (map_outs l f n)).
Proof. intros H. apply map_sorted. intros o. destruct (mem (o_id o) l); auto. Qed.

(** Outputs of [ins] that are not among the new ones. *)
Definition dropped (n : node) (ins outs : list nat) (i : nat) : Prop :=
  ~ In i outs /\ exists p t a, In p (n_outs n) /\ o_id p = i /\ trafo_of n (o_trafo p) = Some t /\ In a ins /\ In a (o_children p) /\ In a (t_inputs t).
(** The commands are as they were, and so is what they work on. *)
Definition kept (e : env) (n : node) (ins outs : list nat) (c : nat) (q : out) (t : trafo) : Prop :=
  exists u, trafo_of n (o_trafo q) = Some u /\ t_commands u = c /\ (forall x, In x (t_inputs u) <-> In x ins) /\ (forall x, In x (t_explicit u) <-> In x (e_explicit e)) /\
  (forall i, In i outs -> In i (t_outputs u)) /\ (forall i, In i (t_outputs u) -> In i outs \/ dropped n ins outs i /\ exists p, at_id (n_outs n) i = Some p /\ o_trafo p = o_trafo q) /\ e_commands_changed e t = false.
Lemma do_apply_spec r e ins n l n' l' :
  sorted (n_outs n) -> (forall k t, trafo_of n k = Some t -> k < n_next n) -> (forall p, In p (n_outs n) -> exists t, trafo_of n (o_trafo p) = Some t) -> proper e ->
  do_apply r e ins (n, l) = Some (n', l') ->
  exists outs c seen t, e_script e ins = Some (outs, c, seen) /\
    sorted (n_outs n') /\ n_next n' = S (n_next n) /\ n_old n' = n_old n /\ n_old_explicit n' = n_old_explicit n /\ n_consider n' = n_consider n /\ n_last n' = n_last n /\
    trafo_of n' (n_next n) = Some t /\ t_inputs t = ins /\ t_explicit t = e_explicit e /\ t_commands t = c /\ (forall i, In i (t_outputs t) <-> In i outs) /\
    (forall j, j <> n_next n -> match trafo_of n j, trafo_of n' j with Some u, Some v => like v u /\ t_track v = t_track u /\ forall i, In i (t_outputs v) <-> In i (t_outputs u) /\ ~ (dropped n ins outs i /\ exists p, at_id (n_outs n) i = Some p /\ o_trafo p = j) | None, None => True | _, _ => False end) /\
    (forall i, ~ In i outs -> dropped n ins outs i -> at_id (n_outs n') i = None) /\
    (forall i, ~ In i outs -> ~ dropped n ins outs i -> at_id (n_outs n') i = at_id (n_outs n) i) /\
    (exists same_commands : bool,
      (same_commands = true -> exists q, In q (n_outs n) /\ In (o_id q) outs /\ kept e n ins outs c q t) /\
      (forall q, In q (n_outs n) -> In (o_id q) outs -> (forall q', In q' (n_outs n) -> In (o_id q') outs -> o_trafo q' = o_trafo q) -> kept e n ins outs c q t -> same_commands = true) /\
      (forall i, In i outs -> exists p, at_id (n_outs n') i = Some p /\ o_id p = i /\ o_trafo p = n_next n /\
        o_children p = union (match at_id (n_outs n) i with Some q => union (o_children q) ins | None => ins end) (e_explicit e) /\ o_scanned p = match at_id (n_outs n) i with Some q => o_scanned q | None => [] end /\
        o_valid p = match at_id (n_outs n) i with Some q => o_valid q && same_commands | None => false end) /\
      (forall i, In i (l_invalidated l') <-> In i (l_invalidated l) \/ same_commands = false /\ In i outs)) /\
    l_applied l' = l_applied l ++ [ins] /\
    (forall i, In i (l_created l') <-> In i (l_created l) \/ In i outs /\ at_id (n_outs n) i = None) /\
    (forall i, In i (l_removed l') <-> In i (l_removed l) \/ dropped n ins outs i) /\
    (multiplex r = false -> forall i p u, In i outs -> at_id (n_outs n) i = Some p -> trafo_of n (o_trafo p) = Some u -> forall x, In x (t_inputs u) <-> In x ins).
Proof.
  intros SO NX TO [_ PR] D. unfold do_apply in D. destruct (e_script e ins) as [[[outs c] seen]|] eqn:SC; [|discriminate]. specialize (PR _ _ _ _ SC).
  set (tk := mkTrafo ins (e_explicit e) [] c false seen) in D. set (k := n_next n) in *.
  set (m := mkNode ((k, tk) :: n_trafos n) (S k) (n_outs n) (n_old n) (n_old_explicit n) (n_consider n) (n_last n)) in D.
  assert (TM : forall j, trafo_of m j = if Nat.eqb k j then Some tk else trafo_of n j) by (intros j; apply (trafo_of_cons n k tk j)).
  assert (KN : trafo_of n k = None). { destruct (trafo_of n k) as [t|] eqn:T; [|auto]. apply NX in T. unfold k in T. lia. }
  assert (OK : forall p, In p (n_outs n) -> o_trafo p <> k) by (intros p I EE; destruct (TO p I) as [t T]; congruence).
  destruct (fold_left (create_output (multiplex r) k ins) outs (Some (m, None, []))) as [[[n1 old] created]|] eqn:FO; [|discriminate].
  apply create_all with (tk := tk) in FO; [|exact SO|exact PR|rewrite TM, Nat.eqb_refl; auto|intros p I _; now apply OK].
  destruct FO as (S1 & F1 & A1 & T1 & (t1 & TK1 & L1 & O1) & C1 & OL & CF).
  set (gone := diff (old_outputs n1 ins) outs) in D.
  assert (AN : forall i, ~ In i outs -> at_id (n_outs n1) i = at_id (n_outs n) i) by (intros i NI; rewrite A1; apply mem_not in NI; now rewrite NI).
  assert (G : forall i, In i gone <-> dropped n ins outs i).
  { intros i. unfold gone, dropped. rewrite diff_In. unfold old_outputs. rewrite in_map_iff. split.
    - intros [(p & <- & I) NI]. split; [auto|]. apply filter_In in I as [I X]. apply existsb_exists in X as (a & IA & X). apply andb_true_iff in X as [X1 X2]. apply mem_In in X1.
      apply (at_id_sorted _ _ S1) in I. rewrite AN in I by auto. apply at_id_In in I as [I _]. rewrite T1, TM in X2 by (now apply OK). specialize (OK p I). destruct (Nat.eqb_spec k (o_trafo p)); [congruence|].
      destruct (trafo_of n (o_trafo p)) as [t|] eqn:TP; [|discriminate]. apply mem_In in X2. exists p, t, a. auto 10.
    - intros [NI (p & t & a & I & <- & TP & IA & CA & TA)]. split; [|auto]. exists p. split; [auto|]. apply filter_In. split.
      + apply (at_id_sorted _ _ S1). rewrite AN by auto. now apply (at_id_sorted _ _ SO).
      + apply existsb_exists. exists a. split; [auto|]. apply andb_true_iff. split; [now apply mem_In|]. specialize (OK p I). rewrite T1, TM by auto. destruct (Nat.eqb_spec k (o_trafo p)); [congruence|]. rewrite TP. now apply mem_In. }
  set (n2 := remove_outputs n1 gone) in D.
  destruct (remove_outputs_fields gone n1) as (RF1 & RF2 & RF3 & RF4 & RF5). fold n2 in RF1, RF2, RF3, RF4, RF5.
  destruct F1 as (FF1 & FF2 & FF3 & FF4 & FF5). cbn [m n_next n_old n_old_explicit n_consider n_last] in FF1, FF2, FF3, FF4, FF5.
  assert (S2 : sorted (n_outs n2)) by (apply filter_sorted, S1).
  assert (A2 : forall i, at_id (n_outs n2) i = if mem i gone then None else at_id (n_outs n1) i).
  { intros i. unfold n2. rewrite remove_outputs_outs. destruct (mem i gone) eqn:MG; [apply at_id_filter_none|apply at_id_filter]; intros p _ <-; rewrite MG; auto. }
  assert (NG : forall i, In i outs -> mem i gone = false) by (intros i I; apply mem_not; intros J; apply G in J; destruct J as [J _]; contradiction).
  assert (T2 : forall j, j <> k -> match trafo_of n j, trafo_of n2 j with Some u, Some v => like v u /\ t_track v = t_track u /\ (forall i, In i (t_outputs v) <-> In i (t_outputs u) /\ ~ (In i gone /\ exists p, find_out n1 i = Some p /\ o_trafo p = j)) | None, None => True | _, _ => False end).
  { intros j NJ. destruct (remove_outputs_trafo gone n1 j) as (f & Hf & T). fold n2 in T. rewrite T, T1, TM by auto. destruct (Nat.eqb_spec k j); [congruence|]. destruct (trafo_of n j) as [u|]; cbn; [|auto].
    destruct (Hf u) as (L & K & H). split; [exact L|]. split; [exact K|]. exact H. }
  assert (TK2 : exists t2, trafo_of n2 k = Some t2 /\ t_inputs t2 = ins /\ t_explicit t2 = e_explicit e /\ t_commands t2 = c /\ forall i, In i (t_outputs t2) <-> In i outs).
  { destruct (remove_outputs_trafo gone n1 k) as (f & Hf & T). fold n2 in T. rewrite TK1 in T. cbn in T. exists (f t1). split; [auto|]. destruct (Hf t1) as ((Q1 & Q2 & Q3 & _) & _ & H). destruct L1 as (W1 & W2 & W3 & _).
    split; [now rewrite Q1, W1|]. split; [now rewrite Q2, W2|]. split; [now rewrite Q3, W3|]. intros i. rewrite H, O1. cbn. split; [intros [[[]|I] _]; auto|]. intros I. split; [auto|]. intros [J _]. apply mem_In in J. rewrite NG in J by auto. discriminate. }
  destruct TK2 as (t2 & TK2 & I2 & E2 & C2 & O2).
  assert (LIKE : forall q u, In q (n_outs n) -> trafo_of n (o_trafo q) = Some u -> exists v, trafo_of n2 (o_trafo q) = Some v /\ like v u /\ forall i, In i (t_outputs v) <-> In i (t_outputs u) /\ ~ (In i gone /\ exists p, find_out n1 i = Some p /\ o_trafo p = o_trafo q)).
  { intros q u IQ TQ. specialize (T2 (o_trafo q) (OK q IQ)). rewrite TQ in T2. destruct (trafo_of n2 (o_trafo q)) as [v|]; [|contradiction]. exists v. split; [auto|]. split; apply T2. }
  assert (FG : forall i p j, In i gone -> (find_out n1 i = Some p /\ o_trafo p = j) <-> (at_id (n_outs n) i = Some p /\ o_trafo p = j)).
  { intros i p j I. change (find_out n1 i) with (at_id (n_outs n1) i). rewrite AN; [tauto|]. apply G in I. apply I. }
  set (same_c := match old with None => false | Some j => match trafo_of n2 j, trafo_of n2 k with Some t, Some t' => same (t_outputs t) (t_outputs t') && same (t_inputs t) (t_inputs t') && same (t_explicit t) (t_explicit t') && Nat.eqb (t_commands t) (t_commands t') && negb (e_commands_changed e t') | _, _ => false end end).
  assert (KEPT : forall q, In q (n_outs n) -> old = Some (o_trafo q) -> same_c = true <-> kept e n ins outs c q t2).
  { intros q IQ ->. unfold same_c, kept. rewrite TK2. destruct (TO q IQ) as [u TU]. destruct (LIKE q u IQ TU) as (v & TV & (V1 & V2 & V3 & V4) & V5). rewrite TV, !andb_true_iff, !same_spec, Nat.eqb_eq, negb_true_iff, I2, E2, C2, V1, V2, V3. split.
    - intros [[[[H1 H2] H3] H4] H5]. exists u. split; [auto|]. split; [auto|]. split; [auto|]. split; [auto|]. split; [intros i I; apply O2, H1, V5 in I; tauto|]. split; [|auto].
      intros i I. destruct (mem_dec i outs) as [|NI]; [auto|]. right. destruct (mem_dec i gone) as [IG|NGI].
      + split; [now apply G|]. destruct (at_id (n_outs n) i) as [p|] eqn:AP.
        * exists p. split; [auto|]. destruct (Nat.eq_dec (o_trafo p) (o_trafo q)) as [|NE]; [auto|]. exfalso. apply NI, O2, H1, V5. split; [auto|]. intros [_ (p' & FP)]. apply FG in FP; [|auto]. destruct FP as [FP FQ]. congruence.
        * exfalso. apply NI, O2, H1, V5. split; [auto|]. intros [_ (p' & FP)]. apply FG in FP; [|auto]. destruct FP as [FP FQ]. congruence.
      + exfalso. apply NI, O2, H1, V5. split; [auto|]. tauto.
    - intros (u' & TU' & H1 & H2 & H3 & H4 & H5 & H6). rewrite TU in TU'. injection TU' as <-. split; [split; [split; [split|]|]|]; auto. intros i. rewrite O2, V5. split.
      + intros [I NG']. destruct (H5 i I) as [|[DR (p & AP & TP)]]; [auto|]. exfalso. apply NG'. apply G in DR. split; [auto|]. exists p. apply FG; auto.
      + intros I. split; [auto|]. intros [J _]. apply mem_In in J. rewrite NG in J by auto. discriminate. }
  assert (OLD : forall q, In q (n_outs n) -> In (o_id q) outs -> (forall q', In q' (n_outs n) -> In (o_id q') outs -> o_trafo q' = o_trafo q) -> old = Some (o_trafo q)).
  { intros q IQ JQ AL. destruct OL as [[_ H]|(i & p & I & AP & ->)].
    - specialize (H _ JQ). apply (at_id_sorted _ _ SO) in IQ. cbn [m n_outs] in H. congruence.
    - cbn [m n_outs] in AP. apply at_id_In in AP as [IP <-]. f_equal. now apply AL. }
  assert (CMT : match outs with [] => Some (n2, mkLog (l_applied l ++ [ins]) (l_created l ++ created) (l_removed l ++ gone) (l_invalidated l)) = Some (n', l')
     | _ => n' = (if same_c then map_outs outs (fun o => mkOut (o_id o) (o_trafo o) (union (o_children o) (e_explicit e)) (o_scanned o) (o_valid o)) n2
                  else map_outs outs (fun o => mkOut (o_id o) (o_trafo o) (o_children o) (o_scanned o) false) (map_outs outs (fun o => mkOut (o_id o) (o_trafo o) (union (o_children o) (e_explicit e)) (o_scanned o) (o_valid o)) n2))
       /\ l' = mkLog (l_applied l ++ [ins]) (l_created l ++ created) (l_removed l ++ gone) (if same_c then l_invalidated l else union (l_invalidated l) outs) end).
  { destruct outs as [|o outs]; [exact D|]. cbv zeta in D. match type of D with (if ?b then _ else _) = _ => change b with same_c in D end. destruct same_c; injection D as <- <-; auto. }
  assert (FIN : (forall j, trafo_of n' j = trafo_of n2 j) /\ sorted (n_outs n') /\ n_next n' = n_next n2 /\ n_old n' = n_old n2 /\ n_old_explicit n' = n_old_explicit n2 /\ n_consider n' = n_consider n2 /\ n_last n' = n_last n2 /\
    (forall i, ~ In i outs -> at_id (n_outs n') i = at_id (n_outs n2) i) /\
    (forall i, In i outs -> at_id (n_outs n') i = option_map (fun o => mkOut (o_id o) (o_trafo o) (union (o_children o) (e_explicit e)) (o_scanned o) (o_valid o && same_c)) (at_id (n_outs n2) i)) /\
    l_applied l' = l_applied l ++ [ins] /\ l_created l' = l_created l ++ created /\ l_removed l' = l_removed l ++ gone /\ (forall i, In i (l_invalidated l') <-> In i (l_invalidated l) \/ same_c = false /\ In i outs)).
  { clearbody same_c gone. assert (EO : outs = [] \/ outs <> []) by (destruct outs; [auto|right; discriminate]). destruct EO as [EO|EO].
    - rewrite EO in *. injection CMT as <- <-. cbn. repeat (split; [auto; fail|]). split; [intros i []|]. split; [auto|]. split; [auto|]. split; [auto|]. intros i. intuition.
    - assert (CM := CMT). destruct outs as [|o outs0] eqn:EQ in CM; [congruence|]. rewrite <- EQ in CM. clear EQ. destruct CM as [-> ->]. destruct same_c; cbn [l_applied l_created l_removed l_invalidated].
      + split; [auto|]. split; [now apply map_outs_sorted|]. repeat (split; [auto; fail|]). split; [intros i NI; rewrite at_id_map_outs by auto; apply mem_not in NI; now rewrite NI|].
        split; [intros i I; rewrite at_id_map_outs by auto; apply mem_In in I; rewrite I; destruct (at_id (n_outs n2) i); cbn; rewrite ?andb_true_r; auto|]. split; [auto|]. split; [auto|]. split; [auto|]. intros i. intuition discriminate.
      + split; [auto|]. split; [now apply map_outs_sorted, map_outs_sorted|]. repeat (split; [auto; fail|]). split; [intros i NI; rewrite !at_id_map_outs by auto; apply mem_not in NI; now rewrite NI|].
        split; [intros i I; rewrite !at_id_map_outs by auto; apply mem_In in I; rewrite I; destruct (at_id (n_outs n2) i); cbn; rewrite ?andb_false_r; auto|]. split; [auto|]. split; [auto|]. split; [auto|]. intros i. rewrite union_In. intuition. }
  clear CMT D. destruct FIN as (Z1 & Z2 & Z3 & Z4 & Z5 & Z6 & Z7 & Z8 & Z9 & Z10 & Z11 & Z12 & Z13).
  exists outs, c, seen, t2. split; [auto|]. split; [auto|]. split; [rewrite Z3, RF1, FF1; auto|]. split; [rewrite Z4, RF2, FF2; auto|]. split; [rewrite Z5, RF3, FF3; auto|]. split; [rewrite Z6, RF4, FF4; auto|]. split; [rewrite Z7, RF5, FF5; auto|].
  split; [now rewrite Z1|]. split; [auto|]. split; [auto|]. split; [auto|]. split; [auto|].
  split; [intros j NJ; rewrite Z1; specialize (T2 j NJ); destruct (trafo_of n j), (trafo_of n2 j); auto; destruct T2 as (Q1 & Q2 & Q3); split; [auto|]; split; [auto|]; intros i; rewrite Q3; split; intros [I ND]; (split; [exact I|]); intros [J (p & FP)]; apply ND; (split; [now apply G|]); exists p; apply FG; auto; now apply G|].
  split; [intros i NI DR; rewrite Z8, A2 by auto; apply G, mem_In in DR; now rewrite DR|].
  split; [intros i NI DR; rewrite Z8, A2 by auto; destruct (mem i gone) eqn:MG; [apply mem_In, G in MG; contradiction|now apply AN]|].
  split.
  { exists same_c. split; [|split; [|split]].
    - intros SE. destruct OL as [[-> _]|(i & p & I & AP & EO)]; [discriminate|]. cbn [m n_outs] in AP. apply at_id_In in AP as [IP <-]. exists p. split; [auto|]. split; [auto|]. now apply KEPT.
    - intros q IQ JQ AL K. now apply (KEPT q IQ (OLD q IQ JQ AL)).
    - intros i I. rewrite Z9, A2, NG by auto. rewrite A1. pose proof I as I'. apply mem_In in I'. rewrite I'. unfold recreated. change (n_outs m) with (n_outs n). destruct (at_id (n_outs n) i) as [q|] eqn:AQ; cbn; (eexists; split; [reflexivity|]); cbn; auto 10.
    - exact Z13. }
  split; [auto|]. split; [intros i; rewrite Z11, in_app_iff, C1; change (n_outs m) with (n_outs n); cbn [In]; tauto|]. split; [intros i; rewrite Z12, in_app_iff, G; tauto|].
  intros NM i p u I AP TU. apply at_id_In in AP as AP2. destruct AP2 as [IP _]. specialize (CF NM i p u I AP). rewrite TM in CF. specialize (OK p IP). destruct (Nat.eqb_spec k (o_trafo p)); [congruence|]. now apply same_spec, CF.
Qed.

(** ** Rules without multiplex *)

Definition exists_out (n : node) (o : nat) : Prop := exists p, In p (n_outs n) /\ o_id p = o.
(** The file of the output need not be built again on account of the rule. *)
Definition valid (n : node) (o : nat) : Prop := exists p, In p (n_outs n) /\ o_id p = o /\ o_valid p = true.
(** All the new outputs were there already, made from the same artifacts with the same commands. *)
Definition as_before (e : env) (n : node) (x : nat) (outs : list nat) (c : nat) : Prop :=
  forall i, In i outs -> exists p t, In p (n_outs n) /\ o_id p = i /\ trafo_of n (o_trafo p) = Some t /\ t_inputs t = [x] /\ t_commands t = c /\ forall y, In y (t_explicit t) <-> In y (e_explicit e).

Lemma single_at P n i p : single P n -> at_id (n_outs n) i = Some p <-> In p (n_outs n) /\ o_id p = i.
Proof. intros W. split; [apply at_id_In|]. intros [I <-]. apply at_id_sorted; [apply W|auto]. Qed.
Lemma made_inputs n x o c : made n x o c -> exists p t, In p (n_outs n) /\ o_id p = o /\ trafo_of n (o_trafo p) = Some t /\ t_inputs t = [x] /\ t_commands t = c.
Proof. intros (p & t & I & E & T & J & C). exists p, t. auto 10. Qed.
Lemma made_unique P n x y o c d : single P n -> made n x o c -> made n y o d -> x = y /\ c = d.
Proof.
  intros W (p & t & I & E & T & J & C) (p' & t' & I' & E' & T' & J' & C'). assert (p = p') as <-.
  { assert (at_id (n_outs n) o = Some p) by (now apply (single_at P)). assert (at_id (n_outs n) o = Some p') by (now apply (single_at P)). congruence. }
  split; congruence.
Qed.
Lemma dropped_single P n x outs i : single P n -> dropped n [x] outs i <-> ~ In i outs /\ exists c, made n x i c.
Proof.
  intros W. unfold dropped. split; intros [NI H]; (split; [auto|]).
  - destruct H as (p & t & a & I & E & T & [<-|[]] & CH & TI). exists (t_commands t), p, t. repeat (split; [auto; fail|]). split; [|auto]. destruct (v_out _ _ W p I) as (u & y & TU & IU & _). rewrite T in TU. injection TU as <-. rewrite IU in TI. destruct TI as [<-|[]]. auto.
  - destruct H as (c & p & t & I & E & T & J & C). exists p, t, x. repeat (split; [auto; fail|]). split; [now left|]. destruct (v_out _ _ W p I) as (u & y & TU & IU & CH & _). rewrite T in TU. injection TU as <-. rewrite IU in J. injection J as <-. rewrite IU. split; [auto|now left].
Qed.

Lemma single_step P r e x n l n' l' : multiplex r = false -> proper e -> single P n -> P x -> do_apply r e [x] (n, l) = Some (n', l') ->
  exists outs c seen, e_script e [x] = Some (outs, c, seen) /\ single P n' /\
    n_old n' = n_old n /\ n_old_explicit n' = n_old_explicit n /\ n_consider n' = n_consider n /\ n_last n' = n_last n /\
    (forall y o d, made n' y o d <-> y = x /\ In o outs /\ d = c \/ y <> x /\ made n y o d) /\
    (forall y o d, y <> x -> made n y o d -> at_id (n_outs n') o = at_id (n_outs n) o) /\
    (forall o p, In o outs -> at_id (n_outs n') o = Some p -> forall y, In y (o_children p) <-> y = x \/ In y (e_explicit e) \/ exists q, In q (n_outs n) /\ o_id q = o /\ In y (o_children q)) /\
    (forall o p, In o outs -> at_id (n_outs n') o = Some p -> o_scanned p = match at_id (n_outs n) o with Some q => o_scanned q | None => [] end) /\
    (forall o, In o outs -> valid n' o -> valid n o /\ as_before e n x outs c) /\
    ((forall t, e_commands_changed e t = false) -> as_before e n x outs c -> forall o, In o outs -> valid n o -> valid n' o) /\
    l_applied l' = l_applied l ++ [[x]] /\
    (forall o, In o (l_created l') <-> In o (l_created l) \/ In o outs /\ ~ exists c, made n x o c) /\
    (forall o, In o outs -> exists_out n o -> exists c, made n x o c) /\
    (forall o, In o (l_removed l') <-> In o (l_removed l) \/ ~ In o outs /\ exists c, made n x o c) /\
    (forall y outs d, y <> x -> as_before e n' y outs d <-> as_before e n y outs d).
Proof.
  intros NM PR W PX D. assert (TOT : forall p, In p (n_outs n) -> exists t, trafo_of n (o_trafo p) = Some t) by (intros p I; destruct (v_out _ _ W p I) as (t & _ & T & _); eauto).
  destruct (do_apply_spec r e [x] n l n' l' (v_sorted _ _ W) (v_next _ _ W) TOT PR D) as (outs & c & seen & t & SC & S' & NX & F1 & F2 & F3 & F4 & TK & TI & TE & TC & TOU & TJ & DR & ND & (sc & SC1 & SC2 & AT & INV) & LA & LC & LR & CF).
  specialize (CF NM). set (k := n_next n) in *.
  assert (DS := fun i => dropped_single P n x outs i W).
  assert (OUT : forall i q, In i outs -> at_id (n_outs n) i = Some q -> exists u, trafo_of n (o_trafo q) = Some u /\ t_inputs u = [x]).
  { intros i q I AQ. apply (single_at P) in AQ as AQ2; [|auto]. destruct AQ2 as [IQ EQ]. destruct (v_out _ _ W q IQ) as (u & y & TU & IU & _). exists u. split; [auto|]. specialize (CF i q u I AQ TU). rewrite IU in *. destruct (proj1 (CF y) (or_introl eq_refl)) as [<-|[]]. auto. }
  assert (CL : forall p', In p' (n_outs n') -> In (o_id p') outs /\ o_trafo p' = k \/ ~ In (o_id p') outs /\ In p' (n_outs n) /\ o_trafo p' <> k /\
      exists u v y, trafo_of n (o_trafo p') = Some u /\ trafo_of n' (o_trafo p') = Some v /\ like v u /\ t_inputs u = [y] /\ y <> x /\ forall i, In i (t_outputs v) <-> In i (t_outputs u)).
  { intros p' I. destruct (mem_dec (o_id p') outs) as [J|NJ].
    - left. split; [auto|]. destruct (AT _ J) as (p2 & A2 & _ & T2 & _). apply (at_id_sorted _ _ S') in I. congruence.
    - right. split; [auto|]. apply (at_id_sorted _ _ S') in I. assert (NDR : ~ dropped n [x] outs (o_id p')) by (intros H; rewrite (DR _ NJ H) in I; discriminate). rewrite (ND _ NJ NDR) in I. apply at_id_In in I as [I _].
      split; [auto|]. destruct (v_out _ _ W p' I) as (u & y & TU & IU & CH & _). assert (NK : o_trafo p' <> k) by (intros EE; rewrite EE in TU; apply (v_next _ _ W) in TU; unfold k in TU; lia).
      split; [auto|]. assert (YX : y <> x). { intros ->. apply NDR, DS. split; [auto|]. exists (t_commands u), p', u. auto 10. }
      specialize (TJ _ NK). rewrite TU in TJ. destruct (trafo_of n' (o_trafo p')) as [v|] eqn:TV; [|contradiction]. destruct TJ as (LK & TR & OU). exists u, v, y. repeat (split; [auto; fail|]). intros i. rewrite OU. split; [tauto|]. intros IO. split; [auto|].
      intros [DI (q & AQ & TQ)]. apply DS in DI as [_ (d & q2 & u2 & I2 & E2 & T2 & J2 & _)]. assert (q2 = q) as ->. { assert (at_id (n_outs n) i = Some q2) by (now apply (single_at P)). congruence. } rewrite TQ, TU in T2. injection T2 as <-. congruence. }
  assert (LC' : forall v u : trafo, like v u -> t_inputs v = t_inputs u /\ t_commands v = t_commands u) by (intros v u (Q1 & Q2 & Q3 & Q4); auto).
  assert (MD : forall y o d, made n' y o d <-> y = x /\ In o outs /\ d = c \/ y <> x /\ made n y o d).
  { intros y o d. split.
    - intros (p & t' & I & <- & T' & IN & C'). destruct (CL p I) as [[J K]|(NJ & I2 & NK & u & v & z & TU & TV & LK & IU & ZX & OU)].
      + rewrite K, TK in T'. injection T' as <-. rewrite TI in IN. injection IN as <-. left. split; [auto|]. split; [auto|]. congruence.
      + rewrite TV in T'. injection T' as <-. destruct (LC' _ _ LK) as [L1 L2]. assert (y = z) by congruence. subst y. right. split; [auto|]. exists p, u. split; [auto|]. split; [auto|]. split; [auto|]. split; congruence.
    - intros [(-> & J & ->)|(YX & p & u & I & <- & TU & IU & C)].
      + destruct (AT _ J) as (p & AP & EP & TP & _). apply at_id_In in AP as [IP _]. exists p, t. split; [auto|]. split; [auto|]. split; [now rewrite TP|]. auto.
      + assert (AP : at_id (n_outs n) (o_id p) = Some p) by (now apply (single_at P)). assert (NJ : ~ In (o_id p) outs) by (intros J; destruct (OUT _ _ J AP) as (u2 & TU2 & IU2); congruence).
        assert (NDR : ~ dropped n [x] outs (o_id p)). { intros H. apply DS in H as [_ (d2 & H)]. destruct (made_unique P n x y (o_id p) d2 (t_commands u) W H); [|congruence]. exists p, u. auto 10. }
        pose proof (ND _ NJ NDR) as A'. rewrite AP in A'. apply at_id_In in A' as [I' _]. destruct (CL p I') as [[J _]|(_ & _ & _ & u2 & v & z & TU2 & TV & LK & IU2 & _)]; [contradiction|]. rewrite TU in TU2. injection TU2 as <-. destruct (LC' _ _ LK) as [L1 L2].
        exists p, v. split; [auto|]. split; [auto|]. split; [auto|]. split; congruence. }
  assert (EX : forall o, In o outs -> exists_out n o -> exists d, made n x o d).
  { intros o J (q & IQ & EQ). assert (AQ : at_id (n_outs n) o = Some q) by (now apply (single_at P)). destruct (OUT _ _ J AQ) as (u & TU & IU). exists (t_commands u), q, u. auto 10. }
  assert (W' : single P n').
  { constructor.
    - exact S'.
    - intros p I. destruct (CL p I) as [[J K]|(NJ & I2 & NK & u & v & z & TU & TV & LK & IU & ZX & OU)].
      + exists t, x. rewrite K. split; [auto|]. split; [auto|]. destruct (AT _ J) as (p2 & A2 & E2 & _ & C2 & SC2' & _). assert (p2 = p) as -> by (apply (at_id_sorted _ _ S') in I; congruence).
        rewrite C2, SC2'. destruct (at_id (n_outs n) (o_id p)) as [q|] eqn:AQ.
        * destruct (OUT _ _ J AQ) as (u & TU & IU). apply at_id_In in AQ as [IQ EQ]. destruct (v_out _ _ W q IQ) as (u2 & y & TU2 & IU2 & CH & NS & _). assert (y = x) as -> by congruence.
          split; [rewrite !union_In; auto|]. split; [auto|]. split; [auto|]. now apply TOU.
        * split; [rewrite union_In; cbn; auto|]. split; [auto|]. split; [auto|]. now apply TOU.
      + destruct (v_out _ _ W p I2) as (u2 & y & TU2 & IU2 & CH & NS & PY & OI). rewrite TU in TU2. injection TU2 as <-. destruct (LC' _ _ LK) as [L1 L2]. exists v, y. split; [auto|]. split; [congruence|]. split; [auto|]. split; [auto|]. split; [auto|]. now apply OU.
    - intros j u TU. rewrite NX. destruct (Nat.eq_dec j k) as [->|NJ]; [unfold k; lia|]. specialize (TJ j NJ). rewrite TU in TJ. destruct (trafo_of n j) as [u2|] eqn:TN; [|contradiction]. apply (v_next _ _ W) in TN. lia.
    - intros p q tp tq IP IQ TP TQ EQ. destruct (CL p IP) as [[J K]|(NJ & I2 & NK & u & v & z & TU & TV & LK & IU & ZX & OU)]; destruct (CL q IQ) as [[J' K']|(NJ' & I2' & NK' & u' & v' & z' & TU' & TV' & LK' & IU' & ZX' & OU')].
      + congruence.
      + exfalso. rewrite K, TK in TP. injection TP as <-. rewrite TV' in TQ. injection TQ as <-. destruct (LC' _ _ LK') as [L1 _]. congruence.
      + exfalso. rewrite K', TK in TQ. injection TQ as <-. rewrite TV in TP. injection TP as <-. destruct (LC' _ _ LK) as [L1 _]. congruence.
      + rewrite TV in TP. injection TP as <-. rewrite TV' in TQ. injection TQ as <-. destruct (LC' _ _ LK) as [L1 _]. destruct (LC' _ _ LK') as [L1' _]. apply (v_share _ _ W p q u u'); auto. congruence.
    - intros p tp i IP TP IO. destruct (CL p IP) as [[J K]|(NJ & I2 & NK & u & v & z & TU & TV & LK & IU & ZX & OU)].
      + rewrite K, TK in TP. injection TP as <-. apply TOU in IO. destruct (AT _ IO) as (q & AQ & EQ & TQ & _). apply at_id_In in AQ as [IQ _]. exists q. split; [auto|]. split; [auto|]. congruence.
      + rewrite TV in TP. injection TP as <-. apply OU in IO. destruct (v_outputs _ _ W p u i I2 TU IO) as (q & IQ & EQ & TQ). assert (MQ : made n' z i (t_commands u)) by (apply MD; right; split; [auto|]; exists q, u; rewrite TQ; auto 10).
        destruct MQ as (q' & v' & IQ' & EQ' & TQ' & IN' & _). exists q'. split; [auto|]. split; [auto|]. destruct (CL q' IQ') as [[J' K']|(NJ' & I2' & _)]; [rewrite K', TK in TQ'; injection TQ' as <-; congruence|].
        assert (q' = q) as -> by (assert (at_id (n_outs n) i = Some q) by (now apply (single_at P)); assert (at_id (n_outs n) i = Some q') by (now apply (single_at P)); congruence). auto. }
  exists outs, c, seen. split; [auto|]. split; [auto|]. split; [auto|]. split; [auto|]. split; [auto|]. split; [auto|]. split; [exact MD|].
  split.
  { intros y o d YX (p & u & I & <- & TU & IU & C). assert (AP : at_id (n_outs n) (o_id p) = Some p) by (now apply (single_at P)). apply ND; [intros J; destruct (OUT _ _ J AP) as (u2 & TU2 & IU2); congruence|].
    intros H. apply DS in H as [_ (d2 & H)]. destruct (made_unique P n x y (o_id p) d2 (t_commands u) W H); [|congruence]. exists p, u. auto 10. }
  split.
  { intros o p J AP y. destruct (AT _ J) as (p2 & A2 & E2 & _ & C2 & _). rewrite AP in A2. injection A2 as <-. rewrite C2. destruct (at_id (n_outs n) o) as [q|] eqn:AQ; rewrite !union_In; cbn [In].
    - apply (single_at P) in AQ as AQ2; [|auto]. destruct AQ2 as [IQ EQ]. split; [intros [[H|[H|[]]]|H]; [right; right; exists q; auto|auto|auto]|]. intros [->|[H|(q2 & I2 & E2' & H)]]; [auto|auto|]. assert (q2 = q) as -> by (assert (at_id (n_outs n) o = Some q2) by (now apply (single_at P)); congruence). auto.
    - split; [intros [[H|[]]|H]; auto|]. intros [->|[H|(q2 & I2 & E2' & H)]]; [auto|auto|]. assert (at_id (n_outs n) o = Some q2) by (now apply (single_at P)). congruence. }
  split.
  { intros o p J AP. destruct (AT _ J) as (p2 & A2 & E2 & _ & C2 & SQ & _). congruence. }
  split.
  { intros o J (p & IP & EP & VP). destruct (AT _ J) as (p2 & A2 & E2 & _ & _ & _ & V2). assert (p2 = p) as -> by (apply (at_id_sorted _ _ S') in IP; congruence). rewrite VP in V2. destruct (at_id (n_outs n) o) as [q|] eqn:AQ; [|discriminate]. symmetry in V2. apply andb_true_iff in V2 as [VQ SE].
    apply (single_at P) in AQ as AQ2; [|auto]. destruct AQ2 as [IQ EQ]. split; [exists q; auto|]. destruct (SC1 SE) as (q0 & IQ0 & JQ0 & u & TU & CU & IU & EU & OU1 & OU2 & _).
    intros i I. apply OU1 in I as IO. destruct (v_outputs _ _ W q0 u i IQ0 TU IO) as (q1 & IQ1 & EQ1 & TQ1). exists q1, u. split; [auto|]. split; [auto|]. split; [congruence|]. split; [|auto].
    destruct (v_out _ _ W q0 IQ0) as (u2 & y & TU2 & IU2 & _). rewrite TU in TU2. injection TU2 as <-. rewrite IU2 in IU. destruct (proj1 (IU y) (or_introl eq_refl)) as [<-|[]]. auto. }
  split.
  { intros NC AB o J (q & IQ & EQ & VQ). destruct (AB o J) as (q' & u & IQ' & EQ' & TU & IU & CU & EU). assert (q' = q) as -> by (assert (at_id (n_outs n) o = Some q) by (now apply (single_at P)); assert (at_id (n_outs n) o = Some q') by (now apply (single_at P)); congruence). clear IQ' EQ'.
    destruct (AT _ J) as (p & AP & EP & _ & _ & _ & VP). assert (AQ : at_id (n_outs n) o = Some q) by (now apply (single_at P)). rewrite AQ, VQ in VP. apply at_id_In in AP as [IP _]. exists p. split; [auto|]. split; [auto|]. rewrite VP. cbn.
    assert (SH : forall q', In q' (n_outs n) -> In (o_id q') outs -> o_trafo q' = o_trafo q). { intros q' IQ' J'. destruct (AB _ J') as (q2 & u2 & I2 & E2 & T2 & IN2 & _). assert (q2 = q') as -> by (assert (at_id (n_outs n) (o_id q') = Some q2) by (now apply (single_at P)); assert (at_id (n_outs n) (o_id q') = Some q') by (now apply (single_at P)); congruence). apply (v_share _ _ W q' q u2 u); auto. congruence. }
    apply (SC2 q IQ); [congruence|exact SH|]. exists u. split; [auto|]. split; [auto|]. split; [now rewrite IU|]. split; [auto|]. split; [|split; [|auto]].
    - intros i I. destruct (AB _ I) as (q2 & u2 & I2 & E2 & T2 & IN2 & _). specialize (SH q2 I2). rewrite E2 in SH. specialize (SH I). rewrite SH, TU in T2. injection T2 as <-. destruct (v_out _ _ W q2 I2) as (u3 & y & T3 & _ & _ & _ & _ & OI). rewrite SH, TU in T3. injection T3 as <-. now rewrite <- E2.
    - intros i IO. destruct (mem_dec i outs) as [|NI]; [auto|]. right. destruct (v_outputs _ _ W q u i IQ TU IO) as (q1 & IQ1 & EQ1 & TQ1). split; [|exists q1; split; [now apply (single_at P)|auto]]. apply DS. split; [auto|]. exists (t_commands u), q1, u. rewrite TQ1. auto 10. }
  split; [auto|]. split.
  { intros o. rewrite LC. split; (intros [H|[J H]]; [auto|right; split; [auto|]]).
    - intros (d & p & u & I & E & _). assert (at_id (n_outs n) o = Some p) by (now apply (single_at P)). congruence.
    - destruct (at_id (n_outs n) o) as [q|] eqn:AQ; [|auto]. exfalso. apply H, EX; [auto|]. exists q. now apply (single_at P) in AQ. }
  split; [auto|]. split; [intros o; now rewrite LR, DS|]. intros y outs' d YX. split; intros AB i I; destruct (AB i I) as (p & u & IP & EP & TU & IU & CU & EU).
  - destruct (CL p IP) as [[J K]|(NJ & I2 & NK & u2 & v & z & TU2 & TV & LK & IU2 & ZX & OU)]; [rewrite K, TK in TU; injection TU as <-; congruence|].
    rewrite TU in TV. injection TV as <-. destruct LK as (Q1 & Q2 & Q3 & Q4). exists p, u2. split; [auto|]. split; [auto|]. split; [auto|]. split; [congruence|]. split; [congruence|]. now rewrite <- Q2.
  - assert (MN : made n' y i d) by (apply MD; right; split; [auto|]; exists p, u; auto 10). destruct MN as (q & v & IQ & EQ & TV & IV & CV). destruct (CL q IQ) as [[J K]|(NJ & I2 & NK & u2 & v2 & z & TU2 & TV2 & LK & IU2 & ZX & OU)]; [rewrite K, TK in TV; injection TV as <-; congruence|].
    assert (q = p) as -> by (assert (at_id (n_outs n) i = Some q) by (now apply (single_at P)); assert (at_id (n_outs n) i = Some p) by (now apply (single_at P)); congruence).
    rewrite TU in TU2. injection TU2 as <-. destruct LK as (Q1 & Q2 & Q3 & Q4). exists p, v2. split; [auto|]. split; [auto|]. split; [auto|]. split; [congruence|]. split; [congruence|]. now rewrite Q2.
Qed.

Lemma valid_at P n o : single P n -> valid n o <-> exists p, at_id (n_outs n) o = Some p /\ o_valid p = true.
Proof. intros W. unfold valid. split; intros (p & H); exists p; [rewrite (single_at P) by auto; tauto|rewrite (single_at P) in H by auto; tauto]. Qed.
Lemma each_step (P : nat -> Prop) r e : multiplex r = false -> proper e -> forall todo n l n' l', NoDup todo -> (forall x, In x todo -> P x) -> single P n -> apply_each r e (map (fun x => [x]) todo) (n, l) = Some (n', l') ->
  single P n' /\ n_old n' = n_old n /\ n_old_explicit n' = n_old_explicit n /\ n_consider n' = n_consider n /\ n_last n' = n_last n /\
  (forall x, In x todo -> e_script e [x] <> None) /\
  (forall y o d, made n' y o d <-> In y todo /\ told (e_script e) [y] o d \/ ~ In y todo /\ made n y o d) /\
  (forall y o d, ~ In y todo -> made n y o d -> at_id (n_outs n') o = at_id (n_outs n) o) /\
  (forall x o c p y, In x todo -> made n' x o c -> at_id (n_outs n') o = Some p -> In y (o_children p) -> y = x \/ In y (e_explicit e) \/ exists q d, at_id (n_outs n) o = Some q /\ made n x o d /\ In y (o_children q)) /\
  (forall x outs c seen o, In x todo -> e_script e [x] = Some (outs, c, seen) -> In o outs -> valid n' o -> valid n o /\ as_before e n x outs c) /\
  ((forall t, e_commands_changed e t = false) -> forall x outs c seen o, In x todo -> e_script e [x] = Some (outs, c, seen) -> In o outs -> valid n o -> as_before e n x outs c -> valid n' o) /\
  l_applied l' = l_applied l ++ map (fun x => [x]) todo /\
  (forall o, In o (l_created l') <-> In o (l_created l) \/ exists x c, In x todo /\ told (e_script e) [x] o c /\ ~ exists d, made n x o d) /\
  (forall o, In o (l_removed l') <-> In o (l_removed l) \/ exists x d, In x todo /\ made n x o d /\ ~ exists c, told (e_script e) [x] o c).
Proof.
  intros NM PR. induction todo as [|x todo IH]; intros n l n' l' ND PT W.
  - cbn. intros [= <- <-]. split; [auto|]. split; [auto|]. split; [auto|]. split; [auto|]. split; [auto|]. split; [intros x []|]. split; [intros y o d; tauto|]. split; [auto|]. split; [intros x o c p y []|]. split; [intros x outs c seen o []|].
    split; [intros _ x outs c seen o []|]. split; [now rewrite app_nil_r|]. split; intros o; (split; [auto|]); (intros [H|(x & c & [] & _)]); auto.
  - inversion ND as [|? ? NX ND']; subst. cbn [map apply_each]. destruct (do_apply r e [x] (n, l)) as [[n1 l1]|] eqn:D; [|discriminate]. intros E.
    destruct (single_step P r e x n l n1 l1 NM PR W (PT x (or_introl eq_refl)) D) as (outs & c & seen & SC & W1 & F1 & F2 & F3 & F4 & MD & KE & CH & SN & VA & VB & LA & LC & EX & LR & AB).
    destruct (IH n1 l1 n' l' ND' (fun y I => PT y (or_intror I)) W1 E) as (W' & G1 & G2 & G3 & G4 & NN & MD' & KE' & CH' & VA' & VB' & LA' & LC' & LR').
    assert (TL : forall o d, told (e_script e) [x] o d <-> In o outs /\ d = c). { intros o d. unfold told. rewrite SC. split; [intros (outs2 & s2 & EE & I); injection EE as <- <- <-; auto|intros [I ->]; eauto]. }
    assert (AX : forall o, In o outs -> at_id (n_outs n') o = at_id (n_outs n1) o) by (intros o I; apply (KE' x o c); [auto|apply MD; auto]).
    split; [auto|]. split; [congruence|]. split; [congruence|]. split; [congruence|]. split; [congruence|].
    split; [intros y [<-|I]; [congruence|auto]|].
    split.
    { intros y o d. rewrite MD', MD. cbn [In]. destruct (Nat.eq_dec y x) as [->|YX].
      - rewrite TL. tauto.
      - assert (x <> y) by auto. tauto. }
    split.
    { intros y o d NI M. cbn [In] in NI. rewrite (KE' y o d); [|tauto|apply MD; right; split; [intros ->; tauto|auto]]. apply (KE y o d); [intros ->; tauto|auto]. }
    split.
    { intros z o d p y IZ MZ AP IY. destruct (Nat.eq_dec z x) as [->|ZX].
      - assert (J : In o outs) by (apply MD' in MZ as [[I _]|[_ M]]; [contradiction|]; apply MD in M as [(_ & J & _)|[NE _]]; [auto|congruence]). rewrite (AX _ J) in AP. apply (CH o p J AP) in IY as [H|[H|(q & IQ & EQ & H)]]; [auto|auto|].
        right. right. destruct (EX o J) as (d' & M'); [exists q; auto|]. exists q, d'. split; [now apply (single_at P)|]. auto.
      - destruct IZ as [EE|IZ]; [congruence|]. destruct (CH' z o d p y IZ MZ AP IY) as [H|[H|(q & d' & AQ & M1 & H)]]; [auto|auto|]. right. right. apply MD in M1 as [[EE _]|[_ M1]]; [congruence|]. exists q, d'. split; [|auto]. rewrite <- (KE z o d' ZX M1). auto. }
    assert (VZ : forall z outs' c' seen' o, In z todo -> e_script e [z] = Some (outs', c', seen') -> In o outs' -> as_before e n z outs' c' -> valid n1 o <-> valid n o).
    { intros z outs' c' seen' o IZ SZ J B. destruct (B o J) as (q & u & IQ & EQ & TU & IU & CU & _). rewrite (valid_at P n1 o W1), (valid_at P n o W). rewrite (KE z o c'); [tauto|congruence|]. exists q, u. auto 10. }
    split.
    { intros z outs' c' seen' o IZ SZ J V. destruct (Nat.eq_dec z x) as [->|ZX].
      - rewrite SC in SZ. injection SZ as <- <- <-. apply VA; [auto|]. apply (valid_at P) in V; [|auto]. rewrite (AX _ J) in V. now apply (valid_at P) in V.
      - destruct IZ as [EE|IZ]; [congruence|]. destruct (VA' z outs' c' seen' o IZ SZ J V) as [V1 B1]. apply AB in B1; [|auto]. split; [|auto]. now apply (VZ z outs' c' seen' o) in V1. }
    split.
    { intros NC z outs' c' seen' o IZ SZ J V B. destruct (Nat.eq_dec z x) as [->|ZX].
      - rewrite SC in SZ. injection SZ as <- <- <-. apply (valid_at P); [auto|]. rewrite (AX _ J). apply (valid_at P); [auto|]. now apply VB.
      - destruct IZ as [EE|IZ]; [congruence|]. apply (VB' NC z outs' c' seen' o IZ SZ J); [now apply (VZ z outs' c' seen' o)|]. now apply AB. }
    split; [rewrite LA', LA, <- app_assoc; auto|]. split.
    + intros o. rewrite LC', LC. split.
      * intros [[H|[J H]]|(z & d & IZ & TZ & H)]; [auto|right; exists x, c; split; [now left|]; split; [now apply TL|auto]|]. right. exists z, d. split; [now right|]. split; [auto|]. intros (d' & M). apply H. exists d'. apply MD. right. split; [congruence|auto].
      * intros [H|(z & d & [<-|IZ] & TZ & H)]; [auto|left; right; apply TL in TZ as [J _]; auto|]. right. exists z, d. split; [auto|]. split; [auto|]. intros (d' & M). apply H. apply MD in M as [[EE _]|[_ M]]; [congruence|eauto].
    + intros o. rewrite LR', LR. split.
      * intros [[H|[J (d & H)]]|(z & d & IZ & MZ & H)]; [auto|right; exists x, d; split; [now left|]; split; [auto|]; intros (d' & T'); apply TL in T' as [J' _]; contradiction|]. right. exists z, d. split; [now right|]. split; [|auto]. apply MD in MZ as [[EE _]|[_ M]]; [congruence|auto].
      * intros [H|(z & d & [<-|IZ] & MZ & H)]; [auto|left; right; split; [intros J; apply H; exists c; apply TL; auto|eauto]|]. right. exists z, d. split; [auto|]. split; [|auto]. apply MD. right. split; [congruence|auto].
Qed.

(** Only marks for change tracking may have been taken away. *)
Definition unmarked (n n' : node) : Prop :=
  n_outs n' = n_outs n /\ fields n n' /\ forall k, match trafo_of n k, trafo_of n' k with Some t, Some u => like u t /\ t_outputs u = t_outputs t /\ (t_track u = true -> t_track t = true) | None, None => True | _, _ => False end.
Lemma unmarked_refl n : unmarked n n.
Proof. split; [auto|]. split; [apply fields_refl|]. intros k. destruct (trafo_of n k); [|auto]. unfold like. auto 10. Qed.
Lemma unmarked_trans a b c : unmarked a b -> unmarked b c -> unmarked a c.
Proof.
  intros (H1 & H2 & H3) (G1 & G2 & G3). split; [congruence|]. split; [eapply fields_trans; eauto|]. intros k. specialize (H3 k). specialize (G3 k). destruct (trafo_of a k), (trafo_of b k), (trafo_of c k); auto; try contradiction.
  unfold like in *. destruct H3 as ((Q1 & Q2 & Q3 & Q4) & Q5 & Q6), G3 as ((R1 & R2 & R3 & R4) & R5 & R6). repeat split; try congruence. auto.
Qed.
Lemma unmarked_trafo n n' k : unmarked n n' -> forall t, trafo_of n k = Some t -> exists u, trafo_of n' k = Some u /\ like u t /\ t_outputs u = t_outputs t.
Proof. intros (_ & _ & H) t T. specialize (H k). rewrite T in H. destruct (trafo_of n' k) as [u|]; [|contradiction]. exists u. tauto. Qed.
Lemma unmarked_back n n' k : unmarked n n' -> forall t, trafo_of n' k = Some t -> exists u, trafo_of n k = Some u /\ like t u /\ t_outputs t = t_outputs u.
Proof. intros (_ & _ & H) t T. specialize (H k). rewrite T in H. destruct (trafo_of n k) as [u|]; [|contradiction]. exists u. tauto. Qed.
Lemma unmarked_single P n n' : unmarked n n' -> single P n -> single P n'.
Proof.
  intros U W. pose proof U as (EO & (FN & _) & _). constructor.
  - rewrite EO. apply W.
  - intros p I. rewrite EO in I. destruct (v_out _ _ W p I) as (t & x & T & J & H). destruct (unmarked_trafo _ _ _ U _ T) as (u & TU & (Q & _) & O). exists u, x. rewrite O. split; [auto|]. split; [congruence|auto].
  - intros k t T. destruct (unmarked_back _ _ _ U _ T) as (u & TU & _). apply (v_next _ _ W) in TU. congruence.
  - intros p q t u IP IQ TP TQ E. rewrite EO in IP, IQ. destruct (unmarked_back _ _ _ U _ TP) as (t' & TP' & (Q & _) & _), (unmarked_back _ _ _ U _ TQ) as (u' & TQ' & (Q' & _) & _). apply (v_share _ _ W p q t' u'); auto. congruence.
  - intros p t i IP TP J. rewrite EO in *. destruct (unmarked_back _ _ _ U _ TP) as (t' & TP' & _ & O). rewrite O in J. apply (v_outputs _ _ W p t' i); auto.
Qed.
Lemma unmarked_made n n' x o c : unmarked n n' -> made n' x o c <-> made n x o c.
Proof.
  intros U. pose proof U as (EO & _ & _). unfold made, makes_with. rewrite EO. split; intros (p & t & I & E & T & J & C).
  - destruct (unmarked_back _ _ _ U _ T) as (u & TU & (Q1 & _ & Q3 & _) & _). exists p, u. split; [auto|]. split; [auto|]. split; [auto|]. split; congruence.
  - destruct (unmarked_trafo _ _ _ U _ T) as (u & TU & (Q1 & _ & Q3 & _) & _). exists p, u. split; [auto|]. split; [auto|]. split; [auto|]. split; congruence.
Qed.
Lemma unmarked_before e n n' x outs c : unmarked n n' -> as_before e n' x outs c <-> as_before e n x outs c.
Proof.
  intros U. pose proof U as (EO & _ & _). unfold as_before. rewrite EO. split; intros H i I; destruct (H i I) as (p & t & IP & E & T & J & C & X).
  - destruct (unmarked_back _ _ _ U _ T) as (u & TU & (Q1 & Q2 & Q3 & _) & _). exists p, u. rewrite <- Q1, <- Q2, <- Q3. auto 10.
  - destruct (unmarked_trafo _ _ _ U _ T) as (u & TU & (Q1 & Q2 & Q3 & _) & _). exists p, u. rewrite Q1, Q2, Q3. auto 10.
Qed.
Lemma rerun_unmarked e n k n' b : needs_rerun e n k = (n', b) -> unmarked n n'.
Proof.
  unfold needs_rerun. destruct (trafo_of n k) as [t|] eqn:T; [|intros [= <- <-]; apply unmarked_refl]. destruct (t_track t); intros [= <- <-]; [|apply unmarked_refl]. split; [auto|]. split; [unfold fields; auto 10|].
  intros j. rewrite trafo_of_set. destruct (Nat.eqb_spec j k) as [->|]; [rewrite T; cbn; unfold like; cbn; repeat split; discriminate|]. destruct (trafo_of n j); [|auto]. unfold like. auto 10.
Qed.
Lemma rerun_true e n k n' b t : needs_rerun e n k = (n', b) -> trafo_of n k = Some t -> b = true <-> t_track t = true /\ e_changed e t = true.
Proof. unfold needs_rerun. intros E T. rewrite T in E. destruct (t_track t); injection E as <- <-; [tauto|]. split; [discriminate|intros [? _]; discriminate]. Qed.
Lemma rerun_other e n k n' b (j : nat) : needs_rerun e n k = (n', b) -> j <> k -> trafo_of n' j = trafo_of n j.
Proof.
  unfold needs_rerun. destruct (trafo_of n k) as [t|]; [|intros [= <- <-]; auto]. destruct (t_track t); intros [= <- <-]; [|auto]. intros NE. rewrite trafo_of_set. destruct (Nat.eqb_spec j k); [contradiction|auto].
Qed.

Lemma check_one_single P e x n n' f : single P n -> apart n [x] -> check_one e x n = (n', f) ->
  unmarked n n' /\ (f = [] /\ ~ outdated e n x \/ f = [x] /\ outdated e n x) /\ forall y, y <> x -> outdated e n' y <-> outdated e n y.
Proof.
  intros W AP. unfold check_one. destruct (find (fun o => mem x (o_children o)) (n_outs n)) as [p|] eqn:FI.
  - apply find_some in FI as [IP MX]. apply mem_In in MX. destruct (v_out _ _ W p IP) as (t & z & T & IN & _). assert (IX : t_inputs t = [x]) by (apply (AP p x t); auto; now left).
    destruct (needs_rerun e n (o_trafo p)) as [n1 b] eqn:NR. intros [= <- <-]. pose proof (rerun_unmarked _ _ _ _ _ NR) as U. split; [auto|]. pose proof (rerun_true _ _ _ _ _ _ NR T) as RT. split.
    + destruct b.
      * right. split; [auto|]. exists p, t. destruct (proj1 RT eq_refl). auto 10.
      * left. split; [auto|]. intros (q & u & IQ & TQ & JQ & TR & CH). rewrite (v_share _ _ W q p u t IQ IP TQ T) in TQ by congruence. rewrite T in TQ. injection TQ as <-. destruct RT as [_ RT]. specialize (RT (conj TR CH)). discriminate.
    + intros y NE. pose proof U as (EO & _ & _). unfold outdated. rewrite EO. split; intros (q & u & IQ & TQ & JQ & TR & CH); exists q.
      * assert (o_trafo q <> o_trafo p). { intros EE. rewrite EE in TQ. destruct (unmarked_back _ _ _ U _ TQ) as (u' & TU' & (Q & _) & _). rewrite T in TU'. injection TU' as <-. congruence. }
        exists u. rewrite <- (rerun_other _ _ _ _ _ _ NR) by eassumption. auto 10.
      * assert (o_trafo q <> o_trafo p) by (intros EE; rewrite EE in TQ; congruence). exists u. rewrite (rerun_other _ _ _ _ _ _ NR) by eassumption. auto 10.
  - intros [= <- <-]. split; [apply unmarked_refl|]. split; [|tauto]. left. split; [auto|]. intros (p & t & IP & T & IN & _). pose proof (find_none _ _ FI p IP) as M. cbn in M. apply mem_not in M. apply M.
    destruct (v_out _ _ W p IP) as (t' & z & T' & IN' & CH & _). rewrite T in T'. injection T' as <-. rewrite IN in IN'. injection IN' as <-. auto.
Qed.
Lemma unmarked_apart n n' l : unmarked n n' -> apart n l -> apart n' l.
Proof. intros U H p x t IP IX CH T. pose proof U as (EO & _). rewrite EO in IP. destruct (unmarked_back _ _ _ U _ T) as (u & TU & (Q & _) & _). rewrite Q. eapply H; eauto. Qed.
Lemma check_one_unmarked e x n n' f : check_one e x n = (n', f) -> unmarked n n' /\ (f = [] \/ f = [x]).
Proof.
  unfold check_one. destruct (find _ (n_outs n)) as [p|]; [|intros [= <- <-]; split; [apply unmarked_refl|auto]]. destruct (needs_rerun e n (o_trafo p)) as [n1 b] eqn:NR. intros [= <- <-]. split; [now apply rerun_unmarked in NR|]. destruct b; auto.
Qed.
Lemma check_inputs_unmarked e mult : forall l n n' f, NoDup l -> check_inputs mult e l n = (n', f) -> unmarked n n' /\ NoDup f /\ incl f l.
Proof.
  induction l as [|x l IH]; intros n n' f ND; cbn.
  - intros [= <- <-]. split; [apply unmarked_refl|]. split; [constructor|apply incl_refl].
  - inversion ND as [|? ? NX ND']; subst. destruct (check_one e x n) as [n1 f1] eqn:C1. apply check_one_unmarked in C1 as [U1 H1]. destruct mult.
    + intros [= <- <-]. split; [auto|]. destruct H1 as [->| ->]; (split; [repeat constructor; auto|]); intros y []; [subst; now left|easy].
    + destruct (check_inputs false e l n1) as [n2 f2] eqn:C2. intros [= <- <-]. destruct (IH _ _ _ ND' C2) as (U2 & N2 & I2). split; [now apply (unmarked_trans n n1)|]. destruct H1 as [->| ->]; cbn [app].
      * split; [auto|]. intros y I. right. auto.
      * split; [constructor; auto|]. intros y [<-|I]; [now left|right; auto].
Qed.
Lemma check_inputs_single P e : forall l n n' f, NoDup l -> single P n -> apart n l -> check_inputs false e l n = (n', f) ->
  unmarked n n' /\ NoDup f /\ forall x, In x f <-> In x l /\ outdated e n x.
Proof.
  induction l as [|x l IH]; intros n n' f ND W AP; cbn.
  - intros [= <- <-]. split; [apply unmarked_refl|]. split; [constructor|]. intros x; cbn; tauto.
  - inversion ND as [|? ? NX ND']; subst. destruct (check_one e x n) as [n1 f1] eqn:C1. destruct (check_inputs false e l n1) as [n2 f2] eqn:C2. intros [= <- <-].
    destruct (check_one_single P e x n n1 f1 W) as (U1 & H1 & O1); [intros p y t IP [<-|[]]; apply (AP p x t); auto; now left|auto|].
    destruct (IH n1 n2 f2 ND') as (U2 & NF & H2); [now apply (unmarked_single P n)|apply (unmarked_apart n); [auto|]; intros p y t IP IY; apply (AP p y t); auto; now right|auto|].
    assert (H2' : forall y, In y f2 <-> In y l /\ outdated e n y). { intros y. rewrite H2. split; intros [I OD]; (split; [auto|]); apply O1 in OD || apply O1; auto; congruence. }
    split; [now apply (unmarked_trans n n1)|]. destruct H1 as [[-> NO]|[-> OD]]; cbn [app].
    + split; [auto|]. intros y. rewrite H2'. cbn [In]. split; [tauto|]. intros [[<-|I] O]; [contradiction|auto].
    + split; [constructor; [rewrite H2'; tauto|auto]|]. intros y. cbn [In]. rewrite H2'. split; [intros [<-|[I O]]; auto|]. intros [[<-|I] O]; auto.
Qed.

(** *** Removed inputs *)

Lemma affected_spec P n a l : single P n -> affected n a = Some l -> forall o, In o l <-> exists c, made n a o c.
Proof.
  intros W. unfold affected. set (F := fun acc o => _).
  assert (FN : forall outs, fold_left F outs None = None) by (intros outs; induction outs; cbn; auto).
  assert (G : forall outs acc l, (forall p, In p outs -> In p (n_outs n)) -> fold_left F outs (Some acc) = Some l -> forall o, In o l <-> In o acc \/ exists p t, In p outs /\ o_id p = o /\ trafo_of n (o_trafo p) = Some t /\ t_inputs t = [a]).
  { intros outs. induction outs as [|p outs IH]; intros acc l' SU; cbn [fold_left].
    - intros [= <-] o. split; [auto|]. intros [H|(p & t & [] & _)]; auto.
    - assert (IP : In p (n_outs n)) by (apply SU; now left). destruct (v_out _ _ W p IP) as (t & z & T & IN & CH & _). unfold F at 2. rewrite T. intros E o.
      assert (NOA : z <> a -> In o l' <-> In o acc \/ exists q t, In q (p :: outs) /\ o_id q = o /\ trafo_of n (o_trafo q) = Some t /\ t_inputs t = [a]).
      { intros NE. assert (E2 : fold_left F outs (Some acc) = Some l'). { revert E. rewrite IN. cbn [mem existsb]. destruct (Nat.eqb_spec a z); [congruence|]. cbn [orb]. destruct (mem a (o_children p)); [destruct (mem a (o_scanned p)); [auto|rewrite FN; discriminate]|auto]. }
        rewrite (IH _ _ (fun q I => SU q (or_intror I)) E2 o). split; (intros [H|(q & u & IQ & H)]; [auto|]); right; exists q, u; [split; [now right|auto]|]. destruct IQ as [<-|IQ]; [|auto]. destruct H as (_ & TU & IU). rewrite T in TU. injection TU as <-. congruence. }
      destruct (Nat.eq_dec z a) as [->|NE]; [|auto]. apply mem_In in CH. rewrite CH, IN in E. cbn [mem existsb] in E. rewrite Nat.eqb_refl in E. cbn [orb] in E.
      rewrite (IH _ _ (fun q I => SU q (or_intror I)) E o), in_app_iff. cbn [In]. split.
      + intros [[H|[H|[]]]|(q & u & IQ & H)]; [auto|right; exists p, t; auto 10|right; exists q, u; split; [now right|auto]].
      + intros [H|(q & u & [<-|IQ] & H)]; [auto|left; right; left; apply H|right; exists q, u; auto]. }
  intros E o. rewrite (G _ _ _ (fun p I => I) E o). cbn [In]. split.
  - intros [[]|(p & t & IP & EO & T & IN)]. exists (t_commands t), p, t. auto 10.
  - intros (c & p & t & IP & EO & T & IN & C). right. exists p, t. auto 10.
Qed.
Lemma affected_all_spec P n l pairs : single P n -> affected_all n l = Some pairs -> forall o a, In (o, a) pairs <-> In (Some a) l /\ exists c, made n a o c.
Proof.
  intros W. revert pairs. induction l as [|[b|] l IH]; intros pairs; cbn.
  - intros [= <-] o a. cbn. tauto.
  - destruct (affected n b) as [p|] eqn:A; [|discriminate]. destruct (affected_all n l) as [q|]; [|discriminate]. intros [= <-] o a. rewrite in_app_iff, (IH q eq_refl), in_map_iff. split.
    + intros [(x & [= <- <-] & I)|[I H]]; [|auto]. split; [auto|]. now apply (affected_spec P n b p W A).
    + intros [[EE|I] H]; [|auto]. injection EE as <-. left. exists o. split; [auto|]. now apply (affected_spec P n b p W A).
  - intros E o a. rewrite (IH pairs E). split; [tauto|]. intros [[EE|I] H]; [discriminate|auto].
Qed.
(** The outputs of some inputs are taken away, those of the others stay. *)
Lemma remove_single (P Q : nat -> Prop) n gone : single P n -> (forall x, {Q x} + {~ Q x}) -> (forall o, In o gone <-> exists x c, ~ Q x /\ made n x o c) ->
  let n' := remove_outputs n gone in
  single Q n' /\ fields n n' /\ (forall x o c, made n' x o c <-> Q x /\ made n x o c) /\ (forall p, In p (n_outs n') <-> In p (n_outs n) /\ ~ In (o_id p) gone) /\
  (forall e x outs c, Q x -> as_before e n' x outs c <-> as_before e n x outs c).
Proof.
  intros W QD G n'. destruct (remove_outputs_fields gone n) as (F1 & F2 & F3 & F4 & F5). fold n' in F1, F2, F3, F4, F5.
  assert (O : forall p, In p (n_outs n') <-> In p (n_outs n) /\ ~ In (o_id p) gone) by (intros p; unfold n'; rewrite remove_outputs_outs, filter_In, negb_true_iff, mem_not; tauto).
  assert (T : forall j, match trafo_of n j, trafo_of n' j with Some u, Some v => like v u /\ (forall i, In i (t_outputs v) <-> In i (t_outputs u) /\ ~ (In i gone /\ exists p, find_out n i = Some p /\ o_trafo p = j)) | None, None => True | _, _ => False end).
  { intros j. destruct (remove_outputs_trafo gone n j) as (f & Hf & TF). fold n' in TF. rewrite TF. destruct (trafo_of n j) as [u|]; cbn; [|auto]. destruct (Hf u) as (L & _ & H). auto. }
  assert (QX : forall p t x, In p (n_outs n) -> trafo_of n (o_trafo p) = Some t -> t_inputs t = [x] -> In (o_id p) gone <-> ~ Q x).
  { intros p t x IP TP IN. rewrite G. split.
    - intros (y & c & NQ & M). destruct (made_unique P n y x (o_id p) c (t_commands t) W M); [exists p, t; auto 10|congruence].
    - intros NQ. exists x, (t_commands t). split; [auto|]. exists p, t. auto 10. }
  assert (OB : forall p t x, In p (n_outs n) -> trafo_of n (o_trafo p) = Some t -> t_inputs t = [x] -> In p (n_outs n') <-> Q x).
  { intros p t x IP TP IN. rewrite O, (QX p t x IP TP IN). destruct (QD x); tauto. }
  assert (TN : forall j u, trafo_of n j = Some u -> exists v, trafo_of n' j = Some v /\ like v u /\ (forall i, In i (t_outputs v) <-> In i (t_outputs u) /\ ~ (In i gone /\ exists p, find_out n i = Some p /\ o_trafo p = j))).
  { intros j u TU. specialize (T j). rewrite TU in T. destruct (trafo_of n' j) as [v|]; [|contradiction]. exists v. auto. }
  assert (TB : forall j v, trafo_of n' j = Some v -> exists u, trafo_of n j = Some u /\ like v u /\ (forall i, In i (t_outputs v) <-> In i (t_outputs u) /\ ~ (In i gone /\ exists p, find_out n i = Some p /\ o_trafo p = j))).
  { intros j v TV. specialize (T j). rewrite TV in T. destruct (trafo_of n j) as [u|]; [|contradiction]. exists u. auto. }
  split; [|split; [unfold fields; auto 10|split; [|split; [auto|]]]].
  - constructor.
    + unfold n'. rewrite remove_outputs_outs. apply filter_sorted, W.
    + intros p I. apply O in I as [I NG]. destruct (v_out _ _ W p I) as (t & x & TP & IN & CH & NS & PX & IO). destruct (TN _ _ TP) as (v & TV & (L1 & _) & OV). exists v, x. split; [auto|]. split; [congruence|]. split; [auto|]. split; [auto|].
      split; [destruct (QD x) as [|NQ]; [auto|]; exfalso; apply NG; now apply (QX p t x)|]. apply OV. tauto.
    + intros k t TK. destruct (TB _ _ TK) as (u & TU & _). apply (v_next _ _ W) in TU. congruence.
    + intros p q t u IP IQ TP TQ E. apply O in IP as [IP _]. apply O in IQ as [IQ _]. destruct (TB _ _ TP) as (t' & TP' & (L1 & _) & _), (TB _ _ TQ) as (u' & TQ' & (L1' & _) & _). apply (v_share _ _ W p q t' u'); auto. congruence.
    + intros p t i IP TP IO. apply O in IP as [IP NG]. destruct (TB _ _ TP) as (u & TU & (L1 & _) & OV). destruct (proj1 (OV i) IO) as [IO2 NO]. destruct (v_outputs _ _ W p u i IP TU IO2) as (q & IQ & EQ & TQ). exists q. split; [|auto]. apply O. split; [auto|]. intros IG. apply NO. rewrite <- EQ. split; [auto|]. exists q. split; [|auto]. change (find_out n (o_id q)) with (at_id (n_outs n) (o_id q)). now apply (single_at P).
  - intros x o c. split.
    + intros (p & t & IP & EO & TP & IN & C). destruct (TB _ _ TP) as (u & TU & (L1 & L2 & L3 & _) & _). apply O in IP as IP2. destruct IP2 as [IP2 _]. split; [apply (OB p u x); auto; congruence|]. exists p, u. split; [auto|]. split; [auto|]. split; [auto|]. split; congruence.
    + intros [QX' (p & t & IP & EO & TP & IN & C)]. destruct (TN _ _ TP) as (u & TU & (L1 & L2 & L3 & _) & _). exists p, u. split; [apply (OB p t x); auto|]. split; [auto|]. split; [auto|]. split; congruence.
  - intros e x outs c QX'. split; intros H i I; destruct (H i I) as (p & t & IP & EO & TP & IN & C & X).
    + destruct (TB _ _ TP) as (u & TU & (L1 & L2 & L3 & _) & _). apply O in IP as [IP _]. exists p, u. rewrite <- L1, <- L2, <- L3. auto 10.
    + destruct (TN _ _ TP) as (u & TU & (L1 & L2 & L3 & _) & _). exists p, u. rewrite L1, L2, L3. split; [apply (OB p t x); auto|]. auto 10.
Qed.

(** *** The whole application *)

Lemma changed_spec e n x : In x (changed_inputs e n) <-> In x (e_inputs e) /\ (explicit_differs e n \/ newer e n x).
Proof.
  unfold changed_inputs, explicit_differs. set (nw := fun y => Nat.ltb (n_last n) (e_time e y)). destruct (same_old (e_explicit e) (n_old_explicit n)) eqn:SO; cbn [negb].
  - assert (SP := proj1 (same_old_spec _ _) SO). destruct (n_consider n) eqn:CO; cbn [negb].
    + destruct (existsb nw (e_explicit e)) eqn:EX.
      * apply existsb_exists in EX as (a & I & L). apply Nat.ltb_lt in L. unfold newer. split; [|tauto]. intros IX. split; [auto|]. right. split; [auto|]. eauto.
      * rewrite filter_In. unfold newer. split.
        -- intros [I L]. apply Nat.ltb_lt in L. split; [auto|]. right. eauto.
        -- intros [I [N|(_ & a & [->|IA] & L)]]; [contradiction|split; [auto|now apply Nat.ltb_lt]|]. exfalso. assert (H : existsb nw (e_explicit e) = true) by (apply existsb_exists; exists a; split; [auto|now apply Nat.ltb_lt]). congruence.
    + unfold newer. rewrite CO. cbn. split; [tauto|]. intros [_ [H|[H _]]]; [contradiction|discriminate].
  - split; [|tauto]. intros I. split; [auto|]. left. intros H. apply (proj2 (same_old_spec _ _)) in H. congruence.
Qed.
Lemma changed_NoDup e n : NoDup (e_inputs e) -> NoDup (changed_inputs e n).
Proof.
  intros ND. unfold changed_inputs. destruct (negb (same_old _ _)); [auto|]. destruct (negb (n_consider n)); [constructor|]. destruct (existsb _ _); [auto|now apply filter_NoDup].
Qed.

(** An input of the last time that is none any more. *)
Definition lost (e : env) (n : node) : Prop := exists o, In o (n_old n) /\ forall x, o = Some x -> ~ In x (e_inputs e).
Lemma removed_spec e n o : In o (filter (fun o => match o with Some y => negb (mem y (e_inputs e)) | None => true end) (n_old n)) <-> In o (n_old n) /\ forall x, o = Some x -> ~ In x (e_inputs e).
Proof.
  rewrite filter_In. destruct o as [y|].
  - rewrite negb_true_iff, mem_not. split; intros [I H]; (split; [auto|]); [intros x EE; injection EE as <-; auto|auto].
  - split; intros [I _]; (split; [auto|]); [discriminate|auto].
Qed.

Record plain (r : rule) : Prop := { q_mult : multiplex r = false; q_declares : declares_inputs r = true; q_requires : requires_inputs r = true }.
Definition todo_of (e : env) (n : node) (flagged : list nat) : list nat := union (union (changed_inputs e n) (filter (fun x => negb (old_has x (n_old n))) (e_inputs e))) flagged.
Lemma plain_apply r e n : plain r -> settled n -> proper e ->
  exists n1 flagged, unmarked n n1 /\ NoDup (todo_of e n flagged) /\ (forall x, In x (todo_of e n flagged) -> In x (e_inputs e)) /\ (apart n (e_inputs e) -> forall x, In x (todo_of e n flagged) <-> In x (e_inputs e) /\ reason e n x) /\
  ((~ lost e n /\ todo_of e n flagged = []) /\ apply r e n = Skipped n1 \/
   (lost e n \/ todo_of e n flagged <> []) /\
   apply r e n = match affected_all n1 (filter (fun o => match o with Some y => negb (mem y (e_inputs e)) | None => true end) (n_old n)) with
    | None => Check_failed
    | Some pairs =>
        let n3 := remove_outputs n1 (map fst pairs) in let gone := map fst pairs in let ma := match todo_of e n flagged with [] => false | _ => true end in
        match apply_each r e (map (fun x => [x]) (todo_of e n flagged)) (n3, mkLog [] [] gone []) with
        | None => Error
        | Some (n4, l) => Applied (mkNode (n_trafos n4) (n_next n4) (n_outs n4) (map Some (e_inputs e)) (map Some (e_explicit e)) (if ma then n_consider n4 || e_io e || e_scanned e else n_consider n4) (if ma then e_now e else n_last n4)) l
        end
    end).
Proof.
  intros [NM DE RE] W [ND PR]. unfold apply. rewrite NM, DE, RE. cbn [negb orb]. set (removed := filter _ (n_old n)). set (added := filter (fun x => negb (old_has x (n_old n))) (e_inputs e)). destruct (check_inputs false e (e_inputs e) n) as [n1 flagged] eqn:CI.
  destruct (check_inputs_unmarked e false _ _ _ _ ND CI) as (U & NF & FL). exists n1, flagged. split; [auto|].
  assert (AD : forall x, In x added <-> In x (e_inputs e) /\ ~ In (Some x) (n_old n)) by (intros x; unfold added; now rewrite filter_In, negb_true_iff, old_has_not).
  assert (NA : NoDup added) by (now apply filter_NoDup).
  split; [apply union_NoDup; [apply union_NoDup; [now apply changed_NoDup|auto]|auto]|].
  split; [intros x; unfold todo_of; fold added; rewrite !union_In, changed_spec, AD; intros [[I|I]|I]; [tauto|tauto|auto]|].
  split; [intros AP; destruct (check_inputs_single _ e _ _ _ _ ND W AP CI) as (_ & _ & FL'); intros x; unfold todo_of; fold added; rewrite !union_In, changed_spec, AD, FL'; unfold reason; tauto|]. change (union (union (changed_inputs e n) added) flagged) with (todo_of e n flagged) in *. set (todo := todo_of e n flagged) in *.
  set (fresh := match changed_inputs e n, added, removed, flagged with [], [], [], [] => true | _, _, _, _ => false end).
  assert (FR : fresh = true <-> ~ lost e n /\ todo = []).
  { assert (LO : lost e n <-> removed <> []). { split; [intros (o & I & H) EE; assert (In o removed) by (now apply removed_spec); rewrite EE in *; auto|]. destruct removed as [|o rm] eqn:RM; [congruence|]. intros _. exists o. apply removed_spec. fold removed. rewrite RM. now left. }
    assert (TE : todo = [] <-> changed_inputs e n = [] /\ added = [] /\ flagged = []).
    { unfold todo, todo_of. fold added. split; [|intros (-> & -> & ->); reflexivity]. unfold union. intros E. apply app_eq_nil in E as [E E3]. apply app_eq_nil in E as [E1 E2]. rewrite E1 in *. cbn in E2. cbn [app] in E2, E3. rewrite diff_nil in E2. rewrite E2, diff_nil in E3. auto. }
    rewrite LO, TE. unfold fresh. destruct (changed_inputs e n), added, removed, flagged; split; intros H; try discriminate; auto; try (split; [intros NN; now apply NN|auto]); destruct H as [H (H1 & H2 & H3)]; try discriminate; exfalso; apply H; discriminate. }
  assert (FB : (fresh && false && match todo with [] => true | _ => false end) = false) by (destruct fresh; auto). rewrite FB. destruct fresh eqn:FE.
  - left. split; [now apply FR|auto].
  - right. split.
    + destruct todo; [|right; discriminate]. left. destruct (removed) as [|o rm] eqn:RM; [exfalso|exists o; apply removed_spec; fold removed; rewrite RM; now left].
      assert (false = true); [apply FR|discriminate]. split; [|auto]. intros (o & H). apply removed_spec in H. fold removed in H. rewrite RM in H. auto.
    + rewrite orb_true_l || idtac. unfold apply_rule. rewrite NM. destruct (affected_all n1 removed) as [pairs|]; [|auto]. cbn [negb orb]. cbv zeta. rewrite !orb_false_r. destruct todo; cbn [apply_each map]; auto.
Qed.

Lemma gone_spec e n n1 pairs : settled n -> unmarked n n1 ->
  affected_all n1 (filter (fun o => match o with Some y => negb (mem y (e_inputs e)) | None => true end) (n_old n)) = Some pairs ->
  forall o, In o (map fst pairs) <-> exists x c, ~ In x (e_inputs e) /\ made n1 x o c.
Proof.
  intros W U A. assert (W1 := unmarked_single _ _ _ U W). intros o. rewrite in_map_iff. split.
  - intros ([o' a] & <- & I). apply (affected_all_spec _ _ _ _ W1 A) in I as [I (c & M)]. exists a, c. apply removed_spec in I as [I H]. auto.
  - intros (x & c & NI & M). exists (o, x). split; [auto|]. apply (affected_all_spec _ _ _ _ W1 A). split; [|eauto]. apply removed_spec. split; [|intros y [= <-]; auto]. destruct M as (p & t & IP & _ & T & J & _). destruct (v_out _ _ W1 p IP) as (t' & y & T' & J' & _ & _ & O & _). assert (y = x) as -> by congruence. auto.
Qed.

(** What an application does: it is done for exactly the inputs for which there is a reason, and afterwards there are the outputs that the scripts name for those, the ones that were there for the other inputs, and none
    for former inputs. *)
Theorem single_applied r e n n' l : plain r -> settled n -> apart n (e_inputs e) -> proper e -> apply r e n = Applied n' l ->
  exists todo, l_applied l = map (fun x => [x]) todo /\ NoDup todo /\ (forall x, In x todo <-> In x (e_inputs e) /\ reason e n x) /\ (forall x, In x todo -> e_script e [x] <> None) /\
  settled n' /\ n_old n' = map Some (e_inputs e) /\ n_old_explicit n' = map Some (e_explicit e) /\
  (forall x o c, made n' x o c <-> In x todo /\ told (e_script e) [x] o c \/ In x (e_inputs e) /\ ~ In x todo /\ made n x o c) /\
  (forall x o c p, In x (e_inputs e) -> ~ In x todo -> made n x o c -> In p (n_outs n') /\ o_id p = o <-> In p (n_outs n) /\ o_id p = o) /\
  (forall x outs c seen o, In x todo -> e_script e [x] = Some (outs, c, seen) -> In o outs -> valid n' o -> valid n o /\ as_before e n x outs c) /\
  ((forall t, e_commands_changed e t = false) -> forall x outs c seen o, In x todo -> e_script e [x] = Some (outs, c, seen) -> In o outs -> valid n o -> as_before e n x outs c -> valid n' o) /\
  (forall o, In o (l_created l) <-> exists x c, In x todo /\ told (e_script e) [x] o c /\ ~ exists d, made n x o d) /\
  (forall o, In o (l_removed l) <-> exists x d, made n x o d /\ (~ In x (e_inputs e) \/ In x todo /\ ~ exists c, told (e_script e) [x] o c)) /\
  (todo <> [] -> n_consider n' = n_consider n || e_io e || e_scanned e /\ n_last n' = e_now e) /\ (todo = [] -> n_consider n' = n_consider n /\ n_last n' = n_last n) /\
  ((forall x, In x (e_explicit e) -> ~ In x (e_inputs e)) -> apart n' (e_inputs e)).
Proof.
  intros PL W AP PR. destruct (plain_apply r e n PL W PR) as (n1 & flagged & U & ND & _ & TD & [[_ ->]|[_ ->]]); [discriminate|]. specialize (TD AP). set (todo := todo_of e n flagged) in *.
  destruct (affected_all _ _) as [pairs|] eqn:AA; [|discriminate]. assert (GS := gone_spec e n n1 pairs W U AA). assert (W1 := unmarked_single _ _ _ U W). cbv zeta.
  destruct (remove_single _ (fun x => In x (e_inputs e)) n1 (map fst pairs) W1 (fun x => mem_dec x _) GS) as (W3 & (F1 & F2 & F3 & F4 & F5) & M3 & O3 & B3). set (n3 := remove_outputs n1 (map fst pairs)) in *.
  destruct (apply_each r e (map (fun x => [x]) todo) (n3, mkLog [] [] (map fst pairs) [])) as [[n4 l4]|] eqn:EA; [|discriminate].
  assert (PT : forall x, In x todo -> In x (e_inputs e)) by (intros x I; now apply TD in I).
  destruct (each_step _ r e (q_mult _ PL) PR todo n3 _ n4 l4 ND PT W3 EA) as (W4 & G1 & G2 & G3 & G4 & NN & MD & KE & CH & VA & VB & LA & LC & LR).
  cbn [l_applied l_created l_removed app] in LA, LC, LR. set (n5 := mkNode _ _ _ _ _ _ _). intros [= <- <-]. exists todo.
  pose proof U as (UO & (UF1 & UF2 & UF3 & UF4 & UF5) & _).
  assert (M13 : forall x o c, In x (e_inputs e) -> made n3 x o c <-> made n x o c) by (intros x o c I; rewrite M3, (unmarked_made n n1) by auto; tauto).
  assert (AT3 : forall x o c, In x (e_inputs e) -> made n x o c -> at_id (n_outs n3) o = at_id (n_outs n) o).
  { intros x o c I M. pose proof M as (p & t & IP & EO & _). rewrite (proj2 (single_at _ n o p W)) by auto. apply (single_at _ n3 o p W3). split; [|auto]. apply O3. rewrite UO. split; [auto|]. rewrite EO. intros IG. apply GS in IG as (y & d & NY & M'). apply (unmarked_made n n1) in M'; [|auto]. destruct (made_unique _ n x y o c d W M M') as [-> _]. auto. }
  assert (VX : forall o, valid n4 o <-> valid n5 o) by (intros o; unfold valid; cbn; tauto).
  assert (VS : forall x outs c o, In x (e_inputs e) -> as_before e n x outs c -> In o outs -> valid n3 o <-> valid n o).
  { intros x outs c o I B J. destruct (B o J) as (p & t & IP & EO & T & IN & C & _). rewrite (valid_at _ n3 o W3), (valid_at _ n o W). rewrite (AT3 x o c I); [tauto|]. exists p, t. auto 10. }
  assert (BB : forall x outs c, In x (e_inputs e) -> as_before e n3 x outs c <-> as_before e n x outs c) by (intros x outs c I; rewrite B3 by auto; now apply unmarked_before).
  split; [auto|]. split; [auto|]. split; [auto|]. split; [auto|].
  split. { destruct W4 as [V1 V2 V3 V4 V5]. constructor; auto. intros p I. destruct (V2 p I) as (t & x & T & J & C & NS & PX & O). exists t, x. split; [auto|]. split; [auto|]. split; [auto|]. split; [auto|]. split; [cbn; now apply in_map|auto]. }
  split; [auto|]. split; [auto|]. split.
  { intros x o c. change (made n5 x o c) with (made n4 x o c). rewrite MD. split; (intros [H|H]; [auto|right]).
    - destruct H as [NT H]. apply M3 in H as [I H]. apply (unmarked_made n n1) in H; auto.
    - destruct H as (I & NT & H). split; [auto|]. now apply M13. }
  split.
  { intros x o c p I NT M. change (n_outs n5) with (n_outs n4). rewrite <- (single_at _ n4 o p W4), <- (single_at _ n o p W). rewrite (KE x o c NT); [|now apply M13]. now rewrite (AT3 x o c I M). }
  split.
  { intros x outs c seen o IT SC J V. destruct (VA x outs c seen o IT SC J) as [V3 B]; [now apply VX|]. apply BB in B; [|auto]. split; [|auto]. now apply (VS x outs c o (PT x IT) B J). }
  split.
  { intros NC x outs c seen o IT SC J V B. apply VX, (VB NC x outs c seen o IT SC J); [now apply (VS x outs c o (PT x IT) B J)|now apply BB; auto]. }
  split.
  { intros o. rewrite LC. split; [intros [[]|(x & c & IT & T & H)]|intros (x & c & IT & T & H); right]; exists x, c; (split; [auto|]; split; [auto|]; intros (d & M); apply H; exists d; apply M13; auto). }
  split.
  { intros o. rewrite LR, GS. split.
    - intros [(x & c & NI & M)|(x & d & IT & M & H)]; [exists x, c; split; [now apply (unmarked_made n n1)|auto]|]. exists x, d. split; [apply M13; auto|auto].
    - intros (x & d & M & [NI|[IT H]]); [left; exists x, d; split; [auto|now apply (unmarked_made n n1)]|]. right. exists x, d. split; [auto|]. split; [apply M13; auto|auto]. }
  split. { intros NE. cbn [n5 n_consider n_last]. destruct todo; [congruence|]. split; [|auto]. f_equal. f_equal. congruence. }
  split. { intros EE. cbn [n5 n_consider n_last]. rewrite EE. split; congruence. }
  intros EX' p x t IP IX CP T. change (n_outs n5) with (n_outs n4) in IP. change (trafo_of n5) with (trafo_of n4) in T. destruct (v_out _ _ W4 p IP) as (t' & y & T' & IY & CY & NS & PY & _). rewrite T in T'. injection T' as <-. rewrite IY. f_equal. 
  assert (MY : made n4 y (o_id p) (t_commands t)) by (exists p, t; auto 10).
  assert (OLD : forall q, at_id (n_outs n) (o_id p) = Some q -> (exists d, made n y (o_id p) d) -> In x (o_children q) -> y = x).
  { intros q AQ (d & q' & u & IQ & EQ & TU & IU & _) CQ. assert (q' = q) as -> by (assert (at_id (n_outs n) (o_id p) = Some q') by (now apply (single_at _ _ _ _ W)); congruence). assert (t_inputs u = [x]) by (apply (AP q x u); auto). congruence. }
  destruct (mem_dec y todo) as [IT|NT].
  - assert (AT4 : at_id (n_outs n4) (o_id p) = Some p) by (now apply (single_at _ _ _ _ W4)). destruct (CH y (o_id p) _ p x IT MY AT4 CP) as [H|[H|(q & d & AQ & MQ & CQ)]]; [auto|destruct (EX' x H IX)|].
    apply M13 in MQ; [|auto]. rewrite (AT3 y _ d) in AQ by auto. apply (OLD q); eauto.
  - apply MD in MY as MZ. destruct MZ as [[IT _]|[_ MZ]]; [contradiction|]. apply M3 in MZ as MZ2. destruct MZ2 as [IY2 MZ2]. apply (unmarked_made n n1) in MZ2; [|auto].
    apply (OLD p); eauto. rewrite <- (AT3 y _ _ IY2 MZ2), <- (KE y _ _ NT MZ). now apply (single_at _ _ _ _ W4).
Qed.

(** Nothing is done if and only if there is no reason for any input and no input was lost.  Then the outputs stay as they are. *)
Theorem single_skipped r e n : plain r -> settled n -> apart n (e_inputs e) -> proper e ->
  (exists n', apply r e n = Skipped n') <-> (forall x, In x (e_inputs e) -> ~ reason e n x) /\ ~ lost e n.
Proof.
  intros PL W AP PR. destruct (plain_apply r e n PL W PR) as (n1 & flagged & U & ND & _ & TD & [[[NL TE] ->]|[H ->]]); specialize (TD AP).
  - split; [|eauto]. intros _. split; [|auto]. intros x I R. assert (J : In x (todo_of e n flagged)) by (apply TD; auto). rewrite TE in J. auto.
  - split.
    + intros (n' & E). destruct (affected_all _ _); [|discriminate]. cbv zeta in E. destruct (apply_each _ _ _ _) as [[? ?]|]; discriminate.
    + intros [NR NL]. exfalso. destruct H as [H|H]; [auto|]. destruct (todo_of e n flagged) as [|x td]; [congruence|]. destruct (proj1 (TD x) (or_introl eq_refl)) as [I R]. exact (NR x I R).
Qed.
Theorem single_skipped_keeps r e n n' : plain r -> settled n -> apart n (e_inputs e) -> proper e -> apply r e n = Skipped n' ->
  n_outs n' = n_outs n /\ settled n' /\ (forall x o c, made n' x o c <-> made n x o c) /\ n_old n' = n_old n /\ n_old_explicit n' = n_old_explicit n /\ n_consider n' = n_consider n /\ n_last n' = n_last n.
Proof.
  intros PL W AP PR. destruct (plain_apply r e n PL W PR) as (n1 & flagged & U & ND & _ & TD & [[[NL TE] ->]|[H ->]]); specialize (TD AP).
  - intros [= <-]. pose proof U as (UO & (UF1 & UF2 & UF3 & UF4 & UF5) & _). split; [auto|]. split; [unfold settled; rewrite UF2; now apply (unmarked_single _ n)|]. split; [intros x o c; now apply unmarked_made|]. auto.
  - destruct (affected_all _ _); [|discriminate]. cbv zeta. destruct (apply_each _ _ _ _) as [[? ?]|]; discriminate.
Qed.

(** *** Every history *)

Lemma applied_settled r e n : plain r -> settled n -> proper e -> match apply r e n with Skipped n' | Applied n' _ => settled n' | _ => True end.
Proof.
  intros PL W PR. destruct (plain_apply r e n PL W PR) as (n1 & flagged & U & ND & PT & _ & [[_ ->]|[_ ->]]).
  - pose proof U as (_ & (_ & UF2 & _) & _). unfold settled. rewrite UF2. now apply (unmarked_single _ n).
  - set (todo := todo_of e n flagged) in *. destruct (affected_all _ _) as [pairs|] eqn:AA; [|auto]. assert (GS := gone_spec e n n1 pairs W U AA). assert (W1 := unmarked_single _ _ _ U W). cbv zeta.
    destruct (remove_single _ (fun x => In x (e_inputs e)) n1 (map fst pairs) W1 (fun x => mem_dec x _) GS) as (W3 & _). set (n3 := remove_outputs n1 (map fst pairs)) in *.
    destruct (apply_each r e (map (fun x => [x]) todo) (n3, mkLog [] [] (map fst pairs) [])) as [[n4 l4]|] eqn:EA; [|auto]. destruct (each_step _ r e (q_mult _ PL) PR todo n3 _ n4 l4 ND PT W3 EA) as (W4 & _).
    destruct W4 as [V1 V2 V3 V4 V5]. constructor; auto. intros p I. destruct (V2 p I) as (t & x & T & J & C & NS & PX & O). exists t, x. split; [auto|]. split; [auto|]. split; [auto|]. split; [auto|]. split; [cbn; now apply in_map|auto].
Qed.
Lemma forget_In a l x : In (Some x) (forget a l) <-> x <> a /\ In (Some x) l.
Proof.
  unfold forget. destruct (old_has a l) eqn:H.
  - cbn [In]. rewrite filter_In, negb_true_iff. cbn [is_some]. rewrite Nat.eqb_neq. split; [intros [EE|[I N]]; [discriminate|auto]|intros [N I]; auto].
  - split; [|tauto]. intros I. split; [intros ->; apply old_has_not in H; contradiction|auto].
Qed.
Lemma mark_settled n : settled n -> settled (mark n).
Proof.
  assert (T : forall k, trafo_of (mark n) k = option_map (fun t => mkTrafo (t_inputs t) (t_explicit t) (t_outputs t) (t_commands t) true (t_seen t)) (trafo_of n k)).
  { intros k. unfold trafo_of, mark. cbn. induction (n_trafos n) as [|[j t] l IH]; cbn; [auto|]. destruct (Nat.eqb j k); auto. }
  intros W. constructor.
  - apply W.
  - intros p I. destruct (v_out _ _ W p I) as (t & x & TP & H). eexists _, x. rewrite T, TP. split; [reflexivity|]. exact H.
  - intros k t TK. rewrite T in TK. destruct (trafo_of n k) as [u|] eqn:TU; [|discriminate]. now apply (v_next _ _ W) in TU.
  - intros p q t u IP IQ TP TQ E. rewrite T in TP, TQ. destruct (trafo_of n (o_trafo p)) as [t'|] eqn:TP'; [|discriminate]. destruct (trafo_of n (o_trafo q)) as [u'|] eqn:TQ'; [|discriminate]. injection TP as <-. injection TQ as <-. now apply (v_share _ _ W p q t' u').
  - intros p t i IP TP IO. rewrite T in TP. destruct (trafo_of n (o_trafo p)) as [t'|] eqn:TP'; [|discriminate]. injection TP as <-. now apply (v_outputs _ _ W p t' i).
Qed.
(** The outputs change in ways that do not matter, the old inputs still have what is needed. *)
Lemma relabel_settled n (f : out -> out) old old_explicit : (forall p, In p (n_outs n) -> o_id (f p) = o_id p /\ o_trafo (f p) = o_trafo p) ->
  (forall p t x, In p (n_outs n) -> trafo_of n (o_trafo p) = Some t -> t_inputs t = [x] -> In x (o_children p) -> ~ In x (o_scanned p) -> In x (o_children (f p)) /\ ~ In x (o_scanned (f p)) /\ (In (Some x) (n_old n) -> In (Some x) old)) ->
  settled n -> settled (mkNode (n_trafos n) (n_next n) (map f (n_outs n)) old old_explicit (n_consider n) (n_last n)).
Proof.
  intros HI HC W. constructor; cbn [n_outs n_next n_old].
  - assert (S := v_sorted _ _ W). clear HC W. induction S as [|p l S IH F]; cbn; [constructor|]. constructor; [apply IH; intros q I; apply HI; now right|]. rewrite Forall_forall in *. intros q I. apply in_map_iff in I as (q' & <- & I). rewrite (proj1 (HI p (or_introl eq_refl))), (proj1 (HI q' (or_intror I))). auto.
  - intros p I. apply in_map_iff in I as (q & <- & I). destruct (HI q I) as [HI1 HI2]. rewrite HI1, HI2. destruct (v_out _ _ W q I) as (t & x & TP & IN & C & NS & PX & O). destruct (HC q t x I TP IN C NS) as (C' & NS' & OL). exists t, x. auto 10.
  - intros k t. apply (v_next _ _ W k t).
  - intros p q t u IP IQ. apply in_map_iff in IP as (p' & <- & IP). apply in_map_iff in IQ as (q' & <- & IQ). rewrite (proj2 (HI p' IP)), (proj2 (HI q' IQ)). apply (v_share _ _ W p' q' t u IP IQ).
  - intros p t i IP. apply in_map_iff in IP as (p' & <- & IP). rewrite (proj2 (HI p' IP)). intros TP IO. destruct (v_outputs _ _ W p' t i IP TP IO) as (q & IQ & EQ & TQ). exists (f q). split; [now apply in_map|]. now rewrite (proj1 (HI q IQ)), (proj2 (HI q IQ)).
Qed.
Lemma scan_settled o l n : settled n -> settled (scan o l n).
Proof.
  intros W. apply relabel_settled; [intros p I; destruct (mem (o_id p) [o]); auto| |auto]. intros p t x I T IN C NS. destruct (mem (o_id p) [o]); [|auto]. cbn. rewrite union_In, !diff_In. tauto.
Qed.
Lemma invalidate_settled a n : settled n -> settled (invalidate n a).
Proof.
  intros W. unfold invalidate. destruct (existsb _ (n_outs n)) eqn:EX; [auto|]. unfold remove_old. rewrite <- (map_id (n_outs n)). apply relabel_settled; [auto| |auto]. intros p t x I T IN C NS. split; [auto|]. split; [auto|]. intros O. apply forget_In. split; [|auto]. intros ->.
  assert (existsb (fun o => mem a (o_children o) && negb (mem a (o_scanned o))) (n_outs n) = true) by (apply existsb_exists; exists p; split; [auto|]; apply mem_In in C; apply mem_not in NS; now rewrite C, NS). congruence.
Qed.
Lemma diff_twice l a : diff (diff l a) a = diff l a.
Proof. unfold diff. induction l as [|x l IH]; cbn; [auto|]. destruct (mem x a) eqn:M; cbn; [auto|]. rewrite M. cbn. now rewrite IH. Qed.
Lemma delete_trafos a outs : forall n k, let n1 := fold_left (fun n o => if mem a (o_children o) then set_trafo n (o_trafo o) (drop_input a) else n) outs n in
  n_outs n1 = n_outs n /\ n_next n1 = n_next n /\ n_old n1 = n_old n /\
  exists f, (forall t, (f t = t \/ f t = drop_input a t) /\ ((exists p, In p outs /\ mem a (o_children p) = true /\ o_trafo p = k) -> f t = drop_input a t)) /\ trafo_of n1 k = option_map f (trafo_of n k).
Proof.
  assert (DD : forall t, drop_input a (drop_input a t) = drop_input a t) by (intros t; unfold drop_input; cbn [t_inputs t_explicit t_outputs t_commands t_track t_seen]; now rewrite diff_twice).
  induction outs as [|p outs IH]; intros n k; cbn [fold_left].
  - cbv zeta. split; [auto|]. split; [auto|]. split; [auto|]. exists (fun t => t). split; [intros t; split; [auto|intros (p & [] & _)]|]. now destruct (trafo_of n k).
  - set (n0 := if mem a (o_children p) then set_trafo n (o_trafo p) (drop_input a) else n). destruct (IH n0 k) as (F1 & F2 & F3 & f & Hf & T). cbv zeta in *.
    assert (N0 : n_outs n0 = n_outs n /\ n_next n0 = n_next n /\ n_old n0 = n_old n) by (unfold n0; destruct (mem a (o_children p)); auto). destruct N0 as (N1 & N2 & N3). split; [congruence|]. split; [congruence|]. split; [congruence|].
    destruct (mem a (o_children p)) eqn:M; cycle 1.
    { exists f. split; [|exact T]. intros t. destruct (Hf t) as [H1 H2]. split; [auto|]. intros (q & [<-|I] & MQ & TQ); [congruence|eauto]. }
    unfold n0 in T. rewrite trafo_of_set in T. destruct (Nat.eqb_spec k (o_trafo p)) as [->|NE].
    + exists (fun t => f (drop_input a t)). split; [|unfold n0; rewrite T; now destruct (trafo_of n (o_trafo p))]. intros t. destruct (Hf (drop_input a t)) as [H1 _]. rewrite DD in H1. destruct H1 as [->| ->]; auto.
    + exists f. split; [|exact T]. intros t. destruct (Hf t) as [H1 H2]. split; [auto|]. intros (q & [<-|I] & MQ & TQ); [congruence|eauto].
Qed.
Lemma delete_settled a n : settled n -> settled (delete_input n a).
Proof.
  intros W. unfold delete_input. set (n1 := fold_left _ (n_outs n) n). set (g := fun o => if mem a (o_children o) then _ else o). set (dead := map o_id _). set (n2 := set_outs n1 (map g (n_outs n1))). set (n3 := remove_outputs n2 dead).
  destruct (delete_trafos a (n_outs n) n 0) as (O1 & X1 & D1 & _). fold n1 in O1, X1, D1.
  assert (GI : forall p, o_id (g p) = o_id p /\ o_trafo (g p) = o_trafo p) by (intros p; unfold g; destruct (mem a (o_children p)); auto).
  assert (TR : forall p t x, In p (n_outs n) -> trafo_of n (o_trafo p) = Some t -> t_inputs t = [x] -> exists u, trafo_of n1 (o_trafo p) = Some u /\ t_inputs u = (if Nat.eqb x a then [] else [x]) /\ t_outputs u = t_outputs t).
  { intros p t x I T IN. destruct (delete_trafos a (n_outs n) n (o_trafo p)) as (_ & _ & _ & f & Hf & TF). fold n1 in TF. rewrite T in TF. cbn in TF. exists (f t). split; [auto|]. destruct (Hf t) as [H1 H2].
    assert (DI : t_inputs (drop_input a t) = if Nat.eqb x a then [] else [x]) by (cbn; rewrite IN; unfold diff; cbn; destruct (Nat.eqb x a); auto).
    destruct (Nat.eqb_spec x a) as [->|NE].
    - rewrite H2; [auto|]. exists p. split; [auto|]. split; [|auto]. apply mem_In. destruct (v_out _ _ W p I) as (t' & y & T' & IN' & C & _). assert (y = a) as -> by congruence. auto.
    - destruct H1 as [->| ->]; auto. }
  assert (DE : forall p t x, In p (n_outs n) -> trafo_of n (o_trafo p) = Some t -> t_inputs t = [x] -> In (o_id p) dead <-> x = a).
  { intros p t x I T IN. destruct (TR p t x I T IN) as (u & TU & IU & _). unfold dead. rewrite O1, in_map_iff. split.
    - intros (q & EQ & I'). apply filter_In in I' as [IQ H]. assert (q = p) as -> by (assert (at_id (n_outs n) (o_id p) = Some p) by (now apply (single_at _ _ _ _ W)); assert (at_id (n_outs n) (o_id p) = Some q) by (now apply (single_at _ _ _ _ W)); congruence).
      rewrite TU, IU in H. destruct (Nat.eqb_spec x a); [auto|]. rewrite andb_false_r in H. discriminate.
    - intros ->. exists p. split; [auto|]. apply filter_In. split; [auto|]. rewrite TU, IU, Nat.eqb_refl, andb_true_r. apply mem_In. destruct (v_out _ _ W p I) as (t' & y & T' & IN' & C & _). assert (y = a) as -> by congruence. auto. }
  assert (O3 : n_outs n3 = filter (fun o => negb (mem (o_id o) dead)) (map g (n_outs n))) by (unfold n3; rewrite remove_outputs_outs; unfold n2; cbn; now rewrite O1).
  assert (I3 : forall p, In p (n_outs n3) -> exists q t x, p = g q /\ In q (n_outs n) /\ trafo_of n (o_trafo q) = Some t /\ t_inputs t = [x] /\ x <> a).
  { intros p I. rewrite O3 in I. apply filter_In in I as [I ND]. apply in_map_iff in I as (q & <- & I). destruct (v_out _ _ W q I) as (t & x & T & IN & _). exists q, t, x. split; [auto|]. split; [auto|]. split; [auto|]. split; [auto|]. intros EE. apply negb_true_iff, mem_not in ND. apply ND. rewrite (proj1 (GI q)). now apply (DE q t x). }
  assert (J3 : forall q t x, In q (n_outs n) -> trafo_of n (o_trafo q) = Some t -> t_inputs t = [x] -> x <> a -> In (g q) (n_outs n3)).
  { intros q t x I T IN NE. rewrite O3. apply filter_In. split; [now apply in_map|]. apply negb_true_iff, mem_not. rewrite (proj1 (GI q)). intros D. now apply (DE q t x) in D. }
  assert (T3 : forall q t x, In q (n_outs n) -> trafo_of n (o_trafo q) = Some t -> t_inputs t = [x] -> x <> a -> exists u, trafo_of n3 (o_trafo q) = Some u /\ t_inputs u = [x] /\ forall i, In i (t_outputs u) <-> In i (t_outputs t)).
  { intros q t x I T IN NE. destruct (TR q t x I T IN) as (u & TU & IU & OU). destruct (Nat.eqb_spec x a); [contradiction|]. destruct (remove_outputs_trafo dead n2 (o_trafo q)) as (f & Hf & TF). fold n3 in TF. change (trafo_of n2) with (trafo_of n1) in TF. rewrite TU in TF. cbn in TF.
    exists (f u). split; [auto|]. destruct (Hf u) as ((L1 & _) & _ & H). split; [congruence|]. intros i. rewrite H, OU. split; [tauto|]. intros IO. split; [auto|]. intros [ID (p & FP & TP)].
    change (at_id (n_outs n2) i = Some p) in FP. apply at_id_In in FP as [IP EP]. change (n_outs n2) with (map g (n_outs n1)) in IP. rewrite O1 in IP. apply in_map_iff in IP as (q' & <- & IQ'). rewrite (proj1 (GI q')) in EP. rewrite (proj2 (GI q')) in TP. subst i. rewrite <- TP in T. apply (DE q' t x IQ' T IN) in ID. contradiction. }
  destruct (remove_outputs_fields dead n2) as (R1 & R2 & R3 & R4 & R5). fold n3 in R1, R2, R3, R4, R5.
  constructor; unfold remove_old; cbn [n_outs n_next n_old].
  - rewrite O3. apply filter_sorted, map_sorted; [intros p; apply GI|apply W].
  - intros p I. destruct (I3 p I) as (q & t & x & -> & IQ & T & IN & NE). destruct (T3 q t x IQ T IN NE) as (u & TU & IU & OU). rewrite (proj1 (GI q)), (proj2 (GI q)). exists u, x. split; [auto|]. split; [auto|]. destruct (v_out _ _ W q IQ) as (t' & y & T' & IN' & C & NS & PX & IO). rewrite T in T'. injection T' as <-. assert (y = x) as -> by congruence.
    assert (GC : In x (o_children (g q)) /\ ~ In x (o_scanned (g q))) by (unfold g; destruct (mem a (o_children q)); [cbn [o_children o_scanned]; rewrite !diff_In; cbn; intuition|auto]). split; [apply GC|]. split; [apply GC|]. split; [|now apply OU]. apply forget_In. split; [auto|]. rewrite R2. change (n_old n2) with (n_old n1). now rewrite D1.
  - intros k t TK. change (trafo_of n3 k = Some t) in TK. rewrite R1. change (n_next n2) with (n_next n1). rewrite X1. destruct (remove_outputs_trafo dead n2 k) as (f & _ & TF). fold n3 in TF. rewrite TK in TF. change (trafo_of n2) with (trafo_of n1) in TF. destruct (delete_trafos a (n_outs n) n k) as (_ & _ & _ & f' & _ & TF'). fold n1 in TF'. rewrite TF' in TF. destruct (trafo_of n k) as [u|] eqn:TU; [|discriminate]. now apply (v_next _ _ W) in TU.
  - intros p q t u IP IQ TP TQ E. change (trafo_of n3 (o_trafo p) = Some t) in TP. change (trafo_of n3 (o_trafo q) = Some u) in TQ. destruct (I3 p IP) as (p' & t' & x & -> & IP' & T' & IN' & NE'). destruct (I3 q IQ) as (q' & u' & y & -> & IQ' & U' & IN2 & NE2). rewrite (proj2 (GI p')) in *. rewrite (proj2 (GI q')) in *.
    destruct (T3 p' t' x IP' T' IN' NE') as (t2 & T2 & I2 & _). destruct (T3 q' u' y IQ' U' IN2 NE2) as (u2 & U2 & J2 & _). apply (v_share _ _ W p' q' t' u'); auto. congruence.
  - intros p t i IP TP IO. change (trafo_of n3 (o_trafo p) = Some t) in TP. destruct (I3 p IP) as (p' & t' & x & -> & IP' & T' & IN' & NE'). rewrite (proj2 (GI p')) in *. destruct (T3 p' t' x IP' T' IN' NE') as (t2 & T2 & I2 & O2). rewrite TP in T2. injection T2 as <-. apply O2 in IO.
    destruct (v_outputs _ _ W p' t' i IP' T' IO) as (q & IQ & EQ & TQ). exists (g q). rewrite (proj1 (GI q)), (proj2 (GI q)). split; [|auto]. apply (J3 q t' x); auto. congruence.
Qed.
(** An output that depended on a deleted artifact is not up to date any more and does not depend on it; other outputs are left alone *)
Theorem deleted_input_outdates n a p : In p (n_outs (delete_input n a)) ->
  (In p (n_outs n) /\ ~ In a (o_children p)) \/
  (exists q, In q (n_outs n) /\ o_id p = o_id q /\ In a (o_children q) /\ o_valid p = false /\ (forall c, In c (o_children p) <-> In c (o_children q) /\ c <> a) /\ forall c, In c (o_scanned p) <-> In c (o_scanned q) /\ c <> a).
Proof.
  unfold delete_input. intros I. cbn [remove_old n_outs] in I. rewrite remove_outputs_outs in I. apply filter_In in I as [I _]. cbn [set_outs n_outs] in I. destruct (delete_trafos a (n_outs n) n 0) as (O1 & _). cbv zeta in O1. rewrite O1 in I. apply in_map_iff in I as (q & <- & I).
  destruct (mem a (o_children q)) eqn:M.
  - right. exists q. split; [assumption|]. apply mem_In in M. split; [reflexivity|]. split; [assumption|]. split; [reflexivity|]. cbn [o_children o_scanned]. split; intros c; rewrite diff_In; cbn; intuition.
  - left. split; [assumption|]. now apply mem_not.
Qed.
Definition empty_node : node := mkNode [] 0 [] [] [] false 0.
(** What can happen to a rule node from one build to the next, from the first build on. *)
Inductive history (r : rule) : node -> Prop :=
| h_start : history r empty_node
| h_skipped e n n' : history r n -> proper e -> apply r e n = Skipped n' -> history r n'
| h_applied e n n' l : history r n -> proper e -> apply r e n = Applied n' l -> history r n'
| h_deleted n a : history r n -> history r (delete_input n a)
| h_invalidated n a : history r n -> history r (invalidate n a)
| h_marked n : history r n -> history r (mark n)
| h_scanned n o l : history r n -> history r (scan o l n).
Theorem history_settled r n : plain r -> history r n -> settled n.
Proof.
  intros PL H. induction H as [|e n n' H IH PR E|e n n' l H IH PR E| | | |].
  - constructor; cbn; try easy. constructor.
  - pose proof (applied_settled r e n PL IH PR) as A. now rewrite E in A.
  - pose proof (applied_settled r e n PL IH PR) as A. now rewrite E in A.
  - now apply delete_settled.
  - now apply invalidate_settled.
  - now apply mark_settled.
  - now apply scan_settled.
Qed.

(** *** When an application succeeds *)

Lemma create_ok mult k ins outs : forall n old created, NoDup outs ->
  (forall i p t, In i outs -> at_id (n_outs n) i = Some p -> trafo_of n (o_trafo p) = Some t -> forall x, In x (t_inputs t) <-> In x ins) -> fold_left (create_output mult k ins) outs (Some (n, old, created)) <> None.
Proof.
  induction outs as [|o outs IH]; intros n old created ND H; cbn [fold_left]; [discriminate|]. inversion ND as [|? ? NO ND']; subst. unfold create_output at 2. change (find_out n o) with (at_id (n_outs n) o).
  assert (NEXT : forall f q, (forall t, t_inputs (f t) = t_inputs t) -> o_id q = o -> forall i p t, In i outs -> at_id (n_outs (set_outs (set_trafo n k f) (put q (n_outs (set_trafo n k f))))) i = Some p -> trafo_of (set_outs (set_trafo n k f) (put q (n_outs (set_trafo n k f)))) (o_trafo p) = Some t -> forall x, In x (t_inputs t) <-> In x ins).
  { intros f q Hf EQ i p t I A T. cbn [n_outs set_outs] in A. rewrite at_id_put in A. destruct (Nat.eqb_spec (o_id q) i) as [EE|NE]; [congruence|]. change (at_id (n_outs n) i = Some p) in A. change (trafo_of (set_trafo n k f) (o_trafo p) = Some t) in T. rewrite trafo_of_set in T.
    destruct (trafo_of n (o_trafo p)) as [u|] eqn:TU; [|destruct (Nat.eqb _ _); discriminate]. assert (t_inputs t = t_inputs u) as -> by (destruct (Nat.eqb _ _); injection T as <-; auto). apply (H i p u); auto. now right. }
  destruct (at_id (n_outs n) o) as [p|] eqn:AO.
  - destruct (match trafo_of n (o_trafo p) with Some t => negb mult && negb (same (t_inputs t) ins) | None => false end) eqn:CF.
    + exfalso. destruct (trafo_of n (o_trafo p)) as [t|] eqn:T; [|discriminate]. assert (S : same (t_inputs t) ins = true) by (apply same_spec; apply (H o p t); auto; now left). rewrite S, andb_false_r in CF. discriminate.
    + apply IH; [auto|]. apply NEXT; auto.
  - apply IH; [auto|]. apply NEXT; auto.
Qed.
Lemma do_apply_ok P r e x n l : single P n -> proper e -> e_script e [x] <> None -> (forall o c y d, told (e_script e) [x] o c -> made n y o d -> y = x) -> do_apply r e [x] (n, l) <> None.
Proof.
  intros W [_ PR] SC H. unfold do_apply. destruct (e_script e [x]) as [[[outs c] seen]|] eqn:E; [|congruence]. set (m := mkNode _ _ _ _ _ _ _).
  destruct (fold_left (create_output (multiplex r) (n_next n) [x]) outs (Some (m, None, []))) as [[[n1 old] created]|] eqn:F.
  - cbv zeta. destruct outs; [discriminate|]. match goal with |- (if ?b then _ else _) <> None => destruct b end; discriminate.
  - exfalso. revert F. apply create_ok; [eapply PR; eauto|]. intros i p t I A T y. change (n_outs m) with (n_outs n) in A. apply at_id_In in A as [IP EP]. destruct (v_out _ _ W p IP) as (u & z & TU & IU & _).
    assert (TT : trafo_of m (o_trafo p) = Some u). { unfold m. change (trafo_of (set_trafos n ((n_next n, mkTrafo [x] (e_explicit e) [] c false seen) :: n_trafos n)) (o_trafo p) = Some u). rewrite trafo_of_cons. destruct (Nat.eqb_spec (n_next n) (o_trafo p)) as [EE|]; [|auto]. apply (v_next _ _ W) in TU. lia. }
    rewrite T in TT. injection TT as ->. rewrite IU. assert (z = x) as ->; [|tauto]. apply (H i c z (t_commands u)); [exists outs, seen; auto|]. exists p, u. auto 10.
Qed.
Lemma each_ok (P : nat -> Prop) r e : multiplex r = false -> proper e -> forall todo n l, NoDup todo -> (forall x, In x todo -> P x) -> single P n -> (forall x, In x todo -> e_script e [x] <> None) ->
  (forall x y o c d, In x todo -> told (e_script e) [x] o c -> made n y o d \/ In y todo /\ told (e_script e) [y] o d -> y = x) -> apply_each r e (map (fun x => [x]) todo) (n, l) <> None.
Proof.
  intros NM PR. induction todo as [|x todo IH]; intros n l ND PT W SC H; cbn [map apply_each]; [discriminate|]. inversion ND as [|? ? NX ND']; subst.
  destruct (do_apply r e [x] (n, l)) as [[n1 l1]|] eqn:D.
  - destruct (single_step P r e x n l n1 l1 NM PR W (PT x (or_introl eq_refl)) D) as (outs & c & seen & SX & W1 & _ & _ & _ & _ & MD & _). apply IH; [auto|intros y I; apply PT; now right|auto|intros y I; apply SC; now right|].
    intros y z o c' d IY TY [M|[IZ TZ]]; [|apply (H y z o c' d); [now right|auto|right; split; [now right|auto]]]. apply MD in M as [(-> & J & ->)|[_ M]]; [|apply (H y z o c' d); [now right|auto|auto]].
    apply (H y x o c' c); [now right|auto|]. right. split; [now left|]. exists outs, seen. auto.
  - exfalso. revert D. apply (do_apply_ok P); [auto|auto|apply SC; now left|]. intros o c y d T M. apply (H x y o c d); [now left|auto|auto].
Qed.
(** If no script fails, no output is claimed by two inputs, and no lost input is still needed by another one's output, then the application succeeds. *)
Theorem single_succeeds r e n : plain r -> settled n -> apart n (e_inputs e) -> proper e ->
  (forall x, In x (e_inputs e) -> e_script e [x] <> None) ->
  (forall x y o c d, In x (e_inputs e) -> In y (e_inputs e) -> told (e_script e) [x] o c -> made n y o d \/ told (e_script e) [y] o d -> y = x) ->
  (forall p x t, In p (n_outs n) -> In (Some x) (n_old n) -> ~ In x (e_inputs e) -> In x (o_children p) -> trafo_of n (o_trafo p) = Some t -> t_inputs t = [x] \/ In x (o_scanned p)) ->
  apply r e n <> Error /\ apply r e n <> Check_failed.
Proof.
  intros PL W AP PR SC UN LO. destruct (plain_apply r e n PL W PR) as (n1 & flagged & U & ND & PT & _ & [[_ ->]|[_ ->]]); [split; discriminate|]. set (todo := todo_of e n flagged) in *.
  assert (W1 := unmarked_single _ _ _ U W). pose proof U as (UO & _ & _).
  assert (AN : forall rm, (forall a, In (Some a) rm -> In (Some a) (n_old n) /\ ~ In a (e_inputs e)) -> affected_all n1 rm <> None).
  { induction rm as [|[a|] rm IH]; intros RM; cbn; [discriminate| |apply IH; intros b I; apply RM; now right].
    assert (AF : affected n1 a <> None).
    { unfold affected. set (F := fun acc o => _). assert (G : forall outs acc, (forall p, In p outs -> In p (n_outs n)) -> fold_left F outs (Some acc) <> None); [|rewrite UO; apply G; auto].
      intros outs. induction outs as [|p outs IHo]; intros acc SU; cbn [fold_left]; [discriminate|]. assert (IP : In p (n_outs n)) by (apply SU; now left). unfold F at 2. destruct (mem a (o_children p)) eqn:M; [|apply IHo; intros q I; apply SU; now right]. apply mem_In in M.
      destruct (v_out _ _ W p IP) as (t & y & T & IN & _). destruct (unmarked_trafo _ _ _ U _ T) as (u & TU & (Q & _) & _). rewrite TU, Q. destruct (RM a (or_introl eq_refl)) as [OL NI].
      destruct (LO p a t IP OL NI M T) as [EE|S]; [rewrite EE; cbn [mem existsb]; rewrite Nat.eqb_refl; cbn [orb]; apply IHo; intros q I; apply SU; now right|]. apply mem_In in S. rewrite S. destruct (mem a (t_inputs t)); apply IHo; intros q I; apply SU; now right. }
    destruct (affected n1 a); [|congruence]. destruct (affected_all n1 rm); [discriminate|]. exfalso. apply IH; [|auto]. intros b I. apply RM. now right. }
  destruct (affected_all n1 _) as [pairs|] eqn:AA; [|exfalso; revert AA; apply AN; intros a I; apply removed_spec in I as [I H]; auto].
  assert (GS := gone_spec e n n1 pairs W U AA). cbv zeta. destruct (remove_single _ (fun x => In x (e_inputs e)) n1 (map fst pairs) W1 (fun x => mem_dec x _) GS) as (W3 & _ & M3 & _). set (n3 := remove_outputs n1 (map fst pairs)) in *.
  destruct (apply_each r e (map (fun x => [x]) todo) (n3, mkLog [] [] (map fst pairs) [])) as [[n4 l4]|] eqn:EA; [split; discriminate|]. exfalso. revert EA. apply (each_ok _ r e (q_mult _ PL) PR todo n3 _ ND PT W3); [auto|].
  intros x y o c d IX TX [M|[IY TY]].
  - apply M3 in M as [IY M]. apply (unmarked_made n n1) in M; [|auto]. apply (UN x y o c d); auto.
  - apply (UN x y o c d); auto.
Qed.

(** *** The same as from scratch *)

(** The outputs are what the scripts [f] say. *)
Definition synced (f : list nat -> option (list nat * nat * nat)) (inputs : nat -> Prop) (n : node) : Prop := forall x o c, made n x o c <-> inputs x /\ told f [x] o c.
(** If a script gives something else for an input that is not new, then there is a reason to apply the rule to that input again. *)
Definition noticed (f : list nat -> option (list nat * nat * nat)) (e : env) (n : node) : Prop :=
  forall x, In x (e_inputs e) -> In (Some x) (n_old n) -> ~ reason e n x -> forall o c, told f [x] o c <-> told (e_script e) [x] o c.
Theorem incremental r f e n n' : plain r -> settled n -> apart n (e_inputs e) -> proper e -> synced f (fun x => In (Some x) (n_old n)) n -> noticed f e n ->
  apply r e n = Skipped n' \/ (exists l, apply r e n = Applied n' l) -> synced (e_script e) (fun x => In x (e_inputs e)) n'.
Proof.
  intros PL W AP PR SY NO [E|(l & E)].
  - assert (SK : exists n', apply r e n = Skipped n') by eauto. apply (single_skipped r e n PL W AP PR) in SK as [NR NL]. destruct (single_skipped_keeps r e n n' PL W AP PR E) as (_ & _ & M & _). intros x o c. rewrite M, (SY x o c).
    assert (IO : In (Some x) (n_old n) <-> In x (e_inputs e)). { split; intros I; [destruct (mem_dec x (e_inputs e)) as [|NI]; [auto|]; exfalso; apply NL; exists (Some x); split; [auto|intros y [= <-]; auto]|]. destruct (old_has x (n_old n)) eqn:O; [now apply old_has_In|]. apply old_has_not in O. exfalso. apply (NR x I). left. auto. }
    rewrite IO. split; intros [I T]; (split; [auto|]); apply (NO x I (proj2 IO I) (NR x I) o c); auto.
  - destruct (single_applied r e n n' l PL W AP PR E) as (todo & _ & _ & TD & _ & _ & _ & _ & M & _). intros x o c. rewrite M. split.
    + intros [[I T]|(I & NT & MX)]; [apply TD in I as [I _]; auto|]. split; [auto|]. apply SY in MX as [O T]. apply (NO x I O); [|auto]. intros R. apply NT, TD. auto.
    + intros [I T]. destruct (mem_dec x todo) as [IT|NT]; [auto|]. right. split; [auto|]. split; [auto|]. assert (NR : ~ reason e n x) by (intros R; apply NT, TD; auto). destruct (old_has x (n_old n)) eqn:O; [|exfalso; apply NR; left; now apply old_has_not]. apply old_has_In in O.
      apply SY. split; [auto|]. apply (NO x I O NR). auto.
Qed.
Theorem incremental_as_clean r f e n n' m l : plain r -> settled n -> apart n (e_inputs e) -> proper e -> synced f (fun x => In (Some x) (n_old n)) n -> noticed f e n ->
  apply r e n = Skipped n' \/ (exists l, apply r e n = Applied n' l) -> apply r e empty_node = Applied m l -> forall x o c, made n' x o c <-> made m x o c.
Proof.
  intros PL W AP PR SY NO E E0 x o c. rewrite (incremental r f e n n' PL W AP PR SY NO E x o c). symmetry. apply (incremental r f e empty_node m PL); eauto.
  - apply (history_settled r); [auto|constructor].
  - intros p y t [].
  - intros y i d. split; [intros (p & _ & [] & _)|intros [[] _]].
  - intros y _ [].
Qed.
(** Nothing is done again if nothing changes. *)
Theorem null_application r e n n' l e2 : plain r -> settled n -> proper e -> apart n (e_inputs e) -> (forall x, In x (e_explicit e) -> ~ In x (e_inputs e)) -> apply r e n = Applied n' l ->
  (forall x, In x (e_inputs e2) <-> In x (e_inputs e)) -> NoDup (e_inputs e2) -> (forall x, In x (e_explicit e2) <-> In x (e_explicit e)) -> (forall ins outs c seen, e_script e2 ins = Some (outs, c, seen) -> NoDup outs) -> (forall t, e_changed e2 t = false) ->
  (n_consider n' = true -> forall a, In a (e_inputs e) \/ In a (e_explicit e) -> e_time e2 a <= n_last n') -> exists n2, apply r e2 n' = Skipped n2.
Proof.
  intros PL W PR AP DJ E EI ND EE SN NC TM. destruct (single_applied r e n n' l PL W AP PR E) as (todo & _ & _ & _ & _ & W' & OL & OE & _ & _ & _ & _ & _ & _ & _ & _ & AP'). specialize (AP' DJ).
  apply (single_skipped r e2 n' PL W'); [intros p x t IP IX; apply AP'; [auto|now apply EI]|split; auto|]. split.
  - intros x I [R|[R|[R|R]]].
    + apply R. rewrite OL. apply in_map. now apply EI.
    + apply R. intros o. rewrite OE, in_map_iff. split; [intros (a & <- & IA); exists a; split; [auto|now apply EE]|intros (a & -> & IA); exists a; split; [auto|now apply EE]].
    + destruct R as (CO & a & A & LT). assert (e_time e2 a <= n_last n'); [|lia]. apply (TM CO). destruct A as [->|A]; [left; now apply EI|right; now apply EE].
    + destruct R as (p & t & _ & _ & _ & _ & CH). rewrite NC in CH. discriminate.
  - intros (o & IO & H). rewrite OL in IO. apply in_map_iff in IO as (x & <- & I). apply (H x eq_refl). now apply EI.
Qed.

(** ** Rules with multiplex *)

(** All outputs are made by one transformer, from the inputs of the last application. *)
Record many (n : node) : Prop := {
  m_sorted : StronglySorted (fun p q => o_id p < o_id q) (n_outs n);
  m_out : forall p, In p (n_outs n) -> exists t, trafo_of n (o_trafo p) = Some t /\ (forall x, In x (t_inputs t) <-> In (Some x) (n_old n)) /\ forall x, In x (t_inputs t) -> In x (o_children p);
  m_next : forall k t, trafo_of n k = Some t -> k < n_next n;
  m_share : forall p q, In p (n_outs n) -> In q (n_outs n) -> o_trafo p = o_trafo q }.
(** The rule is to be applied even if there are no inputs. *)
Definition no_need (r : rule) : Prop := declares_inputs r = false \/ requires_inputs r = false.
Definition outdated_all (e : env) (n : node) : Prop := exists p t, In p (n_outs n) /\ trafo_of n (o_trafo p) = Some t /\ t_track t = true /\ e_changed e t = true.
(** Reasons to apply the rule to all its inputs: as for a single input, or one was lost; without inputs, only that there are no outputs, or that the accesses of the scripts give other values. *)
Definition reason_all (r : rule) (e : env) (n : node) : Prop :=
  lost e n \/ (exists x, In x (e_inputs e) /\ (~ In (Some x) (n_old n) \/ explicit_differs e n \/ newer e n x)) \/ (e_inputs e <> [] \/ no_need r) /\ outdated_all e n \/ e_inputs e = [] /\ no_need r /\ n_outs n = [].

Lemma unmarked_many n n' : unmarked n n' -> many n -> many n'.
Proof.
  intros U W. pose proof U as (EO & (FN & FO & _) & _). constructor.
  - rewrite EO. apply W.
  - intros p I. rewrite EO in I. destruct (m_out _ W p I) as (t & T & J & H). destruct (unmarked_trafo _ _ _ U _ T) as (u & TU & (Q & _) & _). exists u. rewrite Q, FO. auto.
  - intros k t T. destruct (unmarked_back _ _ _ U _ T) as (u & TU & _). apply (m_next _ W) in TU. congruence.
  - rewrite EO. apply W.
Qed.
Lemma check_outputs_many e l n n' b : check_outputs true e l n = (n', b) -> unmarked n n' /\ (forall o l', l = o :: l' -> forall t, trafo_of n (o_trafo o) = Some t -> b = false <-> t_track t = true /\ e_changed e t = true).
Proof.
  destruct l as [|o l]; cbn; [intros [= <- <-]; split; [apply unmarked_refl|discriminate]|]. destruct (needs_rerun e n (o_trafo o)) as [n1 c] eqn:NR. pose proof (rerun_unmarked _ _ _ _ _ NR) as U. intros E. assert (H : n1 = n' /\ b = negb c) by (destruct c; injection E as <- <-; auto). destruct H as [-> ->]. split; [auto|].
  intros o' l' [= <- <-] t T. pose proof (rerun_true _ _ _ _ _ _ NR T) as RT. destruct c; cbn; intuition congruence.
Qed.
Lemma outdated_first e n p l t : many n -> n_outs n = p :: l -> trafo_of n (o_trafo p) = Some t -> outdated_all e n <-> t_track t = true /\ e_changed e t = true.
Proof.
  intros W E T. assert (IP : In p (n_outs n)) by (rewrite E; now left). split; [|intros [H1 H2]; exists p, t; auto]. intros (q & u & IQ & TQ & H). rewrite (m_share _ W q p IQ IP), T in TQ. injection TQ as <-. auto.
Qed.
Lemma union_same a b : incl b a -> union a b = a.
Proof. intros H. unfold union. assert (E : diff b a = []). { destruct (diff b a) as [|x d] eqn:D; [auto|]. assert (I : In x (diff b a)) by (rewrite D; now left). apply diff_In in I as [I N]. destruct (N (H x I)). } rewrite E. apply app_nil_r. Qed.

Lemma many_apply r e n : multiplex r = true -> many n -> proper e ->
  exists n2, unmarked n n2 /\ (~ reason_all r e n /\ apply r e n = Skipped n2 \/
   reason_all r e n /\ apply r e n = match affected_all n2 (filter (fun o => match o with Some y => negb (mem y (e_inputs e)) | None => true end) (n_old n)) with
    | None => Check_failed
    | Some pairs =>
        let ma := match e_inputs e with [] => false | _ => true end || negb (declares_inputs r) || negb (requires_inputs r) in
        let '(n3, gone) := if negb ma then (remove_outputs n2 (map fst pairs), map fst pairs) else (fold_left disconnect pairs n2, []) in
        match (if ma then do_apply r e (e_inputs e) (n3, mkLog [] [] gone []) else Some (n3, mkLog [] [] gone [])) with
        | None => Error
        | Some (n4, l) => Applied (mkNode (n_trafos n4) (n_next n4) (n_outs n4) (map Some (e_inputs e)) (map Some (e_explicit e)) (if ma then n_consider n4 || e_io e || e_scanned e else n_consider n4) (if ma then e_now e else n_last n4)) l
        end
    end).
Proof.
  intros MU W [ND PR]. unfold apply. rewrite MU. set (removed := filter _ (n_old n)). set (added := filter (fun x => negb (old_has x (n_old n))) (e_inputs e)). destruct (check_inputs true e (e_inputs e) n) as [n1 flagged] eqn:CI.
  destruct (check_inputs_unmarked e true _ _ _ _ ND CI) as (U & NF & FL). rewrite (union_same _ _ FL).
  assert (AD : forall x, In x added <-> In x (e_inputs e) /\ ~ In (Some x) (n_old n)) by (intros x; unfold added; now rewrite filter_In, negb_true_iff, old_has_not).
  set (fresh := match changed_inputs e n, added, removed, flagged with [], [], [], [] => true | _, _, _, _ => false end).
  assert (LO : lost e n <-> removed <> []). { split; [intros (o & I & H) EE; assert (In o removed) by (now apply removed_spec); rewrite EE in *; auto|]. destruct removed as [|o rm] eqn:RM; [congruence|]. intros _. exists o. apply removed_spec. fold removed. rewrite RM. now left. }
  assert (EMP : forall (l : list nat), l = [] <-> ~ exists x, In x l) by (intros [|x l]; split; [intros _ (x & [])|auto|discriminate|intros H; exfalso; apply H; exists x; now left]).
  assert (FLG : added = [] -> e_inputs e <> [] -> flagged <> [] <-> outdated_all e n).
  { intros AE NE. destruct (e_inputs e) as [|x l] eqn:EI; [congruence|]. cbn in CI. destruct (check_one e x n) as [n0 f] eqn:C1. injection CI as -> ->. assert (OX : In (Some x) (n_old n)). { destruct (old_has x (n_old n)) eqn:O; [now apply old_has_In|]. apply old_has_not in O. assert (I : In x added) by (apply AD; split; [now left|auto]). rewrite AE in I. destruct I. }
    unfold check_one in C1. destruct (n_outs n) as [|p outs] eqn:EO; [cbn in C1; injection C1 as <- <-; split; [congruence|intros (p & t & I & _); rewrite EO in I; destruct I]|].
    assert (IP : In p (n_outs n)) by (rewrite EO; now left). destruct (m_out _ W p IP) as (t & T & IN & CH). assert (CX : mem x (o_children p) = true) by (apply mem_In, CH, IN, OX). cbn [find] in C1. rewrite CX in C1. destruct (needs_rerun e n (o_trafo p)) as [n0 b] eqn:NR. injection C1 as -> <-.
    rewrite (outdated_first e n p outs t W EO T), <- (rerun_true _ _ _ _ _ _ NR T). destruct b; split; congruence. }
  assert (FR : fresh = true <-> ~ lost e n /\ ~ (exists x, In x (e_inputs e) /\ (~ In (Some x) (n_old n) \/ explicit_differs e n \/ newer e n x)) /\ ~ (e_inputs e <> [] /\ outdated_all e n)).
  { assert (CA : ~ (exists x, In x (e_inputs e) /\ (~ In (Some x) (n_old n) \/ explicit_differs e n \/ newer e n x)) <-> changed_inputs e n = [] /\ added = []).
    { rewrite !EMP. split; [intros H; split; intros (x & I); apply H; exists x; [apply changed_spec in I as [I J]; auto|apply AD in I as [I J]; auto]|]. intros [H1 H2] (x & I & [R|R]); [apply H2; exists x; now apply AD|apply H1; exists x; now apply changed_spec]. }
    rewrite CA, LO. unfold fresh. split.
    - destruct (changed_inputs e n), added, removed, flagged; try discriminate. intros _. split; [intros NN; now apply NN|]. split; [auto|]. intros [NE OD]. apply (FLG eq_refl NE) in OD. congruence.
    - intros (H1 & (H2 & H3) & H4). rewrite H2, H3. destruct removed; [|exfalso; apply H1; discriminate]. destruct flagged as [|f fl] eqn:EF; [auto|]. exfalso. apply H4. assert (NE : e_inputs e <> []) by (intros EE; rewrite EE in FL; destruct (FL f (or_introl eq_refl))). split; [auto|]. apply (FLG H3 NE). discriminate. }
  assert (FF : fresh = false -> lost e n \/ (exists x, In x (e_inputs e) /\ (~ In (Some x) (n_old n) \/ explicit_differs e n \/ newer e n x)) \/ e_inputs e <> [] /\ outdated_all e n).
  { unfold fresh. destruct (changed_inputs e n) as [|c cs] eqn:EC; [|intros _; right; left; exists c; assert (I : In c (changed_inputs e n)) by (rewrite EC; now left); apply changed_spec in I as [I J]; auto].
    destruct added as [|a ad] eqn:EA; [|intros _; right; left; exists a; destruct (proj1 (AD a) (or_introl eq_refl)); auto]. destruct removed eqn:ER; [|intros _; left; apply LO; discriminate].
    destruct flagged as [|f fl] eqn:EF; [discriminate|]. intros _. right. right. assert (NE : e_inputs e <> []) by (intros EE; rewrite EE in FL; destruct (FL f (or_introl eq_refl))). split; [auto|]. apply (FLG eq_refl NE). discriminate. }
  set (ma := match e_inputs e with [] => false | _ => true end || negb (declares_inputs r) || negb (requires_inputs r)).
  assert (NN : no_need r <-> negb (declares_inputs r) || negb (requires_inputs r) = true) by (unfold no_need; destruct (declares_inputs r), (requires_inputs r); cbn; intuition discriminate).
  assert (OUT : exists n2 utd, (if fresh && (negb (declares_inputs r) || negb (requires_inputs r)) && match e_inputs e with [] => true | _ => false end then match n_outs n1 with [] => (n1, false) | _ => check_outputs true e (n_outs n1) n1 end else (n1, fresh)) = (n2, utd) /\ unmarked n n2 /\ (utd = true -> ~ reason_all r e n) /\ (utd = false -> reason_all r e n)).
  { unfold reason_all. destruct (negb (declares_inputs r) || negb (requires_inputs r)) eqn:NB; cycle 1.
    - rewrite andb_false_r. cbn [andb]. exists n1, fresh. split; [auto|]. split; [auto|]. assert (~ no_need r) by (rewrite NN; discriminate). split; intros FE; [apply FR in FE|apply FF in FE]; clear - FE H; tauto.
    - assert (NR : no_need r) by (now apply NN). rewrite andb_true_r. destruct (e_inputs e) as [|x l] eqn:EI.
      + destruct fresh eqn:FE; cbn [andb].
        * pose proof U as (UO & _ & _). destruct (proj1 FR eq_refl) as (H1 & H2 & H3). destruct (n_outs n1) as [|p outs] eqn:EO.
          -- exists n1, false. split; [auto|]. split; [auto|]. split; [discriminate|]. intros _. right. right. right. rewrite <- UO. auto.
          -- destruct (check_outputs true e (p :: outs) n1) as [n2 b] eqn:CO. exists n2, b. split; [auto|]. destruct (check_outputs_many _ _ _ _ _ CO) as [U2 CB]. split; [now apply (unmarked_trans n n1)|].
             assert (n1 = n) as -> by (cbn in CI; injection CI as <- _; auto). assert (IP : In p (n_outs n)) by (rewrite EO; now left). destruct (m_out _ W p IP) as (t & T & _). specialize (CB p outs eq_refl t T). rewrite <- (outdated_first e n p outs t W EO T) in CB.
             split; intros EB.
             ++ intros [H|[H|[[_ H]|(_ & _ & H)]]]; [auto|auto| |congruence]. apply CB in H. congruence.
             ++ right. right. left. split; [auto|]. now apply CB.
        * exists n1, false. split; [auto|]. split; [auto|]. split; [discriminate|]. intros _. destruct (FF eq_refl) as [H|[H|[H _]]]; [auto|auto|congruence].
      + rewrite andb_false_r. exists n1, fresh. split; [auto|]. split; [auto|]. assert (x :: l <> []) by discriminate. split; intros FE.
        * apply FR in FE as (H1 & H2 & H3). intros [H4|[H4|[[_ H4]|[H4 _]]]]; [auto|auto|auto|discriminate].
        * apply FF in FE. clear - FE H. tauto. }
  destruct OUT as (n2 & utd & EQ & U2 & UT & UF). exists n2. split; [auto|]. fold fresh. rewrite EQ. destruct utd.
  - left. split; [now apply UT|auto].
  - right. split; [now apply UF|]. unfold apply_rule. rewrite MU. cbn [negb orb]. fold ma. destruct (affected_all n2 removed) as [pairs|]; [|auto]. cbv zeta. destruct ma; cbn [negb apply_each]; [|auto]. destruct (do_apply _ _ _ _) as [[? ?]|]; auto.
Qed.

Lemma many_affected n a : many n -> In (Some a) (n_old n) -> affected n a = Some (map o_id (n_outs n)).
Proof.
  intros W OA. unfold affected. set (F := fun acc o => _).
  assert (G : forall outs acc, (forall p, In p outs -> In p (n_outs n)) -> fold_left F outs (Some acc) = Some (acc ++ map o_id outs)).
  { intros outs. induction outs as [|p outs IH]; intros acc SU; cbn [fold_left map]; [now rewrite app_nil_r|]. destruct (m_out _ W p (SU p (or_introl eq_refl))) as (t & T & IN & CH). unfold F at 2. apply IN in OA as IA. apply CH in IA as CA. apply mem_In in IA. apply mem_In in CA. rewrite CA, T, IA.
    rewrite IH by (intros q I; apply SU; now right). now rewrite <- app_assoc. }
  rewrite G; auto.
Qed.
Lemma many_affected_all n l : many n -> (forall a, In (Some a) l -> In (Some a) (n_old n)) -> exists pairs, affected_all n l = Some pairs /\ forall o a, In (o, a) pairs <-> In (Some a) l /\ exists_out n o.
Proof.
  intros W. induction l as [|[b|] l IH]; intros SU; cbn [affected_all].
  - exists []. split; [auto|]. cbn. tauto.
  - rewrite (many_affected n b W (SU b (or_introl eq_refl))). destruct IH as (pairs & -> & H); [intros a I; apply SU; now right|]. eexists. split; [reflexivity|]. intros o a. rewrite in_app_iff, H, in_map_iff. split.
    + intros [(x & [= <- <-] & I)|[I E]]; [|split; [now right|auto]]. split; [now left|]. apply in_map_iff in I as (p & <- & I). exists p. auto.
    + intros [[[= <-]|I] E]; [left|right; auto]. exists o. split; [auto|]. destruct E as (p & I & <-). now apply in_map.
  - destruct IH as (pairs & -> & H); [intros a I; apply SU; now right|]. exists pairs. split; [auto|]. intros o a. rewrite H. split; [intros [I E]; split; [now right|auto]|intros [[EE|I] E]; [discriminate|auto]].
Qed.
Lemma disconnect_all pairs : forall n, let n' := fold_left disconnect pairs n in
  n_trafos n' = n_trafos n /\ fields n n' /\ exists g, (forall p, o_id (g p) = o_id p /\ o_trafo (g p) = o_trafo p /\ o_valid (g p) = o_valid p /\ (forall y, In y (o_children (g p)) <-> In y (o_children p) /\ ~ In (o_id p, y) pairs)) /\ n_outs n' = map g (n_outs n).
Proof.
  induction pairs as [|[o a] pairs IH]; intros n; cbn [fold_left]; cbv zeta.
  - split; [auto|]. split; [apply fields_refl|]. exists (fun p => p). split; [intros p; repeat (split; [auto; fail|]); cbn; tauto|]. symmetry. apply map_id.
  - destruct (IH (disconnect n (o, a))) as (T & F & g & Hg & O). cbv zeta in *. split; [rewrite T; auto|]. split; [exact F|]. set (h := fun o0 => if mem (o_id o0) [o] then mkOut (o_id o0) (o_trafo o0) (diff (o_children o0) [a]) (diff (o_scanned o0) [a]) (o_valid o0) else o0). exists (fun p => g (h p)). split; [|rewrite O; unfold disconnect, map_outs; cbn [fst snd set_outs n_outs]; now rewrite map_map].
    intros p. destruct (Hg (h p)) as (H1 & H2 & H3 & H4). assert (HH : o_id (h p) = o_id p /\ o_trafo (h p) = o_trafo p /\ o_valid (h p) = o_valid p) by (unfold h; destruct (mem (o_id p) [o]); auto). destruct HH as (E1 & E2 & E3). split; [congruence|]. split; [congruence|]. split; [congruence|].
    intros y. rewrite H4, E1. cbn [In]. unfold h. destruct (mem (o_id p) [o]) eqn:M.
    + apply mem_In in M as [<-|[]]. cbn [o_children]. rewrite diff_In. cbn [In]. split; [intros [[C N] NP]; split; [auto|]; intros [[= <-]|I]; auto|intros [C N]; split; [split; [auto|]; intros [<-|[]]; apply N; auto|auto]].
    + apply mem_not in M. cbn [In] in M. split; [intros [C N]; split; [auto|]; intros [[= EE _]|I]; auto|intros [C N]; auto].
Qed.

(** All new outputs were there already, made from the same artifacts with the same commands. *)
Definition all_as_before (e : env) (n : node) (outs : list nat) (c : nat) : Prop :=
  exists p t, In p (n_outs n) /\ trafo_of n (o_trafo p) = Some t /\ t_commands t = c /\ (forall x, In x (t_inputs t) <-> In x (e_inputs e)) /\ (forall x, In x (t_explicit t) <-> In x (e_explicit e)) /\ forall i, In i outs -> In i (t_outputs t).
(** If the rule is applied, it is applied to all inputs at once, and afterwards there are exactly the outputs that the scripts name - provided that some input stayed or there were no outputs. *)
Theorem multi_applied r e n n' l : multiplex r = true -> many n -> proper e -> e_inputs e <> [] \/ no_need r -> n_outs n = [] \/ (exists x, In x (e_inputs e) /\ In (Some x) (n_old n)) ->
  apply r e n = Applied n' l ->
  exists outs c seen, e_script e (e_inputs e) = Some (outs, c, seen) /\ l_applied l = [e_inputs e] /\ many n' /\ n_old n' = map Some (e_inputs e) /\ n_old_explicit n' = map Some (e_explicit e) /\
  (forall o, exists_out n' o <-> In o outs) /\ (forall o d, makes_with n' (eq (e_inputs e)) o d <-> In o outs /\ d = c) /\
  (forall o, In o (l_created l) <-> In o outs /\ ~ exists_out n o) /\ (forall o, In o (l_removed l) <-> exists_out n o /\ ~ In o outs) /\
  (forall o, valid n' o -> valid n o /\ all_as_before e n outs c) /\ n_consider n' = n_consider n || e_io e || e_scanned e /\ n_last n' = e_now e.
Proof.
  intros MU W PR NE OV. destruct (many_apply r e n MU W PR) as (n2 & U & [[_ ->]|[_ ->]]); [discriminate|]. assert (W2 := unmarked_many _ _ U W). pose proof U as (UO & (UF1 & UF2 & UF3 & UF4 & UF5) & _).
  set (removed := filter _ (n_old n)). destruct (many_affected_all n2 removed W2) as (pairs & -> & HP); [intros a I; apply removed_spec in I as [I _]; now rewrite UF2|]. cbv zeta.
  assert (MA : match e_inputs e with [] => false | _ => true end || negb (declares_inputs r) || negb (requires_inputs r) = true).
  { destruct NE as [NE|[E|E]]; [destruct (e_inputs e); [congruence|auto]| |]; rewrite E; cbn; now rewrite ?orb_true_r. }
  rewrite MA. cbn [negb]. destruct (disconnect_all pairs n2) as (T3 & (G1 & G2 & G3 & G4 & G5) & g & Hg & O3). set (n3 := fold_left disconnect pairs n2) in *. cbv zeta in *.
  destruct (do_apply r e (e_inputs e) (n3, mkLog [] [] [] [])) as [[n4 l4]|] eqn:D; [|discriminate]. intros [= <- <-].
  assert (TT : forall k, trafo_of n3 k = trafo_of n2 k) by (intros k; unfold trafo_of; now rewrite T3).
  assert (S3 : sorted (n_outs n3)) by (rewrite O3; apply map_sorted; [intros p; apply Hg|apply W2]).
  assert (O3' : forall p, In p (n_outs n3) -> exists q, p = g q /\ In q (n_outs n)) by (intros p I; rewrite O3 in I; apply in_map_iff in I as (q & <- & I); rewrite UO in I; eauto).
  assert (EX3 : forall o, exists_out n3 o <-> exists_out n o). { intros o. split; [intros (p & I & E); apply O3' in I as (q & -> & I); exists q; split; [auto|]; rewrite <- E; symmetry; apply Hg|intros (q & I & E); exists (g q); split; [rewrite O3; apply in_map; now rewrite UO|]; rewrite <- E; apply Hg]. }
  assert (AT3 : forall o, at_id (n_outs n3) o = None <-> ~ exists_out n o). { intros o. rewrite <- EX3. split; [intros A (p & I & E); apply (at_id_sorted _ _ S3) in I; congruence|]. intros H. destruct (at_id (n_outs n3) o) as [p|] eqn:A; [|auto]. exfalso. apply H. exists p. now apply at_id_In in A. }
  assert (NX3 : forall k t, trafo_of n3 k = Some t -> k < n_next n3) by (intros k t T; rewrite TT in T; apply (m_next _ W2) in T; congruence).
  assert (TO3 : forall p, In p (n_outs n3) -> exists t, trafo_of n3 (o_trafo p) = Some t).
  { intros p I. apply O3' in I as (q & -> & I). rewrite TT. destruct (Hg q) as (_ & -> & _). destruct (m_out _ W2 q) as (t & T & _); [now rewrite UO|eauto]. }
  destruct (do_apply_spec r e (e_inputs e) n3 _ n4 l4 S3 NX3 TO3 PR D) as (outs & c & seen & t & SC & S' & NX & F1 & F2 & F3 & F4 & TK & TI & TE & TC & TOU & TJ & DR & NDR & (sc & SC1 & SC2 & AT & INV) & LA & LC & LR & _).
  assert (DRP : forall o, dropped n3 (e_inputs e) outs o <-> exists_out n o /\ ~ In o outs).
  { intros o. unfold dropped. split; [intros [NI (p & u & a & I & E & _)]; split; [apply EX3; exists p; auto|auto]|]. intros [(q & IQ & EQ) NI]. split; [auto|]. destruct OV as [OV|(x & IX & OX)]; [rewrite OV in IQ; destruct IQ|]. destruct (m_out _ W2 q) as (u & TU & IU & CU); [now rewrite UO|]. rewrite UF2 in IU.
    exists (g q), u, x. destruct (Hg q) as (E1 & E2 & _ & E4). split; [rewrite O3; apply in_map; now rewrite UO|]. split; [congruence|]. split; [now rewrite TT, E2|]. split; [auto|]. split; [|now apply IU]. apply E4. split; [apply CU, IU, OX|]. intros IP. apply HP in IP as [IR _]. apply removed_spec in IR as [_ H]. apply (H x eq_refl IX). }
  assert (CL : forall p, In p (n_outs n4) <-> In (o_id p) outs /\ at_id (n_outs n4) (o_id p) = Some p).
  { intros p. split; [|intros [_ A]; now apply at_id_In in A]. intros I. apply (at_id_sorted _ _ S') in I. split; [|auto]. destruct (mem_dec (o_id p) outs) as [|NI]; [auto|]. exfalso. destruct (at_id (n_outs n3) (o_id p)) as [q|] eqn:AQ.
    - rewrite DR in I; [discriminate|auto|]. apply DRP. split; [|auto]. apply EX3. exists q. now apply at_id_In in AQ.
    - rewrite NDR, AQ in I; [discriminate|auto|]. intros H. apply DRP in H as [H _]. apply AT3 in AQ. contradiction. }
  set (n5 := mkNode _ _ _ _ _ _ _). assert (PO : forall p, In p (n_outs n4) -> o_trafo p = n_next n3 /\ forall x, In x (e_inputs e) -> In x (o_children p)).
  { intros p I. apply CL in I as [J A]. destruct (AT _ J) as (p2 & A2 & _ & T2 & C2 & _). rewrite A in A2. injection A2 as <-. split; [auto|]. intros x I. rewrite C2, union_In. left. destruct (at_id (n_outs n3) (o_id p)); [rewrite union_In|]; auto. }
  exists outs, c, seen. split; [auto|]. split; [auto|]. split.
  { constructor.
    - exact S'.
    - intros p I. destruct (PO p I) as [E C]. exists t. change (trafo_of n5) with (trafo_of n4). rewrite E. split; [auto|]. rewrite TI. split; [|auto]. intros x. cbn [n5 n_old]. rewrite in_map_iff. split; [intros J; exists x; auto|intros (y & [= ->] & J); auto].
    - intros k u TU. change (trafo_of n4 k = Some u) in TU. cbn [n5 n_next]. rewrite NX. destruct (Nat.eq_dec k (n_next n3)) as [->|NK]; [lia|]. specialize (TJ k NK). rewrite TU in TJ. destruct (trafo_of n3 k) as [v|] eqn:TV; [|contradiction]. rewrite TT in TV. apply (m_next _ W2) in TV. lia.
    - intros p q IP IQ. destruct (PO p IP), (PO q IQ). congruence. }
  split; [auto|]. split; [auto|].
  assert (EX5 : forall o, exists_out n5 o <-> In o outs). { intros o. split; [intros (p & I & <-); now apply CL in I|]. intros J. destruct (AT _ J) as (p & A & E & _). exists p. split; [now apply at_id_In in A|auto]. }
  split; [exact EX5|]. split.
  { intros o d. split.
    - intros (p & u & I & <- & T & IN & C). change (n_outs n5) with (n_outs n4) in I. change (trafo_of n5) with (trafo_of n4) in T. destruct (PO p I) as [E _]. rewrite E, TK in T. injection T as <-. split; [now apply CL in I|congruence].
    - intros [J ->]. apply EX5 in J as (p & I & E). exists p, t. split; [auto|]. split; [auto|]. split; [|auto]. change (trafo_of n4 (o_trafo p) = Some t). now rewrite (proj1 (PO p I)). }
  split. { intros o. rewrite LC. cbn [l_created In]. rewrite AT3. tauto. }
  split. { intros o. rewrite LR, DRP. cbn [l_removed In]. tauto. }
  split.
  { intros o (p & I & <- & V). change (n_outs n5) with (n_outs n4) in I. apply CL in I as [J A]. destruct (AT _ J) as (p2 & A2 & _ & _ & _ & _ & V2). rewrite A in A2. injection A2 as <-. rewrite V in V2. destruct (at_id (n_outs n3) (o_id p)) as [q|] eqn:AQ; [|discriminate]. symmetry in V2. apply andb_true_iff in V2 as [VQ SE].
    apply at_id_In in AQ as [IQ EQ]. apply O3' in IQ as (q0 & -> & IQ). destruct (Hg q0) as (E1 & E2 & E3 & _). split; [exists q0; split; [auto|]; split; congruence|].
    destruct (SC1 SE) as (q1 & I1 & J1 & u & TU & CU & IU & EU & OU & _). apply O3' in I1 as (q2 & -> & I2). destruct (Hg q2) as (_ & E2' & _). rewrite E2', TT in TU. destruct (unmarked_back _ _ _ U _ TU) as (v & TV & (Q1 & Q2 & Q3 & _) & QO). exists q2, v. rewrite <- Q1, <- Q2, <- Q3, <- QO. auto 10. }
  cbn [n5 n_consider n_last]. split; [|auto]. f_equal. f_equal. congruence.
Qed.
(** Without inputs, a rule that needs some is not applied and its outputs go away. *)
Theorem multi_gone r e n n' l : multiplex r = true -> many n -> proper e -> e_inputs e = [] -> ~ no_need r -> (exists x, In (Some x) (n_old n)) -> apply r e n = Applied n' l ->
  n_outs n' = [] /\ l_applied l = [] /\ l_created l = [] /\ (forall o, In o (l_removed l) <-> exists_out n o) /\ many n' /\ n_old n' = [].
Proof.
  intros MU W PR EI NN OX. destruct (many_apply r e n MU W PR) as (n2 & U & [[_ ->]|[_ ->]]); [discriminate|]. assert (W2 := unmarked_many _ _ U W). pose proof U as (UO & (UF1 & UF2 & UF3 & UF4 & UF5) & _).
  set (removed := filter _ (n_old n)). destruct (many_affected_all n2 removed W2) as (pairs & -> & HP); [intros a I; apply removed_spec in I as [I _]; now rewrite UF2|]. cbv zeta.
  assert (D1 : declares_inputs r = true) by (destruct (declares_inputs r) eqn:E; [auto|destruct NN; left; auto]). assert (D2 : requires_inputs r = true) by (destruct (requires_inputs r) eqn:E; [auto|destruct NN; right; auto]). rewrite EI, D1, D2. cbn [negb orb]. remember (remove_outputs n2 (map fst pairs)) as m eqn:EM. intros [= <- <-].
  destruct OX as (x & OX). assert (GO : forall o, In o (map fst pairs) <-> exists_out n o).
  { intros o. rewrite in_map_iff. unfold exists_out. rewrite <- UO. split; [intros ([o' a] & <- & I); now apply HP in I|]. intros H. exists (o, x). split; [auto|]. apply HP. split; [|auto]. apply removed_spec. split; [auto|]. rewrite EI. intros y _ []. }
  cbn [n_outs l_applied l_created l_removed n_old map].
  assert (OE : n_outs m = []).
  { assert (H : forall p, ~ In p (n_outs m)); [|destruct (n_outs m) as [|p rest]; [auto|destruct (H p (or_introl eq_refl))]]. intros p I. rewrite EM, remove_outputs_outs in I. apply filter_In in I as [I N]. apply negb_true_iff, mem_not in N. apply N, GO. exists p. rewrite <- UO. auto. }
  rewrite OE. split; [auto|]. split; [auto|]. split; [auto|]. split; [auto|]. split; [|auto]. constructor; cbn [n_outs n_old n_next]; try (now intros ? []); [constructor|]. intros k t T. change (trafo_of m k = Some t) in T. rewrite EM in T. rewrite EM. destruct (remove_outputs_trafo (map fst pairs) n2 k) as (f & _ & TF). rewrite TF in T. destruct (remove_outputs_fields (map fst pairs) n2) as (-> & _). destruct (trafo_of n2 k) as [u|] eqn:TU; [|discriminate]. now apply (m_next _ W2) in TU.
Qed.
(** The rule is not applied if and only if there is no reason. *)
Theorem multi_skipped r e n : multiplex r = true -> many n -> proper e -> (exists n', apply r e n = Skipped n') <-> ~ reason_all r e n.
Proof.
  intros MU W PR. destruct (many_apply r e n MU W PR) as (n2 & U & [[NR ->]|[R ->]]); [split; eauto|]. split; [|contradiction]. intros (n' & E). destruct (affected_all _ _); [|discriminate]. cbv zeta in E. match type of E with context [if negb ?b then _ else _] => destruct b end; cbn [negb] in E; [|discriminate]. destruct (do_apply _ _ _ _) as [[? ?]|]; discriminate.
Qed.
Theorem multi_skipped_keeps r e n n' : multiplex r = true -> many n -> proper e -> apply r e n = Skipped n' -> n_outs n' = n_outs n /\ many n' /\ n_old n' = n_old n /\ n_old_explicit n' = n_old_explicit n.
Proof.
  intros MU W PR. destruct (many_apply r e n MU W PR) as (n2 & U & [[NR ->]|[R ->]]); cycle 1.
  { intros E. destruct (affected_all _ _); [|discriminate]. cbv zeta in E. match type of E with context [if negb ?b then _ else _] => destruct b end; cbn [negb] in E; [|discriminate]. destruct (do_apply _ _ _ _) as [[? ?]|]; discriminate. }
  intros [= <-]. pose proof U as (UO & (_ & UF2 & UF3 & _) & _). split; [auto|]. split; [now apply (unmarked_many n)|auto].
Qed.

(** ** Which artifacts are inputs *)

Theorem inputs_exact inputs deps_inputs excluded own deps x : In x (current_inputs inputs deps_inputs excluded own deps) <->
  exists a, a_id a = x /\ ~ (exists t, In t (a_tags a) /\ In t excluded) /\
   (In a own /\ a_own a = false /\ a_module a = false /\ (exists t, In t (a_tags a) /\ In t inputs) \/
    In a own /\ a_own a = false /\ a_module a = true /\ (exists t, In t (a_tags a) /\ In t deps_inputs) \/
    (exists d, In d deps /\ In a d) /\ exists t, In t (a_tags a) /\ In t deps_inputs).
Proof.
  assert (F : forall tags a, existsb (fun t => mem t tags) (a_tags a) = true <-> exists t, In t (a_tags a) /\ In t tags).
  { intros tags a. rewrite existsb_exists. split; intros (t & I & M); exists t; (split; [auto|]); now apply mem_In. }
  assert (F' : forall tags a, existsb (fun t => mem t tags) (a_tags a) = false <-> ~ exists t, In t (a_tags a) /\ In t tags) by (intros tags a; rewrite <- F; destruct (existsb _ _); split; congruence).
  assert (M : forall f l, In x (map a_id (filter f l)) <-> exists a, a_id a = x /\ In a l /\ f a = true).
  { intros f l. rewrite in_map_iff. split; intros (a & E & H); exists a; (split; [auto|]); now apply filter_In. }
  unfold current_inputs. destruct deps_inputs as [|t0 ts] eqn:ED.
  - rewrite M. split.
    + intros (a & E & I & H). rewrite !andb_true_iff, !negb_true_iff, F, F' in H. exists a. tauto.
    + intros (a & E & NX & H). exists a. rewrite !andb_true_iff, !negb_true_iff, F, F'. destruct H as [H|[(_ & _ & _ & t & _ & [])|(_ & t & _ & [])]]. tauto.
  - rewrite <- ED. clear ED. rewrite !union_In, !M. split.
    + intros [[H|H]|H]; destruct H as (a & E & I & H); rewrite !andb_true_iff, !negb_true_iff, ?F, ?F' in H; exists a; [tauto|tauto|]. apply in_concat in I as (d & ID & IA). split; [auto|]. split; [tauto|]. right. right. split; [eauto|tauto].
    + intros (a & E & NX & [H|[H|[(d & ID & IA) H]]]).
      * left. left. exists a. rewrite !andb_true_iff, !negb_true_iff, F, F'. tauto.
      * left. right. exists a. rewrite !andb_true_iff, !negb_true_iff, F, F'. tauto.
      * right. exists a. rewrite andb_true_iff, negb_true_iff, F, F'. split; [auto|]. split; [apply in_concat; eauto|auto].
Qed.

(** ** Where the code falls short *)

Module Cases.
  Definition single_rule := mkRule false true true.
  Definition multi_rule := mkRule true true true.
  Definition free_rule := mkRule true false false.
  (* compile: output 10 + x from input x with the commands c; nothing for inputs in [none] *)
  Definition compile (c : nat) (none : list nat) (ins : list nat) : option (list nat * nat * nat) := match ins with [x] => Some (if mem x none then [] else [10 + x], c, 0) | _ => None end.
  Definition link (outs : list nat) (c : nat) (ins : list nat) : option (list nat * nat * nat) := Some (outs, c, 0).
  Definition at_time (inputs explicit : list nat) (changed : bool) (script : list nat -> option (list nat * nat * nat)) : env := mkEnv inputs explicit (fun _ => 0) (fun _ => changed) (fun _ => false) script false false 1.
  Definition result (o : outcome) : node := match o with Skipped n | Applied n _ => n | _ => empty_node end.
  Definition applied (o : outcome) : list (list nat) := match o with Applied _ l => l_applied l | _ => [] end.
  Definition outputs (o : outcome) : list nat := map o_id (n_outs (result o)).
  Lemma compile_proper inputs explicit changed c none : NoDup inputs -> proper (at_time inputs explicit changed (compile c none)).
  Proof. intros ND. split; [auto|]. intros [|x [|y l]] outs c' seen; cbn; try discriminate. intros [= <- <- <-]. destruct (mem x none); repeat constructor; auto. Qed.
  Lemma link_proper inputs explicit changed outs c : NoDup inputs -> NoDup outs -> proper (at_time inputs explicit changed (link outs c)).
  Proof. intros ND NO. split; [auto|]. cbn. unfold link. intros ins o c' seen [= <- <- <-]. auto. Qed.
  Lemma plain_single : plain single_rule.
  Proof. constructor; auto. Qed.
  (* 1 and 2 are compiled; a scanner finds that 1 includes 2 *)
  Definition built := result (apply single_rule (at_time [1; 2] [] false (compile 7 [])) empty_node).
  Definition crossing := mark (scan 11 [2] built).
End Cases.
Import Cases.

(** A file that is compiled and also included by another compiled file: of the two outputs, only one is made again after a property that both prepare scripts have used has changed. *)
Theorem crossing_refuted : exists r e n n' l x, plain r /\ history r n /\ proper e /\ apply r e n = Applied n' l /\ In x (e_inputs e) /\ outdated e n x /\ ~ In [x] (l_applied l) /\ made n' x 12 7 /\ told (e_script e) [x] 12 8.
Proof.
  exists single_rule, (at_time [1; 2] [] true (compile 8 [])), crossing. destruct (apply single_rule (at_time [1; 2] [] true (compile 8 [])) crossing) as [n'|n' l| |] eqn:E; try (vm_compute in E; discriminate). exists n', l, 2.
  split; [apply plain_single|]. split; [apply h_marked, h_scanned; eapply h_applied; [constructor|apply (compile_proper [1; 2] [] false 7 []); repeat constructor; cbn; lia|vm_compute; reflexivity]|].
  split; [apply compile_proper; repeat constructor; cbn; lia|]. split; [auto|]. split; [cbn; auto|].
  split; [exists (mkOut 12 1 [2] [] false), (mkTrafo [2] [] [12] 7 true 0); vm_compute; auto 10|]. vm_compute in E. injection E as <- <-. split; [cbn; intros [H|[]]; discriminate|]. split; [exists (mkOut 12 1 [2] [] false), (mkTrafo [2] [] [12] 7 true 0); vm_compute; auto 10|exists [12], 0; cbn; auto].
Qed.
(** A dynamic rule that made nothing from an input is not applied to it again, whatever its scripts have used. *)
Theorem no_outputs_refuted : exists r e n n' x o c, plain r /\ history r n /\ proper e /\ (forall t, e_changed e t = true) /\ apply r e n = Skipped n' /\ In x (e_inputs e) /\ told (e_script e) [x] o c /\ ~ made n' x o c.
Proof.
  set (n := mark (result (apply single_rule (at_time [1; 2] [] false (compile 7 [1; 2])) empty_node))). exists single_rule, (at_time [1; 2] [] true (compile 7 [])), n, n, 1, 11, 7.
  split; [apply plain_single|]. split; [apply h_marked; eapply h_applied; [constructor|apply (compile_proper [1; 2] [] false 7 [1; 2]); repeat constructor; cbn; lia|vm_compute; reflexivity]|].
  split; [apply compile_proper; repeat constructor; cbn; lia|]. split; [auto|]. split; [vm_compute; reflexivity|]. split; [cbn; auto|]. split; [exists [11], 0; cbn; auto|]. intros (p & t & I & _). vm_compute in I. destruct I.
Qed.
(** A multiplex rule without inputs that now makes something else keeps what it made before. *)
Theorem leftover_refuted : exists r e n n' l o, multiplex r = true /\ history r n /\ many n /\ proper e /\ apply r e n = Applied n' l /\ exists_out n' o /\ ~ exists c, told (e_script e) (e_inputs e) o c.
Proof.
  set (n := mark (result (apply free_rule (at_time [] [] false (link [20] 7)) empty_node))). exists free_rule, (at_time [] [] true (link [21] 7)), n. destruct (apply free_rule (at_time [] [] true (link [21] 7)) n) as [n'|n' l| |] eqn:E; try (vm_compute in E; discriminate). exists n', l, 20.
  split; [auto|]. split; [apply h_marked; eapply h_applied; [constructor|apply (link_proper [] [] false [20] 7); repeat constructor; cbn; lia|vm_compute; reflexivity]|].
  split; [constructor|]; [vm_compute; repeat constructor|intros p I; vm_compute in I; destruct I as [<-|[]]; eexists; split; [vm_compute; reflexivity|]; vm_compute; tauto|intros [|k] t; vm_compute; [auto|discriminate]|intros p q I J; vm_compute in I, J; destruct I as [<-|[]], J as [<-|[]]; auto|].
  split; [apply link_proper; repeat constructor; cbn; lia|]. split; [auto|]. vm_compute in E. injection E as <- <-. split; [eexists; split; [cbn; left; reflexivity|auto]|]. intros (c & outs & seen & H & I). vm_compute in H. injection H as <- _ _. destruct I as [H|[]]; discriminate.
Qed.
(** The same happens to a multiplex rule with inputs, if all of them are replaced at once. *)
Theorem replaced_refuted : exists r e n n' l o, multiplex r = true /\ requires_inputs r = true /\ history r n /\ proper e /\ apply r e n = Applied n' l /\ l_applied l = [e_inputs e] /\ exists_out n' o /\ ~ exists c, told (e_script e) (e_inputs e) o c.
Proof.
  set (n := result (apply multi_rule (at_time [1; 2] [] false (link [20] 7)) empty_node)). exists multi_rule, (at_time [3] [] false (link [21] 7)), n. destruct (apply multi_rule (at_time [3] [] false (link [21] 7)) n) as [n'|n' l| |] eqn:E; try (vm_compute in E; discriminate). exists n', l, 20.
  split; [auto|]. split; [auto|]. split; [eapply h_applied; [constructor|apply (link_proper [1; 2] [] false [20] 7); repeat constructor; cbn; lia|vm_compute; reflexivity]|].
  split; [apply link_proper; repeat constructor; cbn; lia|]. split; [auto|]. vm_compute in E. injection E as <- <-. split; [auto|]. split; [eexists; split; [cbn; left; reflexivity|auto]|]. intros (c & outs & seen & H & I). vm_compute in H. injection H as <- _ _. destruct I as [H|[]]; discriminate.
Qed.
(** A former input that the other outputs explicitly depend on makes an assertion fail. *)
Theorem former_input_refuted : exists r e n, plain r /\ history r n /\ proper e /\ (forall x, In x (e_inputs e) -> e_script e [x] <> None) /\ apply r e n = Check_failed.
Proof.
  set (n := result (apply single_rule (at_time [1; 2] [2] false (compile 7 [])) empty_node)). exists single_rule, (at_time [1] [2] false (compile 7 [])), n.
  split; [apply plain_single|]. split; [eapply h_applied; [constructor|apply (compile_proper [1; 2] [2] false 7 []); repeat constructor; cbn; lia|vm_compute; reflexivity]|].
  split; [apply compile_proper; repeat constructor; cbn; lia|]. split; [intros x [<-|[]]; discriminate|]. vm_compute. reflexivity.
Qed.
(** A rule without inputs does not notice that there are other artifacts to explicitly depend on. *)
Theorem explicit_without_inputs_refuted : exists r e n n', history r n /\ proper e /\ apply r e n = Skipped n' /\ explicit_differs e n /\ exists p a, In p (n_outs n') /\ In a (e_explicit e) /\ ~ In a (o_children p).
Proof.
  set (n := result (apply free_rule (at_time [] [] false (link [20] 7)) empty_node)). exists free_rule, (at_time [] [5] false (link [20] 7)), n, n.
  split; [eapply h_applied; [constructor|apply (link_proper [] [] false [20] 7); repeat constructor; cbn; lia|vm_compute; reflexivity]|].
  split; [apply link_proper; repeat constructor; cbn; lia|]. split; [vm_compute; reflexivity|]. split; [intros H; specialize (H (Some 5)); destruct H as [_ H]; cbn in H; apply H; eauto|]. eexists _, 5. split; [vm_compute; left; reflexivity|]. split; [cbn; auto|cbn; tauto].
Qed.
(** If an output is named twice, other commands are not noticed. *)
Theorem named_twice_refuted : exists r e n n' l o c, plain r /\ settled n /\ apply r e n = Applied n' l /\ l_applied l = [[1]] /\ made n 1 o c /\ ~ made n' 1 o c /\ valid n' o.
Proof.
  set (n := mark (mkNode [(0, mkTrafo [1] [] [11] 7 false 0)] 1 [mkOut 11 0 [1] [] true] [Some 1] [] false 0)). exists single_rule, (at_time [1] [] true (link [11; 11] 8)), n. destruct (apply single_rule (at_time [1] [] true (link [11; 11] 8)) n) as [n'|n' l| |] eqn:E; try (vm_compute in E; discriminate). exists n', l, 11, 7.
  split; [apply plain_single|]. split.
  { apply mark_settled. constructor; cbn.
    - repeat constructor.
    - intros p [<-|[]]. exists (mkTrafo [1] [] [11] 7 false 0), 1. cbn. auto 10.
    - intros [|k] t; cbn; [auto|discriminate].
    - intros p q t u [<-|[]] [<-|[]]. auto.
    - intros p t i [<-|[]]. cbn. intros [= <-] [<-|[]]. eexists. split; [left; reflexivity|auto]. }
  split; [auto|]. vm_compute in E. injection E as <- <-. split; [auto|]. split; [exists (mkOut 11 0 [1] [] true), (mkTrafo [1] [] [11] 7 true 0); vm_compute; auto 10|]. split.
  - intros (p & t & I & _ & T & _ & C). cbn in I. destruct I as [<-|[]]. vm_compute in T. injection T as <-. discriminate.
  - eexists. split; [cbn; left; reflexivity|auto].
Qed.

(** ** Examples *)

Module Demo.
  Example first : applied (apply single_rule (at_time [1; 2] [] false (compile 7 [])) empty_node) = [[1]; [2]].
  Proof. reflexivity. Qed.
  Example nothing : apply single_rule (at_time [1; 2] [] false (compile 7 [])) built = Skipped built.
  Proof. vm_compute. reflexivity. Qed.
  Example built_history : history single_rule built.
  Proof. eapply h_applied; [constructor|apply (compile_proper [1; 2] [] false 7 []); repeat constructor; cbn; lia|vm_compute; reflexivity]. Qed.
  Example built_apart : apart built [1; 2; 3].
  Proof. intros p x t I J C T. vm_compute in I. destruct I as [<-|[<-|[]]]; cbn in C; destruct C as [<-|[]]; vm_compute in T; injection T as <-; reflexivity. Qed.
  (* 1 is no input any more, 3 is new *)
  Example changed_set : let o := apply single_rule (at_time [2; 3] [] false (compile 8 [])) built in applied o = [[3]] /\ outputs o = [12; 13].
  Proof. vm_compute. auto. Qed.
  Example by_theorem : exists todo, (forall x, In x todo <-> In x [2; 3] /\ reason (at_time [2; 3] [] false (compile 8 [])) built x) /\ todo = [3].
  Proof.
    assert (S : settled built) by (apply (history_settled single_rule); [apply plain_single|apply built_history]).
    destruct (apply single_rule (at_time [2; 3] [] false (compile 8 [])) built) as [n'|n' l| |] eqn:E; try (vm_compute in E; discriminate).
    assert (AP : apart built [2; 3]) by (intros p x t I J; exact (built_apart p x t I (or_intror J))). assert (PR : proper (at_time [2; 3] [] false (compile 8 []))) by (apply compile_proper; repeat constructor; cbn; lia).
    destruct (single_applied single_rule (at_time [2; 3] [] false (compile 8 [])) built n' l plain_single S AP PR E) as (todo & LA & _ & TD & _). exists todo. split; [exact TD|].
    vm_compute in E. injection E as <- <-. cbn in LA. destruct todo as [|x [|y todo]]; cbn in LA; try discriminate. injection LA as <-. auto.
  Qed.
  (* a property has changed that the prepare scripts have used *)
  Example tracked : applied (apply single_rule (at_time [1; 2] [] true (compile 8 [])) (mark built)) = [[1]; [2]].
  Proof. reflexivity. Qed.
  Example deleted : outputs (Skipped (delete_input built 1)) = [12] /\ applied (apply single_rule (at_time [2] [] false (compile 7 [])) (delete_input built 1)) = [].
  Proof. vm_compute. auto. Qed.
  Example multi : let n := result (apply multi_rule (at_time [1; 2] [] false (link [20; 21] 7)) empty_node) in
    let o := apply multi_rule (at_time [2; 3] [] false (link [21; 22] 7)) n in applied o = [[2; 3]] /\ outputs o = [21; 22] /\ outputs (apply multi_rule (at_time [] [] false (link [21] 7)) n) = [].
  Proof. vm_compute. auto. Qed.
  Example deleted_one_of_two : map (fun p => (o_id p, o_valid p, o_children p)) (n_outs (delete_input (result (apply multi_rule (at_time [1; 2] [] false (link [20; 21] 7)) empty_node)) 2)) = [(20, false, [1]); (21, false, [1])].
  Proof. vm_compute. reflexivity. Qed.
  Example multi_many : many (result (apply multi_rule (at_time [1; 2] [] false (link [20; 21] 7)) empty_node)).
  Proof.
    destruct (apply multi_rule (at_time [1; 2] [] false (link [20; 21] 7)) empty_node) as [n'|n' l| |] eqn:E; try (vm_compute in E; discriminate). cbn [result].
    assert (ME : many empty_node) by (constructor; cbn; try easy; constructor). assert (PR : proper (at_time [1; 2] [] false (link [20; 21] 7))) by (apply link_proper; repeat constructor; cbn; lia).
    assert (NE : e_inputs (at_time [1; 2] [] false (link [20; 21] 7)) <> [] \/ no_need multi_rule) by (left; discriminate).
    destruct (multi_applied multi_rule _ empty_node n' l eq_refl ME PR NE (or_introl eq_refl) E) as (outs & c & seen & _ & _ & M & _). exact M.
  Qed.
  Example inputs : current_inputs [1] [2] [9] [mkArtifact 10 [1] false false; mkArtifact 11 [1; 9] false false; mkArtifact 12 [1] false true; mkArtifact 13 [2] true false; mkArtifact 14 [2] false false] [[mkArtifact 15 [2] false false; mkArtifact 16 [3] false false]] = [10; 13; 15].
  Proof. reflexivity. Qed.
End Demo.

Print Assumptions single_applied.
Print Assumptions single_skipped.
Print Assumptions single_skipped_keeps.
Print Assumptions single_succeeds.
Print Assumptions history_settled.
Print Assumptions incremental.
Print Assumptions incremental_as_clean.
Print Assumptions null_application.
Print Assumptions multi_applied.
Print Assumptions multi_gone.
Print Assumptions multi_skipped.
Print Assumptions multi_skipped_keeps.
Print Assumptions inputs_exact.
Print Assumptions crossing_refuted.
Print Assumptions no_outputs_refuted.
Print Assumptions leftover_refuted.
Print Assumptions replaced_refuted.
Print Assumptions former_input_refuted.
Print Assumptions explicit_without_inputs_refuted.
Print Assumptions named_twice_refuted.
Print Assumptions deleted_input_outdates.
