(** Lemmas about the building blocks of the executor model. *)
From Coq Require Import List Bool Arith ZArith Lia Permutation.
From Verif Require Import ExecutorModel ExecutorSpec.
Import ListNotations.

Lemma mem_In n l : mem n l = true <-> In n l.
Proof.
  unfold mem. rewrite existsb_exists. split.
  - intros (x & Hx & E). apply Nat.eqb_eq in E. now subst.
  - intros H. exists n. split; auto. apply Nat.eqb_refl.
Qed.
Lemma mem_notIn n l : mem n l = false <-> ~ In n l.
Proof. rewrite <- mem_In. destruct (mem n l); split; congruence. Qed.

Lemma In_outs g t n : In n (outs g t) <-> In n (gnodes g) /\ gkind g n = KGen t.
Proof.
  unfold outs. rewrite filter_In. destruct (gkind g n); split; intros [H E]; split; auto; try easy.
  - apply Nat.eqb_eq in E. now subst.
  - injection E as ->. apply Nat.eqb_refl.
Qed.

Lemma In_parents g n p : In p (parents g n) <-> In p (gnodes g) /\ In n (gchildren g p).
Proof. unfold parents. now rewrite filter_In, mem_In. Qed.

Lemma upd_same {A} (f : nat -> A) k v : upd f k v k = v.
Proof. unfold upd. now rewrite Nat.eqb_refl. Qed.
Lemma upd_other {A} (f : nat -> A) k v x : x <> k -> upd f k v x = f x.
Proof. unfold upd. intros H. apply Nat.eqb_neq in H. now rewrite H. Qed.

Lemma is_built_true b : is_built b = true <-> b = Built.
Proof. destruct b; simpl; split; congruence. Qed.
Lemma is_buildable_true b : is_buildable b = true <-> b = Buildable.
Proof. destruct b; simpl; split; congruence. Qed.
Lemma is_untouched_true b : is_untouched b = true <-> b = Untouched.
Proof. destruct b; simpl; split; congruence. Qed.

Definition children_built (s : state) (n : nat) : Prop :=
  forall c, In c (gchildren (gr s) n) -> bst s c = Built.

Lemma all_children_built_true s n : all_children_built s n = true <-> children_built s n.
Proof.
  unfold all_children_built, children_built. rewrite forallb_forall.
  split; intros H c Hc; specialize (H c Hc); now apply is_built_true.
Qed.

(** Everything but the build states and the leaves is unchanged. *)
Record frame (s s' : state) : Prop := {
  fr_gr : gr s' = gr s; fr_avail : avail s' = avail s; fr_procs : procs s' = procs s;
  fr_cnt : cnt s' = cnt s; fr_est : est s' = est s; fr_errs : errs s' = errs s;
  fr_expl : expl s' = expl s; fr_ctl : ctl s' = ctl s; fr_log : log s' = log s }.

Lemma frame_refl s : frame s s.
Proof. constructor; reflexivity. Qed.
Lemma frame_trans a b c : frame a b -> frame b c -> frame a c.
Proof. intros [] []; constructor; congruence. Qed.

(** finish_node *)
Record finish_node_spec (n : nat) (s s' : state) : Prop := {
  fn_frame : frame s s';
  fn_bst : bst s' = upd (bst s) n Built;
  fn_old : forall p, In p (leaves s) -> In p (leaves s');
  fn_new : forall p, In p (leaves s') -> In p (leaves s) \/
     (In p (gnodes (gr s)) /\ In n (gchildren (gr s) p) /\ bst s' p = Buildable
      /\ children_built s' p);
  fn_complete : forall p, In p (gnodes (gr s)) -> In n (gchildren (gr s) p) ->
     bst s' p = Buildable -> children_built s' p -> In p (leaves s') }.

Lemma push_ready_fold l s :
  let s' := fold_left push_ready l s in
  frame s s' /\ bst s' = bst s
  /\ (forall p, In p (leaves s) -> In p (leaves s'))
  /\ (forall p, In p (leaves s') -> In p (leaves s) \/
       (In p l /\ bst s p = Buildable /\ children_built s p))
  /\ (forall p, In p l -> bst s p = Buildable -> children_built s p -> In p (leaves s')).
Proof.
  revert s. induction l as [|x l IH]; intros s; simpl.
  - repeat split; auto. intros p [].
  - assert (F : frame s (push_ready s x) /\ bst (push_ready s x) = bst s).
    { unfold push_ready. destruct (_ && _); split; auto using frame_refl. constructor; reflexivity. }
    destruct F as [F B].
    assert (CB : forall p, children_built (push_ready s x) p <-> children_built s p).
    { intros p. unfold children_built. now rewrite B, (fr_gr _ _ F). }
    specialize (IH (push_ready s x)). cbv zeta in IH. destruct IH as (F2 & B2 & O2 & N2 & C2).
    rewrite B in *.
    split; [eapply frame_trans; eauto|]. split; [now rewrite B2|].
    split; [|split].
    + intros p Hp. apply O2. unfold push_ready. destruct (_ && _); simpl; auto.
    + intros p Hp. apply N2 in Hp. destruct Hp as [Hp|(Hp & Bp & Cp)].
      * unfold push_ready in Hp. destruct (is_buildable (bst s x) && all_children_built s x) eqn:E; auto.
        apply andb_true_iff in E. destruct E as [E1 E2].
        simpl in Hp. destruct Hp as [<-|Hp]; auto. right.
        split; auto. split; [now apply is_buildable_true|now apply all_children_built_true].
      * right. rewrite <- CB. auto.
    + intros p [->|Hp] Bp Cp.
      * apply O2. unfold push_ready. apply is_buildable_true in Bp.
        apply all_children_built_true in Cp. rewrite Bp, Cp. simpl. auto.
      * apply C2; auto. now apply CB.
Qed.

Lemma finish_node_ok n s : finish_node_spec n s (finish_node n s).
Proof.
  unfold finish_node.
  pose proof (push_ready_fold (parents (gr s) n) (set_bst (upd (bst s) n Built) s)) as H.
  cbv zeta in H. destruct H as (F & B & O & N & C).
  set (s' := fold_left _ _ _) in *.
  assert (G : gr s' = gr s) by (rewrite (fr_gr _ _ F); reflexivity).
  assert (CB : forall p, children_built (set_bst (upd (bst s) n Built) s) p <-> children_built s' p).
  { intros p. unfold children_built. rewrite B, G. reflexivity. }
  constructor.
  - destruct F; constructor; auto.
  - exact B.
  - exact O.
  - intros p Hp. apply N in Hp. destruct Hp as [Hp|(Hp & Bp & Cp)]; [left; exact Hp|right].
    apply In_parents in Hp. rewrite <- CB, B. tauto.
  - intros p Hp Hc Bp Cp. apply C.
    + now apply In_parents.
    + now rewrite <- B.
    + now apply CB.
Qed.

(** update_leaf *)
Definition mono (b b' : nat -> bstate) : Prop :=
  forall n, b' n = b n \/ (b n = Untouched /\ b' n = Buildable).

Lemma mono_refl b : mono b b. Proof. intros n; auto. Qed.
Lemma mono_trans a b c : mono a b -> mono b c -> mono a c.
Proof. intros H1 H2 n. destruct (H1 n) as [E|[E1 E2]], (H2 n) as [F|[F1 F2]]; rewrite ?E, ?F in *; auto; congruence. Qed.
Lemma mono_built b b' n : mono b b' -> (b' n = Built <-> b n = Built).
Proof. intros H. destruct (H n) as [E|[E1 E2]]; [now rewrite E|]. rewrite E1, E2. split; congruence. Qed.
Lemma mono_building b b' n : mono b b' -> (b' n = Building <-> b n = Building).
Proof. intros H. destruct (H n) as [E|[E1 E2]]; [now rewrite E|]. rewrite E1, E2. split; congruence. Qed.
Lemma mono_touched b b' n : mono b b' -> b n <> Untouched -> b' n <> Untouched.
Proof. intros H. destruct (H n) as [E|[E1 E2]]; congruence. Qed.

Record ul_spec (s : state) (seen : list nat) (s' : state) (seen' : list nat) : Prop := {
  ul_frame : frame s s';
  ul_mono : mono (bst s) (bst s');
  ul_seen : forall n, In n seen -> In n seen';
  ul_leaves : forall n, In n (leaves s) -> In n (leaves s');
  ul_new : forall n, In n (leaves s') -> In n (leaves s) \/ (In n seen' /\ ~ In n seen /\ children_built s' n);
  ul_touch : forall n, In n seen' -> ~ In n seen -> bst s' n <> Untouched;
  ul_untouched : forall n, ~ In n seen' -> bst s' n = bst s n
}.

Lemma ul_refl s seen : ul_spec s seen s seen.
Proof. constructor; auto using frame_refl, mono_refl; intros; tauto. Qed.

Lemma ul_trans s0 n0 s1 n1 s2 n2 :
  ul_spec s0 n0 s1 n1 -> ul_spec s1 n1 s2 n2 -> ul_spec s0 n0 s2 n2.
Proof.
  intros [F1 M1 S1 L1 N1 T1 U1] [F2 M2 S2 L2 N2 T2 U2]. constructor.
  - eapply frame_trans; eauto.
  - eapply mono_trans; eauto.
  - auto.
  - auto.
  - intros n H. apply N2 in H. destruct H as [H|(H & H1 & H2)].
    + apply N1 in H. destruct H as [H|(H & H1 & H2)]; auto. right. split; auto. split; auto.
      intros c Hc. rewrite (fr_gr _ _ F2) in Hc. apply (mono_built _ _ c M2). auto.
    + right. split; auto.
  - intros n H H0. destruct (in_dec Nat.eq_dec n n1) as [H1|H1].
    + apply (mono_touched _ _ _ M2). auto.
    + auto.
  - intros n H. rewrite U2 by auto. apply U1. auto.
Qed.

(** The loop over the children. *)
Definition ul_loop fuel :=
  fun (acc : list nat * state * bool) c =>
    let '(sn, st, leaf) := acc in
    if is_built (bst st c) then (sn, st, leaf)
    else let '(sn', st') := update_leaf fuel c sn st in (sn', st', false).

Lemma update_leaf_S fuel n seen s :
  update_leaf (S fuel) n seen s =
  if mem n seen then (seen, s)
  else
    let s1 := if is_untouched (bst s n) then set_bst (upd (bst s) n Buildable) s else s in
    let '(sn, s2, leaf) := fold_left (ul_loop fuel) (gchildren (gr s) n) (n :: seen, s1, true) in
    (sn, if leaf then set_leaves (n :: leaves s2) s2 else s2).
Proof. reflexivity. Qed.

Lemma ul_loop_ok fuel
  (IH : forall n seen s, let '(seen', s') := update_leaf fuel n seen s in ul_spec s seen s' seen') :
  forall l seen s leaf, let '(seen', s', leaf') := fold_left (ul_loop fuel) l (seen, s, leaf) in
    ul_spec s seen s' seen' /\
    (leaf' = true -> leaf = true /\ s' = s /\ seen' = seen /\ forall c, In c l -> bst s c = Built).
Proof.
  induction l as [|c l IHl]; intros seen s leaf; simpl.
  - split; [apply ul_refl|]. intros ->. repeat split; auto. intros c [].
  - destruct (is_built (bst s c)) eqn:E.
    + specialize (IHl seen s leaf). destruct (fold_left _ _ _) as [[seen' s'] leaf'].
      destruct IHl as [H1 H2]. split; auto. intros H. specialize (H2 H).
      destruct H2 as (A & B & C & D). repeat split; auto. intros x [<-|Hx]; auto. now apply is_built_true.
    + specialize (IH c seen s). destruct (update_leaf fuel c seen s) as [sn st].
      specialize (IHl sn st false). destruct (fold_left _ _ _) as [[seen' s'] leaf'].
      destruct IHl as [H1 H2]. split.
      * eapply ul_trans; eauto.
      * intros H. destruct (H2 H); discriminate.
Qed.

Lemma update_leaf_ok fuel : forall n seen s,
  let '(seen', s') := update_leaf fuel n seen s in ul_spec s seen s' seen'.
Proof.
  induction fuel as [|fuel IH]; intros n seen s.
  - simpl. apply ul_refl.
  - rewrite update_leaf_S. destruct (mem n seen) eqn:M; [apply ul_refl|].
    apply mem_notIn in M. cbv zeta.
    set (s1 := if is_untouched (bst s n) then _ else s).
    assert (T1 : bst s1 n <> Untouched).
    { unfold s1. destruct (is_untouched (bst s n)) eqn:E; simpl.
      - rewrite upd_same. discriminate.
      - intros H. apply is_untouched_true in H. congruence. }
    assert (H1 : ul_spec s seen s1 (n :: seen)).
    { unfold s1. constructor; simpl; auto.
      - destruct (is_untouched _); constructor; reflexivity.
      - destruct (is_untouched (bst s n)) eqn:E; [|apply mono_refl]. intros m. simpl.
        destruct (Nat.eq_dec m n) as [->|Hm]; [|rewrite upd_other by auto; auto].
        rewrite upd_same. right. split; auto. now apply is_untouched_true.
      - destruct (is_untouched _); auto.
      - destruct (is_untouched _); simpl; auto.
      - intros m [<-|Hm] Hn; [|tauto]. exact T1.
      - intros m Hm. destruct (is_untouched _); simpl; auto. apply upd_other. auto. }
    pose proof (ul_loop_ok fuel IH (gchildren (gr s) n) (n :: seen) s1 true) as H.
    destruct (fold_left (ul_loop fuel) _ _) as [[sn s2] leaf].
    destruct H as [H2 H3]. pose proof (ul_trans _ _ _ _ _ _ H1 H2) as H12.
    destruct leaf; [|exact H12].
    destruct (H3 eq_refl) as (_ & -> & -> & Hc).
    destruct H12 as [F M2 S L N T U]. constructor; auto.
    + destruct F; constructor; auto.
    + intros m Hm. right. auto.
    + intros m Hm. simpl in Hm. destruct Hm as [<-|Hm].
      * right. split; [now left|]. split; auto. intros c Hc'. simpl in *. rewrite (fr_gr _ _ F) in Hc'. auto.
      * apply N in Hm. destruct Hm as [Hm|(A & B & C)]; auto.
Qed.

(** seen nodes stay inside the graph *)
Lemma update_leaf_inside cf fuel : forall n seen s,
  wf_graph cf (gr s) -> In n (gnodes (gr s)) -> incl seen (gnodes (gr s)) ->
  incl (fst (update_leaf fuel n seen s)) (gnodes (gr s)).
Proof.
  induction fuel as [|fuel IH]; intros n seen s WF Hn Hs; [exact Hs|].
  rewrite update_leaf_S. destruct (mem n seen); [exact Hs|]. cbv zeta.
  set (s1 := if is_untouched _ then _ else _).
  assert (G1 : gr s1 = gr s) by (unfold s1; destruct (is_untouched _); reflexivity).
  assert (L : forall l sn st leaf, gr st = gr s -> incl l (gnodes (gr s)) -> incl sn (gnodes (gr s)) ->
     incl (fst (fst (fold_left (ul_loop fuel) l (sn, st, leaf)))) (gnodes (gr s))).
  { induction l as [|c l IHl]; intros sn st leaf Gst Hl Hsn; [exact Hsn|]. simpl.
    destruct (is_built (bst st c)).
    - apply IHl; auto. intros x Hx; apply Hl; now right.
    - pose proof (update_leaf_ok fuel c sn st) as U.
      pose proof (IH c sn st) as V. rewrite Gst in V.
      destruct (update_leaf fuel c sn st) as [sn' st'].
      apply IHl.
      + now rewrite (fr_gr _ _ (ul_frame _ _ _ _ U)).
      + intros x Hx; apply Hl; now right.
      + apply V; auto. apply Hl; now left. }
  specialize (L (gchildren (gr s) n) (n :: seen) s1 true G1).
  destruct (fold_left _ _ _) as [[sn s2] leaf]. simpl in *. apply L.
  - intros c Hc. eapply wf_edges; eauto.
  - intros x [<-|Hx]; auto.
Qed.

Lemma update_leaves_spec l s :
  exists seen, ul_spec s [] (update_leaves l s) seen.
Proof.
  unfold update_leaves. generalize (S (length (gnodes (gr s)))) as fuel. intros fuel.
  assert (H : forall l acc, ul_spec s [] (snd acc) (fst acc) ->
     let acc' := fold_left (fun acc n => update_leaf fuel n (fst acc) (snd acc)) l acc in
     ul_spec s [] (snd acc') (fst acc')).
  { clear l. induction l as [|n l IH]; intros acc Ha; simpl; auto.
    apply IH. pose proof (update_leaf_ok fuel n (fst acc) (snd acc)) as U.
    destruct (update_leaf fuel n (fst acc) (snd acc)) as [sn st]. eapply ul_trans; eauto. }
  specialize (H l ([], s) (ul_refl s [])). cbv zeta in H. eauto.
Qed.

(** What the safety proofs need to know about updateLeaves. *)
Lemma update_leaves_safe cf l s :
  wf_graph cf (gr s) -> incl l (gnodes (gr s)) ->
  let s' := update_leaves l s in
  frame s s' /\ mono (bst s) (bst s')
  /\ (forall n, In n (leaves s) -> In n (leaves s'))
  /\ (forall n, In n (leaves s') -> In n (leaves s) \/
        (In n (gnodes (gr s)) /\ bst s' n <> Untouched /\ children_built s' n)).
Proof.
  intros WF Hl. unfold update_leaves. generalize (S (length (gnodes (gr s)))) as fuel. intros fuel.
  assert (H : forall l acc, incl l (gnodes (gr s)) -> ul_spec s [] (snd acc) (fst acc) ->
     incl (fst acc) (gnodes (gr s)) ->
     let acc' := fold_left (fun acc n => update_leaf fuel n (fst acc) (snd acc)) l acc in
     ul_spec s [] (snd acc') (fst acc') /\ incl (fst acc') (gnodes (gr s))).
  { clear l Hl. induction l as [|n l IH]; intros acc Hl Ha Hi; simpl; auto.
    apply IH.
    - intros x Hx; apply Hl; now right.
    - pose proof (update_leaf_ok fuel n (fst acc) (snd acc)) as U.
      destruct (update_leaf fuel n (fst acc) (snd acc)) as [sn st]. eapply ul_trans; eauto.
    - pose proof (fr_gr _ _ (ul_frame _ _ _ _ Ha)) as G. rewrite <- G.
      apply (update_leaf_inside cf); rewrite G; auto. apply Hl; now left. }
  specialize (H l ([], s) Hl (ul_refl s [])). cbv zeta in H. destruct H as [H I]; [intros x []|].
  cbv zeta. set (acc' := fold_left _ _ _) in *. destruct H as [F M S L N T U].
  split; auto. split; auto. split; auto. intros n Hn. apply N in Hn.
  destruct Hn as [Hn|(A & B & C)]; auto.
Qed.
