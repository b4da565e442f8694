(** Progress: nothing is forgotten, nothing gets stuck, every build ends. *)
From Coq Require Import List Bool Arith ZArith Lia Permutation Wellfounded.
From Verif Require Import ExecutorModel ExecutorSpec ExecutorBase ExecutorInv ExecutorSteps ExecutorSafety.
Import ListNotations.

(** *** The recursion bounds are sufficient *)
Definition unseen (g : graph) (seen : list nat) : nat :=
  length (filter (fun m => negb (mem m seen)) (gnodes g)).

Lemma filter_length_le {A} (f h : A -> bool) l : (forall x, In x l -> f x = true -> h x = true) ->
  length (filter f l) <= length (filter h l).
Proof.
  induction l as [|x l IH]; simpl; intros H; auto.
  assert (IH' : length (filter f l) <= length (filter h l)) by (apply IH; intros; apply H; auto).
  destruct (f x) eqn:F; [rewrite (H x (or_introl eq_refl) F); simpl; lia|]. destruct (h x); simpl; lia.
Qed.
Lemma filter_length_lt {A} (f h : A -> bool) l x : (forall x, In x l -> f x = true -> h x = true) ->
  In x l -> f x = false -> h x = true -> length (filter f l) < length (filter h l).
Proof.
  induction l as [|y l IH]; simpl; [tauto|]. intros H Hx Fx Gx.
  assert (H' : forall z, In z l -> f z = true -> h z = true) by (intros; apply H; auto).
  destruct Hx as [->|Hx].
  - rewrite Fx, Gx. simpl. pose proof (filter_length_le f h l H'). lia.
  - specialize (IH H' Hx Fx Gx). destruct (f y) eqn:F; [rewrite (H y (or_introl eq_refl) F); simpl; lia|].
    destruct (h y); simpl; lia.
Qed.

Lemma unseen_incl g a b : incl a b -> unseen g b <= unseen g a.
Proof.
  intros H. apply filter_length_le. intros x _. rewrite !negb_true_iff, !mem_notIn. intros X Y. auto.
Qed.
Lemma unseen_cons g n seen : In n (gnodes g) -> ~ In n seen -> unseen g (n :: seen) < unseen g seen.
Proof.
  intros Hn Hs. apply (filter_length_lt _ _ _ n); auto.
  - intros x _. rewrite !negb_true_iff, !mem_notIn. simpl. tauto.
  - rewrite negb_false_iff, mem_In. now left.
  - now rewrite negb_true_iff, mem_notIn.
Qed.

(** What has been visited has been visited completely. *)
Definition visited (s' : state) (seen seen' : list nat) : Prop :=
  forall m, In m seen' -> ~ In m seen ->
    (forall c, In c (gchildren (gr s') m) -> bst s' c = Built \/ In c seen')
    /\ (bst s' m = Buildable -> In m (leaves s') \/ exists c, In c (gchildren (gr s') m) /\ bst s' c <> Built).

Lemma visited_trans s0 n0 s1 n1 s2 n2 : ul_spec s0 n0 s1 n1 -> ul_spec s1 n1 s2 n2 ->
  visited s1 n0 n1 -> visited s2 n1 n2 -> visited s2 n0 n2.
Proof.
  intros U1 U2 V1 V2 m Hm Hn. destruct (in_dec Nat.eq_dec m n1) as [X|X]; [|auto].
  destruct (V1 m X Hn) as [A B]. rewrite (fr_gr _ _ (ul_frame _ _ _ _ U2)). split.
  - intros c Hc. destruct (A c Hc) as [Y|Y].
    + left. now apply (mono_built _ _ c (ul_mono _ _ _ _ U2)).
    + right. now apply (ul_seen _ _ _ _ U2).
  - intros Hb. assert (T : bst s1 m = Buildable).
    { destruct (ul_mono _ _ _ _ U2 m) as [E|[E _]]; [congruence|].
      exfalso. now apply (ul_touch _ _ _ _ U1 m X Hn). }
    destruct (B T) as [Y|(c & Hc & Y)].
    + left. now apply (ul_leaves _ _ _ _ U2).
    + right. exists c. split; auto. intros Z. apply Y. now apply (mono_built _ _ c (ul_mono _ _ _ _ U2)).
Qed.

Lemma visited_refl s n : visited s n n.
Proof. intros m H1 H2. contradiction. Qed.

Lemma ul_loop_visited cf g fuel
  (IH : forall n seen s, gr s = g -> In n (gnodes g) -> unseen g seen < fuel ->
     let '(seen', s') := update_leaf fuel n seen s in In n seen' /\ visited s' seen seen') :
  wf_graph cf g ->
  forall l seen s leaf, gr s = g -> incl l (gnodes g) -> unseen g seen < fuel ->
    let '(seen', s', leaf') := fold_left (ul_loop fuel) l (seen, s, leaf) in
    visited s' seen seen'
    /\ (forall c, In c l -> bst s' c = Built \/ In c seen')
    /\ (leaf' = false -> leaf = false \/ exists c, In c l /\ bst s' c <> Built).
Proof.
  intros WF. induction l as [|c l IHl]; intros seen s leaf G Hl Hu; simpl.
  - split; [apply visited_refl|]. split; auto. intros x [].
  - assert (Hl' : incl l (gnodes g)) by (intros x Hx; apply Hl; now right).
    destruct (is_built (bst s c)) eqn:E.
    + pose proof (ul_loop_ok fuel (update_leaf_ok fuel) l seen s leaf) as U.
      specialize (IHl seen s leaf G Hl' Hu). destruct (fold_left _ _ _) as [[seen' s'] leaf'].
      destruct U as [U _]. destruct IHl as (A & B & C). split; auto. split.
      * intros x [<-|Hx]; auto. left. apply (mono_built _ _ c (ul_mono _ _ _ _ U)). now apply is_built_true.
      * intros L. destruct (C L) as [X|(x & X & Y)]; eauto.
    + pose proof (update_leaf_ok fuel c seen s) as U1.
      assert (Hc : In c (gnodes g)) by (apply Hl; now left).
      specialize (IH c seen s G Hc Hu). destruct (update_leaf fuel c seen s) as [sn st].
      destruct IH as [I1 I2].
      assert (G1 : gr st = g) by (rewrite (fr_gr _ _ (ul_frame _ _ _ _ U1)); auto).
      assert (Hu1 : unseen g sn < fuel).
      { pose proof (unseen_incl g seen sn (ul_seen _ _ _ _ U1)). lia. }
      pose proof (ul_loop_ok fuel (update_leaf_ok fuel) l sn st false) as U2.
      specialize (IHl sn st false G1 Hl' Hu1). destruct (fold_left _ _ _) as [[seen' s'] leaf'].
      destruct U2 as [U2 _]. destruct IHl as (A & B & C). split; [eapply visited_trans; eauto|]. split.
      * intros x [<-|Hx]; auto. right. now apply (ul_seen _ _ _ _ U2).
      * intros _. right. exists c. split; auto.
        intros X. apply (mono_built _ _ c (ul_mono _ _ _ _ U2)), (mono_built _ _ c (ul_mono _ _ _ _ U1)) in X.
        apply is_built_true in X. congruence.
Qed.

Lemma update_leaf_visited cf g fuel : wf_graph cf g -> forall n seen s,
  gr s = g -> In n (gnodes g) -> unseen g seen < fuel ->
  let '(seen', s') := update_leaf fuel n seen s in In n seen' /\ visited s' seen seen'.
Proof.
  intros WF. induction fuel as [|fuel IH]; intros n seen s G Hn Hu; [lia|].
  rewrite update_leaf_S. destruct (mem n seen) eqn:M.
  - apply mem_In in M. split; auto. apply visited_refl.
  - apply mem_notIn in M. cbv zeta.
    set (s1 := if is_untouched (bst s n) then _ else s).
    assert (G1 : gr s1 = g) by (unfold s1; destruct (is_untouched _); auto).
    assert (Hu1 : unseen g (n :: seen) < fuel) by (pose proof (unseen_cons g n seen Hn M); lia).
    assert (Hl : incl (gchildren (gr s) n) (gnodes g)).
    { intros c Hc. rewrite G in Hc. eapply wf_edges; eauto. }
    pose proof (ul_loop_visited cf g fuel IH WF (gchildren (gr s) n) (n :: seen) s1 true G1 Hl Hu1) as V.
    pose proof (ul_loop_ok fuel (update_leaf_ok fuel) (gchildren (gr s) n) (n :: seen) s1 true) as U.
    destruct (fold_left (ul_loop fuel) _ _) as [[sn s2] leaf].
    destruct V as (V1 & V2 & V3). destruct U as [U _].
    assert (G2 : gr s2 = gr s) by (rewrite (fr_gr _ _ (ul_frame _ _ _ _ U)); congruence).
    split; [apply (ul_seen _ _ _ _ U); now left|].
    intros m Hm Hnm.
    assert (Lv : forall x, In x (leaves s2) -> In x (leaves (if leaf then set_leaves (n :: leaves s2) s2 else s2)))
      by (intros x Hx; destruct leaf; simpl; auto).
    assert (Gf : gr (if leaf then set_leaves (n :: leaves s2) s2 else s2) = gr s) by (destruct leaf; auto).
    assert (Bf : bst (if leaf then set_leaves (n :: leaves s2) s2 else s2) = bst s2) by (destruct leaf; auto).
    rewrite Gf, Bf. destruct (Nat.eq_dec m n) as [->|Hmn].
    + split; [exact V2|]. intros _. destruct leaf; [left; simpl; auto|]. right.
      destruct (V3 eq_refl) as [X|X]; [discriminate|exact X].
    + destruct (V1 m Hm) as [A B]; [simpl; intros [X|X]; auto|]. rewrite G2 in *. split; auto.
      intros Hb. destruct (B Hb) as [X|X]; auto.
Qed.

Lemma update_leaves_visited cf l s : wf_graph cf (gr s) -> incl l (gnodes (gr s)) ->
  exists seen, ul_spec s [] (update_leaves l s) seen /\ incl l seen /\ visited (update_leaves l s) [] seen.
Proof.
  intros WF Hl. unfold update_leaves. set (fuel := S (length (gnodes (gr s)))).
  assert (Fu : forall seen, unseen (gr s) seen < fuel).
  { intros seen. unfold unseen, fuel. pose proof (filter_length_le (fun m => negb (mem m seen)) (fun _ => true) (gnodes (gr s)) (fun _ _ _ => eq_refl)) as H.
    assert (E : filter (fun _ : nat => true) (gnodes (gr s)) = gnodes (gr s)).
    { clear. induction (gnodes (gr s)) as [|x l IH]; simpl; congruence. }
    rewrite E in H. lia. }
  assert (H : forall l acc, incl l (gnodes (gr s)) -> ul_spec s [] (snd acc) (fst acc) -> visited (snd acc) [] (fst acc) ->
     let acc' := fold_left (fun acc n => update_leaf fuel n (fst acc) (snd acc)) l acc in
     ul_spec s [] (snd acc') (fst acc') /\ incl l (fst acc') /\ incl (fst acc) (fst acc') /\ visited (snd acc') [] (fst acc')).
  { clear l Hl. induction l as [|n l IH]; intros acc Hl Ha Hv; cbv zeta.
    - split; auto. split; [intros x []|]. split; [apply incl_refl|auto].
    - cbn [fold_left]. pose proof (update_leaf_ok fuel n (fst acc) (snd acc)) as U.
      assert (G : gr (snd acc) = gr s) by apply (fr_gr _ _ (ul_frame _ _ _ _ Ha)).
      pose proof (update_leaf_visited cf (gr s) fuel WF n (fst acc) (snd acc) G (Hl n (or_introl eq_refl)) (Fu (fst acc))) as V.
      destruct (update_leaf fuel n (fst acc) (snd acc)) as [sn st]. destruct V as [V1 V2].
      destruct (IH (sn, st)) as (A & B & C & D).
      + intros x Hx; apply Hl; now right.
      + eapply ul_trans; eauto.
      + eapply visited_trans; eauto.
      + refine (conj A (conj _ (conj _ D))).
        * intros x [<-|Hx]; auto.
        * intros x Hx. apply C. simpl. now apply (ul_seen _ _ _ _ U). }
  destruct (H l ([], s) Hl (ul_refl s []) (visited_refl s [])) as (A & B & _ & D).
  exists (fst (fold_left (fun acc n => update_leaf fuel n (fst acc) (snd acc)) l ([], s))). auto.
Qed.

(** *** Marking the reachable nodes *)
Definition fresh (g : graph) (b : nat -> bstate) : nat :=
  length (filter (fun m => is_untouched (b m)) (gnodes g)).

Definition touches (b b' : nat -> bstate) : Prop := forall m, b m <> Untouched -> b' m <> Untouched.

Lemma fresh_le g b b' : touches b b' -> fresh g b' <= fresh g b.
Proof.
  intros H. apply filter_length_le. intros x _. rewrite !is_untouched_true. intros E.
  destruct (b x) eqn:B; auto; exfalso; apply (H x); congruence.
Qed.

Lemma mark_ok cf g fuel : wf_graph cf g -> forall n b, In n (gnodes g) -> fresh g b < fuel ->
  let b' := mark fuel (gchildren g) n b in
  touches b b' /\ b' n <> Untouched
  /\ (forall m, b' m <> Untouched -> b m <> Untouched \/ forall c, In c (gchildren g m) -> b' c <> Untouched).
Proof.
  intros WF. induction fuel as [|fuel IH]; intros n b Hn Hf; [lia|]. cbv zeta. simpl.
  destruct (is_untouched (b n)) eqn:U.
  2:{ split; [intros m; auto|]. split; [intros X; apply is_untouched_true in X; congruence|auto]. }
  apply is_untouched_true in U.
  set (b1 := upd b n Buildable).
  assert (T1 : touches b b1) by (intros m Hm; unfold b1, upd; destruct (m =? n); [discriminate|auto]).
  assert (F1 : fresh g b1 < fuel).
  { enough (fresh g b1 < fresh g b) by lia. apply (filter_length_lt _ _ _ n); auto.
    - intros x _. rewrite !is_untouched_true. intros E. unfold b1, upd in E. destruct (x =? n); [discriminate|auto].
    - unfold b1. now rewrite upd_same.
    - now apply is_untouched_true. }
  assert (Hl : incl (gchildren g n) (gnodes g)) by (intros c Hc; eapply wf_edges; eauto).
  assert (L : forall l b2, incl l (gnodes g) -> fresh g b2 < fuel ->
     let b' := fold_left (fun b c => mark fuel (gchildren g) c b) l b2 in
     touches b2 b' /\ (forall c, In c l -> b' c <> Untouched)
     /\ (forall m, b' m <> Untouched -> b2 m <> Untouched \/ forall c, In c (gchildren g m) -> b' c <> Untouched)).
  { clear Hl. induction l as [|c l IHl]; intros b2 Hl2 Hf2; cbv zeta; simpl.
    - split; [intros m; auto|]. split; [intros c []|auto].
    - destruct (IH c b2) as (A & B & C); auto; [apply Hl2; now left|].
      set (b3 := mark fuel (gchildren g) c b2) in *.
      pose proof (fresh_le g b2 b3 A) as Fl.
      destruct (IHl b3) as (A' & B' & C'); [intros x Hx; apply Hl2; now right|lia|].
      set (b4 := fold_left _ l b3) in *.
      split; [intros m Hm; auto|]. split; [intros x [<-|Hx]; auto|].
      intros m Hm. destruct (C' m Hm) as [X|X]; auto. destruct (C m X) as [Y|Y]; auto. }
  destruct (L (gchildren g n) b1 Hl F1) as (A & B & C). set (b' := fold_left _ _ b1) in *.
  split; [intros m Hm; auto|]. split.
  - apply A. unfold b1. rewrite upd_same. discriminate.
  - intros m Hm. destruct (C m Hm) as [X|X]; auto. destruct (Nat.eq_dec m n) as [->|Hmn]; auto.
    unfold b1 in X. rewrite upd_other in X by auto. auto.
Qed.

Lemma mark_least ch (P : nat -> Prop) fuel : (forall m c, P m -> In c (ch m) -> P c) ->
  forall n b, P n -> (forall m, b m <> Untouched -> P m) -> forall m, mark fuel ch n b m <> Untouched -> P m.
Proof.
  intros HP. induction fuel as [|fuel IH]; intros n b Hn Hb; simpl; auto.
  destruct (is_untouched (b n)); auto.
  assert (L : forall l b2, (forall c, In c l -> P c) -> (forall m, b2 m <> Untouched -> P m) ->
     forall m, fold_left (fun b c => mark fuel ch c b) l b2 m <> Untouched -> P m).
  { induction l as [|c l IHl]; intros b2 H1 H2; simpl; auto. apply IHl; auto.
    - intros; apply H1; now right.
    - apply IH; auto. apply H1; now left. }
  apply L; [intros; eapply HP; eauto|]. intros m. unfold upd. destruct (m =? n) eqn:E; auto.
  apply Nat.eqb_eq in E. now subst.
Qed.

Lemma prepare_ok cf g : wf_graph cf g ->
  let b := prepare_reachable g in
  (forall n, In n (groots g) -> b n <> Untouched)
  /\ (forall m c, b m <> Untouched -> In c (gchildren g m) -> b c <> Untouched)
  /\ (forall P : nat -> Prop, (forall n, In n (groots g) -> P n) -> (forall m c, P m -> In c (gchildren g m) -> P c) ->
        forall m, b m <> Untouched -> P m).
Proof.
  intros WF. cbv zeta. unfold prepare_reachable. set (fuel := S (length (gnodes g))).
  assert (Fu : forall b, fresh g b < fuel).
  { intros b. unfold fresh, fuel. pose proof (filter_length_le (fun m => is_untouched (b m)) (fun _ => true) (gnodes g) (fun _ _ _ => eq_refl)) as H.
    assert (E : filter (fun _ : nat => true) (gnodes g) = gnodes g).
    { clear. induction (gnodes g) as [|x l IH]; simpl; congruence. }
    rewrite E in H. lia. }
  assert (L : forall l b, incl l (gnodes g) -> 
     let b' := fold_left (fun b n => mark fuel (gchildren g) n b) l b in
     touches b b' /\ (forall n, In n l -> b' n <> Untouched)
     /\ (forall m, b' m <> Untouched -> b m <> Untouched \/ forall c, In c (gchildren g m) -> b' c <> Untouched)).
  { induction l as [|n l IH]; intros b Hl; cbv zeta; cbn [fold_left].
    - split; [intros m; auto|]. split; [intros n []|auto].
    - destruct (mark_ok cf g fuel WF n b (Hl n (or_introl eq_refl)) (Fu b)) as (A & B & C).
      set (b1 := mark fuel (gchildren g) n b) in *.
      destruct (IH b1) as (A' & B' & C'); [intros x Hx; apply Hl; now right|].
      set (b' := fold_left _ l b1) in *.
      split; [intros m Hm; auto|]. split; [intros x [<-|Hx]; auto|].
      intros m Hm. destruct (C' m Hm) as [X|X]; auto. destruct (C m X) as [Y|Y]; auto. }
  destruct (L (groots g) (fun _ => Untouched)) as (A & B & C).
  { intros n Hn. now apply (wf_roots _ _ WF). }
  split; [exact B|]. split.
  - intros m c Hm Hc. destruct (C m Hm) as [X|X]; [congruence|auto].
  - intros P HR HC.
    assert (M : forall l b, (forall n, In n l -> P n) -> (forall m, b m <> Untouched -> P m) ->
      forall m, fold_left (fun b n => mark fuel (gchildren g) n b) l b m <> Untouched -> P m).
    { induction l as [|n l IH]; intros b H1 H2; [exact H2|]. cbn [fold_left]. apply IH; auto.
      - intros; apply H1; now right.
      - apply mark_least; auto. apply H1; now left. }
    apply M; auto. intros m X. congruence.
Qed.

(** *** Nothing is forgotten *)
Record TInv (ex : nat -> Prop) (s : state) : Prop := {
  t_closed : forall n c, In n (gnodes (gr s)) -> bst s n = Buildable -> In c (gchildren (gr s) n) ->
     bst s c <> Untouched;
  t_queued : forall n, In n (gnodes (gr s)) -> bst s n = Buildable ->
     ex n \/ In n (leaves s ++ delayed s) \/ exists c, In c (gchildren (gr s) n) /\ bst s c <> Built;
  t_building : forall n, In n (gnodes (gr s)) -> bst s n = Building ->
     ex n \/ exists t, gkind (gr s) n = KGen t /\ (busy s t \/ In (EvFailed t) (log s));
  t_roots : forall n, In n (groots (gr s)) -> bst s n <> Untouched
}.

Lemma is_built_dec b : {b = Built} + {b <> Built}.
Proof. destruct b; auto; right; discriminate. Qed.

Lemma children_built_dec s n : children_built s n \/ exists c, In c (gchildren (gr s) n) /\ bst s c <> Built.
Proof.
  unfold children_built. induction (gchildren (gr s) n) as [|c l IH].
  - left. intros c [].
  - destruct (is_built_dec (bst s c)) as [E|E]; [|right; exists c; simpl; auto].
    destruct IH as [IH|(x & H1 & H2)]; [left|right; exists x; simpl; auto].
    intros x [<-|Hx]; auto.
Qed.

Lemma finish_node_T ex n s : TInv ex s -> TInv (fun m => ex m /\ m <> n) (finish_node n s).
Proof.
  intros [TC TQ TB TR]. pose proof (finish_node_ok n s) as FO. pose proof (fn_frame _ _ _ FO) as F.
  assert (Tn : forall m, bst s m <> Untouched -> bst (finish_node n s) m <> Untouched).
  { intros m Hm. rewrite (fn_bst _ _ _ FO). unfold upd. destruct (m =? n); [discriminate|auto]. }
  assert (Ne : forall m b, bst (finish_node n s) m = b -> b <> Built -> m <> n /\ bst s m = b).
  { intros m b E Hb. rewrite (fn_bst _ _ _ FO) in E. destruct (Nat.eq_dec m n) as [->|X].
    - rewrite upd_same in E. congruence.
    - rewrite upd_other in E by auto. auto. }
  constructor; rewrite ?(fr_gr _ _ F).
  - intros m c Hm Hb Hc. apply Ne in Hb; [|discriminate]. apply Tn. eapply TC; eauto. tauto.
  - intros m Hm Hb. pose proof Hb as Hb'. apply Ne in Hb; [|discriminate]. destruct Hb as [Hmn Hb].
    rewrite (delayed_frame _ _ F).
    destruct (children_built_dec (finish_node n s) m) as [CB|CB].
    2:{ rewrite (fr_gr _ _ F) in CB. auto. }
    destruct (in_dec Nat.eq_dec n (gchildren (gr s) m)) as [Hnm|Hnm].
    + right. left. apply in_or_app. left. apply (fn_complete _ _ _ FO); auto.
    + destruct (TQ m Hm Hb) as [X|[X|(c & Hc & X)]]; auto.
      * right. left. apply in_app_or in X. apply in_or_app. destruct X; auto. left. now apply (fn_old _ _ _ FO).
      * exfalso. apply X. specialize (CB c). rewrite (fr_gr _ _ F) in CB. specialize (CB Hc).
        rewrite (fn_bst _ _ _ FO) in CB. rewrite upd_other in CB; auto. congruence.
  - intros m Hm Hb. apply Ne in Hb; [|discriminate]. destruct Hb as [Hmn Hb]. unfold busy.
    rewrite (fr_procs _ _ F), (fr_log _ _ F). destruct (TB m Hm Hb) as [X|X]; auto.
  - intros m Hm. auto.
Qed.

Lemma TInv_weaken (ex ex' : nat -> Prop) s : (forall m, ex m -> ex' m) ->
  TInv ex s -> TInv ex' s.
Proof.
  intros H [TC TQ TB TR]. constructor; auto; intros n Hn Hb.
  - destruct (TQ n Hn Hb) as [X|X]; auto.
  - destruct (TB n Hn Hb) as [X|X]; auto.
Qed.

Lemma finish_outputs_T inst l : forall ex s s', finish_outputs inst l s = (s', false) ->
  TInv ex s -> TInv (fun m => ex m /\ ~ In m l) s'.
Proof.
  induction l as [|x l IH]; intros ex s s'; simpl.
  - intros [= <-]. apply TInv_weaken. intros m Hm. split; auto.
  - destruct (inst x); [discriminate|]. intros H T.
    pose proof (IH _ _ _ H (finish_node_T ex x s T)) as T2.
    eapply TInv_weaken; [|exact T2]. simpl. intros m [[A B] C]. split; auto. intros [D|D]; auto.
Qed.

Lemma In_remove_nth k l (m n : nat) : nth_error l k = Some n -> m <> n -> In m l -> In m (remove_nth k l).
Proof.
  revert k. induction l as [|x l IH]; intros [|k]; simpl; intros H1 H2; auto; try discriminate.
  - injection H1 as ->. intros [X|X]; [congruence|auto].
  - intros [X|X]; auto.
Qed.

Lemma take_T k n s : nth_error (leaves s) k = Some n -> TInv (fun _ => False) s -> TInv (fun m => m = n) (take k s).
Proof.
  intros Hk [TC TQ TB TR]. constructor; auto.
  2:{ intros m Hm Hb. destruct (TB m Hm Hb) as [[]|X]. right. exact X. }
  intros m Hm Hb. change (delayed (take k s)) with (delayed s).
  destruct (TQ m Hm Hb) as [[]|[X|X]]; auto. destruct (Nat.eq_dec m n) as [E|E]; auto. right. left.
  apply in_app_or in X. apply in_or_app. destruct X as [X|X]; auto. left. now apply (In_remove_nth k _ m n).
Qed.

(** Applying a rule. *)
Lemma rule_T cf s r g cr inv : Inv cf s -> In r (gnodes (gr s)) -> gkind (gr s) r = KRule -> bst s r = Buildable ->
  admissible cf (gr s) (bst s) r g cr inv -> tracking (gr s) (bst s) r g cr inv ->
  TInv (fun m => m = r) s ->
  TInv (fun _ => False) (finish_node r (update_leaves inv (update_leaves cr (adopt g (say (EvApply r) s))))).
Proof.
  intros HI Hr Kr Hb Had Htr [TC TQ TB TR].
  pose proof (ad_result _ _ _ _ _ _ _ Had) as RS.
  set (s1 := adopt g (say (EvApply r) s)).
  assert (W1 : wf_graph cf (gr s1)) by apply (ad_wf _ _ _ _ _ _ _ Had).
  assert (I1 : incl cr (gnodes (gr s1))) by (intros x Hx; apply RS, in_or_app; auto).
  destruct (update_leaves_visited cf cr s1 W1 I1) as (seen2 & U2 & C2 & V2).
  set (s2 := update_leaves cr s1) in *.
  assert (G2 : gr s2 = g) by (rewrite (fr_gr _ _ (ul_frame _ _ _ _ U2)); reflexivity).
  assert (W2 : wf_graph cf (gr s2)) by (rewrite G2; exact W1).
  assert (I2 : incl inv (gnodes (gr s2))) by (rewrite G2; intros x Hx; apply RS, in_or_app; auto).
  destruct (update_leaves_visited cf inv s2 W2 I2) as (seen3 & U3 & C3 & V3).
  set (s3 := update_leaves inv s2) in *.
  assert (G3 : gr s3 = g) by (rewrite (fr_gr _ _ (ul_frame _ _ _ _ U3)); exact G2).
  pose proof (frame_trans _ _ _ (ul_frame _ _ _ _ U2) (ul_frame _ _ _ _ U3)) as F13.
  assert (Old : forall n, In n (gnodes (gr s)) -> bst s1 n = bst s n) by (intros n Hn; now apply (adopt_old s r g n)).
  assert (New : forall n, bst s1 n <> Untouched -> In n (gnodes (gr s))).
  { intros n Hn. destruct (in_dec Nat.eq_dec n (gnodes (gr s))) as [X|X]; auto. exfalso. apply Hn.
    unfold s1, adopt. cbn [bst set_gr set_bst gr say]. apply mem_notIn in X. now rewrite X. }
  assert (Sn : forall n, In n (cr ++ inv) -> In n (seen2 ++ seen3)).
  { intros n Hn. apply in_app_or in Hn. apply in_or_app. destruct Hn; auto. }
  assert (St : forall n, In n (seen2 ++ seen3) -> bst s3 n <> Untouched).
  { intros n Hn. apply in_app_or in Hn. destruct Hn as [Hn|Hn].
    - apply (mono_touched _ _ n (ul_mono _ _ _ _ U3)). apply (ul_touch _ _ _ _ U2 n Hn); auto.
    - apply (ul_touch _ _ _ _ U3 n Hn); auto. }
  assert (Mon : mono (bst s1) (bst s3)) by (eapply mono_trans; [apply (ul_mono _ _ _ _ U2)|apply (ul_mono _ _ _ _ U3)]).
  assert (Uns : forall n, ~ In n (seen2 ++ seen3) -> bst s3 n = bst s1 n).
  { intros n Hn. rewrite (ul_untouched _ _ _ _ U3), (ul_untouched _ _ _ _ U2); auto;
      intros X; apply Hn, in_or_app; auto. }
  assert (B3 : forall n, In n (gnodes (gr s)) -> bst s3 n = Built <-> bst s n = Built).
  { intros n Hn. rewrite <- (Old n Hn). apply (mono_built _ _ n Mon). }
  assert (Vis : forall n, In n (seen2 ++ seen3) ->
     (forall c, In c (gchildren g n) -> bst s3 c <> Untouched)
     /\ (bst s3 n = Buildable -> In n (leaves s3) \/ exists c, In c (gchildren g n) /\ bst s3 c <> Built)).
  { intros n Hn. destruct (in_dec Nat.eq_dec n seen3) as [H3|H3].
    - destruct (V3 n H3 (fun x => x)) as [A B]. rewrite G3 in *. split; auto.
      intros c Hc. destruct (A c Hc) as [X|X]; [congruence|]. apply St, in_or_app; auto.
    - apply in_app_or in Hn. destruct Hn as [H2|H2]; [|contradiction].
      destruct (V2 n H2 (fun x => x)) as [A B]. rewrite G2 in *. split.
      + intros c Hc. destruct (A c Hc) as [X|X]; [|apply St, in_or_app; auto].
        apply (mono_built _ _ c (ul_mono _ _ _ _ U3)) in X. congruence.
      + intros E. rewrite (ul_untouched _ _ _ _ U3 n H3) in E. destruct (B E) as [X|(c & Hc & X)].
        * left. now apply (ul_leaves _ _ _ _ U3).
        * right. exists c. split; auto. intros Y. apply X. now apply (mono_built _ _ c (ul_mono _ _ _ _ U3)). }
  eapply TInv_weaken; [|apply (finish_node_T (fun m => m = r))].
  { intros m [A B]. contradiction. }
  constructor; rewrite ?G3.
  - intros n c Hn E Hc. destruct (in_dec Nat.eq_dec n (seen2 ++ seen3)) as [X|X]; [now apply (Vis n X)|].
    rewrite (Uns n X) in E. assert (Hn0 : In n (gnodes (gr s))) by (apply New; congruence).
    rewrite (Old n Hn0) in E.
    destruct (tr_gain _ _ _ _ _ _ Htr n c Hn Hc) as [[Y Z]|[Y|[Y|[Y Z]]]].
    + assert (Hc0 : In c (gnodes (gr s))) by (eapply wf_edges; [apply HI|eauto|eauto]).
      apply (mono_touched _ _ c Mon). rewrite Old by auto. exact (TC n c Hn0 E Z).
    + exfalso. apply X, Sn, Y.
    + apply St, Sn, Y.
    + apply (mono_touched _ _ c Mon). now rewrite Old.
  - intros n Hn E. destruct (in_dec Nat.eq_dec n (seen2 ++ seen3)) as [X|X].
    { destruct (proj2 (Vis n X) E) as [Y|Y]; auto. right. left. apply in_or_app. auto. }
    rewrite (Uns n X) in E. assert (Hn0 : In n (gnodes (gr s))) by (apply New; congruence).
    rewrite (Old n Hn0) in E. destruct (TQ n Hn0 E) as [Y|[Y|(c & Hc & Y)]]; auto.
    + right. left. rewrite (delayed_frame _ _ F13). apply in_app_or in Y. apply in_or_app. destruct Y as [Y|Y]; auto.
      left. apply (ul_leaves _ _ _ _ U3), (ul_leaves _ _ _ _ U2). exact Y.
    + destruct (Nat.eq_dec n r) as [Hnr|Hnr]; auto. right. right.
      destruct (in_dec Nat.eq_dec r (gchildren (gr s) n)) as [Hd|Hd].
      * exists r. split; [now apply (ad_depends _ _ _ _ _ _ _ Had n Hn0 Hn)|].
        intros Z. apply (B3 r Hr) in Z. congruence.
      * exists c. assert (Hc0 : In c (gnodes (gr s))) by (eapply wf_edges; [apply HI|eauto|eauto]).
        split; [|intros Z; apply Y; now apply B3].
        apply (tr_lost _ _ _ _ _ _ Htr n c); auto.
  - intros n Hn E. apply (mono_building _ _ n Mon) in E.
    assert (Hn0 : In n (gnodes (gr s))) by (apply New; congruence). rewrite (Old n Hn0) in E.
    destruct (TB n Hn0 E) as [->|(t & Kt & Z)]; [congruence|]. right. exists t. split.
    + destruct (ad_kind _ _ _ _ _ _ _ Had n Hn0 Hn) as [X|(t0 & t1 & X & X1 & _)]; [congruence|].
      exfalso. assert (bst s (cf_rule cf t0) = Built); [|congruence].
      eapply g_rule; [apply HI|eauto|eauto|now left].
    + unfold busy in *. rewrite (fr_procs _ _ F13), (fr_log _ _ F13). cbn [s1 adopt procs log set_gr set_bst say].
      destruct Z; auto. right. now right.
  - intros n Hn. destruct (tr_roots _ _ _ _ _ _ Htr n Hn) as [X|X]; [|now apply St, Sn].
    apply (mono_touched _ _ n Mon). rewrite Old; [auto|]. eapply wf_roots; [apply HI|auto].
Qed.

(** Fields that do not matter. *)
Lemma TInv_ext ex s s' : gr s' = gr s -> bst s' = bst s -> incl (leaves s ++ delayed s) (leaves s' ++ delayed s') ->
  (forall t, busy s t -> busy s' t) -> (forall t, In (EvFailed t) (log s) -> In (EvFailed t) (log s')) ->
  TInv ex s -> TInv ex s'.
Proof.
  intros G B L P F [TC TQ TB TR]. constructor; rewrite ?G, ?B; auto.
  - intros n Hn Hb. destruct (TQ n Hn Hb) as [X|[X|X]]; auto.
  - intros n Hn Hb. destruct (TB n Hn Hb) as [Z|(t & K & [X|X])]; auto; right; exists t; auto.
Qed.

Lemma step_T cf s i s' : wf_config cf -> Inv cf s -> ok_input cf s i -> tracking_input s i -> stepd cf s i s' ->
  est s = ERunning -> TInv (fun _ => False) s -> est s' = ERunning -> TInv (fun _ => False) s'.
Proof.
  intros WC HI Hi Ht H Es T Es'.
  destruct H as [k c n d C Hk A B|k c n d C Hk A B Bl|k c n d C Hk A B K|k c n d C Hk A B K Th
    |k c n d C Hk A B K R|k c n d g cr inv C Hk A B K R IB|k c n d t s' C Hk A B K IB F|k c n d t s' C Hk A B K IB F
    |k c n d t C Hk A B K IB Bl RO|d C HL|j ok jb k canceled C Hj Hp|j cancel throw inst jb ok C Hj Hp|C E];
    try (destruct (leaf_facts cf s k n HI Hk) as (Hn & _ & Hcb); pose proof (take_T k n s Hk T) as T1).
  - destruct T1 as [TC TQ TB TR]. constructor; try assumption; [|apply (t_building _ _ T)].
    intros m Hm Hb. destruct (TQ m Hm Hb) as [->|X]; auto. change (bst s n = Buildable) in Hb. destruct B; congruence.
  - destruct T1 as [TC TQ TB TR]. constructor; try assumption; [|apply (t_building _ _ T)]. intros m Hm Hb.
    assert (Dl : delayed (take k s) = d) by (unfold delayed; change (ctl (take k s)) with (ctl s); now rewrite C).
    cbn [delayed ctl set_ctl]. change (leaves (set_ctl (CSched (n :: d)) (take k s))) with (leaves (take k s)).
    right. destruct (TQ m Hm Hb) as [X|[X|X]]; [left|left|right; exact X].
    + subst m. apply in_or_app. right. now left.
    + rewrite Dl in X. apply in_app_or in X. apply in_or_app. destruct X; auto. right. now right.
  - eapply TInv_weaken; [|apply (finish_node_T _ n _ T1)]. intros m [X Y]. contradiction.
  - now apply handle_error_est in Es'.
  - now apply handle_error_est in Es'.
  - exact (rule_T cf (take k s) n g cr inv (take_Inv cf k s HI) Hn K B (Hi n g cr inv Hk K R) (Ht n g cr inv Hk K R) T1).
  - pose proof (finish_outputs_T _ _ (fun m => m = n) _ _ F) as X.
    eapply TInv_weaken; [|apply X].
    + intros m [-> Y]. apply Y. apply In_outs. auto.
    + eapply TInv_ext; [| | | | |exact T1]; auto; [apply incl_refl|]. intros u Hu. now right.
  - now apply handle_error_est in Es'.
  - destruct (run_transformer_eq cf (take k s) t A) as (j & rest & _ & E). rewrite E in *.
    destruct T1 as [TC TQ TB TR].
    assert (Bu : forall m b, (if mem m (outs (gr s) t) then Building else bst s m) = b -> b <> Building ->
       ~ In m (outs (gr s) t) /\ bst s m = b).
    { intros m b X Hb. destruct (mem m (outs (gr s) t)) eqn:M; [congruence|]. apply mem_notIn in M. auto. }
    constructor; cbn [gr bst leaves procs log ctl take set_leaves] in *.
    + intros m c0 Hm Hb Hc. apply Bu in Hb; [|discriminate]. destruct (mem c0 (outs (gr s) t)); [discriminate|].
      apply (TC m c0); tauto.
    + intros m Hm Hb. apply Bu in Hb; [|discriminate]. destruct Hb as [Ho Hb]. right.
      destruct (TQ m Hm Hb) as [X|[X|(c0 & Hc & X)]].
      * exfalso. subst m. apply Ho. apply In_outs. auto.
      * left. exact X.
      * right. exists c0. split; auto. destruct (mem c0 (outs (gr s) t)); [discriminate|exact X].
    + intros m Hm Hb. destruct (mem m (outs (gr s) t)) eqn:M.
      * apply mem_In, In_outs in M. right. exists t. split; [tauto|]. left. left. reflexivity.
      * right. destruct (TB m Hm Hb) as [->|(u & Ku & [X|X])]; [congruence| |]; exists u; split; auto; [left; right; exact X|right].
        destruct (cf_ncmds cf t); simpl; auto.
    + intros m Hm. destruct (mem m (outs (gr s) t)); [discriminate|]. now apply TR.
  - destruct (sched_end_cases cf d s) as [(_ & _ & E)|(_ & E)]; rewrite E in *.
    + exfalso. destruct (finish_fields cf (set_leaves (d ++ leaves s) s)) as (_ & _ & _ & _ & _ & _ & X & _). congruence.
    + eapply TInv_ext; [| | | | |exact T]; auto. unfold delayed. rewrite C. cbn [ctl leaves set_ctl set_leaves].
      intros x Hx. rewrite app_nil_r. apply in_app_or in Hx. apply in_or_app. tauto.
  - assert (L : leaves (cmd_finished cf jb k canceled ok s) = leaves s /\ ctl (cmd_finished cf jb k canceled ok s) = ctl s
       /\ map jtr (procs (cmd_finished cf jb k canceled ok s)) = map jtr (procs s)
       /\ (forall t, In (EvFailed t) (log s) -> In (EvFailed t) (log (cmd_finished cf jb k canceled ok s)))).
    { unfold cmd_finished. destruct canceled, ok, (S k <? cf_ncmds cf (jtr jb)); simpl; rewrite ?set_phase_trs; auto. }
    destruct L as (L1 & L2 & L3 & L4). destruct (cmd_finished_bst cf jb k canceled ok s) as [X1 X2].
    eapply TInv_ext; [| | | | |exact T]; auto.
    + unfold delayed. rewrite L1, L2. apply incl_refl.
    + intros t Hb. unfold busy. now rewrite L3.
  - unfold job_slot in *. cbv zeta in *.
    set (sa := if negb ok && negb (cf_keepgoing cf) then _ else s) in *.
    assert (Ga : gr sa = gr s /\ bst sa = bst s /\ leaves sa = leaves s /\ ctl sa = ctl s /\ procs sa = procs s /\ log sa = log s).
    { unfold sa. destruct (negb ok && negb (cf_keepgoing cf)); auto; [destruct (errs s)|]; auto 10. }
    destruct Ga as (Ga1 & Ga2 & Ga3 & Ga4 & Ga5 & Ga6).
    set (sb := set_jobs _ _ _ sa) in *. set (sc := say _ sb) in *.
    match type of Es' with context [let '(_, _) := ?p in _] => destruct p as [s4 th] eqn:Ef end.
    destruct th; [now apply handle_error_est in Es'|].
    assert (NB : forall u, busy s u -> u <> jtr jb -> busy sc u).
    { intros u Hu Hne. unfold busy in *. cbn [sc procs say sb set_jobs]. rewrite Ga5.
      apply in_map_iff in Hu. destruct Hu as (x & <- & Hx). apply in_map. apply drop_job_In. split; auto.
      intros X. apply Hne. f_equal. eapply NoDup_map_inj; [|exact Hx|exact Hj|exact X].
      pose proof (j_ids _ _ (inv_j _ _ HI)) as N. clear - N.
      induction (map jid (procs s)) as [|y l IH]; [constructor|]. simpl in N. inversion N; subst. constructor; auto.
      intros Y. apply H1, in_or_app. auto. }
    assert (T4 : TInv (fun _ => False) s4).
    { destruct T as [TC TQ TB TR]. destruct ok.
      - destruct throw; [discriminate|].
        pose proof (finish_outputs_T _ _ (fun m => In m (outs (gr s) (jtr jb))) _ _ Ef) as X.
        assert (Gs : gr sc = gr s) by exact Ga1. rewrite Gs in X.
        eapply TInv_weaken; [|apply X]; [intros m [Y Z]; contradiction|].
        constructor; rewrite ?Gs; change (bst sc) with (bst sa); rewrite ?Ga2; auto.
        + intros m Hm Hb. destruct (TQ m Hm Hb) as [[]|Y]. right.
          unfold delayed in *. change (ctl sc) with (ctl sa). change (leaves sc) with (leaves sa). rewrite Ga3, Ga4. exact Y.
        + intros m Hm Hb. destruct (TB m Hm Hb) as [[]|(u & Ku & Y)].
          destruct (Nat.eq_dec u (jtr jb)) as [->|Hu]; [left; apply In_outs; auto|right].
          exists u. split; auto. destruct Y as [Y|Y]; [left; auto|right; right; cbn [log sb set_jobs]; now rewrite Ga6].
      - injection Ef as <-.
        assert (Gs : gr sc = gr s) by exact Ga1.
        constructor; rewrite ?Gs; change (bst sc) with (bst sa); rewrite ?Ga2; auto.
        + intros m Hm Hb. destruct (TQ m Hm Hb) as [[]|Y]. right.
          unfold delayed in *. change (ctl sc) with (ctl sa). change (leaves sc) with (leaves sa). rewrite Ga3, Ga4. exact Y.
        + intros m Hm Hb. destruct (TB m Hm Hb) as [[]|(u & Ku & Y)]. right. exists u. split; auto.
          destruct (Nat.eq_dec u (jtr jb)) as [->|Hu]; [right; now left|].
          destruct Y as [Y|Y]; [left; auto|right; right; cbn [log sb set_jobs]; now rewrite Ga6]. }
    assert (D4 : delayed s4 = []).
    { assert (Y : ctl s4 = CWait).
      { destruct ok; [destruct throw; [discriminate|]|].
        - apply finish_outputs_frame in Ef. rewrite (fr_ctl _ _ Ef). cbn [ctl sc say sb set_jobs]. congruence.
        - injection Ef as <-. cbn [ctl sc say sb set_jobs]. congruence. }
      unfold delayed. now rewrite Y. }
    set (s5 := if negb ok && negb (cf_keepgoing cf) then cancel_jobs s4 else s4) in *.
    set (s6 := match est s5 with ERunning => _ | _ => _ end) in *.
    assert (X : est s6 = ERunning /\ s6 = s4).
    { destruct (est s6) eqn:E6.
      - cbn [est set_ctl] in Es'. congruence.
      - split; auto. unfold s6 in *. destruct (est s5) eqn:E5; try congruence.
        destruct cancel; [rewrite cancel_jobs_est in E6; discriminate|].
        unfold s5 in *. destruct (negb ok && negb (cf_keepgoing cf)); auto. rewrite cancel_jobs_est in E5. discriminate.
      - exfalso. destruct (procs s6).
        + destruct (finish_fields cf s6) as (_ & _ & _ & _ & _ & _ & X & _). congruence.
        + cbn [est set_ctl] in Es'. congruence. }
    destruct X as [X1 X2]. rewrite X1, X2. eapply TInv_ext; [| | | | |exact T4]; auto.
    rewrite D4. apply incl_refl.
  - rewrite cancel_jobs_est in Es'. discriminate.
Qed.

Lemma init_T cf g : wf_graph cf g -> TInv (fun _ => False) (init cf g).
Proof.
  intros WF. unfold init. set (s0 := {| gr := g |}).
  assert (I0 : incl (groots g) (gnodes (gr s0))) by (intros n Hn; apply (wf_roots _ _ WF); auto).
  destruct (update_leaves_visited cf (groots g) s0 WF I0) as (seen & U & C & V).
  destruct (prepare_ok cf g WF) as (P1 & P2 & P3).
  set (s1 := update_leaves (groots g) s0) in *.
  assert (G1 : gr s1 = g) by apply (fr_gr _ _ (ul_frame _ _ _ _ U)).
  pose proof (ul_mono _ _ _ _ U) as M.
  assert (NB : forall m, bst s1 m <> Built /\ bst s1 m <> Building).
  { intros m. destruct (M m) as [E|[_ E]]; rewrite E; [|split; discriminate]. cbn [bst s0].
    destruct (prepare_range g m) as [X|X]; rewrite X; split; discriminate. }
  assert (Cl : forall m c, In m seen -> In c (gchildren g m) -> In c seen).
  { intros m c Hm Hc. destruct (V m Hm (fun x => x)) as [A _]. rewrite G1 in A.
    destruct (A c Hc) as [X|X]; auto. now apply NB in X. }
  assert (All : forall m, bst s1 m <> Untouched -> In m seen).
  { intros m Hm. destruct (in_dec Nat.eq_dec m seen) as [X|X]; auto.
    rewrite (ul_untouched _ _ _ _ U m X) in Hm. apply (P3 (fun m => In m seen)); auto. }
  constructor; rewrite ?G1.
  - intros n c Hn Hb Hc. apply (ul_touch _ _ _ _ U); auto. apply (Cl n); auto. apply All. congruence.
  - intros n Hn Hb. right. destruct (V n) as [_ B]; auto; [apply All; congruence|]. rewrite G1 in B.
    destruct (B Hb) as [X|X]; auto. left. apply in_or_app. auto.
  - intros n Hn Hb. now apply NB in Hb.
  - intros n Hn. apply (ul_touch _ _ _ _ U); auto.
Qed.

Lemma init_est cf g : est (init cf g) = ERunning.
Proof.
  unfold init. set (s0 := {| gr := g |}). destruct (update_leaves_spec (groots g) s0) as [x U].
  now rewrite (fr_est _ _ (ul_frame _ _ _ _ U)).
Qed.

Lemma reachable_tracking_reachable cf g s : reachable_tracking cf g s -> reachable cf g s.
Proof. intros H. induction H; [constructor|econstructor; eauto]. Qed.

Lemma reachable_T cf g s : wf_config cf -> wf_graph cf g -> reachable_tracking cf g s ->
  est s = ERunning -> TInv (fun _ => False) s.
Proof.
  intros WC WF H. induction H as [|s i s' H IH Hi Ht Hs]; intros Es; [now apply init_T|].
  apply reachable_tracking_reachable in H. pose proof (reachable_Inv cf g s WC WF H) as HI.
  assert (E : est s = ERunning).
  { destruct (est s) eqn:E; auto; exfalso; destruct (stopped_step cf s i s' HI Hi Hs) as [_ X]; congruence. }
  eapply step_T; eauto. now apply step_stepd.
Qed.

(** *** What a finished build looks like *)
Lemma stuck_nodes cf s : Inv cf s -> TInv (fun _ => False) s -> leaves s ++ delayed s = [] -> procs s = [] ->
  acyclic (gr s) -> forall n, In n (gnodes (gr s)) -> bst s n <> Untouched -> bst s n = Built \/
    exists o t, below (gr s) n o /\ In o (outs (gr s) t) /\ In (EvFailed t) (log s).
Proof.
  intros HI T L P (rank & Hr).
  assert (X : forall k n, rank n < k -> In n (gnodes (gr s)) -> bst s n <> Untouched -> bst s n = Built \/
    exists o t, below (gr s) n o /\ In o (outs (gr s) t) /\ In (EvFailed t) (log s)).
  { induction k as [|k IH]; intros n Hk Hn Hb; [lia|]. destruct (bst s n) eqn:B; auto; [congruence| |].
    - right. destruct (t_queued _ _ T n Hn B) as [[]|[X|(c & Hc & X)]]; [rewrite L in X; destruct X|].
      assert (Hc2 : In c (gnodes (gr s))) by (eapply wf_edges; [apply HI|eauto|eauto]).
      specialize (Hr n c Hn Hc).
      assert (D := IH c ltac:(lia) Hc2 (t_closed _ _ T n c Hn B Hc)).
      destruct D as [Y|(o & t & Y1 & Y2)]; [contradiction|].
      exists o, t. split; auto. econstructor; eauto.
    - right. destruct (t_building _ _ T n Hn B) as [[]|(t & K & [X|X])].
      + unfold busy in X. rewrite P in X. destruct X.
      + exists n, t. split; [constructor|]. split; auto. apply In_outs. auto. }
  intros n. apply (X (S (rank n))). lia.
Qed.

Lemma finish_errs cf s : errs (finish cf s) =
  errs s ++ (if negb (cf_rulesonly cf) && negb (forallb (fun n => is_built (bst s n)) (groots (gr s))) then [EUnbuilt] else [])
         ++ (if expl s then [ECancelMsg] else []).
Proof.
  unfold finish. cbv zeta. cbn [errs say set_ctl set_est set_errs].
  destruct (_ && _), (expl s); rewrite ?app_nil_r, <- ?app_assoc; reflexivity.
Qed.

Lemma handle_error_records cf e s : In e (errs (handle_error cf e s)).
Proof.
  unfold handle_error. cbv zeta. set (s1 := set_errs (errs s ++ [e]) s).
  assert (X : In e (errs s1)) by (apply in_or_app; right; now left).
  destruct (procs s1).
  - rewrite finish_errs. apply in_or_app. now left.
  - cbn [errs set_ctl]. destruct (cancel_jobs_misc s1) as (_ & _ & _ & _ & _ & E & _). now rewrite E.
Qed.

Lemma cancel_jobs_logs s : est s = ERunning -> In EvCancel (log (cancel_jobs s)).
Proof. unfold cancel_jobs. intros ->. now left. Qed.

Lemma grows_In P s s' e : grows P s s' -> In e (log s) -> In e (log s').
Proof. intros (l & E & _) H. rewrite E. apply in_or_app. auto. Qed.

(** How a running build stops running. *)
Lemma step_out cf s i s' : Inv cf s -> ok_input cf s i -> stepd cf s i s' -> est s = ERunning -> est s' <> ERunning ->
  In EvCancel (log s') \/ (exists e, exceptional e /\ In e (errs s'))
  \/ (exists d, ctl s = CSched d /\ d ++ leaves s = [] /\ procs s = [] /\ s' = finish cf (set_leaves (d ++ leaves s) s)).
Proof.
  intros HI Hi H Es Es'.
  destruct H as [k c n d C Hk A B|k c n d C Hk A B Bl|k c n d C Hk A B K|k c n d C Hk A B K Th
    |k c n d C Hk A B K R|k c n d g cr inv C Hk A B K R IB|k c n d t s' C Hk A B K IB F|k c n d t s' C Hk A B K IB F
    |k c n d t C Hk A B K IB Bl RO|d C HL|j ok jb k canceled C Hj Hp|j cancel throw inst jb ok C Hj Hp|C E].
  - contradiction.
  - contradiction.
  - exfalso. apply Es'. now rewrite (fr_est _ _ (fn_frame _ _ _ (finish_node_ok n (take k s)))).
  - right. left. exists (EException n). split; [exact I|apply handle_error_records].
  - right. left. exists (EException n). split; [exact I|apply handle_error_records].
  - exfalso. apply Es'. rewrite (fr_est _ _ (fn_frame _ _ _ (finish_node_ok n _))).
    destruct (update_leaves_spec inv (update_leaves cr (adopt g (say (EvApply n) (take k s))))) as [x U].
    rewrite (fr_est _ _ (ul_frame _ _ _ _ U)).
    destruct (update_leaves_spec cr (adopt g (say (EvApply n) (take k s)))) as [y V].
    rewrite (fr_est _ _ (ul_frame _ _ _ _ V)). exact Es.
  - exfalso. apply Es'. apply finish_outputs_frame in F. rewrite (fr_est _ _ F). exact Es.
  - right. left. exists (EException n). split; [exact I|apply handle_error_records].
  - exfalso. apply Es'. destruct (run_transformer_eq cf (take k s) t A) as (j & rest & _ & E). rewrite E. exact Es.
  - destruct (sched_end_cases cf d s) as [(X & Y & E)|(_ & E)].
    + right. right. exists d. auto.
    + exfalso. apply Es'. rewrite E. exact Es.
  - exfalso. apply Es'. unfold cmd_finished. destruct canceled, ok, (S k <? cf_ncmds cf (jtr jb)); auto.
  - unfold job_slot in *. cbv zeta in *.
    set (sa := if negb ok && negb (cf_keepgoing cf) then _ else s) in *.
    assert (Ga : est sa = ERunning).
    { unfold sa. destruct (negb ok && negb (cf_keepgoing cf)); auto. destruct (errs s); auto. }
    set (sb := set_jobs _ _ _ sa) in *. set (sc := say _ sb) in *.
    match goal with |- context [let '(_, _) := ?p in _] => destruct p as [s4 th] eqn:Ef end.
    assert (G4 : est s4 = ERunning).
    { destruct ok; [destruct throw|].
      - injection Ef as <- _. exact Ga.
      - apply finish_outputs_frame in Ef. rewrite (fr_est _ _ Ef). exact Ga.
      - injection Ef as <- _. exact Ga. }
    destruct th.
    + right. left. exists (EOutput (jtr jb)). split; [exact I|apply handle_error_records].
    + left. set (b := negb ok && negb (cf_keepgoing cf)) in *.
      set (s5 := if b then cancel_jobs s4 else s4) in *.
      set (s6 := match est s5 with ERunning => _ | _ => _ end) in *.
      assert (X : est s6 <> ERunning).
      { intros X. apply Es'. now rewrite X. }
      assert (L6 : In EvCancel (log s6)).
      { unfold s6 in *. unfold s5 in *. destruct b.
        - rewrite cancel_jobs_est. now apply cancel_jobs_logs.
        - rewrite G4 in *. destruct cancel; [|congruence]. now apply (cancel_jobs_logs (set_expl true s4)). }
      destruct (est s6); [exact L6|exact L6|]. destruct (procs s6); [|exact L6].
      eapply grows_In; [apply finish_grows|exact L6].
  - left. now apply cancel_jobs_logs.
Qed.

(** A build that has ended in the ordinary way. *)
Definition complete (cf : config) (s : state) : Prop :=
  leaves s ++ delayed s = [] /\ procs s = [] /\ TInv (fun _ => False) s /\ ctl s = CFinished
  /\ errs s = (if negb (cf_rulesonly cf) && negb (forallb (fun n => is_built (bst s n)) (groots (gr s)))
               then [EUnbuilt] else []).

Lemma reachable_ended cf g s : wf_config cf -> wf_graph cf g -> reachable_tracking cf g s ->
  est s <> ERunning -> In EvCancel (log s) \/ (exists e, exceptional e /\ In e (errs s)) \/ complete cf s.
Proof.
  intros WC WF H. induction H as [|s i s' H IH Hi Ht Hs]; intros Es.
  - exfalso. apply Es, init_est.
  - pose proof (reachable_tracking_reachable _ _ _ H) as H0.
    pose proof (reachable_Inv cf g s WC WF H0) as HI.
    assert (D : est s = ERunning \/ est s <> ERunning) by (destruct (est s); auto; right; discriminate).
    destruct D as [E|E].
    + pose proof (step_stepd cf s i s' HI Hs) as SD.
      destruct (step_out cf s i s' HI Hi SD E Es) as [X|[X|(d & C & L & P & ->)]]; auto.
      right. right. pose proof (reachable_T cf g s WC WF H E) as T.
      set (s1 := set_leaves (d ++ leaves s) s).
      destruct (finish_fields cf s1) as (F1 & F2 & F3 & F4 & F5 & F6 & F7 & F8 & F9 & F10 & F11).
      assert (X : expl s = false).
      { destruct (expl s) eqn:X; auto. exfalso. apply (c_expl _ _ (inv_c _ _ HI) X). exact E. }
      unfold complete. rewrite F8, F6, F1, F2, F3. unfold delayed. rewrite F8. cbn [s1 leaves set_leaves procs].
      rewrite L. split; auto. split; auto. split; [|split; auto].
      * eapply TInv_ext; [| | | | |exact T]; auto.
        -- unfold delayed. rewrite C, F8, F3. cbn [s1 leaves set_leaves]. intros x Hx. rewrite app_nil_r.
           apply in_app_or in Hx. apply in_or_app. tauto.
        -- intros t X0. rewrite F11. right. exact X0.
      * rewrite finish_errs. cbn [s1 errs set_leaves expl bst gr]. rewrite X, (c_err _ _ (inv_c _ _ HI) E).
        rewrite app_nil_r. reflexivity.
    + destruct (stopped_step cf s i s' HI Hi Hs E) as [G _].
      destruct (IH E) as [X|[(e & X & Y)|X]].
      * left. eapply grows_In; eauto.
      * (* exceptions: either finished, then no step, or cancelling *)
        destruct (est s) eqn:Es0; [|congruence|].
        -- exfalso. pose proof (inv_c _ _ HI) as HC. destruct (ctl s) eqn:C.
           ++ pose proof (c_sched _ _ HC _ C). congruence.
           ++ destruct (c_wait _ _ HC C). congruence.
           ++ unfold step in Hs. rewrite C in Hs. destruct i; discriminate.
           ++ now apply (c_assert _ _ HC).
        -- left. eapply grows_In; [exact G|]. apply (c_log2 _ _ (inv_c _ _ HI) Es0).
      * exfalso. destruct X as (_ & _ & _ & C & _). unfold step in Hs. rewrite C in Hs. destruct i; discriminate.
Qed.

(** *** Something can always happen *)
Lemma progress cf s : Inv cf s -> ctl s = CFinished \/
  exists i s', i <> ITick /\ ok_input cf s i /\ step cf s i = Some s'.
Proof.
  intros HI. pose proof (inv_c _ _ HI) as HC. destruct (ctl s) as [d| | |] eqn:C; auto; [right|right|].
  - destruct (leaves s) as [|n l] eqn:L; [|destruct (avail s) as [|a av] eqn:A].
    + exists ISchedEnd. eexists. split; [discriminate|]. split; [exact I|]. unfold step. rewrite C, L. reflexivity.
    + exists ISchedEnd. eexists. split; [discriminate|]. split; [exact I|]. unfold step. rewrite C, L, A. reflexivity.
    + exists (ILeaf 0 {| c_throw := false; c_skip := false; c_inst := fun _ => false; c_rule := RThrow |}). eexists.
      split; [discriminate|]. split; [intros; discriminate|]. unfold step. rewrite C, L, A. reflexivity.
  - destruct (c_wait _ _ HC C) as [_ P]. destruct (procs s) as [|jb l] eqn:P0; [congruence|].
    destruct (jph jb) eqn:Ph.
    + exists (ICmd (jid jb) true). eexists. split; [discriminate|]. split; [exact I|].
      unfold step. rewrite C, P0. cbn [find_job]. rewrite Nat.eqb_refl, Ph. reflexivity.
    + exists (ISlot (jid jb) false false (fun _ => false)). eexists. split; [discriminate|]. split; [exact I|].
      unfold step. rewrite C, P0. cbn [find_job]. rewrite Nat.eqb_refl, Ph. reflexivity.
  - now apply (c_assert _ _ HC) in C.
Qed.

(** *** Every build ends *)
Definition lex {A B} (RA : A -> A -> Prop) (RB : B -> B -> Prop) (x y : A * B) : Prop :=
  RA (fst x) (fst y) \/ (fst x = fst y /\ RB (snd x) (snd y)).

Lemma wf_lex {A B} (RA : A -> A -> Prop) (RB : B -> B -> Prop) :
  well_founded RA -> well_founded RB -> well_founded (lex RA RB).
Proof.
  intros WA WB [a b]. revert b. induction (WA a) as [a _ IHa]. intros b.
  induction (WB b) as [b _ IHb]. constructor. intros [a' b'] [H|[E H]]; simpl in *; auto. subst. auto.
Qed.

Definition lt5 : (nat * (nat * (nat * (nat * nat)))) -> _ -> Prop := lex lt (lex lt (lex lt (lex lt lt))).
Lemma wf_lt5 : well_founded lt5.
Proof. repeat apply wf_lex; apply lt_wf. Qed.

Lemma lex_le {B} (RB : B -> B -> Prop) a a' b b' : a' <= a -> RB b' b -> lex lt RB (a', b') (a, b).
Proof.
  intros H R. unfold lex. simpl. destruct (Nat.eq_dec a' a) as [->|E]; auto. left. lia.
Qed.
Lemma lex_lt {B} (RB : B -> B -> Prop) a a' b b' : a' < a -> lex lt RB (a', b') (a, b).
Proof. intros H. now left. Qed.

Definition rank_est (e : estate) : nat := match e with ERunning => 2 | ECanceling => 1 | Idle => 0 end.
Definition is_rule (k : kind) : bool := match k with KRule => true | _ => false end.
Definition is_active (b : bstate) : bool := match b with Building | Built => true | _ => false end.
Definition todo_rules (s : state) : nat :=
  length (filter (fun n => is_rule (gkind (gr s) n) && negb (is_built (bst s n))) (gnodes (gr s))).
Definition todo_artifacts (s : state) : nat :=
  length (filter (fun n => negb (is_rule (gkind (gr s) n)) && negb (is_active (bst s n))) (gnodes (gr s))).
Definition jweight (cf : config) (j : job) : nat :=
  match jph j with Running i _ => 2 + (cf_ncmds cf (jtr j) - i) | Done _ => 1 end.
Definition weight (cf : config) (l : list job) : nat := list_sum (map (jweight cf) l).
Definition todo_leaves (s : state) : nat := match ctl s with CSched _ => S (length (leaves s)) | _ => 0 end.

Definition mu (cf : config) (s : state) :=
  (rank_est (est s), (todo_rules s, (todo_artifacts s, (weight cf (procs s), todo_leaves s)))).

Lemma is_active_true b : is_active b = true <-> active b.
Proof. unfold active. destruct b; simpl; split; try tauto; try discriminate; intros [X|X]; discriminate. Qed.

(** Build states that only advance do not increase the amount of work. *)
Definition advances (s s' : state) : Prop :=
  gr s' = gr s /\ forall n, (bst s n = Built -> bst s' n = Built) /\ (active (bst s n) -> active (bst s' n)).

Lemma advances_rules s s' : advances s s' -> todo_rules s' <= todo_rules s.
Proof.
  intros [G H]. unfold todo_rules. rewrite G. apply filter_length_le. intros n _.
  rewrite !andb_true_iff, !negb_true_iff. intros [A B]. split; auto.
  destruct (is_built (bst s n)) eqn:E; auto. apply is_built_true in E. apply (H n) in E.
  apply is_built_true in E. congruence.
Qed.
Lemma advances_artifacts s s' : advances s s' -> todo_artifacts s' <= todo_artifacts s.
Proof.
  intros [G H]. unfold todo_artifacts. rewrite G. apply filter_length_le. intros n _.
  rewrite !andb_true_iff, !negb_true_iff. intros [A B]. split; auto.
  destruct (is_active (bst s n)) eqn:E; auto. apply is_active_true in E. apply (H n) in E.
  apply is_active_true in E. congruence.
Qed.
Lemma advances_rule s s' n : advances s s' -> In n (gnodes (gr s)) -> gkind (gr s) n = KRule ->
  bst s n <> Built -> bst s' n = Built -> todo_rules s' < todo_rules s.
Proof.
  intros [G H] Hn K B B'. unfold todo_rules. rewrite G. apply (filter_length_lt _ _ _ n); auto.
  - intros m _. rewrite !andb_true_iff, !negb_true_iff. intros [X Y]. split; auto.
    destruct (is_built (bst s m)) eqn:E; auto. apply is_built_true in E. apply (H m) in E.
    apply is_built_true in E. congruence.
  - rewrite B'. now rewrite andb_false_r.
  - rewrite K. simpl. destruct (bst s n); auto; congruence.
Qed.
Lemma advances_artifact s s' n : advances s s' -> In n (gnodes (gr s)) -> gkind (gr s) n <> KRule ->
  ~ active (bst s n) -> active (bst s' n) -> todo_artifacts s' < todo_artifacts s.
Proof.
  intros [G H] Hn K B B'. unfold todo_artifacts. rewrite G. apply (filter_length_lt _ _ _ n); auto.
  - intros m _. rewrite !andb_true_iff, !negb_true_iff. intros [X Y]. split; auto.
    destruct (is_active (bst s m)) eqn:E; auto. apply is_active_true in E. apply (H m) in E.
    apply is_active_true in E. congruence.
  - apply is_active_true in B'. rewrite B'. now rewrite andb_false_r.
  - destruct (is_active (bst s n)) eqn:E; [apply is_active_true in E; contradiction|].
    destruct (gkind (gr s) n); auto; congruence.
Qed.

Lemma advances_same s s' : gr s' = gr s -> bst s' = bst s -> advances s s'.
Proof. intros G B. split; auto. intros n. rewrite B. auto. Qed.

Lemma finish_outputs_advances inst l : forall s s' th, finish_outputs inst l s = (s', th) -> advances s s'.
Proof.
  intros s s' th H. split; [apply finish_outputs_frame in H; apply (fr_gr _ _ H)|].
  intros n. split; [now apply (finish_outputs_keeps _ _ _ _ _ H)|].
  revert s s' th H. induction l as [|x l IH]; intros s s' th; simpl; [intros [= <- _]; auto|].
  destruct (inst x); [intros [= <- _]; auto|]. intros H Ha. apply (IH _ _ _ H).
  rewrite (fn_bst _ _ _ (finish_node_ok x s)). unfold upd. destruct (n =? x); auto. now right.
Qed.

Lemma cancel_jobs_weight cf s : weight cf (procs (cancel_jobs s)) = weight cf (procs s).
Proof.
  unfold cancel_jobs. destruct (est s); auto; cbn [procs say set_procs set_est]; unfold weight; rewrite map_map;
  f_equal; apply map_ext; intros j; unfold jweight, cancel_job; destruct (jph j) eqn:E; cbn [jph jtr]; rewrite ?E; auto.
Qed.

Lemma handle_error_mu cf e s : est s <> Idle -> weight cf (procs (handle_error cf e s)) = weight cf (procs s)
  /\ rank_est (est (handle_error cf e s)) <= rank_est (est s).
Proof.
  intros NI. unfold handle_error. cbv zeta. set (s1 := set_errs _ s). destruct (procs s1) eqn:P.
  - destruct (finish_fields cf s1) as (_ & _ & _ & _ & _ & -> & -> & _). simpl. split; auto. lia.
  - cbn [procs set_ctl est]. rewrite cancel_jobs_weight, cancel_jobs_est. split; auto. simpl. destruct (est s); simpl; auto; congruence.
Qed.

Lemma slot_tail_mu cf (b cancel : bool) s4 : est s4 <> Idle -> let s' :=
   (let s := if b then cancel_jobs s4 else s4 in
    let s := match est s with
             | ERunning => if cancel then cancel_jobs (set_expl true s) else s
             | _ => s
             end in
    match est s with
    | ECanceling => match procs s with [] => finish cf s | _ :: _ => set_ctl CWait s end
    | _ => set_ctl (CSched []) s
    end) in weight cf (procs s') = weight cf (procs s4) /\ rank_est (est s') <= rank_est (est s4).
Proof.
  intros NI. cbv zeta. set (s1 := if b then cancel_jobs s4 else s4).
  assert (G1 : weight cf (procs s1) = weight cf (procs s4) /\ rank_est (est s1) <= rank_est (est s4)).
  { unfold s1. destruct b; auto. rewrite cancel_jobs_weight, cancel_jobs_est. split; auto.
    destruct (est s4); simpl; auto; congruence. }
  set (s2 := match est s1 with ERunning => _ | _ => _ end).
  assert (G2 : weight cf (procs s2) = weight cf (procs s4) /\ rank_est (est s2) <= rank_est (est s4)).
  { unfold s2. destruct (est s1) eqn:E1; rewrite ?E1; auto. destruct cancel; rewrite ?E1; auto.
    rewrite cancel_jobs_weight, cancel_jobs_est. split; [tauto|]. simpl in *. lia. }
  destruct (est s2) eqn:E2; [|split; [apply G2|cbn [est set_ctl]; rewrite E2; apply G2]|].
  - split; [apply G2|cbn [est set_ctl]; rewrite E2; apply G2].
  - destruct (procs s2) eqn:P2.
    + destruct (finish_fields cf s2) as (_ & _ & _ & _ & _ & -> & -> & _). rewrite P2. split; [tauto|simpl; lia].
    + cbn [procs est set_ctl]. rewrite P2, E2. tauto.
Qed.

Lemma drop_weight cf l jb : NoDup (map jid l) -> In jb l -> weight cf (drop_job (jid jb) l) < weight cf l.
Proof.
  intros N H. unfold weight. 
  assert (E : forall a b, Permutation a b -> list_sum a = list_sum b).
  { intros a b P. induction P; simpl in *; lia. }
  rewrite (E _ _ (Permutation_map (jweight cf) (drop_job_perm l jb N H))).
  cbn [map list_sum fold_right]. change (fold_right Nat.add 0) with list_sum.
  assert (0 < jweight cf jb) by (unfold jweight; destruct (jph jb); lia). lia.
Qed.

Lemma set_phase_weight cf l jb p : NoDup (map jid l) -> In jb l ->
  jweight cf {| jid := jid jb; jtr := jtr jb; jph := p |} < jweight cf jb ->
  weight cf (set_phase (jid jb) p l) < weight cf l.
Proof.
  intros N H W. induction l as [|x l IH]; [destruct H|]. simpl in N. inversion_clear N as [|? ? N1 N2].
  unfold weight in *. cbn [set_phase map list_sum fold_right]. change (fold_right Nat.add 0) with list_sum.
  change (map (fun x0 => if jid x0 =? jid jb then {| jid := jid x0; jtr := jtr x0; jph := p |} else x0) l)
    with (set_phase (jid jb) p l).
  destruct H as [->|H].
  - rewrite Nat.eqb_refl. assert (E : set_phase (jid jb) p l = l).
    { clear - N1. induction l as [|y l IH]; simpl; auto. simpl in N1. destruct (jid y =? jid jb) eqn:E.
      - apply Nat.eqb_eq in E. tauto.
      - f_equal. apply IH. tauto. }
    rewrite E. lia.
  - destruct (jid x =? jid jb) eqn:E.
    + apply Nat.eqb_eq in E. exfalso. apply N1. rewrite E. now apply in_map.
    + specialize (IH N2 H). lia.
Qed.

Lemma remove_nth_length k l (n : nat) : nth_error l k = Some n -> length (remove_nth k l) < length l.
Proof.
  revert k. induction l as [|x l IH]; intros [|k]; simpl; intros H; try discriminate; auto.
  apply IH in H. lia.
Qed.

Lemma finish_node_advances n s : advances s (finish_node n s).
Proof.
  pose proof (finish_node_ok n s) as FO. split; [apply (fr_gr _ _ (fn_frame _ _ _ FO))|].
  intros m. rewrite (fn_bst _ _ _ FO). unfold upd. destruct (m =? n); auto. split; auto. now right.
Qed.

Lemma advances_trans a b c : advances a b -> advances b c -> advances a c.
Proof.
  intros [G1 H1] [G2 H2]. split; [congruence|]. intros n. destruct (H1 n), (H2 n). auto.
Qed.

Lemma job_slot_mu cf s jb ok cancel throw inst : Inv cf s -> ctl s = CWait -> In jb (procs s) -> 
  let s' := job_slot cf jb ok cancel throw inst s in
  rank_est (est s') <= rank_est (est s) /\ weight cf (procs s') < weight cf (procs s).
Proof.
  intros HI C Hj. destruct (c_wait _ _ (inv_c _ _ HI) C) as [NI _].
  unfold job_slot. cbv zeta.
  set (sa := if negb ok && negb (cf_keepgoing cf) then _ else s).
  assert (Ga : est sa = est s /\ procs sa = procs s).
  { unfold sa. destruct (negb ok && negb (cf_keepgoing cf)); auto. destruct (errs s); auto. }
  destruct Ga as [Ga1 Ga2].
  set (sb := set_jobs _ _ _ sa). set (sc := say _ sb).
  assert (W : weight cf (procs sc) < weight cf (procs s)).
  { cbn [sc procs say sb set_jobs]. rewrite Ga2. apply drop_weight; auto. eapply cmd_ids; eauto. }
  match goal with |- context [let '(_, _) := ?p in _] => destruct p as [s4 th] eqn:Ef end.
  assert (G4 : est s4 = est s /\ procs s4 = procs sc).
  { destruct ok; [destruct throw|].
    - injection Ef as <- _. split; auto.
    - apply finish_outputs_frame in Ef. rewrite (fr_est _ _ Ef), (fr_procs _ _ Ef). split; auto.
    - injection Ef as <- _. split; auto. }
  destruct G4 as [G4 G5]. destruct th.
  - destruct (handle_error_mu cf (EOutput (jtr jb)) s4) as [A B]; [congruence|]. rewrite A, G5. rewrite G4 in B. auto.
  - destruct (slot_tail_mu cf (negb ok && negb (cf_keepgoing cf)) cancel s4) as [A B]; [congruence|].
    cbv zeta in A, B. rewrite A, G5. rewrite G4 in B. auto.
Qed.

Lemma job_slot_advances cf s jb ok cancel throw inst : advances s (job_slot cf jb ok cancel throw inst s).
Proof.
  destruct (job_slot_bst cf jb ok cancel throw inst s) as [G X]. cbv zeta in *. 
  destruct X as [X|(sc & s4 & th & E1 & E2 & E3 & F)].
  - now apply advances_same.
  - apply finish_outputs_advances in F. destruct F as [_ F]. split; auto. intros n. rewrite E3, <- E1. auto.
Qed.

Lemma rule_todo cf s r g cr inv : Inv cf s -> In r (gnodes (gr s)) -> gkind (gr s) r = KRule -> bst s r = Buildable ->
  admissible cf (gr s) (bst s) r g cr inv ->
  todo_rules (finish_node r (update_leaves inv (update_leaves cr (adopt g (say (EvApply r) s))))) < todo_rules s.
Proof.
  intros HI Hr Kr Hb Had.
  destruct (update_leaves_spec inv (update_leaves cr (adopt g (say (EvApply r) s)))) as [x U].
  destruct (update_leaves_spec cr (adopt g (say (EvApply r) s))) as [y V].
  set (s1 := adopt g (say (EvApply r) s)) in *.
  set (s2 := update_leaves cr s1) in *. set (s3 := update_leaves inv s2) in *.
  pose proof (finish_node_ok r s3) as FO.
  assert (G4 : gr (finish_node r s3) = g).
  { rewrite (fr_gr _ _ (fn_frame _ _ _ FO)), (fr_gr _ _ (ul_frame _ _ _ _ U)), (fr_gr _ _ (ul_frame _ _ _ _ V)). reflexivity. }
  unfold todo_rules. rewrite G4.
  set (L' := filter _ (gnodes g)). set (L := filter _ (gnodes (gr s))).
  assert (N : NoDup (r :: L')).
  { constructor.
    - unfold L'. rewrite filter_In, andb_true_iff, (fn_bst _ _ _ FO), upd_same. simpl. intros [_ [_ X]]. discriminate.
    - unfold L'. apply NoDup_filter. apply (wf_nodup _ _ (ad_wf _ _ _ _ _ _ _ Had)). }
  apply (NoDup_incl_length N). intros n Hn. unfold L. rewrite filter_In, andb_true_iff, negb_true_iff.
  destruct Hn as [<-|Hn].
  - rewrite Kr, Hb. auto.
  - unfold L' in Hn. rewrite filter_In, andb_true_iff, negb_true_iff in Hn. destruct Hn as (Hn & Kn & Bn).
    assert (Hn0 : In n (gnodes (gr s))).
    { destruct (in_dec Nat.eq_dec n (gnodes (gr s))) as [X|X]; auto. exfalso.
      destruct (ad_new _ _ _ _ _ _ _ Had n Hn X) as (_ & _ & t & E & _). rewrite E in Kn. discriminate. }
    split; auto. split.
    + destruct (ad_kind _ _ _ _ _ _ _ Had n Hn0 Hn) as [E|(t0 & t1 & E0 & _ & E1 & _)]; [congruence|].
      rewrite E1 in Kn. discriminate.
    + destruct (is_built (bst s n)) eqn:E; auto. apply is_built_true in E. exfalso.
      assert (B1 : bst s1 n = Built) by (now apply (adopt_built cf s r g HI)).
      apply (mono_built _ _ n (ul_mono _ _ _ _ V)), (mono_built _ _ n (ul_mono _ _ _ _ U)) in B1.
      apply (finish_node_keeps r) in B1. fold s3 in B1. rewrite B1 in Bn. discriminate.
Qed.

Lemma mu_artifact cf s s' n : advances s s' -> rank_est (est s') <= rank_est (est s) -> In n (gnodes (gr s)) ->
  gkind (gr s) n <> KRule -> ~ active (bst s n) -> active (bst s' n) -> lt5 (mu cf s') (mu cf s).
Proof.
  intros Ad E Hn K B B'. apply lex_le; auto. apply lex_le; [now apply advances_rules|]. apply lex_lt.
  eapply advances_artifact; eauto.
Qed.

Lemma step_mu cf s i s' : Inv cf s -> ok_input cf s i -> stepd cf s i s' -> lt5 (mu cf s') (mu cf s).
Proof.
  intros HI Hi H.
  destruct H as [k c n d C Hk A B|k c n d C Hk A B Bl|k c n d C Hk A B K|k c n d C Hk A B K Th
    |k c n d C Hk A B K R|k c n d g cr inv C Hk A B K R IB|k c n d t s' C Hk A B K IB F|k c n d t s' C Hk A B K IB F
    |k c n d t C Hk A B K IB Bl RO|d C HL|j ok jb k canceled C Hj Hp|j cancel throw inst jb ok C Hj Hp|C E];
    try (destruct (leaf_facts cf s k n HI Hk) as (Hn & _ & Hcb); pose proof (remove_nth_length k _ n Hk) as RL);
    try (assert (Es : est s = ERunning) by (eapply c_sched; [apply HI|eauto]));
    try (assert (NA : ~ active (bst s n)) by (rewrite B; intros [X|X]; discriminate)).
  - do 4 (apply lex_le; [apply Nat.le_refl|]). unfold todo_leaves. change (ctl (take k s)) with (ctl s). rewrite C.
    cbn [take leaves set_leaves]. lia.
  - do 4 (apply lex_le; [apply Nat.le_refl|]). unfold todo_leaves. cbn [ctl set_ctl leaves take set_leaves]. rewrite C. lia.
  - pose proof (finish_node_advances n (take k s)) as Ad. pose proof (finish_node_ok n (take k s)) as FO.
    assert (Ad' : advances s (finish_node n (take k s))) by exact Ad.
    assert (Bn : bst (finish_node n (take k s)) n = Built) by (rewrite (fn_bst _ _ _ FO); apply upd_same).
    assert (Ee : rank_est (est (finish_node n (take k s))) <= rank_est (est s)).
    { rewrite (fr_est _ _ (fn_frame _ _ _ FO)). apply Nat.le_refl. }
    destruct (gkind (gr s) n) eqn:Kn.
    + eapply (mu_artifact cf s _ n); eauto; [congruence|now right].
    + eapply (mu_artifact cf s _ n); eauto; [congruence|now right].
    + apply lex_le; auto. apply lex_lt. eapply advances_rule; eauto. congruence.
  - apply lex_lt. pose proof (handle_error_est cf (EException n) (take k s)). rewrite Es.
    destruct (est (handle_error cf (EException n) (take k s))); simpl; try lia; congruence.
  - apply lex_lt. pose proof (handle_error_est cf (EException n) (say (EvApply n) (take k s))). rewrite Es.
    destruct (est (handle_error cf (EException n) (say (EvApply n) (take k s)))); simpl; try lia; congruence.
  - apply lex_le.
    + rewrite (fr_est _ _ (fn_frame _ _ _ (finish_node_ok n _))).
      destruct (update_leaves_spec inv (update_leaves cr (adopt g (say (EvApply n) (take k s))))) as [x U].
      rewrite (fr_est _ _ (ul_frame _ _ _ _ U)).
      destruct (update_leaves_spec cr (adopt g (say (EvApply n) (take k s)))) as [y V].
      rewrite (fr_est _ _ (ul_frame _ _ _ _ V)). apply Nat.le_refl.
    + apply lex_lt. exact (rule_todo cf (take k s) n g cr inv (take_Inv cf k s HI) Hn K B (Hi n g cr inv Hk K R)).
  - assert (Ad : advances s s') by exact (finish_outputs_advances _ _ _ _ _ F).
    pose proof (finish_outputs_frame _ _ _ _ _ F) as Fr.
    eapply (mu_artifact cf s _ n); eauto; [rewrite (fr_est _ _ Fr); apply Nat.le_refl|congruence|].
    rewrite (finish_outputs_bst _ _ _ _ F). assert (X : mem n (outs (gr s) t) = true) by (apply mem_In, In_outs; auto).
    change (gr (say (EvSkip t) (take k s))) with (gr s). rewrite X. now right.
  - apply lex_lt. pose proof (handle_error_est cf (EException n) s'). rewrite Es.
    destruct (est (handle_error cf (EException n) s')); simpl; try lia; congruence.
  - destruct (run_transformer_eq cf (take k s) t A) as (j & rest & _ & E). rewrite E.
    assert (X : mem n (outs (gr s) t) = true) by (apply mem_In, In_outs; auto).
    eapply (mu_artifact cf s _ n); auto.
    + split; [reflexivity|]. intros m. cbn [bst]. change (gr (take k s)) with (gr s). change (bst (take k s)) with (bst s).
      destruct (mem m (outs (gr s) t)) eqn:M; auto. apply mem_In in M. split; [|intros _; now left].
      intros Y. exfalso. apply NA. apply (inv_u _ _ HI Es t m n); auto.
      * unfold in_build in IB. now rewrite K in IB.
      * now apply mem_In in X.
      * now right.
    + congruence.
    + cbn [bst]. change (gr (take k s)) with (gr s). rewrite X. now left.
  - destruct (sched_end_cases cf d s) as [(_ & _ & E)|(_ & E)]; rewrite E.
    + apply lex_lt. rewrite Es. destruct (finish_fields cf (set_leaves (d ++ leaves s) s)) as (_ & _ & _ & _ & _ & _ & -> & _).
      simpl. lia.
    + do 4 (apply lex_le; [apply Nat.le_refl|]). unfold todo_leaves. cbn [ctl set_ctl]. rewrite C. lia.
  - assert (N : NoDup (map jid (procs s))) by (eapply cmd_ids; eauto).
    destruct (cmd_finished_bst cf jb k canceled ok s) as [Bs Gs].
    assert (Ad : advances s (cmd_finished cf jb k canceled ok s)) by (now apply advances_same).
    apply lex_le; [|apply lex_le; [now apply advances_rules|apply lex_le; [now apply advances_artifacts|apply lex_lt]]].
    + unfold cmd_finished. destruct canceled, ok, (S k <? cf_ncmds cf (jtr jb)); auto.
    + assert (W : forall p, jweight cf {| jid := jid jb; jtr := jtr jb; jph := p |} < jweight cf jb ->
         weight cf (set_phase (jid jb) p (procs s)) < weight cf (procs s)) by (intros p Hw; now apply set_phase_weight).
      assert (Dn : forall b, jweight cf {| jid := jid jb; jtr := jtr jb; jph := Done b |} < jweight cf jb).
      { intros b. unfold jweight. rewrite Hp. simpl. lia. }
      unfold cmd_finished. destruct canceled; [now apply W|]. destruct ok; simpl negb; cbv iota; [|now apply W].
      destruct (S k <? cf_ncmds cf (jtr jb)) eqn:Lt; [|now apply W].
      apply W. apply Nat.ltb_lt in Lt. unfold jweight. cbn [jph jtr]. rewrite Hp. clear - Lt. lia.
  - destruct (job_slot_mu cf s jb ok cancel throw inst HI C Hj) as [X Y].
    pose proof (job_slot_advances cf s jb ok cancel throw inst) as Ad.
    apply lex_le; [auto|apply lex_le; [now apply advances_rules|apply lex_le; [now apply advances_artifacts|now apply lex_lt]]].
  - apply lex_lt. rewrite cancel_jobs_est, E. simpl. lia.
Qed.

Lemma terminates cf s : wf_config cf -> Inv cf s ->
  Acc (fun s2 s1 => exists i, ok_input cf s1 i /\ step cf s1 i = Some s2) s.
Proof.
  intros WC. remember (mu cf s) as m eqn:Em. revert s Em. induction (wf_lt5 m) as [m _ IH].
  intros s -> HI. constructor. intros s' (i & Hi & Hs). apply (IH (mu cf s')); auto.
  - eapply step_mu; eauto. now apply step_stepd.
  - eapply step_Inv; eauto.
Qed.

Lemma inevitable cf s : wf_config cf -> Inv cf s -> always_ends cf s.
Proof.
  intros WC HI. induction (terminates cf s WC HI) as [s _ IH].
  destruct (progress cf s HI) as [C|(i0 & s0 & Ni & Hi & Hs)]; [now apply ends_now|].
  apply (ends_later cf s i0 s0); auto. intros i s' Hi' Hs'. apply IH; eauto. eapply step_Inv; eauto.
Qed.

(** *** The report *)
Lemma handle_error_finished cf e s : ctl (handle_error cf e s) = CFinished ->
  exists s0, handle_error cf e s = finish cf s0 /\ log s0 = log s.
Proof.
  unfold handle_error. cbv zeta. set (s1 := set_errs _ s). destruct (procs s1); [|discriminate].
  intros _. exists s1. auto.
Qed.

Definition no_new_report (s s0 : state) : Prop := forall es, In (EvFinish es) (log s0) -> In (EvFinish es) (log s).
Lemma no_new_refl s s0 : log s0 = log s -> no_new_report s s0.
Proof. intros E es. now rewrite E. Qed.
Lemma no_new_cancel s s0 : no_new_report s s0 -> no_new_report s (cancel_jobs s0).
Proof.
  intros N es H. destruct (cancel_jobs_misc s0) as (_ & _ & _ & _ & _ & _ & _ & _ & [E|E]); rewrite E in H; auto.
  destruct H as [H|H]; [discriminate|auto].
Qed.

Lemma step_finished cf s i s' : Inv cf s -> stepd cf s i s' -> ctl s' = CFinished ->
  exists s0, s' = finish cf s0 /\ no_new_report s s0.
Proof.
  intros HI H F'.
  destruct H as [k c n d C Hk A B|k c n d C Hk A B Bl|k c n d C Hk A B K|k c n d C Hk A B K Th
    |k c n d C Hk A B K R|k c n d g cr inv C Hk A B K R IB|k c n d t s' C Hk A B K IB F|k c n d t s' C Hk A B K IB F
    |k c n d t C Hk A B K IB Bl RO|d C HL|j ok jb k canceled C Hj Hp|j cancel throw inst jb ok C Hj Hp|C E].
  - change (ctl (take k s)) with (ctl s) in F'. congruence.
  - discriminate.
  - rewrite (fr_ctl _ _ (fn_frame _ _ _ (finish_node_ok n _))) in F'. change (ctl (take k s)) with (ctl s) in F'. congruence.
  - apply handle_error_finished in F'. destruct F' as (s0 & E & L). exists s0. split; auto. now apply no_new_refl.
  - apply handle_error_finished in F'. destruct F' as (s0 & E & L). exists s0. split; auto.
    intros es H. rewrite L in H. destruct H as [H|H]; [discriminate|auto].
  - rewrite (fr_ctl _ _ (fn_frame _ _ _ (finish_node_ok n _))) in F'.
    destruct (update_leaves_spec inv (update_leaves cr (adopt g (say (EvApply n) (take k s))))) as [x U].
    rewrite (fr_ctl _ _ (ul_frame _ _ _ _ U)) in F'.
    destruct (update_leaves_spec cr (adopt g (say (EvApply n) (take k s)))) as [y V].
    rewrite (fr_ctl _ _ (ul_frame _ _ _ _ V)) in F'. change (ctl s = CFinished) in F'. congruence.
  - apply finish_outputs_frame in F. rewrite (fr_ctl _ _ F) in F'. change (ctl s = CFinished) in F'. congruence.
  - apply handle_error_finished in F'. destruct F' as (s0 & E & L). exists s0. split; auto.
    intros es H. rewrite L in H. apply finish_outputs_frame in F. rewrite (fr_log _ _ F) in H. destruct H as [H|H]; [discriminate|auto].
  - destruct (run_transformer_eq cf (take k s) t A) as (j & rest & _ & E). rewrite E in F'. change (ctl s = CFinished) in F'. congruence.
  - destruct (sched_end_cases cf d s) as [(_ & _ & E)|(_ & E)]; rewrite E in *; [|discriminate].
    exists (set_leaves (d ++ leaves s) s). split; auto. now apply no_new_refl.
  - assert (E : ctl (cmd_finished cf jb k canceled ok s) = ctl s).
    { unfold cmd_finished. destruct canceled, ok, (S k <? cf_ncmds cf (jtr jb)); auto. }
    rewrite E in F'. destruct C as [C|[d C]]; congruence.
  - unfold job_slot in *. cbv zeta in *.
    set (sa := if negb ok && negb (cf_keepgoing cf) then _ else s) in *.
    set (sb := set_jobs _ _ _ sa) in *. set (sc := say _ sb) in *.
    match goal with |- context [let '(_, _) := ?p in _] => destruct p as [s4 th] eqn:Ef end.
    assert (Na : no_new_report s sa) by (apply no_new_refl; unfold sa; destruct (_ && _); auto; destruct (errs s); auto).
    assert (Nc : no_new_report s sc).
    { intros es H. apply Na. unfold sc in H. simpl in H. destruct H as [H|H]; [destruct ok; discriminate|exact H]. }
    assert (N4 : no_new_report s s4).
    { destruct ok; [destruct throw|].
      - injection Ef as <- _. exact Nc.
      - apply finish_outputs_frame in Ef. intros es. rewrite (fr_log _ _ Ef). apply Nc.
      - injection Ef as <- _. exact Nc. }
    destruct th.
    { apply handle_error_finished in F'. destruct F' as (s0 & E & L). exists s0. split; auto. intros es. rewrite L. apply N4. }
    set (s5 := if negb ok && negb (cf_keepgoing cf) then cancel_jobs s4 else s4) in *.
    set (s6 := match est s5 with ERunning => _ | _ => _ end) in *.
    assert (N5 : no_new_report s s5) by (unfold s5; destruct (_ && _); auto; now apply no_new_cancel).
    assert (N6 : no_new_report s s6) by (unfold s6; destruct (est s5); auto; destruct cancel; auto; now apply no_new_cancel).
    destruct (est s6); try discriminate. destruct (procs s6); [eauto|discriminate].
  - destruct (cancel_jobs_misc s) as (_ & _ & _ & _ & _ & _ & _ & E1 & _). rewrite E1 in F'. congruence.
Qed.

(** What is reported at the end. *)
Lemma reachable_report cf g s : wf_config cf -> wf_graph cf g -> reachable cf g s -> ctl s = CFinished ->
  (cf_rulesonly cf = false -> (forall n, In n (groots (gr s)) -> bst s n = Built) \/ In EUnbuilt (errs s))
  /\ (expl s = true -> In ECancelMsg (errs s)) /\ In (EvFinish (errs s)) (log s).
Proof.
  intros WC WF H C. destruct H as [|s i s' H Hi Hs].
  - exfalso. revert C. unfold init. set (s0 := {| gr := g |}). destruct (update_leaves_spec (groots g) s0) as [x U].
    rewrite (fr_ctl _ _ (ul_frame _ _ _ _ U)). discriminate.
  - pose proof (reachable_Inv cf g s WC WF H) as HI.
    destruct (step_finished cf s i s' HI (step_stepd cf s i s' HI Hs) C) as (s0 & -> & _).
    destruct (finish_fields cf s0) as (F1 & F2 & F3 & F4 & F5 & F6 & F7 & F8 & F9 & F10 & F11).
    rewrite F1, F2, F9, F11. rewrite finish_errs. split; [|split; [|now left]].
    + intros RO. rewrite RO. simpl. destruct (forallb _ _) eqn:E.
      * left. rewrite forallb_forall in E. intros n Hn. apply is_built_true. auto.
      * right. simpl. apply in_or_app. right. now left.
    + intros ->. apply in_or_app. right. apply in_or_app. right. now left.
Qed.
