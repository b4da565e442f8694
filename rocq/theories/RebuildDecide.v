(** Proofs about the decision for one transformer. *)
From Coq Require Import List Bool Arith ZArith Lia.
From Verif Require Import RebuildModel RebuildSpec.
Import ListNotations.

Ltac ord := unfold upto, before, no_time in *; cbn [fst snd] in *; lia.

(** *** Order *)
Lemma ft_lt_before a b : ft_lt a b = true <-> before a b.
Proof.
  unfold ft_lt, ft_compare, before. destruct a as [a1 a2], b as [b1 b2]; cbn [fst snd].
  destruct (Z.ltb_spec a1 b1); [simpl; lia|]. destruct (Z.ltb_spec b1 a1); [simpl; split; [discriminate|lia]|].
  destruct (Z.ltb_spec a2 b2); [simpl; lia|]. destruct (Z.ltb_spec b2 a2); simpl; split; try discriminate; lia.
Qed.
Lemma ft_lt_false a b : ft_lt a b = false <-> ~ before a b.
Proof. rewrite <- ft_lt_before. destruct (ft_lt a b); split; congruence. Qed.
Lemma valid_spec t : valid t = true <-> t <> no_time.
Proof.
  unfold valid, ft_eq, ft_compare, no_time. destruct t as [x y]; cbn [fst snd].
  destruct (Z.ltb_spec x 0); [simpl; split; intros; auto; intros [= ]; lia|].
  destruct (Z.ltb_spec 0 x); [simpl; split; intros; auto; intros [= ]; lia|].
  destruct (Z.ltb_spec y 0); [simpl; split; intros; auto; intros [= ]; lia|].
  destruct (Z.ltb_spec 0 y); [simpl; split; intros; auto; intros [= ]; lia|].
  simpl. split; [discriminate|]. intros H'. exfalso. apply H'. f_equal; lia.
Qed.
Lemma valid_false t : valid t = false <-> t = no_time.
Proof.
  assert (X := valid_spec t). destruct (valid t) eqn:E; split; try discriminate; auto.
  - intros H. destruct (proj1 X eq_refl H).
  - intros _. destruct t as [x y]. unfold no_time. destruct (Z.eq_dec x 0), (Z.eq_dec y 0); subst; auto;
      exfalso; assert (Y : false = true) by (apply X; unfold no_time; congruence); discriminate.
Qed.
Lemma before_dec a b : before a b \/ ~ before a b.
Proof. ord. Qed.
Lemma before_valid a b : upto no_time a -> before a b -> b <> no_time.
Proof. intros H1 H2 ->. ord. Qed.

Lemma mem_In n l : mem n l = true <-> In n l.
Proof.
  unfold mem. rewrite existsb_exists. split.
  - intros (x & H & E). apply Nat.eqb_eq in E. now subst.
  - intros H. exists n. split; auto. apply Nat.eqb_refl.
Qed.
Lemma mem_notIn n l : mem n l = false <-> ~ In n l.
Proof. rewrite <- mem_In. destruct (mem n l); split; congruence. Qed.
Lemma mem_false n l : ~ In n l -> mem n l = false.
Proof. apply mem_notIn. Qed.
Lemma mem_true n l : In n l -> mem n l = true.
Proof. apply mem_In. Qed.
Lemma upd_same {A} (f : nat -> A) n v : upd f n v n = v.
Proof. unfold upd. now rewrite Nat.eqb_refl. Qed.
Lemma upd_other {A} (f : nat -> A) n v m : m <> n -> upd f n v m = f m.
Proof. intros H. unfold upd. now rewrite (proj2 (Nat.eqb_neq m n) H). Qed.
Lemma intersects_spec a b : intersects a b = true <-> exists x, In x a /\ In x b.
Proof.
  unfold intersects. rewrite existsb_exists. split; intros (x & H & E); exists x; split; auto; now apply mem_In.
Qed.

(** *** recursiveFileTime *)
Lemma ft_max_spec a b : upto a (ft_max a b) /\ upto b (ft_max a b) /\ (ft_max a b = a \/ ft_max a b = b).
Proof.
  unfold ft_max. destruct (ft_lt a b) eqn:E; [apply ft_lt_before in E|apply ft_lt_false in E];
    (split; [ord|]); (split; [ord|]); auto.
Qed.

(** *** isUpToDate *)
Lemma kids_ok_spec c f t l : (forall k, In k l -> au c k = true -> f k <> no_time) ->
  exists b, kids_ok c f t l = Some b /\ (b = false <-> exists k, In k l /\ before t (f k)).
Proof.
  induction l as [|k l IH]; intros H; cbn [kids_ok].
  - exists true. split; auto. split; [discriminate|]. intros (k & [] & _).
  - assert (A : au c k && negb (valid (f k)) = false).
    { apply andb_false_iff. destruct (au c k) eqn:Eau; auto. right. apply negb_false_iff, valid_spec, H; simpl; auto. }
    rewrite A. destruct (ft_lt t (f k)) eqn:E.
    + exists false. split; auto. split; auto. intros _. exists k. split; [now left|]. now apply ft_lt_before.
    + apply ft_lt_false in E. destruct IH as (b & -> & Hb); [intros; apply H; simpl; auto|].
      exists b. split; auto. rewrite Hb. split; [intros (x & X & Y); exists x; simpl; auto|].
      intros (x & [<-|X] & Y); [contradiction|eauto].
Qed.
Lemma fdeps_ok_spec f t l : fdeps_ok f t l = false <-> exists d, In d l /\ (f d = no_time \/ before t (f d)).
Proof.
  induction l as [|d l IH]; cbn [fdeps_ok].
  - split; [discriminate|]. intros (k & [] & _).
  - destruct (valid (f d)) eqn:V; simpl negb; cbn iota.
    + apply valid_spec in V. destruct (ft_lt t (f d)) eqn:E.
      * split; auto. intros _. exists d. split; [now left|]. right. now apply ft_lt_before.
      * apply ft_lt_false in E. rewrite IH. split; [intros (x & X & Y); exists x; simpl; auto|].
        intros (x & [<-|X] & Y); [tauto|eauto].
    + apply valid_false in V. split; auto. intros _. exists d. split; [now left|now left].
Qed.

(** The state during the loop over the outputs. *)
Record during (s si : state) (t : nat) : Prop := {
  du_noforce : force (bopts s) = false -> si = s;
  du_eq : si = set_ts (ts si) s;
  du_ts : forall n, ~ In n (outs s t) -> ts si n = ts s n
}.

(** No output is a dependency of an output. *)
Definition apart (s : state) (t : nat) : Prop :=
  forall o k, In o (outs s t) -> In k (kids s o) \/ In k (fdeps s o) -> ~ In k (outs s t).
Definition checks (c : cfg) (s : state) (t : nat) : Prop :=
  forall o k, In o (outs s t) -> In k (kids s o) -> au c k = true -> ts s k <> no_time.

Lemma known_other s t n : ~ In n (outs s t) -> known_time s t n = ts s n.
Proof. intros H. unfold known_time. apply mem_notIn in H. now rewrite H, andb_false_r. Qed.

Lemma up_to_date_spec c s t si o : apart s t -> checks c s t -> during s si t -> In o (outs s t) ->
  exists b s2, is_up_to_date c si o = (Some b, s2) /\ during s s2 t /\ (b = false <-> outdated s t o).
Proof.
  intros Ap Ch D Ho. unfold is_up_to_date.
  assert (Q : force (bopts si) = force (bopts s)) by (rewrite (du_eq _ _ _ D); reflexivity). rewrite Q.
  set (s2 := if force (bopts s) then set_ts (upd (ts si) o (mtime si o)) si else si).
  assert (D2 : during s s2 t).
  { unfold s2. destruct (force (bopts s)) eqn:Ef; [|exact D]. constructor.
    - congruence.
    - rewrite (du_eq _ _ _ D). reflexivity.
    - intros n Hn. simpl. rewrite upd_other; [|congruence]. now apply (du_ts _ _ _ D). }
  assert (T : ts s2 o = known_time s t o).
  { unfold s2, known_time. rewrite (mem_true _ _ Ho), andb_true_r. destruct (force (bopts s)) eqn:Ef.
    - simpl. rewrite upd_same, (du_eq _ _ _ D). reflexivity.
    - now rewrite (du_noforce _ _ _ D Ef). }
  assert (K : kids s2 = kids s /\ fdeps s2 = fdeps s) by (rewrite (du_eq _ _ _ D2); auto). destruct K as [K1 K2].
  exists (if negb (valid (ts s2 o)) then false else
    match kids_ok c (ts s2) (ts s2 o) (kids s2 o) with Some true => fdeps_ok (ts s2) (ts s2 o) (fdeps s2 o) | _ => false end), s2.
  assert (KK : forall k, In k (kids s o) -> ts s2 k = known_time s t k).
  { intros k Hk. assert (N : ~ In k (outs s t)) by (apply (Ap o); auto). rewrite known_other; auto. now apply (du_ts _ _ _ D2). }
  assert (KF : forall k, In k (fdeps s o) -> ts s2 k = ts s k).
  { intros k Hk. apply (du_ts _ _ _ D2). apply (Ap o); auto. }
  assert (CK : forall k, In k (kids s2 o) -> au c k = true -> ts s2 k <> no_time).
  { intros k Hk Ha. rewrite K1 in Hk. rewrite KK; auto. rewrite known_other; [apply (Ch o); auto|apply (Ap o); auto]. }
  destruct (kids_ok_spec c (ts s2) (ts s2 o) (kids s2 o) CK) as (b & Eb & Hb). rewrite Eb. split; [|split; auto].
  - destruct (valid (ts s2 o)); simpl; auto. destruct b; auto.
  - unfold outdated. rewrite K1 in Hb. rewrite <- T.
    assert (B1 : b = false <-> exists k, In k (kids s o) /\ before (ts s2 o) (known_time s t k)).
    { rewrite Hb. split; intros (k & X & Y); exists k; (split; [exact X|]); rewrite (KK k X) in *; auto. }
    assert (B2 : fdeps_ok (ts s2) (ts s2 o) (fdeps s2 o) = false <->
                 exists d, In d (fdeps s o) /\ (ts s d = no_time \/ before (ts s2 o) (ts s d))).
    { rewrite fdeps_ok_spec, K2. split; intros (d & X & Y); exists d; split; auto; rewrite (KF d X) in *; auto. }
    destruct (valid (ts s2 o)) eqn:V; simpl negb; cbn iota.
    + apply valid_spec in V. destruct b.
      * rewrite B2. split; [auto|]. intros [X|[X|X]]; [contradiction|apply B1 in X; discriminate|exact X].
      * split; auto. intros _. right. left. now apply B1.
    + apply valid_false in V. split; auto.
Qed.

Lemma outputs_loop_spec c s t : apart s t -> checks c s t -> forall l si ha hn, during s si t -> incl l (outs s t) ->
  exists r s2, outputs_loop c si l ha hn = (Some r, s2) /\ during s s2 t
  /\ match r with
     | None => exists o, In o l /\ (au c o = true \/ force (bopts s) = true) /\ outdated s t o
     | Some (a, n) => (forall o, In o l -> au c o = true \/ force (bopts s) = true -> ~ outdated s t o)
         /\ (a || n = true <-> ha || hn = true \/ exists o, In o l /\ ~ outdated s t o)
     end.
Proof.
  intros Ap Ch. induction l as [|o l IH]; intros si ha hn D I; cbn [outputs_loop].
  - exists (Some (ha, hn)), si. split; auto. split; auto. split; [intros o []|]. split; auto.
    intros [X|(o & [] & _)]; auto.
  - destruct (up_to_date_spec c s t si o Ap Ch D (I o (or_introl eq_refl))) as (b & s2 & -> & D2 & Hb).
    assert (I2 : incl l (outs s t)) by (intros x Hx; apply I; now right).
    assert (Q : force (bopts s2) = force (bopts s)) by (rewrite (du_eq _ _ _ D2); reflexivity). rewrite Q.
    destruct b.
    + assert (No : ~ outdated s t o) by (intros X; apply Hb in X; discriminate).
      assert (G : exists r s3, (if au c o then outputs_loop c s2 l true hn else outputs_loop c s2 l ha true) = (Some r, s3)
        /\ during s s3 t /\ match r with
          | None => exists o, In o l /\ (au c o = true \/ force (bopts s) = true) /\ outdated s t o
          | Some (a, n) => (forall o, In o l -> au c o = true \/ force (bopts s) = true -> ~ outdated s t o) /\ a || n = true
          end).
      { destruct (au c o); [destruct (IH s2 true hn D2 I2) as (r & s3 & E & D3 & P)
                           |destruct (IH s2 ha true D2 I2) as (r & s3 & E & D3 & P)]; exists r, s3; (split; [exact E|]);
          (split; [exact D3|]); destruct r as [[a n]|]; auto; destruct P as [P1 P2]; split; auto; apply P2; left;
          rewrite ?orb_true_r; auto. }
      destruct G as (r & s3 & E & D3 & P). exists r, s3. split; [exact E|]. split; [exact D3|].
      destruct r as [[a n]|].
      * destruct P as [P1 P2]. split; [intros x [<-|X]; auto|]. rewrite P2. split; auto. intros _. right. exists o. simpl; auto.
      * destruct P as (x & X & Y). exists x. simpl; auto.
    + assert (Out : outdated s t o) by now apply Hb.
      destruct (au c o || force (bopts s)) eqn:E1.
      * exists None, s2. split; auto. split; auto. exists o. split; [now left|]. split; auto. now apply orb_prop.
      * apply orb_false_iff in E1. destruct E1 as [E1 E2].
        destruct (IH s2 ha hn D2 I2) as (r & s3 & E & D3 & P). exists r, s3. split; [exact E|]. split; [exact D3|].
        destruct r as [[a n]|].
        -- destruct P as [P1 P2]. split; [intros x [<-|X]; auto; intros [Z|Z]; congruence|]. rewrite P2. split.
           ++ intros [X|(x & X & Y)]; auto. right. exists x. simpl; auto.
           ++ intros [X|(x & [<-|X] & Y)]; [now left|contradiction|right; eauto].
        -- destruct P as (x & X & Y). exists x. simpl; auto.
Qed.

(** What mustExecuteTransformer leaves behind. *)
Record after_decision (s s' : state) (t : nat) : Prop := {
  ad_ts : forall n, ~ In n (outs s t) -> ts s' n = ts s n;
  ad_ts_noforce : force (bopts s) = false -> forall n, ts s' n = ts s n;
  ad_track : forall n, n <> t -> track s' n = track s n;
  ad_kids : kids s' = kids s; ad_fdeps : fdeps s' = fdeps s; ad_outs : outs s' = outs s; ad_ins : ins s' = ins s;
  ad_marked : marked s' = marked s; ad_changed : changed s' = changed s; ad_conf : conf s' = conf s;
  ad_content : content s' = content s; ad_mtime : mtime s' = mtime s; ad_now : now s' = now s;
  ad_bopts : bopts s' = bopts s; ad_active : active s' = active s; ad_began : began s' = began s;
  ad_done : done s' = done s; ad_running : running s' = running s; ad_started : started s' = started s;
  ad_succeeded : succeeded s' = succeeded s
}.
Lemma during_after s si t : during s si t -> after_decision s si t.
Proof.
  intros D. assert (E := du_eq _ _ _ D). constructor; try (rewrite E; reflexivity).
  - apply (du_ts _ _ _ D).
  - intros Hf. now rewrite (du_noforce _ _ _ D Hf).
Qed.

Theorem must_execute_spec c s t : apart s t -> checks c s t ->
  exists b s', must_execute c s t = (Some b, s') /\ (b = true <-> must_run c s t) /\ after_decision s s' t
    /\ (b = false -> track s' t = false) /\ (track s t = false -> track s' t = false).
Proof.
  intros Ap Ch. unfold must_execute.
  assert (Ds : during s s t) by (constructor; auto; destruct s; reflexivity).
  destruct (always c t) eqn:Ea.
  { exists true, s. split; auto. split; [split; auto; intros _; now left|]. split; [now apply during_after|]. split; [discriminate|auto]. }
  destruct (marked s t) eqn:Em.
  { exists true, s. split; auto. split; [split; auto; intros _; right; now left|]. split; [now apply during_after|]. split; [discriminate|auto]. }
  destruct (outputs_loop_spec c s t Ap Ch (outs s t) s false false Ds (incl_refl _)) as (r & s2 & -> & D & P).
  assert (E := du_eq _ _ _ D).
  assert (Et : track s2 = track s) by (rewrite E; reflexivity). assert (Ec : changed s2 = changed s) by (rewrite E; reflexivity).
  destruct r as [[a n]|].
  - destruct P as [P1 P2]. unfold commands_need_rerun. rewrite Et, Ec.
    assert (R : must_run c s t <-> (track s t = true /\ changed s t = true) \/ (a || n = false)).
    { unfold must_run. split.
      - intros [X|[X|[(o & X & Y & Z)|[X|X]]]]; try congruence; auto; [destruct (P1 o X Y Z)|].
        right. apply not_true_is_false. intros Y. apply P2 in Y. destruct Y as [Y|(o & Y & Z)]; [discriminate|]. now apply Z, X.
      - intros [X|X]; [right; right; right; now left|]. right. right. right. right. intros o Ho.
        destruct (up_to_date_spec c s t s o Ap Ch Ds Ho) as (b & s3 & _ & _ & Hb). destruct b; [|now apply Hb].
        exfalso. assert (Y : a || n = true); [|congruence]. apply P2. right. exists o. split; auto. intros Z. apply Hb in Z. discriminate. }
    assert (Ad := during_after _ _ _ D). destruct (track s t) eqn:T1.
    + assert (Ad2 : after_decision s (set_track (upd (track s) t false) s2) t).
      { destruct Ad. constructor; auto. intros m Hm. simpl. now rewrite upd_other. }
      destruct (changed s t) eqn:C1.
      * eexists _, _. split; [reflexivity|]. split; [rewrite R; tauto|]. split; [exact Ad2|]. split; [discriminate|congruence].
      * eexists _, _. split; [reflexivity|]. split; [|split; [exact Ad2|split; [simpl; now rewrite upd_same|congruence]]].
        rewrite R. destruct a, n; simpl; intuition discriminate.
    + eexists _, _. split; [reflexivity|]. split; [|split; [exact Ad|split; [congruence|congruence]]].
      rewrite R. destruct a, n; simpl; intuition discriminate.
  - exists true, s2. split; auto. split; [split; auto; intros _; right; right; now left|]. split; [now apply during_after|].
    split; [discriminate|congruence].
Qed.

(** *** The filters *)
Lemma matching_spec c s t : matching_tags c s t && matching_files c s t = true <-> selected c s t.
Proof.
  unfold selected, matching_tags, matching_files. rewrite andb_true_iff.
  assert (A : match active_tags (bopts s) with
     | [] => true
     | _ => existsb (fun o => intersects (active_tags (bopts s)) (tags c o) || intersects (needed_tags (bopts s)) (tags c o)) (outs s t)
     end = true <-> active_tags (bopts s) = [] \/ exists o tag, In o (outs s t) /\ In tag (tags c o)
        /\ (In tag (active_tags (bopts s)) \/ In tag (needed_tags (bopts s)))).
  { assert (G : existsb (fun o => intersects (active_tags (bopts s)) (tags c o) || intersects (needed_tags (bopts s)) (tags c o)) (outs s t) = true
      <-> exists o tag, In o (outs s t) /\ In tag (tags c o) /\ (In tag (active_tags (bopts s)) \/ In tag (needed_tags (bopts s)))).
    { rewrite existsb_exists. split.
      - intros (o & Ho & X). apply orb_prop in X. destruct X as [X|X]; apply intersects_spec in X; destruct X as (tag & Y & Z);
          exists o, tag; auto.
      - intros (o & tag & Ho & Ht & X). exists o. split; auto. apply orb_true_intro.
        destruct X as [X|X]; [left|right]; apply intersects_spec; eauto. }
    destruct (active_tags (bopts s)); [split; auto|]. rewrite G. split; auto. intros [X|X]; [discriminate|auto]. }
  rewrite A. clear A.
  assert (B : match files (bopts s) with
     | [] => true
     | fs => if negb (mem (tprod c t) (file_prods (bopts s))) then false
            else match ins s t with
                 | [] => true
                 | l => existsb (fun i => existsb (fun f => (i =? f) || intersects (tags c i) (needed_tags (bopts s))) fs) l
                 end
     end = true <-> files (bopts s) = [] \/ (In (tprod c t) (file_prods (bopts s))
          /\ (ins s t = [] \/ exists i, In i (ins s t)
                 /\ (In i (files (bopts s)) \/ exists tag, In tag (tags c i) /\ In tag (needed_tags (bopts s)))))).
  { destruct (files (bopts s)) as [|f0 fs] eqn:Ef; [split; auto|].
    assert (P := mem_In (tprod c t) (file_prods (bopts s))). destruct (mem (tprod c t) (file_prods (bopts s))) eqn:Em; simpl negb; cbn iota.
    2:{ split; [discriminate|]. intros [X|[X _]]; [discriminate|]. apply P in X. discriminate. }
    assert (G : existsb (fun i => existsb (fun f => (i =? f) || intersects (tags c i) (needed_tags (bopts s))) (f0 :: fs)) (ins s t) = true
      <-> exists i, In i (ins s t) /\ (In i (f0 :: fs) \/ exists tag, In tag (tags c i) /\ In tag (needed_tags (bopts s)))).
    { rewrite existsb_exists. split.
      - intros (i & Hi & X). exists i. split; auto. apply existsb_exists in X. destruct X as (f & Hf & X).
        apply orb_prop in X. destruct X as [X|X]; [left; apply Nat.eqb_eq in X; now subst|right; now apply intersects_spec].
      - intros (i & Hi & X). exists i. split; auto. apply existsb_exists. destruct X as [X|X].
        + exists i. split; auto. now rewrite Nat.eqb_refl.
        + exists f0. split; [now left|]. apply orb_true_intro. right. now apply intersects_spec. }
    destruct (ins s t); [split; auto; intros _; right; split; [now apply P|now left]|]. rewrite G. split.
    - intros X. right. split; [now apply P|now right].
    - intros [X|[_ [X|X]]]; [discriminate|discriminate|exact X]. }
  rewrite B. reflexivity.
Qed.
