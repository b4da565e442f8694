(** The invariant behind incremental builds. *)
From Coq Require Import List Bool Arith ZArith Lia.
From Verif Require Import RebuildModel RebuildSpec RebuildDecide.
Import ListNotations.
Arguments mem : simpl never.
Arguments upd : simpl never.

Definition correct (c : cfg) (s : state) (t : nat) : Prop :=
  forall o, In o (outs s t) -> content s o = F c t (conf s t) (env s o) o.

(** Will be run again in the next full build, for its own sake or because of a dependency. *)
Inductive dirty (c : cfg) (s : state) : nat -> Prop :=
| dirty_running t : In t (running s) -> dirty c s t
| dirty_needs t : needs c s t -> dirty c s t
| dirty_kid t o k t' : In o (outs s t) -> In k (kids s o) -> au c k = true -> kd c k = Generated t' ->
    dirty c s t' -> dirty c s t.

(** Finished in the current full build. *)
Record settled (c : cfg) (s : state) (t : nat) : Prop := {
  se_ran : In t (succeeded s) \/ ~ needs c s t;
  se_correct : correct c s t;
  se_nonau : forall o, In o (outs s t) -> au c o = false -> ts s o = mtime s o;
  se_au : forall o, In o (outs s t) -> au c o = true -> ts s o <> no_time
     /\ (forall k, In k (kids s o) -> ~ before (ts s o) (ts s k))
     /\ (forall d, In d (fdeps s o) -> ~ before (ts s o) (ts s d));
  se_marked : marked s t = false;
  se_track : track s t = false \/ changed s t = false
}.

Record Inv (c : cfg) (s : state) : Prop := {
  iv_wf : wf c s;
  iv_now : before no_time (now s);
  iv_mtime : forall n, upto (mtime s n) (now s) /\ upto no_time (mtime s n);
  iv_ts : forall n, upto (ts s n) (now s) /\ upto no_time (ts s n);
  iv_began : active s = true -> upto (began s) (now s) /\ before no_time (began s)
     /\ forall t o, In o (outs s t) -> ~ In t (done s) -> upto (ts s o) (began s);
  iv_src : active s = true -> forall n, (kd c n = Source -> upto (mtime s n) (ts s n)) /\ (kd c n = FileDep -> ts s n = mtime s n);
  iv_srcvalid : active s = true -> forall n, In n (srcs c) -> kd c n = Source -> ts s n <> no_time;
  iv_force : active s = true -> force (bopts s) = false;
  iv_run : forall t, In t (running s) -> active s = true /\ In t (started s) /\ ~ In t (done s);
  iv_runchanged : forall t, In t (running s) -> changed s t = false;
  iv_succ : forall t, In t (succeeded s) -> In t (done s) /\ In t (started s);
  iv_ds : forall t, In t (done s) -> In t (started s) -> In t (succeeded s);
  iv_order : active s = true -> forall t, In t (done s) \/ In t (started s) -> forall o k t', In o (outs s t) -> In k (kids s o) ->
     kd c k = Generated t' -> In t' (done s);
  iv_fresh : forall t, correct c s t \/ dirty c s t;
  iv_nonau : forall t o, In o (outs s t) -> au c o = false -> ts s o = mtime s o \/ dirty c s t;
  iv_link : active s = true -> forall t' t k o, In t' (succeeded s) -> In k (outs s t') -> au c k = true ->
     In o (outs s t) -> In k (kids s o) ->
     (~ In t (done s) -> ~ In t (started s) -> marked s t = true \/ forall o, In o (outs s t) -> ts s o = no_time)
     /\ (full s -> In t (done s) -> In t (succeeded s));
  iv_done : active s = true -> full s -> forall t, In t (done s) -> settled c s t
}.

(** *** Transfer between states that agree on what concerns a transformer *)
Definition concerns (s : state) (t n : nat) : Prop :=
  In n (outs s t) \/ exists o, In o (outs s t) /\ (In n (kids s o) \/ In n (fdeps s o)).
Record same (t : nat) (s s' : state) : Prop := {
  sm_outs : outs s' t = outs s t;
  sm_marked : marked s' t = marked s t;
  sm_track : track s' t = track s t;
  sm_changed : changed s' t = changed s t;
  sm_conf : conf s' t = conf s t;
  sm_edges : forall o, In o (outs s t) -> kids s' o = kids s o /\ fdeps s' o = fdeps s o;
  sm_nodes : forall n, concerns s t n -> ts s' n = ts s n /\ mtime s' n = mtime s n /\ content s' n = content s n
}.
Lemma same_sym t s s' : same t s s' -> same t s' s.
Proof.
  intros [A B C D E G H]. constructor; auto.
  - intros o Ho. rewrite A in Ho. destruct (G o Ho) as [-> ->]. auto.
  - intros n Hn. assert (X : concerns s t n).
    { unfold concerns in *. rewrite A in Hn. destruct Hn as [Hn|(o & Ho & Hn)]; [now left|]. right. exists o. split; auto.
      destruct (G o Ho) as [<- <-]. auto. }
    destruct (H n X) as (-> & -> & ->). auto.
Qed.
Lemma same_needs c t s s' : same t s s' -> needs c s t -> needs c s' t.
Proof.
  intros S. assert (St : forall o, In o (outs s t) -> stale c s o -> stale c s' o).
  { intros o Ho H. destruct (sm_edges _ _ _ S o Ho) as [K1 K2]. destruct (sm_nodes _ _ _ S o (or_introl Ho)) as (To & _).
    destruct H as [X|[(k & Hk & X)|(d & Hd & X)]].
    + left. congruence.
    + right; left. exists k. rewrite K1. split; auto. rewrite To. unfold file_time in *.
      destruct (sm_nodes _ _ _ S k) as (-> & -> & _); auto. right. eauto.
    + right; right. exists d. rewrite K2. split; auto. rewrite To.
      destruct (sm_nodes _ _ _ S d) as (_ & -> & _); auto. right. eauto. }
  intros [H|[H|[[H1 H2]|[H|(o & Ho & Ha & H)]]]].
  - now left.
  - right; left. now rewrite (sm_marked _ _ _ S).
  - right; right; left. now rewrite (sm_track _ _ _ S), (sm_changed _ _ _ S).
  - right; right; right; left. intros o Ho. rewrite (sm_outs _ _ _ S) in Ho. auto.
  - right; right; right; right. exists o. rewrite (sm_outs _ _ _ S). auto.
Qed.
Lemma same_correct c t s s' : deterministic c -> same t s s' -> correct c s t -> correct c s' t.
Proof.
  intros Dt S H o Ho. rewrite (sm_outs _ _ _ S) in Ho. destruct (sm_nodes _ _ _ S o (or_introl Ho)) as (_ & _ & ->).
  rewrite (H o Ho), (sm_conf _ _ _ S). apply Dt. intros k. unfold env.
  destruct (sm_edges _ _ _ S o Ho) as [-> ->].
  destruct (mem k (kids s o)) eqn:E1; simpl.
  - apply mem_In in E1. destruct (sm_nodes _ _ _ S k) as (_ & _ & ->); auto. right; eauto.
  - destruct (mem k (fdeps s o)) eqn:E2; auto. apply mem_In in E2.
    destruct (sm_nodes _ _ _ S k) as (_ & _ & ->); auto. right; eauto.
Qed.
Lemma same_settled c t s s' : deterministic c -> same t s s' -> incl (succeeded s) (succeeded s') ->
  settled c s t -> settled c s' t.
Proof.
  intros Dt S I [A B C D E G]. constructor.
  - destruct A as [A|A]; [left; now apply I|]. right. intros X. apply A. apply (same_needs c t s' s); auto. now apply same_sym.
  - now apply (same_correct c t s s').
  - intros o Ho Ha. rewrite (sm_outs _ _ _ S) in Ho. destruct (sm_nodes _ _ _ S o (or_introl Ho)) as (-> & -> & _). auto.
  - intros o Ho Ha. rewrite (sm_outs _ _ _ S) in Ho. destruct (sm_nodes _ _ _ S o (or_introl Ho)) as (-> & _).
    destruct (D o Ho Ha) as (D1 & D2 & D3). destruct (sm_edges _ _ _ S o Ho) as [-> ->]. split; auto. split.
    + intros k Hk. destruct (sm_nodes _ _ _ S k) as (-> & _); [right; eauto|auto].
    + intros k Hk. destruct (sm_nodes _ _ _ S k) as (-> & _); [right; eauto|auto].
  - now rewrite (sm_marked _ _ _ S).
  - now rewrite (sm_track _ _ _ S), (sm_changed _ _ _ S).
Qed.
Lemma wf_same c s s' : kids s' = kids s -> fdeps s' = fdeps s -> outs s' = outs s -> wf c s -> wf c s'.
Proof. intros A B C [W1 W2 W3 W4 W5 W6]. constructor; rewrite ?A, ?B, ?C; auto. Qed.

(** *** Consequences of well-formedness *)
Lemma wf_apart c s t : wf c s -> apart s t.
Proof.
  intros W o k Ho [Hk|Hk] Hk'.
  - destruct (wf_acyclic _ _ W) as [rank Hr]. assert (X := wf_outs _ _ W _ _ Hk'). specialize (Hr t o k t Ho Hk X). lia.
  - assert (X := wf_outs _ _ W _ _ Hk'). rewrite (wf_fdeps _ _ W _ _ _ Ho Hk) in X. discriminate.
Qed.
Lemma wf_producer c s t t' k : wf c s -> In k (outs s t) -> In k (outs s t') -> t = t'.
Proof. intros W H1 H2. apply (wf_outs _ _ W) in H1. apply (wf_outs _ _ W) in H2. congruence. Qed.

Lemma concerns_other c s t t1 n : wf c s -> (forall o k, In o (outs s t) -> In k (kids s o) -> kd c k <> Generated t1) -> t <> t1 ->
  concerns s t n -> ~ In n (outs s t1).
Proof.
  intros W H Ht [Hn|(o & Ho & [Hn|Hn])] Hn'.
  - apply Ht. eapply wf_producer; eauto.
  - apply (H o n Ho Hn). now apply (wf_outs _ _ W).
  - assert (X := wf_outs _ _ W _ _ Hn'). rewrite (wf_fdeps _ _ W _ _ _ Ho Hn) in X. discriminate.
Qed.

(** *** A transformer that needs a run is run in a full build *)
Lemma settled_dirty c s t : Inv c s -> active s = true -> full s -> dirty c s t -> In t (done s) -> In t (succeeded s).
Proof.
  intros I A Fu D. induction D as [t R|t N|t o k t' Ho Hk Ha Hkd D IH]; intros Hd.
  - destruct (iv_run _ _ I t R) as (_ & _ & X). contradiction.
  - destruct (se_ran _ _ _ (iv_done _ _ I A Fu t Hd)) as [X|X]; [auto|contradiction].
  - assert (Hd' : In t' (done s)) by (apply (iv_order _ _ I A t (or_introl Hd) o k t'); auto).
    assert (Hk' : In k (outs s t')).
    { destruct (wf_kids _ _ (iv_wf _ _ I) _ _ _ Ho Hk) as [[X _]|(t2 & X & Y)]; [congruence|]. congruence. }
    destruct (iv_link _ _ I A t' t k o (IH Hd') Hk' Ha Ho Hk) as [_ L]. auto.
Qed.

(** Time stamps of the dependencies of a transformer all of whose dependencies are done. *)
Lemma kid_time c s t o k : Inv c s -> active s = true -> full s -> In o (outs s t) -> In k (kids s o) -> built c s k = true ->
  upto (file_time c s k) (ts s k).
Proof.
  intros I A Fu Ho Hk B. unfold file_time, built in *. destruct (kd c k) as [| |t'] eqn:E.
  - apply (iv_src _ _ I A); auto.
  - rewrite (proj2 (iv_src _ _ I A k) E). ord.
  - destruct (au c k) eqn:Ea; [ord|]. apply mem_In in B.
    assert (Hk' : In k (outs s t')).
    { destruct (wf_kids _ _ (iv_wf _ _ I) _ _ _ Ho Hk) as [[X _]|(t2 & X & Y)]; congruence. }
    rewrite (se_nonau _ _ _ (iv_done _ _ I A Fu t' B) k Hk' Ea). ord.
Qed.
Lemma kids_checked c s t : Inv c s -> active s = true -> full s ->
  forallb (fun o => forallb (built c s) (kids s o)) (outs s t) = true -> checks c s t.
Proof.
  intros I A Fu B o k Ho Hk Ha. rewrite forallb_forall in B. specialize (B o Ho). rewrite forallb_forall in B. specialize (B k Hk).
  destruct (wf_kids _ _ (iv_wf _ _ I) _ _ _ Ho Hk) as [[X Y]|(t' & X & Y)].
  - apply (iv_srcvalid _ _ I A); auto.
  - unfold built in B. rewrite X in B. apply mem_In in B.
    destruct (se_au _ _ _ (iv_done _ _ I A Fu t' B) k Y Ha) as [Z _]. exact Z.
Qed.
Lemma known_noforce s t n : force (bopts s) = false -> known_time s t n = ts s n.
Proof. intros H. unfold known_time. now rewrite H. Qed.

Lemma stale_outdated c s t o : Inv c s -> active s = true -> full s -> In o (outs s t) ->
  forallb (built c s) (kids s o) = true -> stale c s o -> outdated s t o.
Proof.
  intros I A Fu Ho B H. assert (Ef := iv_force _ _ I A). unfold outdated. rewrite (known_noforce s t o Ef).
  destruct H as [H|[(k & Hk & H)|(d & Hd & H)]].
  - now left.
  - right; left. exists k. split; auto. rewrite known_noforce; auto. rewrite forallb_forall in B.
    assert (X := kid_time c s t o k I A Fu Ho Hk (B k Hk)). ord.
  - right; right. exists d. split; auto. rewrite (proj2 (iv_src _ _ I A d)); auto. apply (wf_fdeps _ _ (iv_wf _ _ I) t o); auto.
Qed.
Lemma needs_must c s t : Inv c s -> active s = true -> full s ->
  forallb (fun o => forallb (built c s) (kids s o)) (outs s t) = true -> needs c s t -> must_run c s t.
Proof.
  intros I A Fu B [H|[H|[H|[H|(o & Ho & Ha & H)]]]].
  - now left.
  - right; now left.
  - right; right; right; now left.
  - right; right; right; right. intros o Ho. rewrite forallb_forall in B. apply (stale_outdated c); auto.
  - right; right; left. exists o. split; auto. split; auto. rewrite forallb_forall in B. apply (stale_outdated c); auto.
Qed.
Lemma dirty_must c s t : Inv c s -> active s = true -> full s -> idle s t = true ->
  forallb (fun o => forallb (built c s) (kids s o)) (outs s t) = true -> dirty c s t -> must_run c s t.
Proof.
  intros I A Fu Id B D. unfold idle in Id. apply andb_prop in Id. destruct Id as [Id1 Id2].
  apply negb_true_iff, mem_notIn in Id1, Id2.
  destruct D as [t R|t N|t o k t' Ho Hk Ha Hkd D].
  - destruct (iv_run _ _ I t R) as (_ & X & _). contradiction.
  - now apply needs_must.
  - assert (Hd' : In t' (done s)).
    { rewrite forallb_forall in B. specialize (B o Ho). rewrite forallb_forall in B. specialize (B k Hk).
      unfold built in B. rewrite Hkd in B. now apply mem_In. }
    assert (Hk' : In k (outs s t')).
    { destruct (wf_kids _ _ (iv_wf _ _ I) _ _ _ Ho Hk) as [[X _]|(t2 & X & Y)]; congruence. }
    destruct (iv_link _ _ I A t' t k o (settled_dirty c s t' I A Fu D Hd') Hk' Ha Ho Hk) as [L _].
    destruct (L Id1 Id2) as [L'|L']; [right; now left|].
    right; right; right; right. intros o' Ho'. left. rewrite (known_noforce s t o' (iv_force _ _ I A)). auto.
Qed.
Lemma full_selected c s t : full s -> matching_tags c s t = true /\ matching_files c s t = true.
Proof. intros (A & B & _). unfold matching_tags, matching_files. now rewrite A, B. Qed.
