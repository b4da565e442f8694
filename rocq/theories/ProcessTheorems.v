(** C47: what clients are told about their processes, and which signals are sent. *)
From Coq Require Import List Bool Arith NArith Lia.
From Verif Require Import ProcessModel.
Import ListNotations.

(** ** Specification: what may happen, given what has happened before *)

Definition reported (t : N) (r : nat) (b : list event) : Prop := exists c, In (EReport t r c) b.
Definition over (t : N) (r : nat) (b : list event) : Prop := In (EFailed t r) b \/ In (EExit t r) b \/ In (EGiveUp t r) b.
Definition ended (t : N) (r : nat) (b : list event) : Prop := In (EFailed t r) b \/ In (EExit t r) b.
Definition may_happen (e : event) (b : list event) : Prop :=
  match e with
  | EStart t r => forall r', In (EStart t r') b -> r' < r
  | ECancel t r => In (EStart t r) b /\ ~ reported t r b
  | EReport t r c => In (EStart t r) b /\ ~ reported t r b /\
      match c with
      | Immediately => ~ In (ELaunch t r) b \/ In EShutdown b
      | FromLauncher Failed r' => r' = r /\ In (EFailed t r) b
      | FromLauncher Finished r' => r' = r /\ (In (EExit t r) b \/ In (EGiveUp t r) b)
      end
  | EAssert _ => False
  | ELaunch t r => In (EStart t r) b /\ ~ In (ELaunch t r) b
  | EFailed t r | EExit t r => In (ELaunch t r) b /\ ~ over t r b
  | ETerminate t r => In (ELaunch t r) b /\ In (ECancel t r) b /\ ~ ended t r b
  | EKill t r => In (ETerminate t r) b /\ ~ ended t r b
  | EGiveUp t r => In (EKill t r) b /\ ~ over t r b
  | EShutdown => True
  end.
Fixpoint legal (l : list event) : Prop := match l with [] => True | e :: b => may_happen e b /\ legal b end.

(** ** The invariant *)

Definition down_of (t : N) (l : list (option (N * message))) : list message :=
  flat_map (fun x => match x with Some (t', m) => if (t' =? t)%N then [m] else [] | None => [] end) l.
Definition up_of (t : N) (l : list (N * (kind * nat))) : list (kind * nat) := flat_map (fun x => if (fst x =? t)%N then [snd x] else []) l.
Definition packets (l : list item) : list (kind * nat) := flat_map (fun i => match i with Packet k r => [(k, r)] | _ => [] end) l.
Definition pending (t : N) (s : state) : list (kind * nat) := packets (c_inbox (s_clients s t)) ++ up_of t (s_up s).
Definition is_stop (m : message) : Prop := match m with Stop _ => True | _ => False end.
Definition quiet (p : option proc) : Prop := match p with None => True | Some p => p_active p = false /\ p_stop p = Inactive /\ p_timer p = false end.
Inductive mode := Idle | Sent | Active.
Definition stage (t : N) (r : nat) (st : stop_state) (timer : bool) (log : list event) : Prop :=
  match st with
  | Inactive => timer = false
  | Terminating => timer = true /\ In (ECancel t r) log /\ In (ETerminate t r) log
  | Killing => timer = true /\ In (ECancel t r) log /\ In (EKill t r) log
  end.
Inductive launcher_at (t : N) (r0 : nat) (D : list message) (p : option proc) (log : list event) : mode -> Prop :=
| L_idle : Forall is_stop D -> quiet p -> launcher_at t r0 D p log Idle
| L_sent A B : D = A ++ Start r0 :: B -> Forall is_stop A -> Forall (eq (Stop r0)) B -> quiet p -> In (EStart t r0) log -> ~ In (ELaunch t r0) log -> launcher_at t r0 D p log Sent
| L_active st timer : Forall (eq (Stop r0)) D -> p = Some (mkProc true r0 st timer) -> In (ELaunch t r0) log -> ~ over t r0 log -> stage t r0 st timer log -> launcher_at t r0 D p log Active.
Definition link (ph : phase) (c : client) (r0 : nat) (m : mode) (U : list (kind * nat)) : Prop :=
  match ph with
  | Connecting => c_state c <> Running /\ c_inbox c = [] /\ m = Idle /\ U = [] /\ c_error c = false
  | Connected => c_error c = false /\ ((c_state c <> Running /\ m = Idle /\ U = []) \/ (c_state c = Running /\ m <> Idle /\ r0 = c_run c /\ U = []) \/ (c_state c = Running /\ m = Idle /\ exists k, U = [(k, c_run c)]))
  | Closed => U = [] \/ (c_state c = Running /\ exists k, U = [(k, c_run c)])
  end.
Definition proof_of (t : N) (k : kind) (r : nat) (log : list event) : Prop :=
  match k with Failed => In (EFailed t r) log | Finished => In (EExit t r) log \/ In (EGiveUp t r) log end.
Record inv (t : N) (s : state) (r0 : nat) (m : mode) : Prop := mkInv {
  i_launcher : launcher_at t r0 (down_of t (s_down s)) (s_table s t) (s_log s) m;
  i_link : link (s_phase s) (s_clients s t) r0 m (pending t s);
  i_le : r0 <= c_run (s_clients s t);
  i_starting : c_state (s_clients s t) = Starting -> r0 < c_run (s_clients s t);
  i_launched : forall r, In (ELaunch t r) (s_log s) -> r <= r0;
  i_stops : forall r, In (Stop r) (down_of t (s_down s)) -> In (ECancel t r) (s_log s);
  i_pending : forall k r, In (k, r) (pending t s) -> proof_of t k r (s_log s);
  i_started : forall r, In (EStart t r) (s_log s) -> r <= c_run (s_clients s t);
  i_reported : forall r, reported t r (s_log s) -> r <= c_run (s_clients s t);
  i_open : c_state (s_clients s t) <> NotRunning -> In (EStart t (c_run (s_clients s t))) (s_log s) /\ ~ reported t (c_run (s_clients s t)) (s_log s);
  i_error : forall a b, c_inbox (s_clients s t) = a ++ SocketError :: b -> In EShutdown (s_log s) /\ s_phase s = Closed /\ packets b = [];
  i_orphans : forall p, In (t, p) (s_orphans s) -> In (ECancel t (p_run p)) (s_log s) /\ In (ELaunch t (p_run p)) (s_log s) /\ (p_stop p <> Inactive -> In (ETerminate t (p_run p)) (s_log s)) }.
Definition good (s : state) : Prop :=
  legal (s_log s) /\ (s_phase s <> Connected -> s_up s = []) /\ (s_phase s = Connected -> s_alive s = true /\ ~ In None (s_down s)) /\ (s_phase s = Connecting -> s_alive s = false) /\
  (s_alive s = false -> s_down s = [] /\ forall t, s_table s t = None) /\
  forall t, exists r0 m, inv t s r0 m.

(** ** What one token does not change for the others *)

Definition token (e : event) : option N :=
  match e with
  | EStart t _ | ECancel t _ | EReport t _ _ | EAssert t | ELaunch t _ | EFailed t _ | EExit t _ | ETerminate t _ | EKill t _ | EGiveUp t _ => Some t
  | EShutdown => None
  end.
Definition same_log (t : N) (l l' : list event) : Prop := (forall e, token e = Some t -> (In e l' <-> In e l)) /\ (In EShutdown l -> In EShutdown l').
Lemma same_reported t r l l' : same_log t l l' -> reported t r l' <-> reported t r l.
Proof. intros [H _]. unfold reported. split; intros [c I]; exists c; now apply (H (EReport t r c) eq_refl). Qed.
Lemma same_over t r l l' : same_log t l l' -> over t r l' <-> over t r l.
Proof. intros [H _]. unfold over. rewrite (H (EFailed t r) eq_refl), (H (EExit t r) eq_refl), (H (EGiveUp t r) eq_refl). reflexivity. Qed.
Lemma inv_frame t s s' r0 m : s_phase s' = s_phase s -> s_clients s' t = s_clients s t -> down_of t (s_down s') = down_of t (s_down s) -> up_of t (s_up s') = up_of t (s_up s) ->
  s_table s' t = s_table s t -> (forall p, In (t, p) (s_orphans s') -> In (t, p) (s_orphans s)) -> same_log t (s_log s) (s_log s') -> inv t s r0 m -> inv t s' r0 m.
Proof.
  intros P C D U T O L [I1 I2 I3 I4 I5 I6 I7 I8 I9 I10 I11 I12]. pose proof L as [L1 L2]. constructor; rewrite ?P, ?C, ?D, ?T; auto.
  - destruct I1 as [A B|A B E1 E2 E3 E4 E5 E6|st tm E1 E2 E3 E4 E5].
    + now constructor.
    + eapply L_sent; eauto; [now apply (L1 (EStart t r0) eq_refl)|intros X; apply E6; now apply (L1 (ELaunch t r0) eq_refl)].
    + eapply L_active; eauto; [now apply (L1 (ELaunch t r0) eq_refl)|now rewrite (same_over _ _ _ _ L)|]. destruct st; cbn in *; auto.
      * destruct E5 as (X & Y & Z). split; [assumption|]. split; [now apply (L1 (ECancel t r0) eq_refl)|now apply (L1 (ETerminate t r0) eq_refl)].
      * destruct E5 as (X & Y & Z). split; [assumption|]. split; [now apply (L1 (ECancel t r0) eq_refl)|now apply (L1 (EKill t r0) eq_refl)].
  - unfold pending in *. rewrite C, U. exact I2.
  - intros r H. apply I5. now apply (L1 (ELaunch t r) eq_refl).
  - intros r H. apply (L1 (ECancel t r) eq_refl). auto.
  - intros k r H. unfold pending in *. rewrite C, U in H. apply I7 in H. destruct k; cbn in *; [now apply (L1 (EFailed t r) eq_refl)|].
    rewrite (L1 (EExit t r) eq_refl), (L1 (EGiveUp t r) eq_refl). exact H.
  - intros r H. apply I8. now apply (L1 (EStart t r) eq_refl).
  - intros r H. apply I9. now rewrite <- (same_reported _ _ _ _ L).
  - intros H. rewrite (same_reported _ _ _ _ L). destruct (I10 H) as [X Y]. split; [now apply (L1 (EStart t _) eq_refl)|exact Y].
  - intros a b H. destruct (I11 a b H) as (X & Y & Z). auto.
  - intros p H. apply O in H. destruct (I12 p H) as (X & Y & Z). split; [now apply (L1 (ECancel t _) eq_refl)|]. split; [now apply (L1 (ELaunch t _) eq_refl)|]. intros N. apply (L1 (ETerminate t _) eq_refl). auto.
Qed.
Definition local (t : N) (s s' : state) : Prop := s_phase s' = s_phase s /\ forall t', t' <> t ->
  s_clients s' t' = s_clients s t' /\ down_of t' (s_down s') = down_of t' (s_down s) /\ up_of t' (s_up s') = up_of t' (s_up s) /\ s_table s' t' = s_table s t' /\
  (forall p, In (t', p) (s_orphans s') -> In (t', p) (s_orphans s)) /\ same_log t' (s_log s) (s_log s').
Lemma good_local t s s' : good s -> local t s s' -> legal (s_log s') -> (s_phase s <> Connected -> s_up s' = []) -> (s_phase s = Connected -> s_alive s' = true /\ ~ In None (s_down s')) ->
  (s_phase s = Connecting -> s_alive s' = false) -> (s_alive s' = false -> s_down s' = [] /\ forall t, s_table s' t = None) -> (exists r0 m, inv t s' r0 m) -> good s'.
Proof.
  intros (_ & _ & _ & _ & _ & G) [P L] LG U C N A I. unfold good. rewrite P. split; [exact LG|]. split; [exact U|]. split; [exact C|]. split; [exact N|]. split; [exact A|].
  intros t'. destruct (N.eq_dec t' t) as [->|D]; [exact I|]. destruct (G t') as (r0 & m & I'). exists r0, m. destruct (L t' D) as (L1 & L2 & L3 & L4 & L5 & L6). eapply inv_frame; eauto.
Qed.
Lemma same_log_refl t l : same_log t l l.
Proof. now split. Qed.
Lemma same_log_cons t e l l' : token e <> Some t -> same_log t l l' -> same_log t l (e :: l').
Proof.
  intros N [A B]. split; [|intros H; right; auto]. intros e' T. rewrite <- (A e' T). split; [intros [<-|H]; [contradiction|assumption]|now right].
Qed.
Lemma update_same {A} (f : N -> A) t a : update f t a t = a.
Proof. unfold update. now rewrite N.eqb_refl. Qed.
Lemma update_other {A} (f : N -> A) t a t' : t' <> t -> update f t a t' = f t'.
Proof. unfold update. intros N. apply N.eqb_neq in N. now rewrite N. Qed.
Lemma down_app t a b : down_of t (a ++ b) = down_of t a ++ down_of t b.
Proof. unfold down_of. now rewrite flat_map_app. Qed.
Lemma up_app t a b : up_of t (a ++ b) = up_of t a ++ up_of t b.
Proof. unfold up_of. now rewrite flat_map_app. Qed.
Lemma packets_app a b : packets (a ++ b) = packets a ++ packets b.
Proof. unfold packets. now rewrite flat_map_app. Qed.
Lemma down_one t m : down_of t [Some (t, m)] = [m].
Proof. cbn. now rewrite N.eqb_refl. Qed.
Lemma down_one_other t t' m : t' <> t -> down_of t' [Some (t, m)] = [].
Proof. intros N. cbn. destruct (N.eqb_spec t t'); [congruence|reflexivity]. Qed.
Lemma up_one t x : up_of t [(t, x)] = [x].
Proof. cbn. now rewrite N.eqb_refl. Qed.
Lemma up_one_other t t' x : t' <> t -> up_of t' [(t, x)] = [].
Proof. intros N. cbn. destruct (N.eqb_spec t t'); [congruence|reflexivity]. Qed.
Ltac tok := let X := fresh in intros X; injection X as X; congruence.
Ltac loc := split; [try reflexivity|intros t' D; cbn [s_clients s_down s_up s_table s_orphans s_log emit set_client set_proc set_down set_up set_orphans];
  repeat (rewrite !update_other by assumption); rewrite ?down_app, ?up_app, ?down_one_other, ?up_one_other, ?app_nil_r by assumption;
  repeat match goal with |- _ /\ _ => split end; try reflexivity; try tauto; repeat (apply same_log_cons; [cbn [token]; (discriminate || tok)|]); try apply same_log_refl].

Lemma pending_eq t s s' : c_inbox (s_clients s' t) = c_inbox (s_clients s t) -> up_of t (s_up s') = up_of t (s_up s) -> pending t s' = pending t s.
Proof. unfold pending. now intros -> ->. Qed.
Ltac simp := cbn [s_log s_phase s_up s_alive s_down s_table s_orphans s_clients set_down set_client set_up set_proc set_orphans emit c_run c_state c_inbox c_error with_cstate];
  rewrite ?update_same; cbn [s_log s_phase s_up s_alive s_down s_table s_orphans s_clients set_down set_client set_up set_proc set_orphans emit c_run c_state c_inbox c_error with_cstate].

(** ** The client *)

Lemma idle_when s t r0 m : inv t s r0 m -> s_phase s = Connected -> c_state (s_clients s t) <> Running -> m = Idle /\ pending t s = [].
Proof.
  intros I P N. pose proof (i_link _ _ _ _ I) as K. unfold link in K. rewrite P in K. destruct K as [_ [(A & B & C)|[(A & _)|(A & _)]]]; auto; contradiction.
Qed.
Lemma legal_cons e l : may_happen e l -> legal l -> legal (e :: l).
Proof. now split. Qed.
Lemma reported_cons t r e l : (forall c, e <> EReport t r c) -> reported t r (e :: l) <-> reported t r l.
Proof. intros N. unfold reported. split; intros [c H]; exists c; [destruct H as [->|H]; [now destruct (N c)|assumption]|now right]. Qed.
(** An event that does not contradict the invariant. *)
Definition harmless (t : N) (c : client) (r0 : nat) (m : mode) (e : event) : Prop :=
  match e with
  | ELaunch t' r => t' = t -> r <= r0 /\ (m = Sent -> r <> r0)
  | EFailed t' r | EExit t' r | EGiveUp t' r => t' = t -> m = Active -> r <> r0
  | EStart t' r => t' = t -> r <= c_run c
  | EReport t' r _ => t' = t -> r <= c_run c /\ (c_state c <> NotRunning -> r <> c_run c)
  | _ => True
  end.
Lemma inv_emit t s e r0 m : inv t s r0 m -> harmless t (s_clients s t) r0 m e -> inv t (emit e s) r0 m.
Proof.
  intros [I1 I2 I3 I4 I5 I6 I7 I8 I9 I10 I11 I12] H. constructor; simp; rewrite ?(pending_eq t s) by (simp; reflexivity); auto.
  - destruct I1 as [A B|A B E1 E2 E3 E4 E5 E6|st tm E1 E2 E3 E4 E5].
    + now constructor.
    + eapply L_sent; eauto; [now right|]. intros [->|X]; [|contradiction]. destruct (H eq_refl) as [_ X]. now apply X.
    + eapply L_active; eauto; [now right| |destruct st; cbn in *; intuition].
      intros [[->|X]|[[->|X]|[->|X]]]; try (apply (H eq_refl eq_refl); reflexivity); apply E4; unfold over; auto.
  - intros r [->|X]; [now apply H|auto].
  - intros r X. right. auto.
  - intros k r X. apply I7 in X. destruct k; cbn in *; intuition.
  - intros r [->|X]; [now apply H|auto].
  - intros r [c [->|X]]; [now apply H|apply I9; now exists c].
  - intros N. destruct (I10 N) as [A B]. split; [now right|]. intros [c [->|X]]; [|apply B; now exists c]. destruct (H eq_refl) as [_ X]. now apply X.
  - intros a b X. destruct (I11 a b X). split; [now right|assumption].
  - intros p X. destruct (I12 p X) as (A & B & C). split; [now right|]. split; [now right|]. intros N. right. auto.
Qed.
Lemma good_emit t e s : good s -> token e = Some t -> may_happen e (s_log s) -> (forall r0 m, inv t s r0 m -> harmless t (s_clients s t) r0 m e) -> good (emit e s).
Proof.
  intros G T M H. pose proof G as (LG & UP & AL & CN & DE & IV). apply (good_local t s); auto.
  - split; [reflexivity|]. intros t' D. do 5 (split; [now auto|]). apply same_log_cons; [congruence|apply same_log_refl].
  - now apply legal_cons.
  - destruct (IV t) as (r0 & m & I). exists r0, m. apply inv_emit; auto.
Qed.
Lemma inv_client t s c r0 m : inv t s r0 m -> link (s_phase s) c r0 m (packets (c_inbox c) ++ up_of t (s_up s)) -> c_run (s_clients s t) <= c_run c -> (c_state c = Starting -> r0 < c_run c) ->
  (forall x, In x (packets (c_inbox c)) -> In x (packets (c_inbox (s_clients s t)))) -> (c_state c <> NotRunning -> In (EStart t (c_run c)) (s_log s) /\ ~ reported t (c_run c) (s_log s)) ->
  (forall a b, c_inbox c = a ++ SocketError :: b -> exists a', c_inbox (s_clients s t) = a' ++ SocketError :: b) -> inv t (set_client t c s) r0 m.
Proof.
  intros [I1 I2 I3 I4 I5 I6 I7 I8 I9 I10 I11 I12] L R S P O E. constructor; simp; auto.
  - unfold pending. simp. exact L.
  - lia.
  - unfold pending. simp. intros k r X. apply I7. unfold pending. apply in_app_or in X as [X|X]; apply in_or_app; auto.
  - intros r X. apply I8 in X. lia.
  - intros r X. apply I9 in X. lia.
  - intros a b X. destruct (E a b X) as [a' Y]. eauto.
Qed.
Lemma good_client t c s : good s -> (forall r0 m, inv t s r0 m -> inv t (set_client t c s) r0 m) -> good (set_client t c s).
Proof.
  intros G H. pose proof G as (LG & UP & AL & CN & DE & IV). apply (good_local t s); auto.
  - loc.
  - destruct (IV t) as (r0 & m & I). exists r0, m. auto.
Qed.
Lemma good_do_start t s : good s -> c_state (s_clients s t) = Starting -> s_phase s <> Connecting -> good (do_start t s).
Proof.
  intros G ST NC. pose proof G as (LG & UP & AL & CN & DE & IV). destruct (IV t) as (r0 & m & I). unfold do_start, send. set (c := s_clients s t) in *.
  destruct (is_ready (set_client t (with_cstate c Running) s)) eqn:R.
  - assert (P : s_phase s = Connected) by (unfold is_ready in R; cbn in R; destruct (s_phase s); easy). destruct (AL P) as [Al NN].
    apply (good_local t s); auto; simp.
    + loc.
    + intros _. split; [exact Al|]. intros X. apply in_app_or in X as [X|[X|[]]]; [auto|discriminate].
    + intros X. congruence.
    + exists (c_run c), Sent. destruct (idle_when s t r0 m I P) as [-> U]; [fold c; congruence|]. destruct I as [I1 I2 I3 I4 I5 I6 I7 I8 I9 I10 I11 I12]. fold c in I2, I3, I4, I8, I9, I10, I11.
      assert (OP : In (EStart t (c_run c)) (s_log s) /\ ~ reported t (c_run c) (s_log s)) by (apply I10; congruence).
      constructor; simp; rewrite ?(pending_eq t s), ?U by (simp; reflexivity); auto.
      * rewrite down_app, down_one. inversion I1 as [A B| |]; subst. eapply L_sent; [reflexivity|assumption|constructor|assumption|apply OP|]. intros X. apply I5 in X. specialize (I4 ST). lia.
      * unfold link in *. rewrite P in *. destruct I2 as [I2 _]. split; [exact I2|]. right. left. repeat split; auto. discriminate.
      * discriminate.
      * intros r X. apply I5 in X. lia.
      * intros r X. rewrite down_app, down_one in X. apply in_app_or in X as [X|[X|[]]]; [auto|discriminate].
      * intros k r [].
  - apply good_client; [assumption|]. clear I r0 m. intros r0 m I. apply inv_client; fold c; simp; eauto; try discriminate.
    + pose proof (i_link _ _ _ _ I) as I2. fold c in I2. unfold link in *. unfold is_ready in R. cbn in R. destruct (s_phase s); try easy. unfold pending in I2. fold c in I2.
      destruct I2 as [I2|[I2 _]]; [auto|congruence].
    + intros _. apply (i_open _ _ _ _ I). fold c. congruence.
Qed.
Lemma good_client_ex t c s : good s -> (exists r0 m, inv t (set_client t c s) r0 m) -> good (set_client t c s).
Proof.
  intros G H. pose proof G as (LG & UP & AL & CN & DE & IV). apply (good_local t s); auto. loc.
Qed.
Lemma good_start t s : good s -> c_state (s_clients s t) = NotRunning -> good (start t s).
Proof.
  intros G ST. unfold start. set (c := s_clients s t) in *. set (s1 := set_client t (mkClient (c_state c) (c_error c) (S (c_run c)) (c_inbox c)) s).
  pose proof G as (_ & _ & _ & _ & _ & IV). destruct (IV t) as (r0 & m & I0). pose proof (i_le _ _ _ _ I0) as LE. fold c in LE.
  assert (I1 : inv t s1 r0 m).
  { pose proof (i_link _ _ _ _ I0) as K. unfold pending in K. fold c in K. apply inv_client; fold c; simp; eauto; try congruence.
    unfold link in *. cbn [c_state c_inbox c_error c_run]. destruct (s_phase s); auto.
    - destruct K as [K [X|[(X & _)|(X & _)]]]; [|congruence|congruence]. auto.
    - destruct K as [K|(X & _)]; [auto|congruence]. }
  assert (G1 : good s1) by (apply good_client_ex; eauto).
  assert (F1 : ~ reported t (S (c_run c)) (s_log s)) by (intros X; apply (i_reported _ _ _ _ I0) in X; fold c in X; lia).
  assert (F2 : forall r, In (EStart t r) (s_log s) -> r < S (c_run c)) by (intros r X; apply (i_started _ _ _ _ I0) in X; fold c in X; lia).
  assert (C1 : s_clients s1 t = mkClient NotRunning (c_error c) (S (c_run c)) (c_inbox c)) by (unfold s1; simp; rewrite ST; reflexivity).
  assert (G2 : good (emit (EStart t (S (c_run c))) s1)).
  { apply (good_emit t); auto. intros r0' m' I. cbn [harmless]. rewrite C1. cbn. lia. }
  assert (I2 : inv t (emit (EStart t (S (c_run c))) s1) r0 m) by (apply inv_emit; [assumption|]; cbn [harmless]; rewrite C1; cbn; lia).
  destruct (c_error c) eqn:E.
  - apply (good_emit t); auto.
    + cbn [may_happen emit s_log]. split; [now left|]. split; [rewrite reported_cons by discriminate; exact F1|]. left. intros [X|X]; [discriminate|]. apply (i_launched _ _ _ _ I0) in X. lia.
    + intros r0' m' I. cbn [harmless]. unfold emit. cbn [s_clients]. rewrite C1. cbn. split; [lia|congruence].
  - set (s2 := emit (EStart t (S (c_run c))) s1) in *. assert (C2 : s_clients s2 t = mkClient NotRunning false (S (c_run c)) (c_inbox c)) by exact C1.
    assert (G3 : good (set_client t (mkClient Starting false (S (c_run c)) (c_inbox c)) s2)).
    { apply good_client_ex; [assumption|]. exists r0, m. pose proof (i_link _ _ _ _ I2) as K. unfold pending in K. rewrite C2 in K. cbn [c_inbox] in K.
      apply inv_client; rewrite ?C2; cbn [c_state c_run c_inbox]; eauto.
      - unfold link in *. cbn [c_state c_inbox c_error c_run] in *. destruct (s_phase s2); auto.
        + destruct K as (_ & A & B & D & _). repeat split; auto. discriminate.
        + destruct K as [K [(X & A & B)|[(X & _)|(X & _)]]]; [|discriminate|discriminate]. split; [reflexivity|]. left. repeat split; auto. discriminate.
        + destruct K as [K|(X & _)]; [auto|discriminate].
      - lia.
      - intros _. split; [now left|]. unfold s2. cbn [emit s_log]. rewrite reported_cons by discriminate. exact F1. }
    destruct (is_ready _) eqn:R; [|exact G3]. apply good_do_start; [exact G3|simp; reflexivity|]. intros X. unfold is_ready in R. now rewrite X in R.
Qed.

Lemma good_send_stop t s : good s -> c_state (s_clients s t) = Running -> In (ECancel t (c_run (s_clients s t))) (s_log s) -> good (send t (Stop (c_run (s_clients s t))) s).
Proof.
  intros G ST EC. unfold send. destruct (is_ready s) eqn:R; [|exact G]. assert (P : s_phase s = Connected) by (unfold is_ready in R; destruct (s_phase s); easy).
  pose proof G as (LG & UP & AL & CN & DE & IV). destruct (AL P) as [Al NN]. set (c := s_clients s t) in *. apply (good_local t s); auto; simp.
  - loc.
  - intros _. split; [exact Al|]. intros X. apply in_app_or in X as [X|[X|[]]]; [auto|discriminate].
  - intros X. congruence.
  - destruct (IV t) as (r0 & m & I). exists r0, m. destruct I as [I1 I2 I3 I4 I5 I6 I7 I8 I9 I10 I11 I12]. fold c in I2, I3, I4, I8, I9, I10, I11.
    constructor; simp; fold c; rewrite ?(pending_eq t s) by (simp; reflexivity); auto; rewrite ?down_app, ?down_one.
    + assert (RR : m <> Idle -> r0 = c_run c). { intros N. unfold link in I2. rewrite P in I2. destruct I2 as [_ [(X & _)|[(_ & _ & X & _)|(_ & X & _)]]]; congruence. }
      destruct I1 as [A B|A B E1 E2 E3 E4 E5 E6|st tm E1 E2 E3 E4 E5].
      * constructor; [|assumption]. apply Forall_app. split; [assumption|repeat constructor].
      * rewrite <- RR by discriminate. eapply (L_sent _ _ _ _ _ A (B ++ [Stop r0])); auto; [rewrite E1, <- app_assoc; reflexivity|]. apply Forall_app. split; [assumption|repeat constructor].
      * rewrite <- RR by discriminate. eapply L_active; eauto. apply Forall_app. split; [assumption|repeat constructor].
    + intros r X. apply in_app_or in X as [X|[X|[]]]; [auto|]. injection X as <-. exact EC.
Qed.
Lemma good_cancel t s : good s -> good (cancel t s).
Proof.
  intros G. unfold cancel. set (c := s_clients s t) in *. pose proof G as (LG & UP & AL & CN & DE & IV). destruct (IV t) as (r0 & m & I). destruct (c_state c) eqn:ST; [exact G| |].
  - destruct (i_open _ _ _ _ I) as [O1 O2]; [fold c; congruence|]. fold c in O1, O2. apply (good_emit t); [|reflexivity| |].
    + apply good_client_ex; [assumption|]. exists r0, m. apply inv_client; auto; fold c; simp; try congruence; eauto.
      pose proof (i_link _ _ _ _ I) as K. unfold pending in K. fold c in K. unfold link in *. cbn [with_cstate c_state c_inbox c_error c_run]. destruct (s_phase s).
      * intuition congruence.
      * destruct K as [K [(X & A & B)|[(X & _)|(X & _)]]]; [|congruence|congruence]. split; [assumption|]. left. repeat split; auto. discriminate.
      * destruct K as [K|(X & _)]; [auto|congruence].
    + cbn [may_happen]. simp. split; [assumption|]. split; [assumption|]. left. intros X. apply (i_launched _ _ _ _ I) in X. pose proof (i_starting _ _ _ _ I) as Y. fold c in Y. specialize (Y ST). lia.
    + intros r0' m' I'. cbn [harmless]. simp. split; [reflexivity|congruence].
  - destruct (i_open _ _ _ _ I) as [O1 O2]; [fold c; congruence|]. fold c in O1, O2.
    apply (good_send_stop t (emit (ECancel t (c_run c)) s)); [|exact ST|now left]. apply (good_emit t); auto; [now split|]. intros r0' m' _. exact Logic.I.
Qed.
Lemma good_receive t s : good s -> good (receive t s).
Proof.
  intros G. unfold receive. set (c := s_clients s t) in *. pose proof G as (LG & UP & AL & CN & DE & IV). destruct (IV t) as (r0 & m & I).
  destruct (c_inbox c) as [|[| |k r] rest] eqn:IB; [exact G| | |].
  - assert (NC : s_phase s <> Connecting) by (intros P; pose proof (i_link _ _ _ _ I) as K; fold c in K; unfold link in K; rewrite P in K; destruct K as (_ & K & _); congruence).
    assert (G1 : good (set_client t (mkClient (c_state c) false (c_run c) rest) s)).
    { apply good_client_ex; [assumption|]. exists r0, m. apply inv_client; auto; fold c; simp; auto.
      - pose proof (i_link _ _ _ _ I) as K. unfold pending in K. fold c in K. rewrite IB in K. unfold link in *. cbn [c_state c_inbox c_error c_run]. destruct (s_phase s); [easy| |exact K]. destruct K as [K1 K2]. split; [reflexivity|exact K2].
      - apply (i_starting _ _ _ _ I).
      - rewrite IB. auto.
      - apply (i_open _ _ _ _ I).
      - intros a b E. rewrite IB. exists (Ready :: a). cbn. now rewrite E. }
    destruct (c_state c) eqn:ST; try exact G1. apply good_do_start; [exact G1|simp; reflexivity|exact NC].
  - destruct (i_error _ _ _ _ I [] rest) as (E1 & E2 & E3); [exact IB|].
    assert (G1 : good (set_client t (mkClient NotRunning true (c_run c) rest) s)).
    { apply good_client_ex; [assumption|]. exists r0, m. apply inv_client; auto; fold c; simp; auto; try congruence.
      - unfold link. rewrite E2. left. rewrite E3, UP by (rewrite E2; discriminate). reflexivity.
      - rewrite E3. intros x [].
      - intros a b E. rewrite IB. exists (SocketError :: a). cbn. now rewrite E. }
    assert (R : c_state c <> NotRunning -> good (emit (EReport t (c_run c) Immediately) (set_client t (mkClient NotRunning true (c_run c) rest) s))).
    { intros N. destruct (i_open _ _ _ _ I) as [O1 O2]; [fold c; congruence|]. fold c in O1, O2. apply (good_emit t); auto.
      - cbn [may_happen]. simp. auto.
      - intros r0' m' I'. cbn [harmless]. simp. split; [reflexivity|congruence]. }
    destruct (c_state c); [exact G1|apply R; discriminate|apply R; discriminate].
  - assert (K : c_state c = Running /\ r = c_run c /\ packets rest = [] /\ up_of t (s_up s) = [] /\ (s_phase s = Connected -> m = Idle)).
    { pose proof (i_link _ _ _ _ I) as K. unfold pending in K. fold c in K. rewrite IB in K. unfold link in K. cbn [packets flat_map app] in K. fold (packets rest) in K. destruct (s_phase s).
      - destruct K as (_ & K & _). congruence.
      - destruct K as [_ [(_ & _ & K)|[(_ & _ & _ & K)|(K1 & K2 & k' & K3)]]]; [discriminate|discriminate|]. injection K3 as _ -> K3. apply app_eq_nil in K3 as []. auto.
      - destruct K as [K|(K1 & k' & K3)]; [discriminate|]. injection K3 as _ -> K3. apply app_eq_nil in K3 as []. repeat split; auto. discriminate. }
    destruct K as (ST & -> & PR & UR & MI). rewrite ST. destruct (i_open _ _ _ _ I) as [O1 O2]; [fold c; congruence|]. fold c in O1, O2.
    assert (PF : proof_of t k (c_run c) (s_log s)) by (apply (i_pending _ _ _ _ I); unfold pending; fold c; rewrite IB; now left).
    replace (match k with Failed => true | Finished => true end) with true by now destruct k. apply (good_emit t); auto.
    + apply good_client_ex; [assumption|]. exists r0, m. apply inv_client; auto; fold c; simp; auto; try congruence.
      * pose proof (i_link _ _ _ _ I) as K. fold c in K. rewrite PR, UR. unfold link in *. cbn [c_state c_inbox c_error c_run]. destruct (s_phase s); [| |now left].
        -- destruct K as (_ & K & _). congruence.
        -- destruct K as [K _]. split; [assumption|]. left. repeat split; auto. discriminate.
      * rewrite PR. intros x [].
      * intros a b E. rewrite IB. exists (Packet k (c_run c) :: a). cbn. now rewrite E.
    + cbn [may_happen]. simp. split; [assumption|]. split; [assumption|]. destruct k; split; auto.
    + intros r0' m' I'. cbn [harmless]. simp. split; [reflexivity|congruence].
Qed.

(** ** The connection *)

Lemma good_connect s : good s -> good (connect s).
Proof.
  intros G. unfold connect. destruct (s_phase s) eqn:P; try exact G. destruct G as (LG & UP & AL & CN & DE & IV). unfold good, queue_all. cbn [s_phase s_log s_up s_alive s_down s_table].
  destruct (DE (CN P)) as [D0 T0]. rewrite UP by congruence. rewrite D0. split; [exact LG|]. split; [easy|]. split; [auto|]. split; [discriminate|]. split; [discriminate|].
  intros t. destruct (IV t) as (r0 & m & [I1 I2 I3 I4 I5 I6 I7 I8 I9 I10 I11 I12]). exists r0, m. unfold link in I2. rewrite P in I2. destruct I2 as (A & B & -> & U & E).
  assert (U' : pending t (mkState Connected (fun t => queue Ready (s_clients s t)) [] [] true (s_table s) (s_orphans s) (s_log s)) = []) by (unfold pending; cbn; rewrite B; reflexivity).
  constructor; cbn [s_phase s_log s_up s_alive s_down s_table s_clients s_orphans queue c_state c_run c_inbox c_error]; rewrite ?U'; auto.
  - rewrite D0 in I1. exact I1.
  - cbn. auto.
  - intros r [].
  - intros k r [].
  - rewrite B. intros [|a0 [|? ?]] b X; discriminate X.
Qed.
Lemma good_lose s : good s -> good (lose s).
Proof.
  intros G. unfold lose. destruct (s_phase s) eqn:P; try exact G. destruct G as (LG & UP & AL & CN & DE & IV). unfold good, queue_all. cbn [s_phase s_log s_up s_alive s_down s_table].
  split; [now split|]. split; [easy|]. split; [discriminate|]. split; [discriminate|]. split; [auto|].
  intros t. destruct (IV t) as (r0 & m & I). assert (I' : inv t (emit EShutdown s) r0 m) by (now apply inv_emit). destruct I' as [I1 I2 I3 I4 I5 I6 I7 I8 I9 I10 I11 I12]. cbn [emit s_log s_clients s_phase] in *.
  exists r0, Idle. constructor; cbn [s_phase s_log s_up s_alive s_down s_table s_clients s_orphans queue c_state c_run c_inbox c_error]; auto; try (now intros ? []).
  - constructor; [constructor|exact Logic.I].
  - unfold link, pending in *. rewrite P in I2. cbn [s_clients s_up queue c_inbox c_state c_run emit] in *. rewrite packets_app. cbn [packets flat_map up_of]. rewrite !app_nil_r.
    destruct (packets (c_inbox (s_clients s t))) as [|x l]; [now left|]. right. destruct I2 as [_ [(_ & _ & X)|[(_ & _ & _ & X)|(X & _ & k & Y)]]]; [discriminate|discriminate|]. split; [assumption|]. exists k. injection Y as -> Y. apply app_eq_nil in Y as [Y _]. now rewrite Y.
  - intros k r X. apply I7. unfold pending in *. cbn [s_clients s_up queue c_inbox emit] in *. rewrite packets_app in X. cbn in X. rewrite !app_nil_r in X. apply in_or_app. now left.
  - intros a b X. split; [now left|]. split; [reflexivity|]. destruct b as [|x b]; [reflexivity|]. exfalso. destruct (exists_last (l := x :: b)) as (b' & y & E); [discriminate|]. rewrite E in X.
    change (a ++ SocketError :: b' ++ [y]) with (a ++ (SocketError :: b') ++ [y]) in X. rewrite app_assoc in X. apply app_inj_tail in X as [X _]. destruct (I11 a b' X) as (_ & Y & _). congruence.
Qed.
Lemma good_shutdown s : good s -> good (shutdown s).
Proof.
  intros G. unfold shutdown. destruct (s_phase s) eqn:P; try exact G. destruct G as (LG & UP & AL & CN & DE & IV). unfold good. cbn [s_phase s_log s_up s_alive s_down s_table]. destruct (AL P) as [Al _].
  split; [exact LG|]. split; [easy|]. split; [discriminate|]. split; [discriminate|]. split; [congruence|].
  intros t. destruct (IV t) as (r0 & m & [I1 I2 I3 I4 I5 I6 I7 I8 I9 I10 I11 I12]).
  exists r0, m. constructor; cbn [s_phase s_log s_up s_alive s_down s_table s_clients s_orphans]; rewrite ?down_app; cbn [down_of flat_map]; rewrite ?app_nil_r; auto.
  - unfold link, pending in *. rewrite P in I2. cbn [s_clients s_up up_of flat_map] in *. rewrite app_nil_r.
    destruct (packets (c_inbox (s_clients s t))) as [|x l]; [now left|]. right. destruct I2 as [_ [(_ & _ & X)|[(_ & _ & _ & X)|(X & _ & k & Y)]]]; [discriminate|discriminate|]. split; [assumption|]. exists k. injection Y as -> Y. apply app_eq_nil in Y as [Y _]. now rewrite Y.
  - intros k r X. apply I7. unfold pending in *. cbn [s_clients s_up] in *. cbn in X. rewrite !app_nil_r in X. apply in_or_app. now left.
  - intros a b X. destruct (I11 a b X) as (_ & Y & _). congruence.
Qed.
Lemma good_forward s : good s -> good (forward s).
Proof.
  intros G. unfold forward. destruct (s_up s) as [|[t [k r]] up] eqn:E; [exact G|]. pose proof G as (LG & UP & AL & CN & DE & IV).
  assert (P : s_phase s = Connected) by (destruct (s_phase s); [exfalso|reflexivity|exfalso]; rewrite UP in E; discriminate).
  apply (good_local t s); auto; simp; [|easy|].
  - split; [reflexivity|]. intros t' D. simp. rewrite update_other by assumption. rewrite E. cbn [up_of flat_map fst]. destruct (N.eqb_spec t t'); [congruence|]. repeat split; auto.
  - destruct (IV t) as (r0 & m & [I1 I2 I3 I4 I5 I6 I7 I8 I9 I10 I11 I12]). exists r0, m.
    assert (PE : pending t (set_client t (queue (Packet k r) (s_clients s t)) (set_up up s)) = pending t s).
    { unfold pending. simp. unfold queue. cbn [c_inbox]. rewrite packets_app. cbn [packets flat_map app]. rewrite E. cbn [up_of flat_map fst snd]. rewrite N.eqb_refl. cbn [app]. rewrite <- app_assoc. reflexivity. }
    constructor; simp; cbn [queue c_state c_run c_inbox c_error]; rewrite ?PE; auto; [unfold link in *; rewrite P in *; cbn [queue c_state c_run c_error]; exact I2|].
    intros a b X. exfalso. destruct b as [|x b].
    + apply app_inj_tail in X as [_ X]. discriminate.
    + destruct (exists_last (l := x :: b)) as (b' & y & Eb); [discriminate|]. rewrite Eb in X. change (a ++ SocketError :: b' ++ [y]) with (a ++ (SocketError :: b') ++ [y]) in X. rewrite app_assoc in X. apply app_inj_tail in X as [X _].
      destruct (I11 a b' X) as (_ & Y & _). congruence.
Qed.

(** ** The launcher *)

Lemma over_cons t r e l : e <> EFailed t r -> e <> EExit t r -> e <> EGiveUp t r -> over t r (e :: l) <-> over t r l.
Proof. unfold over. cbn. intuition congruence. Qed.
Lemma link_answer s t r0 k : s_phase s <> Connecting -> link (s_phase s) (s_clients s t) r0 Active (pending t s) ->
  link (s_phase s) (s_clients s t) r0 Idle (if is_ready s then pending t s ++ [(k, r0)] else pending t s).
Proof.
  intros NC. unfold link, is_ready. destruct (s_phase s); [easy| |auto]. intros [E [(_ & X & _)|[(X & _ & -> & Y)|(_ & X & _)]]]; try discriminate.
  - split; [assumption|]. right. right. rewrite Y. split; [assumption|]. split; [reflexivity|]. exists k. reflexivity.
Qed.
(** The end of a process: an event that proves it, and the answer. *)
Lemma good_over t k e p s : good s -> s_alive s = true -> (exists p0, s_table s t = Some p0 /\ p_active p0 = true /\ p_run p0 = p_run p) ->
  may_happen e (s_log s) -> (k = Failed /\ e = EFailed t (p_run p) \/ k = Finished /\ (e = EExit t (p_run p) \/ e = EGiveUp t (p_run p))) ->
  forall q orphans, quiet q ->
  (forall t' p', In (t', p') orphans -> In (t', p') (s_orphans s) \/ t' = t /\ p_run p' = p_run p /\ p_stop p' = Inactive /\ In (ECancel t (p_run p)) (s_log s) /\ In (ELaunch t (p_run p)) (s_log s)) ->
  good (answer t k (p_run p) (set_orphans orphans (set_proc t q (emit e s)))).
Proof.
  intros G Al (p0 & T & Ac & Ru) M K q orphans Q O. pose proof G as (LG & UP & AL & CN & DE & IV).
  assert (NC : s_phase s <> Connecting) by (intros X; specialize (CN X); congruence).
  assert (TK : token e = Some t) by (destruct K as [[_ ->]|[_ [->| ->]]]; reflexivity).
  assert (R : is_ready (set_orphans orphans (set_proc t q (emit e s))) = is_ready s) by reflexivity.
  assert (LL : legal (e :: s_log s)) by (now apply legal_cons).
  assert (OO : forall t', t' <> t -> forall p', In (t', p') orphans -> In (t', p') (s_orphans s)) by (intros t' D p' X; destruct (O _ _ X) as [Y|[Y _]]; [assumption|contradiction]).
  unfold answer. rewrite R. set (s' := if is_ready s then _ else _).
  assert (F : s_phase s' = s_phase s /\ s_clients s' = s_clients s /\ s_down s' = s_down s /\ s_up s' = (if is_ready s then s_up s ++ [(t, (k, p_run p))] else s_up s) /\ s_alive s' = s_alive s /\ s_table s' = update (s_table s) t q /\
    s_orphans s' = orphans /\ s_log s' = e :: s_log s) by (unfold s'; destruct (is_ready s); repeat split; reflexivity).
  clearbody s'. destruct F as (F1 & F2 & F3 & F4 & F5 & F6 & F7 & F8). apply (good_local t s); rewrite ?F3, ?F5, ?F8; auto.
  - split; [exact F1|]. intros t' D. rewrite F2, F3, F4, F6, F7, F8, update_other by assumption. repeat (split; [reflexivity|]). split; [destruct (is_ready s); [rewrite up_app, up_one_other, app_nil_r by assumption; reflexivity|reflexivity]|].
    split; [reflexivity|]. split; [now apply OO|]. apply same_log_cons; [congruence|apply same_log_refl].
  - rewrite F4. intros X. unfold is_ready. destruct (s_phase s); try easy; auto.
  - congruence.
  - destruct (IV t) as (r0 & m & [I1 I2 I3 I4 I5 I6 I7 I8 I9 I10 I11 I12]). assert (m = Active /\ p_run p = r0 /\ Forall (eq (Stop r0)) (down_of t (s_down s))) as (-> & Hr & FS).
    { destruct I1 as [A B|A B E1 E2 E3 E4 E5 E6|st tm E1 E2 E3 E4 E5]; [rewrite T in B; cbn in B; intuition congruence|rewrite T in E4; cbn in E4; intuition congruence|]. rewrite E2 in T. injection T as <-. cbn in Ru. auto. }
    assert (PE : pending t s' = if is_ready s then pending t s ++ [(k, r0)] else pending t s) by (unfold pending; rewrite F2, F4, Hr; destruct (is_ready s); [rewrite up_app, up_one, app_assoc|]; reflexivity).
    assert (NE : forall t' r, e <> ELaunch t' r) by (intros t' r ->; destruct K as [[_ X]|[_ [X|X]]]; discriminate X). assert (NS : forall t' r, e <> EStart t' r) by (intros t' r ->; destruct K as [[_ X]|[_ [X|X]]]; discriminate X).
    assert (NR : forall t' r c, e <> EReport t' r c) by (intros t' r c ->; destruct K as [[_ X]|[_ [X|X]]]; discriminate X).
    exists r0, Idle. constructor; rewrite ?F1, ?F2, ?F3, ?F6, ?F7, ?F8, ?PE, ?update_same; auto.
    + constructor; [|assumption]. eapply Forall_impl; [|exact FS]. intros x <-. exact Logic.I.
    + now apply link_answer.
    + intros r [->|X]; [now destruct (NE t r)|auto].
    + intros r X. right. auto.
    + intros k' r X. assert (Y : In (k', r) (pending t s) \/ k' = k /\ r = r0) by (destruct (is_ready s); [apply in_app_or in X as [X|[X|[]]]; [auto|injection X; auto]|auto]). destruct Y as [Y|[-> ->]].
      * apply I7 in Y. destruct k'; cbn in *; intuition.
      * destruct K as [[-> ->]|[-> [->| ->]]]; rewrite Hr; cbn; auto.
    + intros r [->|X]; [now destruct (NS t r)|auto].
    + intros r X. rewrite reported_cons in X by auto. auto.
    + intros X. rewrite reported_cons by auto. destruct (I10 X). split; [now right|assumption].
    + intros a b X. destruct (I11 a b X) as (A & B & C). split; [now right|auto].
    + intros p' X. destruct (O _ _ X) as [Y|(_ & Y1 & Y2 & Y3 & Y4)].
      * destruct (I12 p' Y) as (A & B & C). split; [now right|]. split; [now right|]. intros Z. right. auto.
      * rewrite Y1, Y2. split; [now right|]. split; [now right|]. congruence.
Qed.
Lemma good_ended t k s : good s -> good (ProcessModel.ended t k s).
Proof.
  intros G. unfold ProcessModel.ended. destruct (s_table s t) as [p|] eqn:T; [|exact G]. destruct (p_active p) eqn:A; [|exact G]. pose proof G as (LG & UP & AL & CN & DE & IV).
  assert (Al : s_alive s = true) by (destruct (s_alive s) eqn:Al; [reflexivity|]; destruct (DE eq_refl) as [_ X]; rewrite X in T; discriminate).
  destruct (IV t) as (r0 & m & I). pose proof (i_launcher _ _ _ _ I) as I1.
  assert (X : In (ELaunch t (p_run p)) (s_log s) /\ ~ over t (p_run p) (s_log s)).
  { destruct I1 as [A' B|A' B E1 E2 E3 E4 E5 E6|st tm E1 E2 E3 E4 E5]; [rewrite T in B; cbn in B; intuition congruence|rewrite T in E4; cbn in E4; intuition congruence|]. rewrite E2 in T. injection T as <-. auto. }
  apply (good_over t k _ p s G Al).
  - exists p. auto.
  - destruct k; exact X.
  - destruct k; [left; auto|right; auto].
  - cbn. auto.
  - auto.
Qed.
Lemma good_stop t p s : good s -> s_alive s = true -> (exists timer, s_table s t = Some (mkProc (p_active p) (p_run p) (p_stop p) timer)) -> p_active p = true -> In (ECancel t (p_run p)) (s_log s) ->
  good (stop_process t p s).
Proof.
  intros G Al [timer T] Ac EC. pose proof G as (LG & UP & AL & CN & DE & IV). destruct (IV t) as (r0 & m & I). pose proof (i_launcher _ _ _ _ I) as I1.
  assert (X : m = Active /\ r0 = p_run p /\ In (ELaunch t (p_run p)) (s_log s) /\ ~ over t (p_run p) (s_log s) /\ stage t (p_run p) (p_stop p) timer (s_log s) /\ Forall (eq (Stop r0)) (down_of t (s_down s))).
  { destruct I1 as [A' B|A' B E1 E2 E3 E4 E5 E6|st tm E1 E2 E3 E4 E5]; [rewrite T in B; cbn in B; intuition congruence|rewrite T in E4; cbn in E4; intuition congruence|]. rewrite E2 in T. injection T as _ -> -> ->. auto 10. }
  destruct X as (-> & -> & EL & NO & SG & FS).
  assert (ADV : forall e st, may_happen e (s_log s) -> harmless t (s_clients s t) (p_run p) Active e -> token e = Some t -> stage t (p_run p) st true (e :: s_log s) -> good (set_proc t (Some (mkProc (p_active p) (p_run p) st true)) (emit e s))).
  { intros e st M H TK SG'. apply (good_local t s); auto; simp.
    - split; [reflexivity|]. intros t' D. simp. rewrite update_other by assumption. do 4 (split; [reflexivity|]). split; [auto|]. apply same_log_cons; [congruence|apply same_log_refl].
    - now apply legal_cons.
    - congruence.
    - exists (p_run p), Active. assert (I' : inv t (emit e s) (p_run p) Active) by (now apply inv_emit). destruct I' as [J1 J2 J3 J4 J5 J6 J7 J8 J9 J10 J11 J12]. constructor; simp; auto.
      rewrite Ac. inversion J1; subst. eapply L_active; eauto. }
  assert (NE : ~ ended t (p_run p) (s_log s)) by (unfold over, ended in *; tauto).
  unfold stop_process. destruct (p_stop p) eqn:ST; cbn in SG.
  - apply ADV; [split; [|split]; assumption|exact Logic.I|reflexivity|]. cbn. auto.
  - destruct SG as (_ & SG1 & SG2). apply ADV; [split; assumption|exact Logic.I|reflexivity|]. cbn. auto.
  - destruct SG as (_ & SG1 & SG2). apply (good_over t Finished _ p s G Al).
    + eexists. split; [exact T|]. auto.
    + split; assumption.
    + right. auto.
    + exact Logic.I.
    + intros t' p' [Y|Y]; [|now left]. injection Y as <- <-. right. cbn. auto.
Qed.
Lemma good_expire t s : good s -> good (expire t s).
Proof.
  intros G. unfold expire. destruct (s_table s t) as [p|] eqn:T; [|exact G]. destruct (p_timer p) eqn:A; [|exact G]. pose proof G as (LG & UP & AL & CN & DE & IV).
  assert (Al : s_alive s = true) by (destruct (s_alive s) eqn:Al; [reflexivity|]; destruct (DE eq_refl) as [_ X]; rewrite X in T; discriminate).
  destruct (IV t) as (r0 & m & I). pose proof (i_launcher _ _ _ _ I) as I1.
  assert (X : p_active p = true /\ In (ECancel t (p_run p)) (s_log s)).
  { destruct I1 as [A' B|A' B E1 E2 E3 E4 E5 E6|st tm E1 E2 E3 E4 E5]; [rewrite T in B; cbn in B; intuition congruence|rewrite T in E4; cbn in E4; intuition congruence|]. rewrite E2 in T. injection T as <-. cbn in *. subst tm.
    split; [reflexivity|]. destruct st; cbn in E5; [discriminate|tauto|tauto]. }
  apply good_stop; cbn; auto; try tauto. exists (p_timer p). rewrite T. now destruct p.
Qed.
Definition gave_up (s : state) : Prop := forall t p, In (t, p) (s_orphans s) -> In (EGiveUp t (p_run p)) (s_log s).
Lemma given_up_never_ends l t r : legal l -> In (EGiveUp t r) l -> ~ ended t r l.
Proof.
  induction l as [|e l IH]; [easy|]. intros [M L] [->|X] [[Y|Y]|[Y|Y]]; try discriminate Y.
  - destruct M as [_ M]. apply M. now left.
  - destruct M as [_ M]. apply M. right. now left.
  - subst e. destruct M as [_ M]. apply M. right. now right.
  - apply (IH L X). now left.
  - subst e. destruct M as [_ M]. apply M. right. now right.
  - apply (IH L X). now right.
Qed.
Lemma good_orphan i s : good s -> gave_up s -> good (orphan_expire i s).
Proof.
  intros G GU. unfold orphan_expire. destruct (nth_error (s_orphans s) i) as [[t p]|] eqn:E; [|exact G]. destruct (p_timer p) eqn:TM; [|exact G]. pose proof G as (LG & UP & AL & CN & DE & IV).
  pose proof (nth_error_In _ _ E) as OI. destruct (IV t) as (r0 & m & I). destruct (i_orphans _ _ _ _ I p OI) as (O1 & O2 & O3). pose proof (given_up_never_ends _ _ _ LG (GU t p OI)) as NE.
  assert (PUT : forall q s1, good s1 -> s_orphans s1 = s_orphans s -> p_run q = p_run p -> In (ECancel t (p_run p)) (s_log s1) -> In (ELaunch t (p_run p)) (s_log s1) -> (p_stop q <> Inactive -> In (ETerminate t (p_run p)) (s_log s1)) ->
    good (set_orphans (firstn i (s_orphans s1) ++ (t, q) :: skipn (S i) (s_orphans s1)) s1)).
  { intros q s1 G1 EO R A1 A2 A3. pose proof G1 as (LG1 & UP1 & AL1 & CN1 & DE1 & IV1).
    assert (OO : forall x, In x (firstn i (s_orphans s1) ++ (t, q) :: skipn (S i) (s_orphans s1)) -> In x (s_orphans s1) \/ x = (t, q)).
    { intros x X. apply in_app_or in X as [X|[X|X]]; [left; rewrite <- (firstn_skipn i (s_orphans s1)); apply in_or_app; now left|now right|left; rewrite <- (firstn_skipn (S i) (s_orphans s1)); apply in_or_app; now right]. }
    apply (good_local t s1); auto; simp.
    - split; [reflexivity|]. intros t' D. simp. do 4 (split; [reflexivity|]). split; [|apply same_log_refl]. intros p' X. destruct (OO _ X) as [Y|Y]; [assumption|]. injection Y as -> _. contradiction.
    - destruct (IV1 t) as (r1 & m1 & [J1 J2 J3 J4 J5 J6 J7 J8 J9 J10 J11 J12]). exists r1, m1. constructor; simp; auto. intros p' X. destruct (OO _ X) as [Y|Y]; [auto|]. injection Y as ->. rewrite R. auto. }
  destruct (p_stop p) eqn:ST.
  - apply PUT; cbn; auto. apply (good_emit t); auto; [now repeat split|]. intros r1 m1 _. exact Logic.I.
  - apply PUT; cbn; auto.
    + apply (good_emit t); auto; [split; [apply O3; congruence|assumption]|]. intros r1 m1 _. exact Logic.I.
    + intros _. right. apply O3. congruence.
  - apply PUT; cbn; auto.
Qed.
Lemma good_set_down t m down s : good s -> s_alive s = true -> s_down s = Some (t, m) :: down -> is_stop m -> good (set_down down s).
Proof.
  intros G Al E SM. pose proof G as (LG & UP & AL & CN & DE & IV). apply (good_local t s); auto; simp.
  - split; [reflexivity|]. intros t' D. simp. rewrite E. cbn [down_of flat_map]. destruct (N.eqb_spec t t'); [congruence|]. do 4 (split; [reflexivity|]). split; [auto|apply same_log_refl].
  - intros X. destruct (AL X) as [A B]. split; [assumption|]. intros Y. apply B. rewrite E. now right.
  - congruence.
  - destruct (IV t) as (r0 & md & [I1 I2 I3 I4 I5 I6 I7 I8 I9 I10 I11 I12]). exists r0, md. rewrite E in I1, I6. cbn [down_of flat_map] in I1, I6. rewrite N.eqb_refl in I1, I6. cbn [app] in I1, I6. fold (down_of t down) in I1, I6.
    constructor; simp; rewrite ?(pending_eq t s) by reflexivity; auto; [|intros r X; apply I6; now right].
    destruct I1 as [A B|A B E1 E2 E3 E4 E5 E6|st tm E1 E2 E3 E4 E5].
    + constructor; [now inversion A|assumption].
    + destruct A as [|x A]; cbn in E1; injection E1 as -> E1; [destruct SM|]. eapply (L_sent _ _ _ _ _ A B); auto. now inversion E2.
    + eapply L_active; eauto. now inversion E1.
Qed.
Lemma good_handle s : good s -> good (handle s).
Proof.
  intros G. unfold handle. destruct (s_alive s) eqn:Al; [|exact G]. destruct (s_down s) as [|[[t [r|r]]|] down] eqn:E; [exact G| | |].
  - pose proof G as (LG & UP & AL & CN & DE & IV). cbn [set_down s_table]. destruct (IV t) as (r0 & md & I). pose proof I as [I1 I2 I3 I4 I5 I6 I7 I8 I9 I10 I11 I12].
    rewrite E in I1, I6. cbn [down_of flat_map] in I1, I6. rewrite N.eqb_refl in I1, I6. cbn [app] in I1, I6. fold (down_of t down) in I1, I6.
    destruct I1 as [A B|A B E1 E2 E3 E4 E5 E6|st tm E1 E2 E3 E4 E5]; [inversion A as [|? ? X]; destruct X| |inversion E1; discriminate].
    destruct A as [|x A]; cbn in E1; injection E1 as Ex E1; [|subst x; inversion E2 as [|? ? X]; destruct X]. subst r.
    assert (Q : exists p, match s_table s t with Some p => p | None => mkProc false 0 Inactive false end = p /\ p_active p = false /\ p_stop p = Inactive /\ p_timer p = false).
    { eexists. split; [reflexivity|]. destruct (s_table s t) as [p|]; [exact E4|auto]. }
    destruct Q as (p & -> & Q1 & Q2 & Q3). rewrite Q1, Q2, Q3. assert (NOV : ~ over t r0 (s_log s)).
    { intros X. apply E6. clear - LG X. induction (s_log s) as [|e l IH]; [destruct X as [[]|[[]|[]]]|]. destruct LG as [M L]. destruct X as [[->|X]|[[->|X]|[->|X]]].
      - right. apply M.
      - right. apply IH; [assumption|]. now left.
      - right. apply M.
      - right. apply IH; [assumption|]. right. now left.
      - right. destruct M as [M _]. clear IH. induction l as [|e l IH2]; [destruct M|]. destruct L as [L1 L2]. destruct M as [->|M]; [|right; auto].
        destruct L1 as [L1 _]. right. clear IH2. induction l as [|e l IH3]; [destruct L1|]. destruct L2 as [L2 L3]. destruct L1 as [->|L1]; [right; apply L2|right; auto].
      - right. apply IH; [assumption|]. right. now right. }
    apply (good_local t s); auto; simp.
    + split; [reflexivity|]. intros t' D. simp. rewrite update_other by assumption. rewrite E. cbn [down_of flat_map]. destruct (N.eqb_spec t t'); [congruence|]. do 4 (split; [reflexivity|]). split; [auto|apply same_log_cons; [cbn [token]; tok|apply same_log_refl]].
    + apply legal_cons; [split; assumption|assumption].
    + intros X. destruct (AL X) as [A' B']. split; [assumption|]. intros Y. apply B'. rewrite E. now right.
    + congruence.
    + exists r0, Active. constructor; simp; rewrite ?(pending_eq t s) by reflexivity; auto.
      * eapply L_active; [rewrite E1; exact E3|reflexivity|now left|rewrite over_cons by discriminate; exact NOV|reflexivity].
      * unfold link in *. destruct (s_phase s); [exfalso; destruct I2 as (_ & _ & X & _); discriminate| |exact I2]. destruct I2 as [I2 [(_ & X & _)|[(X1 & X2 & X3 & X4)|(_ & X & _)]]]; try discriminate. split; [assumption|]. right. left. repeat split; auto. discriminate.
      * intros r [X|X]; [injection X as <-; lia|auto].
      * intros r X. right. apply I6. now right.
      * intros k r X. apply I7 in X. destruct k; cbn in *; intuition.
      * intros r [X|X]; [discriminate|auto].
      * intros r X. rewrite reported_cons in X by discriminate. auto.
      * intros X. rewrite reported_cons by discriminate. destruct (I10 X). split; [now right|assumption].
      * intros a b X. destruct (I11 a b X) as (A' & B' & C). split; [now right|auto].
      * intros p' X. destruct (I12 p' X) as (A' & B' & C). split; [now right|]. split; [now right|]. intros Z. right. auto.
  - assert (G1 : good (set_down down s)) by (eapply good_set_down; eauto; exact Logic.I). cbn [set_down s_table].
    destruct (s_table s t) as [p|] eqn:T; [|exact G1]. destruct (p_active p) eqn:Ac; [|exact G1]. apply good_stop; auto; [exists (p_timer p); cbn; rewrite T; now destruct p|].
    cbn [set_down s_log]. pose proof G as (LG & UP & AL & CN & DE & IV). destruct (IV t) as (r0 & md & I). pose proof (i_launcher _ _ _ _ I) as I1.
    destruct I1 as [A' B|A' B E1 E2 E3 E4 E5 E6|st tm E1 E2 E3 E4 E5]; [rewrite T in B; cbn in B; intuition congruence|rewrite T in E4; cbn in E4; intuition congruence|].
    rewrite E2 in T. injection T as <-. cbn [p_run]. apply (i_stops _ _ _ _ I). rewrite E in E1 |- *. cbn [down_of flat_map] in E1 |- *. rewrite N.eqb_refl in E1 |- *. cbn [app] in E1 |- *. inversion E1; subst. now left.
  - destruct G as (LG & UP & AL & CN & DE & IV). assert (P : s_phase s = Closed). { destruct (s_phase s); [specialize (CN eq_refl); congruence| |reflexivity]. destruct (AL eq_refl) as [_ X]. exfalso. apply X. rewrite E. now left. }
    unfold good. cbn [s_phase s_log s_up s_alive s_down s_table]. rewrite P. split; [now split|]. split; [intros _; apply UP; congruence|]. split; [discriminate|]. split; [discriminate|]. split; [auto|].
    intros t. destruct (IV t) as (r0 & m & I). assert (I' : inv t (emit EShutdown s) r0 m) by (now apply inv_emit). destruct I' as [I1 I2 I3 I4 I5 I6 I7 I8 I9 I10 I11 I12]. cbn [emit s_log s_clients s_phase s_orphans] in *.
    exists r0, Idle. constructor; cbn [s_phase s_log s_up s_alive s_down s_table s_clients s_orphans]; auto; try (now intros ? []).
    + constructor; [constructor|exact Logic.I].
    + unfold pending in *. cbn [s_clients s_up] in *. rewrite P in I2. exact I2.
    + intros a b X. destruct (I11 a b X) as (A & B & C). auto.
Qed.

(** ** C47 *)

Lemma good_init : good init.
Proof.
  unfold good. cbn. split; [exact Logic.I|]. split; [auto|]. split; [discriminate|]. split; [auto|]. split; [auto|]. intros t. exists 0, Idle. constructor; cbn; auto; try (intros; contradiction); try discriminate.
  - constructor; [constructor|exact Logic.I].
  - repeat split; auto; discriminate.
  - intros r [c []].
  - intros [|? ?] ? X; discriminate X.
Qed.
Lemma gave_up_same s s' : gave_up s -> incl (s_orphans s') (s_orphans s) -> incl (s_log s) (s_log s') -> gave_up s'.
Proof. intros G O L t p X. apply L, G, O, X. Qed.
Lemma gave_up_stop t p s : gave_up s -> gave_up (stop_process t p s).
Proof.
  intros G. unfold stop_process. destruct (p_stop p); [eapply gave_up_same; [exact G|apply incl_refl|now apply incl_tl, incl_refl]..|].
  unfold answer. destruct (is_ready _); intros t' p' [X|X]; cbn in *; try (injection X as <- <-; now left); right; auto.
Qed.
Lemma gave_up_step s a : gave_up s -> gave_up (step s a).
Proof.
  intros G. assert (S1 : forall s', s_orphans s' = s_orphans s -> incl (s_log s) (s_log s') -> gave_up s') by (intros s' E; apply gave_up_same; [exact G|rewrite E; apply incl_refl]).
  assert (R : incl (s_log s) (s_log s)) by apply incl_refl. destruct a as [t|t|t| | | | | |t k|t|i]; cbn [step].
  - unfold start, do_start, send, is_ready. cbn. destruct (c_error _); cbn; [|destruct (s_phase s); cbn]; apply S1; cbn; auto using incl_tl.
  - unfold cancel, send, is_ready. cbn. destruct (c_state _); cbn; [|destruct (s_phase s); cbn|destruct (s_phase s); cbn]; apply S1; cbn; auto using incl_tl.
  - unfold receive, do_start, send, is_ready. destruct (c_inbox _) as [|[| |k r] l]; cbn; [auto| | |]; repeat (match goal with |- gave_up (match ?x with _ => _ end) => destruct x | |- context [if ?x then _ else _] => destruct x end; cbn); apply S1; cbn; auto using incl_tl.
  - unfold connect. destruct (s_phase s); auto.
  - unfold lose. destruct (s_phase s); auto. intros t p [].
  - unfold shutdown. destruct (s_phase s); auto.
  - unfold forward. destruct (s_up s) as [|[t [k r]] l]; auto.
  - unfold handle. destruct (s_alive s); auto. destruct (s_down s) as [|[[t [r|r]]|] l]; auto.
    + cbn [set_down s_table]. destruct (p_active _); [auto|]. apply S1; cbn; auto using incl_tl.
    + cbn [set_down s_table]. destruct (s_table s t) as [p|]; auto. destruct (p_active p); auto. apply gave_up_stop. auto.
    + intros t p [].
  - unfold ProcessModel.ended. destruct (s_table s t) as [p|]; auto. destruct (p_active p); auto. unfold answer. destruct (is_ready _); apply S1; cbn; auto using incl_tl.
  - unfold expire. destruct (s_table s t) as [p|]; auto. destruct (p_timer p); auto. now apply gave_up_stop.
  - unfold orphan_expire. destruct (nth_error (s_orphans s) i) as [[t p]|] eqn:E; auto. destruct (p_timer p); auto. apply nth_error_In in E. pose proof (G _ _ E) as GU.
    assert (P : forall s1 q, s_orphans s1 = s_orphans s -> incl (s_log s) (s_log s1) -> p_run q = p_run p -> gave_up (set_orphans (firstn i (s_orphans s1) ++ (t, q) :: skipn (S i) (s_orphans s1)) s1)).
    { intros s1 q EO L Q t' p' X. cbn in *. apply L. apply in_app_or in X as [X|[X|X]].
      - apply G. rewrite <- EO, <- (firstn_skipn i (s_orphans s1)). apply in_or_app. now left.
      - injection X as <- <-. now rewrite Q.
      - apply G. rewrite <- EO, <- (firstn_skipn (S i) (s_orphans s1)). apply in_or_app. now right. }
    destruct (p_stop p); apply P; cbn; auto using incl_tl.
Qed.
Theorem reachable_good s : reachable s -> good s.
Proof.
  intros R. apply (proj1 (B := gave_up s)). induction R as [|s a R [IH GU] A]; [split; [exact good_init|intros t p []]|]. split; [|now apply gave_up_step]. destruct a; cbn [step].
  - now apply good_start.
  - now apply good_cancel.
  - now apply good_receive.
  - now apply good_connect.
  - now apply good_lose.
  - now apply good_shutdown.
  - now apply good_forward.
  - now apply good_handle.
  - now apply good_ended.
  - now apply good_expire.
  - now apply good_orphan.
Qed.
(** C47.  Whatever the clients, the connection, the launcher and the processes do: each start is reported at most once, by a report about that very process;
    signals are sent only to processes that were cancelled, in order; nothing is started twice; no assertion fails. *)
Theorem history_legal s : reachable s -> legal (s_log s).
Proof. intros R. apply (reachable_good s R). Qed.

(** ** Nothing is lost *)

Definition runs (s : state) (l : list action) : state := fold_left step l s.
Definition launched (t : N) (r : nat) (s : state) : Prop := exists p, s_table s t = Some p /\ p_active p = true /\ p_run p = r.
Definition on_its_way (t : N) (r : nat) (s : state) : Prop := exists k, In (t, (k, r)) (s_up s) \/ In (Packet k r) (c_inbox (s_clients s t)).
Lemma down_of_In t m l : In m (down_of t l) <-> In (Some (t, m)) l.
Proof.
  unfold down_of. rewrite in_flat_map. split.
  - intros ([[t' m']|] & A & B); [|destruct B]. destruct (N.eqb_spec t' t) as [->|]; [|destruct B]. destruct B as [->|[]]. exact A.
  - intros A. exists (Some (t, m)). split; [exact A|]. rewrite N.eqb_refl. now left.
Qed.
Lemma up_of_In t x l : In x (up_of t l) <-> In (t, x) l.
Proof.
  unfold up_of. rewrite in_flat_map. split.
  - intros ([t' m'] & A & B). cbn in B. destruct (N.eqb_spec t' t) as [->|]; [|destruct B]. destruct B as [->|[]]. exact A.
  - intros A. exists (t, x). split; [exact A|]. cbn. rewrite N.eqb_refl. now left.
Qed.
Lemma packets_In k r l : In (k, r) (packets l) <-> In (Packet k r) l.
Proof.
  unfold packets. rewrite in_flat_map. split.
  - intros ([| |k' r'] & A & B); [destruct B..|]. destruct B as [B|[]]. injection B as -> ->. exact A.
  - intros A. exists (Packet k r). split; [exact A|]. now left.
Qed.
(** C47.  While there is a connection, what a client waits for is still going to happen: its request is on the way, its process runs, or the report is on the way. *)
Theorem nothing_lost s t : reachable s -> s_phase s = Connected -> c_state (s_clients s t) = Running ->
  In (Some (t, Start (c_run (s_clients s t)))) (s_down s) \/ launched t (c_run (s_clients s t)) s \/ on_its_way t (c_run (s_clients s t)) s.
Proof.
  intros R P C. destruct (reachable_good s R) as (_ & _ & _ & _ & _ & IV). destruct (IV t) as (r0 & m & I). pose proof (i_launcher _ _ _ _ I) as L. pose proof (i_link _ _ _ _ I) as K. unfold link in K. rewrite P in K.
  destruct K as [_ [(X & _)|[(_ & N & -> & _)|(_ & _ & k & U)]]]; [congruence| |].
  - destruct L as [A B|A B E1 E2 E3 E4 E5 E6|st tm E1 E2 E3 E4 E5]; [congruence| |].
    + left. apply down_of_In. rewrite E1. apply in_or_app. right. now left.
    + right. left. eexists. split; [exact E2|]. auto.
  - right. right. exists k. assert (X : In (k, c_run (s_clients s t)) (pending t s)) by (rewrite U; now left). unfold pending in X. apply in_app_or in X as [X|X]; [right; now apply packets_In|left; now apply up_of_In].
Qed.
(** C47.  And a client that could not send its request yet is going to be told when it can. *)
Theorem waiting_is_told s t : reachable s -> s_phase s = Connected -> c_state (s_clients s t) = Starting -> In Ready (c_inbox (s_clients s t)).
Proof.
  intros R. induction R as [|s a R IH A]; [discriminate|].
  assert (KEEP : forall s', s_phase s' = s_phase s -> s_clients s' t = s_clients s t -> s_phase s' = Connected -> c_state (s_clients s' t) = Starting -> In Ready (c_inbox (s_clients s' t))) by (intros s' -> ->; exact IH).
  assert (ANS : forall u k r s', s_phase s' = s_phase s -> s_clients s' = s_clients s -> s_phase (answer u k r s') = s_phase s /\ s_clients (answer u k r s') = s_clients s) by (intros u k r s' E1 E2; unfold answer; destruct (is_ready s'); auto).
  assert (STOP : forall u p s', s_phase s' = s_phase s -> s_clients s' = s_clients s -> s_phase (stop_process u p s') = s_phase s /\ s_clients (stop_process u p s') = s_clients s) by (intros u p s' E1 E2; unfold stop_process; destruct (p_stop p); auto).
  destruct a as [u|u|u| | | | | |u k|u|i]; cbn [step].
  - cbn in A. destruct (N.eqb_spec t u) as [->|D].
    + unfold start, do_start, send, is_ready. cbn. destruct (c_error (s_clients s u)); cbn; rewrite ?update_same; cbn.
      * intros _ X. congruence.
      * destruct (s_phase s) eqn:P; cbn; rewrite ?update_same; cbn; rewrite ?P; discriminate.
    + apply KEEP; unfold start, do_start, send, is_ready; cbn; destruct (c_error (s_clients s u)); cbn; rewrite ?update_other by assumption; auto; destruct (s_phase s) eqn:P; cbn; rewrite ?update_other by assumption; auto.
  - unfold cancel, send, is_ready. cbn. destruct (c_state (s_clients s u)) eqn:C; auto; cbn; unfold update.
    + destruct (N.eqb_spec t u) as [->|D]; cbn; [discriminate|auto].
    + apply KEEP; destruct (s_phase s) eqn:P; auto.
  - unfold receive. destruct (c_inbox (s_clients s u)) as [|[| |k r] l] eqn:B; auto; unfold do_start, send, is_ready; cbn.
    + destruct (c_state (s_clients s u)) eqn:C; cbn; unfold update; cbn; destruct (N.eqb_spec t u) as [->|D]; cbn; rewrite ?C; try discriminate; auto; destruct (s_phase s) eqn:P; cbn; rewrite ?P, ?N.eqb_refl; cbn; unfold update; rewrite ?N.eqb_refl; try discriminate; destruct (N.eqb_spec t u); try contradiction; auto.
    + destruct (c_state (s_clients s u)) eqn:C; cbn; unfold update; cbn; destruct (N.eqb_spec t u) as [->|D]; cbn; try discriminate; auto.
    + destruct k, (c_state (s_clients s u)) eqn:C; cbn; unfold update; cbn; destruct (N.eqb_spec t u) as [->|D]; cbn; rewrite ?C; try discriminate; auto; intros P S; specialize (IH P C); rewrite B in IH; destruct IH as [X|X]; [discriminate|exact X].
  - unfold connect. destruct (s_phase s) eqn:P; [|apply KEEP; auto..]. cbn. intros _ _. apply in_or_app. right. now left.
  - unfold lose. destruct (s_phase s) eqn:P; [apply KEEP; auto|discriminate|apply KEEP; auto].
  - unfold shutdown. destruct (s_phase s) eqn:P; [apply KEEP; auto|discriminate|apply KEEP; auto].
  - unfold forward. destruct (s_up s) as [|[u [k r]] l]; auto. cbn. unfold update. destruct (N.eqb_spec t u) as [->|D]; auto. cbn. intros P S. apply in_or_app. left. auto.
  - unfold handle. destruct (s_alive s); auto. destruct (s_down s) as [|[[u [r|r]]|] l]; auto.
    + cbn [set_down s_table]. destruct (p_active _); auto.
    + cbn [set_down s_table]. destruct (s_table s u) as [p|]; auto. destruct (p_active p); auto. destruct (STOP u p (set_down l s) eq_refl eq_refl) as [-> ->]. exact IH.
  - unfold ProcessModel.ended. destruct (s_table s u) as [p|]; auto. destruct (p_active p); auto. match goal with |- context [answer u k (p_run p) ?x] => destruct (ANS u k (p_run p) x eq_refl eq_refl) as [-> ->] end. exact IH.
  - unfold expire. destruct (s_table s u) as [p|]; auto. destruct (p_timer p); auto. destruct (STOP u (mkProc (p_active p) (p_run p) (p_stop p) false) s eq_refl eq_refl) as [-> ->]. exact IH.
  - unfold orphan_expire. destruct (nth_error (s_orphans s) i) as [[u p]|]; auto. destruct (p_timer p); auto. destruct (p_stop p); auto.
Qed.

(** ** Reports arrive *)

Lemma runs_app s a b : runs s (a ++ b) = runs (runs s a) b.
Proof. apply fold_left_app. Qed.
Definition by_themselves (t : N) (a : action) : Prop := match a with AHandle | AForward => True | AExpire u | AReceive u => u = t | _ => False end.
Lemma receive_report n : forall t s k r, c_state (s_clients s t) = Running -> c_run (s_clients s t) = r -> n = length (c_inbox (s_clients s t)) -> In (Packet k r) (c_inbox (s_clients s t)) ->
  exists l, Forall (eq (AReceive t)) l /\ reported t r (s_log (runs s l)).
Proof.
  induction n as [|n IH]; intros t s k r C R N H; destruct (c_inbox (s_clients s t)) as [|i l] eqn:E; try discriminate; [destruct H|].
  assert (STOP : reported t r (s_log (receive t s)) -> exists l, Forall (eq (AReceive t)) l /\ reported t r (s_log (runs s l))) by (intros X; exists [AReceive t]; split; [constructor; [reflexivity|constructor]|exact X]).
  destruct i as [| |k' r'].
  - destruct H as [H|H]; [discriminate|]. injection N as N. destruct (IH t (receive t s) k r) as (l' & L1 & L2).
    + unfold receive. rewrite E, C. cbn. now rewrite update_same.
    + unfold receive. rewrite E, C. cbn. now rewrite update_same.
    + unfold receive. rewrite E, C. cbn. now rewrite update_same.
    + unfold receive. rewrite E, C. cbn. now rewrite update_same.
    + exists (AReceive t :: l'). split; [now constructor|exact L2].
  - apply STOP. unfold receive. rewrite E, C. cbn. exists Immediately. rewrite R. now left.
  - apply STOP. unfold receive. rewrite E, C. destruct k'; cbn; eexists; rewrite R; now left.
Qed.
Lemma forward_report n : forall t s k r, c_state (s_clients s t) = Running -> c_run (s_clients s t) = r -> n = length (s_up s) -> In (t, (k, r)) (s_up s) ->
  exists l, Forall (by_themselves t) l /\ reported t r (s_log (runs s l)).
Proof.
  induction n as [|n IH]; intros t s k r C R N H; destruct (s_up s) as [|[u [k' r']] l] eqn:E; try discriminate; [destruct H|]. injection N as N.
  assert (C' : c_state (s_clients (forward s) t) = Running /\ c_run (s_clients (forward s) t) = r).
  { unfold forward. rewrite E. cbn. unfold update. destruct (N.eqb_spec t u) as [->|D]; auto. }
  destruct C' as [C1 C2]. destruct H as [H|H].
  - injection H as -> -> ->. destruct (receive_report _ t (forward s) k r C1 C2 eq_refl) as (l' & L1 & L2).
    + unfold forward. rewrite E. cbn. rewrite update_same. cbn. apply in_or_app. right. now left.
    + exists (AForward :: l'). split; [|exact L2]. constructor; [exact Logic.I|]. eapply Forall_impl; [|exact L1]. intros a <-. reflexivity.
  - destruct (IH t (forward s) k r C1 C2) as (l' & L1 & L2).
    + unfold forward. now rewrite E.
    + unfold forward. now rewrite E.
    + exists (AForward :: l'). split; [now constructor|exact L2].
Qed.
Lemma way_report t s r : c_state (s_clients s t) = Running -> c_run (s_clients s t) = r -> on_its_way t r s -> exists l, Forall (by_themselves t) l /\ reported t r (s_log (runs s l)).
Proof.
  intros C R [k [H|H]]; [eapply forward_report; eauto|]. destruct (receive_report _ t s k r C R eq_refl H) as (l & A & B). exists l. split; [|exact B]. eapply Forall_impl; [|exact A]. intros a <-. reflexivity.
Qed.
Lemma answer_client t k r s u : s_clients (answer u k r s) t = s_clients s t.
Proof. unfold answer. now destruct (is_ready s). Qed.
Lemma answer_up t k r s : s_phase s = Connected -> In (t, (k, r)) (s_up (answer t k r s)).
Proof. intros P. unfold answer, is_ready. rewrite P. cbn. apply in_or_app. right. now left. Qed.
(** C47.  A process that ends, or could not be started, is reported. *)
Theorem exit_reported s t k : reachable s -> s_phase s = Connected -> c_state (s_clients s t) = Running -> launched t (c_run (s_clients s t)) s ->
  exists l, Forall (by_themselves t) l /\ reported t (c_run (s_clients s t)) (s_log (runs s (AEnded t k :: l))).
Proof.
  intros R P C (p & T & Ac & Ru). set (r := c_run (s_clients s t)) in *. cbn [runs fold_left step].
  assert (X : ProcessModel.ended t k s = answer t k (p_run p) (set_proc t (Some (mkProc false (p_run p) Inactive false)) (emit (match k with Failed => EFailed t (p_run p) | Finished => EExit t (p_run p) end) s))) by (unfold ProcessModel.ended; now rewrite T, Ac).
  apply way_report; rewrite X, ?answer_client; auto. exists k. left. rewrite Ru. now apply answer_up.
Qed.
(** Signals: the timer makes a process that is being stopped be given up. *)
Lemma expire_gives_up t s p : s_phase s = Connected -> s_table s t = Some p -> p_timer p = true -> p_stop p <> Inactive ->
  exists l, Forall (eq (AExpire t)) l /\ length l <= 2 /\ s_clients (runs s l) = s_clients s /\ In (t, (Finished, p_run p)) (s_up (runs s l)) /\ In (EGiveUp t (p_run p)) (s_log (runs s l)).
Proof.
  intros P T TM ST.
  assert (G : forall s p, s_phase s = Connected -> s_table s t = Some p -> p_timer p = true -> p_stop p = Killing ->
    s_clients (expire t s) = s_clients s /\ In (t, (Finished, p_run p)) (s_up (expire t s)) /\ In (EGiveUp t (p_run p)) (s_log (expire t s))).
  { clear. intros s p P T TM ST. unfold expire, stop_process, answer, is_ready. rewrite T, TM. cbn. rewrite ST. cbn. rewrite P. cbn. split; [reflexivity|]. split; [apply in_or_app; right; now left|now left]. }
  destruct (p_stop p) eqn:E; [congruence| |].
  - exists [AExpire t; AExpire t]. split; [repeat constructor|]. split; [cbn; auto|]. cbn [runs fold_left step].
    assert (X : expire t s = set_proc t (Some (mkProc (p_active p) (p_run p) Killing true)) (emit (EKill t (p_run p)) s)) by (unfold expire, stop_process; rewrite T, TM; cbn; now rewrite E).
    rewrite X. set (s' := set_proc _ _ _). assert (T' : s_table s' t = Some (mkProc (p_active p) (p_run p) Killing true)) by (cbn; apply update_same).
    destruct (G s' _ P T' eq_refl eq_refl) as (G1 & G2 & G3). split; [exact G1|]. now split.
  - exists [AExpire t]. split; [repeat constructor|]. split; [cbn; auto|]. cbn [runs fold_left step]. auto.
Qed.
(** Draining: the launcher handles all requests, the last one for the token being to stop its process. *)
Definition stopping (t : N) (s : state) : Prop := forall p, s_table s t = Some p -> p_active p = true -> p_stop p <> Inactive.
Lemma stop_same t p s u : s_phase (stop_process u p s) = s_phase s /\ s_clients (stop_process u p s) = s_clients s /\ s_down (stop_process u p s) = s_down s /\ (t <> u -> s_table (stop_process u p s) t = s_table s t).
Proof. unfold stop_process. destruct (p_stop p); [| |unfold answer; destruct (is_ready _)]; cbn; repeat split; auto; intros; now apply update_other. Qed.
Lemma stop_stopping t p s : stopping t (stop_process t p s).
Proof. unfold stop_process, stopping. intros q. destruct (p_stop p); [| |unfold answer; destruct (is_ready _)]; cbn; rewrite update_same; intros E; try discriminate; injection E as <-; discriminate. Qed.
Lemma drain n : forall t s r, reachable s -> s_phase s = Connected -> n = length (s_down s) -> (exists a, down_of t (s_down s) = a ++ [Stop r]) \/ down_of t (s_down s) = [] /\ stopping t s ->
  exists s', s' = runs s (repeat AHandle n) /\ reachable s' /\ s_phase s' = Connected /\ s_clients s' = s_clients s /\ s_down s' = [] /\ stopping t s'.
Proof.
  induction n as [|n IH]; intros t s r R P N H.
  - destruct (s_down s) eqn:E; [|discriminate]. exists s. destruct H as [[[|? ?] H]|[_ H]]; [discriminate H|discriminate H|]. repeat split; auto.
  - destruct (s_down s) as [|x down] eqn:E; [discriminate|]. injection N as N. destruct (reachable_good s R) as (_ & _ & AL & _ & _ & _). destruct (AL P) as [Al NN]. rewrite E in NN.
    assert (Q : s_phase (handle s) = Connected /\ s_clients (handle s) = s_clients s /\ s_down (handle s) = down /\ ((exists a, down_of t down = a ++ [Stop r]) \/ down_of t down = [] /\ stopping t (handle s))).
    { unfold handle. rewrite Al, E. destruct x as [[u m]|]; [|exfalso; apply NN; now left]. cbn [down_of flat_map] in H. destruct m as [r'|r'].
      - cbn [set_down s_table]. set (p := match s_table s u with Some p => p | None => _ end).
        assert (G : (exists a, down_of t down = a ++ [Stop r]) \/ down_of t down = [] /\ stopping t s /\ t <> u).
        { destruct (N.eqb_spec u t) as [->|D]; [|fold (down_of t down) in H; destruct H as [H|[H1 H2]]; [now left|right; auto]]. cbn [app] in H. fold (down_of t down) in H. destruct H as [[[|y a] H]|[H _]]; try discriminate. injection H as _ H. left. now exists a. }
        destruct (p_active p); cbn; repeat split; auto; (destruct G as [G|(G1 & G2 & G3)]; [now left|right; split; [assumption|]]); [exact G2|]. intros q. cbn. rewrite update_other by assumption. apply G2.
      - cbn [set_down s_table].
        assert (G : (exists a, down_of t down = a ++ [Stop r]) \/ down_of t down = [] /\ (t = u \/ t <> u /\ stopping t s)).
        { destruct (N.eqb_spec u t) as [->|D]; [|fold (down_of t down) in H; destruct H as [H|[H1 H2]]; [now left|right; auto]]. cbn [app] in H. fold (down_of t down) in H. destruct H as [[[|y a] H]|[H _]]; try discriminate.
          - injection H as _ H. right. auto.
          - injection H as _ H. left. now exists a. }
        destruct (s_table s u) as [p|] eqn:T.
        + destruct (p_active p) eqn:Ac.
          * destruct (stop_same t p (set_down down s) u) as (X1 & X2 & X3 & X4). rewrite X1, X2, X3. repeat split; auto. destruct G as [G|(G1 & [->|[D G2]])]; [now left|right; split; [assumption|apply stop_stopping]|].
            right. split; [assumption|]. intros q. rewrite X4 by assumption. apply G2.
          * repeat split; auto. destruct G as [G|(G1 & [->|[D G2]])]; [now left| |right; split; [assumption|exact G2]]. right. split; [assumption|]. intros q X Y. cbn in X. congruence.
        + repeat split; auto. destruct G as [G|(G1 & [->|[D G2]])]; [now left| |right; split; [assumption|exact G2]]. right. split; [assumption|]. intros q X. cbn in X. congruence. }
    destruct Q as (Q1 & Q2 & Q3 & Q4). destruct (IH t (handle s) r) as (s' & S1 & S2 & S3 & S4 & S5 & S6); auto; [now apply (reach_step s AHandle)|congruence|rewrite Q3; exact Q4|].
    exists s'. rewrite S4. repeat split; auto.
Qed.
(** C47.  After a call of cancel the report comes, even if the process does nothing on its own. *)
Theorem process_cancel_reported s t : reachable s -> s_phase s = Connected -> c_state (s_clients s t) = Running ->
  exists l, Forall (by_themselves t) l /\ reported t (c_run (s_clients s t)) (s_log (runs s (ACancel t :: l))).
Proof.
  intros R P C. set (r := c_run (s_clients s t)). assert (R1 : reachable (step s (ACancel t))) by (now apply reach_step). cbn [runs fold_left].
  assert (X : s_phase (step s (ACancel t)) = Connected /\ s_clients (step s (ACancel t)) = s_clients s /\ s_down (step s (ACancel t)) = s_down s ++ [Some (t, Stop r)]).
  { cbn [step]. unfold cancel, send, is_ready. rewrite C. cbn. rewrite P. cbn. auto. }
  destruct X as (P1 & C1 & D1). set (s1 := step s (ACancel t)) in *. clearbody s1.
  destruct (drain (length (s_down s1)) t s1 r R1 P1 eq_refl) as (s2 & S0 & R2 & P2 & C2 & D2 & ST). { left. exists (down_of t (s_down s)). rewrite D1, down_app, down_one. reflexivity. }
  assert (CC : c_state (s_clients s2 t) = Running) by congruence. assert (CR : c_run (s_clients s2 t) = r) by (rewrite C2, C1; reflexivity).
  assert (FIN : forall s', (exists l, Forall (by_themselves t) l /\ s' = runs s1 l) -> (exists l, Forall (by_themselves t) l /\ reported t r (s_log (runs s' l))) -> exists l, Forall (by_themselves t) l /\ reported t r (s_log (runs s1 l))).
  { intros s' (l & A & ->) (l' & A' & B). exists (l ++ l'). rewrite runs_app. split; [now apply Forall_app|exact B]. }
  assert (H2 : exists l, Forall (by_themselves t) l /\ s2 = runs s1 l). { exists (repeat AHandle (length (s_down s1))). split; [|exact S0]. apply Forall_forall. intros a I. apply repeat_spec in I as ->. exact Logic.I. }
  destruct (nothing_lost s2 t R2 P2 CC) as [X|[X|X]]; rewrite CR in X.
  - rewrite D2 in X. destruct X.
  - destruct X as (p & T & Ac & Ru). destruct (reachable_good s2 R2) as (_ & _ & _ & _ & _ & IV). destruct (IV t) as (r0 & m & I). pose proof (i_launcher _ _ _ _ I) as L.
    assert (TM : p_timer p = true).
    { destruct L as [A B|A B E1 E2 E3 E4 E5 E6|st tm E1 E2 E3 E4 E5]; [rewrite T in B; destruct B; congruence|rewrite T in E4; destruct E4; congruence|]. specialize (ST p T Ac). rewrite T in E2. injection E2 as ->. cbn in *. destruct st; [congruence|exact (proj1 E5)|exact (proj1 E5)]. }
    destruct (expire_gives_up t s2 p P2 T TM (ST p T Ac)) as (l & L1 & _ & L3 & L4 & _). apply (FIN (runs s2 l)).
    + destruct H2 as (l0 & A & ->). exists (l0 ++ l). split; [apply Forall_app; split; [exact A|]; eapply Forall_impl; [|exact L1]; intros a <-; reflexivity|symmetry; apply runs_app].
    + apply way_report; rewrite ?L3; auto. exists Finished. left. rewrite <- Ru. exact L4.
  - apply (FIN s2 H2). now apply way_report.
Qed.

(** ** The connection is lost *)

Definition told (t : N) (s : state) : Prop :=
  s_phase s = Closed /\ s_up s = [] /\
  ((c_error (s_clients s t) = true /\ c_state (s_clients s t) = NotRunning /\ ~ In Ready (c_inbox (s_clients s t))) \/ exists a b, c_inbox (s_clients s t) = a ++ SocketError :: b /\ ~ In Ready b).
Lemma told_same t s s' : told t s -> s_phase s' = s_phase s -> s_up s' = s_up s -> s_clients s' t = s_clients s t -> told t s'.
Proof. unfold told. intros T -> -> ->. exact T. Qed.
Lemma stop_closed t p s u : s_phase s = Closed -> s_up (stop_process u p s) = s_up s /\ s_clients (stop_process u p s) t = s_clients s t /\ s_phase (stop_process u p s) = s_phase s.
Proof. intros P. unfold stop_process, answer, is_ready. destruct (p_stop p); cbn; auto. rewrite P. auto. Qed.
Lemma told_step t s a : allowed s a -> told t s -> told t (step s a).
Proof.
  intros A T. pose proof T as (P & U & H). destruct a as [u|u|u| | | | | |u k|u|i]; cbn [step].
  - cbn in A. destruct (N.eqb_spec t u) as [->|D].
    + unfold start, do_start, is_ready. cbn. rewrite P. unfold told. destruct (c_error (s_clients s u)) eqn:E; cbn; rewrite ?update_same; cbn; (split; [exact P|]; split; [exact U|]; destruct H as [H|H]; [left|right; exact H]); [exact H|]. destruct H as (X & _). congruence.
    + apply (told_same t s); auto; unfold start, do_start, send, is_ready; cbn; destruct (c_error (s_clients s u)); cbn; rewrite ?update_other by assumption; auto; rewrite P; cbn; rewrite ?update_other by assumption; auto.
  - unfold cancel, send, is_ready. cbn. rewrite P. destruct (c_state (s_clients s u)) eqn:C; auto. destruct (N.eqb_spec t u) as [->|D].
    + unfold told. cbn. rewrite update_same. cbn. split; [exact P|]. split; [exact U|]. destruct H as [(X & Y & Z)|H]; [congruence|right; exact H].
    + apply (told_same t s); auto. cbn. now rewrite update_other.
  - destruct (N.eqb_spec t u) as [->|D].
    + unfold receive, do_start, send, is_ready. destruct (c_inbox (s_clients s u)) as [|[| |k r] l] eqn:B; auto.
      * destruct H as [(_ & _ & H)|(a & b & H & N)]; [exfalso; apply H; now left|]. destruct a as [|x a]; [discriminate|]. injection H as <- H.
        unfold told. destruct (c_state (s_clients s u)) eqn:C; cbn; rewrite P; cbn; rewrite ?update_same; cbn; rewrite ?update_same; cbn; (split; [auto|]); (split; [auto|]); right; exists a, b; auto.
      * unfold told. assert (NR : ~ In Ready l \/ exists a b, l = a ++ SocketError :: b /\ ~ In Ready b).
        { destruct H as [(_ & _ & H)|(a & b & H & N)]; [left; intros X; apply H; now right|]. destruct a as [|x a]; injection H as H; [subst; now left|right; eauto]. }
        destruct (c_state (s_clients s u)) eqn:C; cbn; rewrite ?update_same; cbn; (split; [auto|]); (split; [auto|]); (destruct NR; [left|right]; auto).
      * unfold told. destruct H as [(E1 & E2 & H)|(a & b & H & N)].
        -- rewrite E2. destruct k; cbn; rewrite ?update_same; cbn; (split; [auto|]); (split; [auto|]); left; (split; [auto|]); (split; [auto|]); intros X; apply H; now right.
        -- destruct a as [|x a]; [discriminate|]. injection H as <- H. destruct k, (c_state (s_clients s u)) eqn:C; cbn; rewrite ?update_same; cbn; (split; [auto|]); (split; [auto|]); right; exists a, b; auto.
    + apply (told_same t s); auto; unfold receive, do_start, send, is_ready; destruct (c_inbox (s_clients s u)) as [|[| |[|] r] l] eqn:B; auto; destruct (c_state (s_clients s u)); cbn; rewrite ?P; cbn; rewrite ?update_other by assumption; auto.
  - unfold connect. now rewrite P.
  - unfold lose. now rewrite P.
  - unfold shutdown. now rewrite P.
  - unfold forward. now rewrite U.
  - unfold handle. destruct (s_alive s); auto. destruct (s_down s) as [|[[u [r|r]]|] l]; auto; cbn [set_down s_table].
    + destruct (p_active _); auto.
    + destruct (s_table s u) as [p|]; auto. destruct (p_active p); auto. destruct (stop_closed t p (set_down l s) u P) as (X & Y & Z). apply (told_same t s); auto.
  - unfold ProcessModel.ended. destruct (s_table s u) as [p|]; auto. destruct (p_active p); auto. unfold answer, is_ready. cbn. rewrite P. apply (told_same t s); auto.
  - unfold expire. destruct (s_table s u) as [p|]; auto. destruct (p_timer p); auto. destruct (stop_closed t (mkProc (p_active p) (p_run p) (p_stop p) false) s u P) as (X & Y & Z). apply (told_same t s); auto.
  - unfold orphan_expire. destruct (nth_error (s_orphans s) i) as [[u p]|]; auto. destruct (p_timer p); auto. destruct (p_stop p); apply (told_same t s); auto.
Qed.
Inductive leads_to : state -> state -> Prop :=
| lead_refl s : leads_to s s
| lead_step s s' a : leads_to s s' -> allowed s' a -> leads_to s (step s' a).
Lemma told_lose t s : reachable s -> s_phase s = Connected -> told t (lose s).
Proof.
  intros R P. unfold lose, told. rewrite P. cbn. split; [reflexivity|]. split; [reflexivity|]. right. exists (c_inbox (s_clients s t)), []. auto.
Qed.
Lemma error_report n : forall t s, n = length (c_inbox (s_clients s t)) -> c_state (s_clients s t) <> NotRunning -> s_phase s = Closed -> In SocketError (c_inbox (s_clients s t)) ->
  exists l, Forall (eq (AReceive t)) l /\ reported t (c_run (s_clients s t)) (s_log (runs s l)).
Proof.
  induction n as [|n IH]; intros t s N C P H; destruct (c_inbox (s_clients s t)) as [|i l] eqn:E; try discriminate; [destruct H|].
  assert (STOP : reported t (c_run (s_clients s t)) (s_log (receive t s)) -> exists l, Forall (eq (AReceive t)) l /\ reported t (c_run (s_clients s t)) (s_log (runs s l))) by (intros X; exists [AReceive t]; split; [constructor; [reflexivity|constructor]|exact X]).
  assert (NEXT : length (c_inbox (s_clients (receive t s) t)) = n -> c_run (s_clients (receive t s) t) = c_run (s_clients s t) -> c_state (s_clients (receive t s) t) <> NotRunning -> s_phase (receive t s) = Closed -> In SocketError (c_inbox (s_clients (receive t s) t)) ->
    exists l, Forall (eq (AReceive t)) l /\ reported t (c_run (s_clients s t)) (s_log (runs s l))).
  { intros X1 X2 X3 X4 X5. destruct (IH t (receive t s) (eq_sym X1) X3 X4 X5) as (l' & L1 & L2). rewrite X2 in L2. exists (AReceive t :: l'). split; [now constructor|exact L2]. }
  injection N as N. destruct i as [| |k r].
  - destruct H as [H|H]; [discriminate|]. apply NEXT; unfold receive, do_start, send, is_ready; rewrite E; destruct (c_state (s_clients s t)) eqn:ST; cbn; rewrite ?P; cbn; rewrite ?update_same; cbn; rewrite ?update_same; cbn; congruence || auto.
  - apply STOP. unfold receive. rewrite E. destruct (c_state (s_clients s t)); [congruence| |]; cbn; eexists; now left.
  - destruct H as [H|H]; [discriminate|]. destruct k, (c_state (s_clients s t)) eqn:ST; try congruence.
    + apply STOP. unfold receive. rewrite E, ST. cbn. eexists. now left.
    + apply STOP. unfold receive. rewrite E, ST. cbn. eexists. now left.
    + apply NEXT; unfold receive; rewrite E, ST; cbn; rewrite ?update_same; cbn; congruence || auto.
    + apply STOP. unfold receive. rewrite E, ST. cbn. eexists. now left.
Qed.
(** C47.  Once the connection is lost, whatever happens afterwards, a process that is running or is started is reported as soon as its client handles its events. *)
Theorem loss_reported s s' t : reachable s -> s_phase s = Connected -> leads_to (lose s) s' -> c_state (s_clients s' t) <> NotRunning ->
  exists l, Forall (eq (AReceive t)) l /\ reported t (c_run (s_clients s' t)) (s_log (runs s' l)).
Proof.
  intros R P L C. assert (T : told t s') by (clear C; remember (lose s) as s0 eqn:E; induction L; [subst; now apply told_lose|apply told_step; auto]). destruct T as (P' & _ & [(_ & X & _)|(a & b & H & _)]); [congruence|].
  eapply error_report; eauto. rewrite H. apply in_or_app. right. now left.
Qed.

(** ** Corollaries in plain terms *)

Lemma legal_app a b : legal (a ++ b) -> legal b.
Proof. induction a; [auto|]. intros [_ H]. auto. Qed.
(** C47.  Two reports are about two different starts, and no assertion fails. *)
Theorem one_report_per_start s a b t r c c' : reachable s -> s_log s = a ++ EReport t r c :: b -> ~ In (EReport t r c') b /\ ~ In (EReport t r c') a /\ In (EStart t r) b.
Proof.
  intros R E. pose proof (history_legal s R) as L. rewrite E in L. pose proof (legal_app a _ L) as [(M1 & M2 & _) _].
  split; [intros X; apply M2; now exists c'|]. split; [|exact M1]. intros X. apply in_split in X as (a1 & a2 & ->). rewrite <- app_assoc in L. apply legal_app in L. destruct L as [(_ & N & _) _]. apply N. exists c. apply in_or_app. right. now left.
Qed.
Theorem no_assertion_fails s t : reachable s -> ~ In (EAssert t) (s_log s).
Proof. intros R X. apply in_split in X as (a & b & E). pose proof (history_legal s R) as L. rewrite E in L. apply legal_app in L as [[] _]. Qed.

(** ** What does not hold: that a process gets the time to end after a signal.  A second request to stop it is taken for the end of that time. *)

Theorem grace_period_refuted : exists s t r, reachable s /\ (exists l, s = runs init l /\ Forall (fun a => forall u, a <> AExpire u) l) /\ In (EKill t r) (s_log s) /\ In (EGiveUp t r) (s_log s) /\ reported t r (s_log s) /\ ~ In (EExit t r) (s_log s).
Proof.
  pose (l := [AConnect; AReceive 7%N; AStart 7%N; ACancel 7%N; ACancel 7%N; ACancel 7%N; AHandle; AHandle; AHandle; AHandle; AForward; AReceive 7%N]).
  exists (runs init l), 7%N, 1. split; [|split; [exists l; split; [reflexivity|]|]].
  - unfold l, runs. cbn [fold_left]. repeat (apply reach_step; [|exact Logic.I || reflexivity]). apply reach_init.
  - unfold l. repeat constructor; discriminate.
  - vm_compute. split; [tauto|]. split; [tauto|]. split; [eexists; left; reflexivity|]. intuition discriminate.
Qed.

(** ** A run: two processes; one ends on its own, the other one ignores the signals *)

Module Demo.
Definition acts : list action :=
  [AStart 1%N; AConnect; AReceive 1%N; AStart 2%N; AHandle; AHandle; AEnded 1%N Finished; ACancel 2%N; AHandle; AExpire 2%N; AForward; AReceive 1%N; AExpire 2%N; AForward; AReceive 2%N; AReceive 2%N; AStart 1%N; AHandle; ALose; AReceive 1%N].
Example log : rev (s_log (runs init acts)) =
  [EStart 1 1; EStart 2 1; ELaunch 1 1; ELaunch 2 1; EExit 1 1; ECancel 2 1; ETerminate 2 1; EKill 2 1; EReport 1 1 (FromLauncher Finished 1); EGiveUp 2 1; EReport 2 1 (FromLauncher Finished 1); EStart 1 2; ELaunch 1 2; EShutdown; EReport 1 2 Immediately].
Proof. vm_compute. reflexivity. Qed.
Example is_reachable : reachable (runs init acts).
Proof. unfold acts, runs. cbn [fold_left]. repeat (apply reach_step; [|exact Logic.I || vm_compute; reflexivity]). apply reach_init. Qed.
(** The hypotheses of process_cancel_reported and nothing_lost hold after the first five actions, those of loss_reported after eighteen, those of waiting_is_told after two. *)
Example running : let s := runs init (firstn 5 acts) in s_phase s = Connected /\ c_state (s_clients s 2%N) = Running /\ launched 1 1 s.
Proof. split; [reflexivity|]. split; [reflexivity|]. eexists. split; [vm_compute; reflexivity|]. split; reflexivity. Qed.
Example waiting : let s := runs init (firstn 2 acts) in s_phase s = Connected /\ c_state (s_clients s 1%N) = Starting.
Proof. split; reflexivity. Qed.
Example lost : let s := runs init (firstn 18 acts) in s_phase s = Connected /\ c_state (s_clients (lose s) 1%N) = Running.
Proof. split; vm_compute; reflexivity. Qed.
End Demo.

Print Assumptions history_legal.
Print Assumptions nothing_lost.
Print Assumptions waiting_is_told.
Print Assumptions exit_reported.
Print Assumptions process_cancel_reported.
Print Assumptions loss_reported.
Print Assumptions one_report_per_start.
Print Assumptions no_assertion_fails.
Print Assumptions grace_period_refuted.
