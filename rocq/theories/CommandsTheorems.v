(** The commands of a job: each one that is begun is reported once, in order,
    and what is reported about it is about this command; where that fails. *)

From Coq Require Import List Bool Arith ZArith Lia.
From Verif Require Import CommandsModel.
Import ListNotations.
Open Scope list_scope.

(** ** Specification *)

(** Exit codes are C integers, and so is the largest one of a successful
    process, which is not negative. *)
Definition fits (e : event) : Prop :=
  match e with
  | EExit code _ _ => (-2147483648 <= code < 2147483648)%Z
  | ERun l => forall p, In (Process p) l -> (0 <= p_max p < 2147483648)%Z
  | _ => True
  end.

Inductive reachable : state -> Prop :=
| reach_init : reachable init
| reach_step s e : reachable s -> fits e -> reachable (step s e).

(** No earlier command of the job's objects took too long, was cancelled, or
    could not be started. *)
Definition clean (l : list note) (k : nat) : Prop :=
  forall j, j < k -> ~ In (Late j) l /\ ~ In (Unstarted j) l /\ ~ In (Stopped j) l.

(** The outcome that a command deserves, given what has happened. *)
Definition deserved (l : list note) (k : nat) (o : outcome) : Prop :=
  exists c, In (Begun k c) l /\
  match c, o with
  | Process p, Success =>
      p_skip p = true \/
      exists code cr, In (Exited k code cr true) l /\ (0 <= code <= p_max p)%Z
        /\ (In (Late k) l -> In (Stopped k) l)
  | Process p, Failure w =>
      p_skip p = false /\
      match w with
      | BadDirectory => p_dir p = false
      | NoResponseFile => p_response p = false
      | NotStarted => In (Unstarted k) l /\ forall code cr w', ~ In (Exited k code cr w') l
      | ProcessError =>
          (exists code cr, In (Exited k code cr false) l)
          /\ forall code cr w', In (Exited k code cr w') l -> w' = false
      | BadExit =>
          (exists code cr w', In (Exited k code cr w') l)
          /\ forall code cr w', In (Exited k code cr w') l -> ~ (0 <= code <= p_max p)%Z
      | TimedOut j => j = k /\ In (Late k) l
      | _ => False
      end
  | Script j, Success =>
      j_skip j = true \/
      (In (Evaluated k) l /\ (In (Thrown k) l \/ In (Late k) l -> In (Stopped k) l))
  | Script j, Failure w =>
      j_skip j = false /\
      match w with
      | ScriptError => In (Evaluated k) l /\ In (Thrown k) l
      | TimedOut i => i = k /\ In (Late k) l
      | _ => False
      end
  end.

(** ** The invariant *)

Definition num (e : note) : nat :=
  match e with
  | Begun k _ | Launched k | Evaluated k | Exited k _ _ _ | Unstarted k | Thrown k | Late k
  | Stopped k | Reported k _ | Done k _ => k
  | JobDone _ => 0
  end.

Definition done_runs (l : list note) : list nat :=
  flat_map (fun e => match e with Done k _ => [k] | _ => [] end) l.

Fixpoint judged (l : list note) : Prop :=
  match l with
  | [] => True
  | Done k o :: r => (clean r k -> deserved r k o) /\ judged r
  | _ :: r => judged r
  end.

Definition fine (c : command) : Prop :=
  match c with Process p => (0 <= p_max p < 2147483648)%Z | Script _ => True end.

Record base (s : state) : Prop := {
  b_bound : forall e, In e (log s) -> num e <= count s;
  b_dones : NoDup (done_runs (log s));
  b_begun : forall k o, In (Done k o) (log s) -> exists c, In (Begun k c) (log s);
  b_one : forall k c c', In (Begun k c) (log s) -> In (Begun k c') (log s) -> c = c';
  b_fine : forall k c, In (Begun k c) (log s) -> fine c;
  b_todo : Forall fine (todo s);
  b_reason : forall j, reason s = Some j -> In (Late j) (log s);
  b_perr : perr s = true -> exists j, In (Unstarted j) (log s);
  b_jc : jcancelled s = true -> exists j, In (Late j) (log s) \/ In (Stopped j) (log s);
  b_pwatch : forall j, pwatch s = Some j -> exists p, In (Begun j (Process p)) (log s);
  b_judged : judged (log s) }.

Definition idle (s : state) : Prop := ps s = NotRunning /\ jrun s = false /\ zero s = false.

Definition busy (s : state) (k : nat) (c : command) : Prop :=
  match c with
  | Process p =>
      jrun s = false /\ zero s = p_skip p /\ (p_skip p = true -> ps s = NotRunning)
      /\ (forall code cr w, ~ In (Exited k code cr w) (log s))
      /\ (p_skip p = false ->
          (ps s = NotRunning -> exists j, In (Late j) (log s)) /\
          (clean (log s) k ->
            (ps s <> NotRunning -> perr s = false)
            /\ (reason s = None -> In (Late k) (log s) -> In (Stopped k) (log s))))
  | Script j =>
      ps s = NotRunning /\ zero s = j_skip j /\ jrun s = negb (j_skip j)
      /\ (forall i, jwatch s = Some i -> i = k)
      /\ (j_skip j = false -> clean (log s) k ->
           In (Evaluated k) (log s) /\ ~ In (Thrown k) (log s)
           /\ (jcancelled s = false -> jres s = Success /\ ~ In (Late k) (log s))
           /\ (jcancelled s = true ->
                (jres s = Failure (TimedOut k) /\ In (Late k) (log s))
                \/ (jres s = Success /\ In (Stopped k) (log s))))
  end.

Record inv (s : state) : Prop := {
  i_base : base s;
  i_jwatch : forall i, jwatch s = Some i -> jrun s = true;
  i_cur : match current s with
          | None => idle s
          | Some (k, c) => k = count s /\ In (Begun k c) (log s)
                           /\ (forall o, ~ In (Done k o) (log s)) /\ busy s k c
          end }.

Lemma clean_mono l l' k : (forall e, In e l -> In e l') -> clean l' k -> clean l k.
Proof. intros H C j J. destruct (C j J) as [A [B D]]. repeat split; intro X; eauto. Qed.

Lemma done_runs_In l k : In k (done_runs l) <-> exists o, In (Done k o) l.
Proof.
  unfold done_runs. rewrite in_flat_map. split.
  - intros [e [H E]]. destruct e; simpl in E; try contradiction. destruct E as [<-|[]]. eauto.
  - intros [o H]. exists (Done k o). split; [exact H|left; reflexivity].
Qed.

(** Notes other than the begin and the end of a command. *)
Definition plain (e : note) : Prop :=
  match e with Begun _ _ | Done _ _ => False | _ => True end.

Lemma base_tell e s : plain e -> num e <= count s -> base s -> base (tell e s).
Proof.
  intros P N B. destruct B. constructor; simpl; auto.
  - intros x [<-|H]; auto.
  - destruct e; simpl in *; auto; contradiction.
  - intros k o [->|H]; [destruct P|]. destruct (b_begun0 k o H) as [c C]. exists c. auto.
  - intros k c c' [->|H] [X|H']; try (destruct P); eauto. rewrite X in P. destruct P.
  - intros k c [->|H]; [destruct P|eauto].
  - intros H. destruct (b_perr0 H) as [j J]. exists j. auto.
  - intros H. destruct (b_jc0 H) as [j [J|J]]; exists j; auto.
  - intros j H. destruct (b_pwatch0 j H) as [p X]. exists p. auto.
  - destruct e; simpl in *; auto; contradiction.
Qed.

Lemma base_process p e s : base s -> (e = true -> exists j, In (Unstarted j) (log s)) ->
  base (set_process p e s).
Proof. intros B H. destruct B. constructor; simpl; auto. Qed.

Lemma base_socket r e s : base s -> base (set_socket r e s).
Proof. intros B. destruct B. constructor; simpl; auto. Qed.

Lemma base_reason r s : base s -> (forall j, r = Some j -> In (Late j) (log s)) ->
  base (set_reason r s).
Proof. intros B H. destruct B. constructor; simpl; auto. Qed.

Lemma base_pwatch w s : base s -> (forall j, w = Some j -> exists p, In (Begun j (Process p)) (log s)) ->
  base (set_pwatch w s).
Proof. intros B H. destruct B. constructor; simpl; auto. Qed.

Lemma base_jwatch w s : base s -> base (set_jwatch w s).
Proof. intros B. destruct B. constructor; simpl; auto. Qed.

Lemma base_zero z s : base s -> base (set_zero z s).
Proof. intros B. destruct B. constructor; simpl; auto. Qed.

Lemma base_script r c o s : base s ->
  (c = true -> exists j, In (Late j) (log s) \/ In (Stopped j) (log s)) ->
  base (set_script r c o s).
Proof. intros B H. destruct B. constructor; simpl; auto. Qed.

Lemma base_job t c e n s : base s -> count s <= n -> Forall fine t -> base (set_job t c e n s).
Proof.
  intros B H F. destruct B. constructor; simpl; auto.
  intros x X. specialize (b_bound0 x X). lia.
Qed.

Lemma base_done k o s : base s ->
  (exists c, In (Begun k c) (log s)) -> (forall o, ~ In (Done k o) (log s)) ->
  (clean (log s) k -> deserved (log s) k o) -> base (tell (Done k o) s).
Proof.
  intros B [c C] ND J. destruct B. constructor; simpl; auto.
  - intros e [<-|H]; [|auto]. exact (b_bound0 _ C).
  - constructor; [|exact b_dones0]. rewrite done_runs_In. intros [o' X]. exact (ND o' X).
  - intros k' o' [X|H].
    + inversion X. subst. exists c. auto.
    + destruct (b_begun0 k' o' H) as [c' C']. exists c'. auto.
  - intros k' a b [X|H] [Y|H']; try discriminate. eauto.
  - intros k' a [X|H]; [discriminate|eauto].
  - intro H. destruct (b_perr0 H) as [j X]. exists j. auto.
  - intros H. destruct (b_jc0 H) as [j [X|X]]; exists j; auto.
  - intros j H. destruct (b_pwatch0 j H) as [p X]. exists p. auto.
Qed.

Lemma base_begin k c s : base s -> count s < k -> fine c ->
  base (tell (Begun k c) (set_job (tl (todo s)) (Some (k, c)) (joberr s) k s)).
Proof.
  intros B H F. destruct B. constructor; simpl; auto.
  - intros e [<-|X]; simpl; [lia|]. specialize (b_bound0 e X). lia.
  - intros k' o [X|X]; [discriminate|]. destruct (b_begun0 k' o X) as [c' C']. exists c'. auto.
  - intros k' a b [X|X] [Y|Y].
    + congruence.
    + inversion X. subst. specialize (b_bound0 _ Y). simpl in b_bound0. lia.
    + inversion Y. subst. specialize (b_bound0 _ X). simpl in b_bound0. lia.
    + eauto.
  - intros k' a [X|X]; [inversion X; subst; exact F|eauto].
  - destruct (todo s); [constructor|]. inversion b_todo0. assumption.
  - intro X. destruct (b_perr0 X) as [j Y]. exists j. auto.
  - intros X. destruct (b_jc0 X) as [j [Y|Y]]; exists j; auto.
  - intros j X. destruct (b_pwatch0 j X) as [p Y]. exists p. auto.
Qed.

(** ** Ends of commands *)

Definition settled (s : state) : Prop :=
  idle s /\ (forall i, jwatch s = Some i -> jrun s = true).

Lemma inv_job_finished o s : base s -> settled s -> inv (job_finished o s).
Proof.
  intros B [I1 I2]. constructor.
  - apply base_tell; [exact I|simpl; lia|]. apply base_job; auto.
  - exact I2.
  - exact I1.
Qed.

Lemma inv_failed k w s : base s -> settled s ->
  (exists c, In (Begun k c) (log s)) -> (forall o, ~ In (Done k o) (log s)) ->
  (clean (log s) k -> deserved (log s) k (Failure w)) -> inv (failed k w s).
Proof.
  intros B S0 C ND J. unfold failed. apply inv_job_finished; [apply base_done; auto|exact S0].
Qed.

Lemma not_yet s k : base s -> count s < k -> forall e, In e (log s) -> num e <> k.
Proof. intros B H e X E. pose proof (b_bound s B e X). lia. Qed.

Lemma inv_next s : base s -> settled s -> inv (next s).
Proof.
  intros B S0. pose proof S0 as [[P0 [J0 Z0]] W0]. unfold next. destruct (todo s) as [|c r] eqn:T.
  { apply inv_job_finished; assumption. }
  set (k := S (count s)).
  assert (Lt : count s < k) by (unfold k; lia).
  assert (F : fine c).
  { pose proof (b_todo s B) as X. rewrite T in X. inversion X. assumption. }
  pose proof (base_begin k c s B Lt F) as B1. rewrite T in B1. cbn [tl] in B1.
  set (s1 := tell (Begun k c) (set_job r (Some (k, c)) (joberr s) k s)) in *.
  assert (Bg : In (Begun k c) (log s1)) by (left; reflexivity).
  assert (NY : forall e, In e (log s) -> num e <> k) by (apply not_yet; assumption).
  assert (ND : forall o, ~ In (Done k o) (log s1)).
  { intros o [X|X]; [discriminate|]. exact (NY _ X eq_refl). }
  assert (NE : forall a b d, ~ In (Exited k a b d) (log s1)).
  { intros a b d [X|X]; [discriminate|]. exact (NY _ X eq_refl). }
  assert (NT : ~ In (Thrown k) (log s1)).
  { intros [X|X]; [discriminate|]. exact (NY _ X eq_refl). }
  assert (NL : ~ In (Late k) (log s1)).
  { intros [X|X]; [discriminate|]. exact (NY _ X eq_refl). }
  assert (S1 : settled s1) by exact S0.
  assert (Cl : forall l, (forall e, In e (log s1) -> In e l) -> clean l k ->
               perr s = false /\ jcancelled s = false).
  { intros l Hl C. split; apply not_true_iff_false; intro X.
    - destruct (b_perr s B X) as [j Hj]. assert (L := b_bound s B _ Hj). simpl in L.
      destruct (C j) as [_ [U _]]; [lia|]. apply U, Hl. right. exact Hj.
    - destruct (b_jc s B X) as [j [Hj|Hj]]; assert (L := b_bound s B _ Hj); simpl in L;
        destruct (C j) as [A1 [_ A2]]; try lia.
      + apply A1, Hl. right. exact Hj.
      + apply A2, Hl. right. exact Hj. }
  destruct c as [p|j].
  - unfold start_process. destruct (p_skip p) eqn:SK.
    { constructor; [apply base_zero; exact B1|exact W0|].
      simpl. split; [reflexivity|]. split; [exact Bg|]. split; [exact ND|].
      split; [exact J0|]. split; [symmetry; exact SK|]. split; [intros _; exact P0|].
      split; [exact NE|]. intro X. congruence. }
    destruct (p_dir p) eqn:PD; cbn [negb].
    2:{ apply inv_failed; [apply base_pwatch; [exact B1|discriminate]|exact S1|eauto|exact ND|].
        intros _. exists (Process p). split; [exact Bg|]. auto. }
    destruct (p_response p) eqn:PR; cbn [negb].
    2:{ apply inv_failed; [apply base_pwatch; [exact B1|discriminate]|exact S1|eauto|exact ND|].
        intros _. exists (Process p). split; [exact Bg|]. auto. }
    assert (Watch : forall s2, inv s2 -> In (Begun k (Process p)) (log s2) ->
              inv (if p_timeout p then set_pwatch (Some k) s2 else s2)).
    { intros s2 I2 G2. destruct (p_timeout p); [|exact I2].
      destruct I2 as [A1 A2 A3]. constructor; [|exact A2|exact A3].
      apply base_pwatch; [exact A1|]. intros i E. inversion E. subst. eauto. }
    apply Watch.
    + destruct (sockerr s1).
      * set (s2 := tell (Unstarted k) (set_process (ps s1) true s1)).
        assert (B2 : base s2).
        { constructor; simpl.
          - intros e [<-|X]; [simpl; lia|]. exact (b_bound s1 B1 e X).
          - exact (b_dones s1 B1).
          - intros k' o [X|X]; [discriminate|]. destruct (b_begun s1 B1 k' o X) as [c C]. exists c. right. exact C.
          - intros k' a b [X|X] [Y|Y]; try discriminate. exact (b_one s1 B1 k' a b X Y).
          - intros k' a [X|X]; [discriminate|]. exact (b_fine s1 B1 k' a X).
          - exact (b_todo s1 B1).
          - intros i X. right. exact (b_reason s1 B1 i X).
          - intros _. exists k. left. reflexivity.
          - intros X. destruct (b_jc s1 B1 X) as [i [Y|Y]]; exists i; [left|right]; right; exact Y.
          - intros i X. destruct (b_pwatch s1 B1 i X) as [q Y]. exists q. right. exact Y.
          - exact (b_judged s1 B1). }
        assert (ND2 : forall o, ~ In (Done k o) (log s2)).
        { intros o [X|X]; [discriminate|]. exact (ND o X). }
        destruct (reason s2) as [i|] eqn:R.
        -- constructor; [exact B2|exact W0|]. simpl. split; [reflexivity|].
           split; [right; exact Bg|]. split; [exact ND2|]. split; [exact J0|].
           split; [rewrite SK; exact Z0|]. split; [intros _; exact P0|].
           split; [intros a b d [X|X]; [discriminate|]; exact (NE a b d X)|].
           intros _. split.
           ++ intros _. exists i. exact (b_reason s2 B2 i R).
           ++ intros C. split; [intros X; exfalso; exact (X P0)|].
              intros E. change (reason s2 = None) in E. congruence.
        -- apply inv_failed.
           ++ apply base_pwatch; [exact B2|discriminate].
           ++ exact S0.
           ++ exists (Process p). right. exact Bg.
           ++ exact ND2.
           ++ intros _. exists (Process p). split; [right; exact Bg|]. split; [exact SK|].
              split; [left; reflexivity|].
              intros a b d [X|X]; [discriminate|]. exact (NE a b d X).
      * assert (Com : forall s2 l2, (l2 = log s1 \/ l2 = Launched k :: log s1) -> log s2 = l2 ->
                 base s2 -> current s2 = Some (k, Process p) -> count s2 = k ->
                 jrun s2 = false -> zero s2 = false -> ps s2 <> NotRunning -> perr s2 = perr s ->
                 jwatch s2 = jwatch s -> inv s2).
        { intros s2 l2 Hl El B2 C2 K2 J2 Z2 P2 E2 W2.
          assert (Sub : forall e, In e (log s1) -> In e (log s2)).
          { intros e X. rewrite El. destruct Hl as [->| ->]; [exact X|right; exact X]. }
          assert (Back : forall e, In e (log s2) -> e = Launched k \/ In e (log s1)).
          { intros e X. rewrite El in X. destruct Hl as [->| ->]; [right; exact X|].
            destruct X as [X|X]; [left; congruence|right; exact X]. }
          constructor; [exact B2| |].
          - rewrite W2, J2. intros i X. rewrite (W0 i X) in J0. discriminate.
          - rewrite C2. split; [congruence|]. split; [apply Sub, Bg|]. split.
            + intros o X. destruct (Back _ X) as [Y|Y]; [discriminate|]. exact (ND o Y).
            + simpl. split; [exact J2|]. split; [rewrite SK; exact Z2|].
              split; [intro X; congruence|]. split.
              * intros a b d X. destruct (Back _ X) as [Y|Y]; [discriminate|]. exact (NE a b d Y).
              * intros _. split; [intro X; contradiction|]. intros C. split.
                -- intros _. rewrite E2. exact (proj1 (Cl _ Sub C)).
                -- intros _ X. destruct (Back _ X) as [Y|Y]; [discriminate|]. contradiction. }
        destruct (ready s1).
        -- apply (Com _ (Launched k :: log s1)); try reflexivity; auto; try discriminate.
           apply base_tell; [exact I|simpl; lia|].
           apply base_process; [apply base_process; [exact B1|exact (b_perr s1 B1)]|exact (b_perr s1 B1)].
        -- apply (Com _ (log s1)); try reflexivity; auto; try discriminate.
           apply base_process; [exact B1|exact (b_perr s1 B1)].
    + destruct (sockerr s1).
      * simpl. destruct (reason s); simpl; auto.
      * destruct (ready s1); simpl; auto.
  - unfold start_script. destruct (j_skip j) eqn:SK.
    { constructor; [apply base_zero; exact B1|exact W0|].
      simpl. split; [reflexivity|]. split; [exact Bg|]. split; [exact ND|].
      split; [exact P0|]. split; [symmetry; exact SK|]. split; [rewrite SK; exact J0|].
      split; [|intro X; congruence].
      intros i X. rewrite (W0 i X) in J0. discriminate. }
    assert (NW : jwatch s = None).
    { destruct (jwatch s) as [i|] eqn:E; [|reflexivity]. rewrite (W0 i eq_refl) in J0. discriminate. }
    set (s2 := if jcancelled s1 then _ else _).
    assert (I2 : base s2 /\ current s2 = Some (k, Script j) /\ count s2 = k /\ jrun s2 = true
             /\ jwatch s2 = None /\ ps s2 = NotRunning /\ zero s2 = false
             /\ (forall e, In e (log s1) -> In e (log s2))
             /\ (forall e, In e (log s2) -> e = Evaluated k \/ In e (log s1))
             /\ jcancelled s2 = jcancelled s
             /\ (jcancelled s = false -> In (Evaluated k) (log s2) /\ jres s2 = Success)).
    { unfold s2. change (jcancelled s1) with (jcancelled s).
      destruct (jcancelled s) eqn:JC; simpl.
      - split; [apply base_script; [exact B1|intros _; exact (b_jc s1 B1 JC)]|].
        repeat split; auto; discriminate.
      - split; [apply base_tell; [exact I|simpl; lia|]; apply base_script; [exact B1|discriminate]|].
        repeat split; auto. intros e [X|X]; auto. }
    destruct I2 as [B2 [C2 [K2 [J2 [W2 [P2 [Z2 [Sub [Back [JC2 Ev]]]]]]]]]].
    assert (I3 : forall w, (w = None \/ w = Some k) -> inv (set_jwatch w s2)).
    { intros w Hw. constructor; [apply base_jwatch; exact B2|simpl; auto|].
      simpl. rewrite C2. split; [congruence|]. split; [apply Sub, Bg|]. split.
      + intros o X. destruct (Back _ X) as [Y|Y]; [discriminate|]. exact (ND o Y).
      + split; [exact P2|]. split; [rewrite SK; exact Z2|]. split; [rewrite SK; exact J2|]. split.
        * simpl. intros i E. destruct Hw as [->| ->]; congruence.
        * intros _ C. simpl in C. destruct (Cl _ Sub C) as [_ JF]. simpl. rewrite JC2.
          destruct (Ev JF) as [E1 E2]. split; [exact E1|]. split.
          -- intros X. destruct (Back _ X) as [Y|Y]; [discriminate|contradiction].
          -- split; [|congruence]. intros _. split; [exact E2|].
             intros X. destruct (Back _ X) as [Y|Y]; [discriminate|contradiction]. }
    destruct (j_timeout j); [apply I3; auto|].
    assert (E : s2 = set_jwatch None s2).
    { revert W2. clear. destruct s2. simpl. intros ->. reflexivity. }
    rewrite E. apply I3. auto.
Qed.

Lemma inv_finished k o s : base s -> settled s ->
  (exists c, In (Begun k c) (log s)) -> (forall o, ~ In (Done k o) (log s)) ->
  (clean (log s) k -> deserved (log s) k o) -> inv (finished k o s).
Proof.
  intros B S0 C ND J. unfold finished. destruct o as [|w]; [|apply inv_failed; auto].
  assert (B1 : base (tell (Done k Success) s)) by (apply base_done; auto).
  destruct (joberr s); [apply inv_job_finished|apply inv_next]; auto.
Qed.

(** ** Steps *)

Lemma busy_tell e s k c :
  (forall a b d, e <> Exited k a b d) -> e <> Thrown k -> e <> Late k ->
  busy s k c -> busy (tell e s) k c.
Proof.
  intros NE NT NL H.
  assert (Cl : clean (e :: log s) k -> clean (log s) k)
    by (apply clean_mono; intros x X; right; exact X).
  destruct c as [p|j]; simpl in *.
  - destruct H as [H1 [H2 [H3 [H4 H5]]]]. split; [exact H1|]. split; [exact H2|]. split; [exact H3|].
    split.
    + intros a b d [X|X]; [exact (NE a b d X)|exact (H4 a b d X)].
    + intros SK. destruct (H5 SK) as [H6 H7]. split.
      * intro X. destruct (H6 X) as [i Hi]. exists i. right. exact Hi.
      * intros C. destruct (H7 (Cl C)) as [H8 H9]. split; [exact H8|].
        intros R [X|X]; [contradiction|]. right. auto.
  - destruct H as [H1 [H2 [H3 [H4 H5]]]]. split; [exact H1|]. split; [exact H2|]. split; [exact H3|].
    split; [exact H4|]. intros SK C. destruct (H5 SK (Cl C)) as [H6 [H7 [H8 H9]]].
    split; [right; exact H6|]. split; [intros [X|X]; contradiction|]. split.
    + intro X. destruct (H8 X) as [A B]. split; [exact A|]. intros [Y|Y]; contradiction.
    + intro X. destruct (H9 X) as [[A B]|[A B]]; [left|right]; auto.
Qed.

Lemma inv_not_started s k p :
  base s -> (forall i, jwatch s = Some i -> jrun s = true) ->
  current s = Some (k, Process p) -> k = count s -> In (Begun k (Process p)) (log s) ->
  (forall o, ~ In (Done k o) (log s)) -> jrun s = false -> zero s = false -> p_skip p = false ->
  (forall a b d, ~ In (Exited k a b d) (log s)) -> inv (not_started s).
Proof.
  intros B W C K G ND J Z SK NE. unfold not_started, run_of. rewrite C.
  set (s2 := tell (Unstarted k) (set_process NotRunning true s)).
  assert (B2 : base s2).
  { constructor; simpl.
    - intros e [<-|X]; [simpl; lia|]. exact (b_bound s B e X).
    - exact (b_dones s B).
    - intros k' o [X|X]; [discriminate|]. destruct (b_begun s B k' o X) as [c Y]. exists c. right. exact Y.
    - intros k' a b [X|X] [Y|Y]; try discriminate. exact (b_one s B k' a b X Y).
    - intros k' a [X|X]; [discriminate|]. exact (b_fine s B k' a X).
    - exact (b_todo s B).
    - intros i X. right. exact (b_reason s B i X).
    - intros _. exists k. left. reflexivity.
    - intros X. destruct (b_jc s B X) as [i [Y|Y]]; exists i; [left|right]; right; exact Y.
    - intros i X. destruct (b_pwatch s B i X) as [q Y]. exists q. right. exact Y.
    - exact (b_judged s B). }
  assert (ND2 : forall o, ~ In (Done k o) (log s2)).
  { intros o [X|X]; [discriminate|]. exact (ND o X). }
  assert (NE2 : forall a b d, ~ In (Exited k a b d) (log s2)).
  { intros a b d [X|X]; [discriminate|]. exact (NE a b d X). }
  unfold on_error. destruct (reason s2) as [i|] eqn:R.
  - constructor; [exact B2|exact W|]. simpl. rewrite C. split; [exact K|].
    split; [right; exact G|]. split; [exact ND2|]. split; [exact J|]. split; [rewrite SK; exact Z|].
    split; [intro X; congruence|]. split; [exact NE2|]. intros _. split.
    + intros _. exists i. exact (b_reason s2 B2 i R).
    + intros _. split; [intro X; exfalso; apply X; reflexivity|].
      intro E. change (reason s2 = None) in E. congruence.
  - assert (K2 : run_of s2 = k) by (unfold run_of; simpl; rewrite C; reflexivity).
    rewrite K2. unfold p_finished. apply inv_finished.
    + apply base_pwatch; [exact B2|discriminate].
    + split; [split; [reflexivity|split; [exact J|exact Z]]|exact W].
    + exists (Process p). right. exact G.
    + exact ND2.
    + intros _. exists (Process p). split; [right; exact G|]. split; [exact SK|].
      split; [left; reflexivity|exact NE2].
Qed.

Lemma unsigned_nonneg z : (0 <= z < 2147483648)%Z -> unsigned32 z = z.
Proof. intro H. unfold unsigned32. apply Z.mod_small. lia. Qed.

Lemma unsigned_neg z : (-2147483648 <= z < 0)%Z -> unsigned32 z = (z + 4294967296)%Z.
Proof.
  intro H. unfold unsigned32. rewrite <- (Z.mod_add z 1) by lia. rewrite Z.mul_1_l.
  apply Z.mod_small. lia.
Qed.

Lemma exit_spec code m : (-2147483648 <= code < 2147483648)%Z -> (0 <= m < 2147483648)%Z ->
  ((unsigned32 code >? unsigned32 m)%Z = false <-> (0 <= code <= m)%Z).
Proof.
  intros HC HM. rewrite (unsigned_nonneg m HM). rewrite Z.gtb_ltb, Z.ltb_ge.
  destruct (Z_lt_le_dec code 0) as [L|L].
  - rewrite unsigned_neg by lia. lia.
  - rewrite unsigned_nonneg by lia. lia.
Qed.

Lemma inv_exit s code cr w : inv s -> ps s = Running ->
  (-2147483648 <= code < 2147483648)%Z -> inv (step s (EExit code cr w)).
Proof.
  intros V P HC. simpl. rewrite P. destruct V as [B W C].
  destruct (current s) as [[k c]|] eqn:Cu; [|destruct C as [X _]; congruence].
  destruct C as [K [G [ND Bu]]].
  destruct c as [p|j]; [|destruct Bu as [X _]; congruence].
  simpl in Bu. destruct Bu as [J [Z [SN [NE Bu]]]].
  destruct (p_skip p) eqn:SK; [rewrite (SN eq_refl) in P; discriminate|].
  destruct (Bu eq_refl) as [_ Cl]. clear Bu SN.
  unfold send_output, run_of, max_of. cbn [current tell set_process]. rewrite Cu.
  set (s2 := tell (Exited k code cr w) (set_process NotRunning (perr s) s)).
  assert (B2 : base s2).
  { apply base_tell; [exact I|simpl; lia|]. apply base_process; [exact B|exact (b_perr s B)]. }
  set (s3 := if connected s2 then _ else s2).
  assert (S3 : base s3 /\ ps s3 = NotRunning /\ jrun s3 = false /\ zero s3 = false
     /\ jwatch s3 = jwatch s /\ reason s3 = reason s /\ perr s3 = perr s
     /\ (forall e, In e (log s2) -> In e (log s3))
     /\ (forall e, In e (log s3) -> (exists b, e = Reported k b) \/ In e (log s2))).
  { unfold s3. destruct (connected s2).
    - split; [apply base_tell; [exact I|simpl; lia|exact B2]|].
      repeat split; auto; [right; assumption|]. intros e [X|X]; [left; eauto|right; exact X].
    - split; [exact B2|]. repeat split; auto. }
  clearbody s3. destruct S3 as [B3 [P3 [J3 [Z3 [W3 [R3 [E3 [Sub Back]]]]]]]].
  assert (G3 : In (Begun k (Process p)) (log s3)) by (apply Sub; right; exact G).
  assert (Ex : In (Exited k code cr w) (log s3)) by (apply Sub; left; reflexivity).
  assert (Ex1 : forall a b d, In (Exited k a b d) (log s3) -> a = code /\ b = cr /\ d = w).
  { intros a b d X. destruct (Back _ X) as [[y Y]|Y]; [discriminate|].
    destruct Y as [Y|Y]; [inversion Y; auto|]. exfalso. exact (NE a b d Y). }
  assert (F : fine (Process p)) by exact (b_fine s B k _ G). simpl in F.
  apply inv_finished.
  - apply base_pwatch; [exact B3|discriminate].
  - split; [split; [exact P3|split; [exact J3|exact Z3]]|]. simpl. rewrite J3.
    intros i X. rewrite W3 in X. rewrite (W i X) in J. discriminate.
  - exists (Process p). exact G3.
  - intros o X. destruct (Back _ X) as [[y Y]|Y]; [discriminate|].
    destruct Y as [Y|Y]; [discriminate|]. exact (ND o Y).
  - simpl. intros CL. exists (Process p). split; [exact G3|].
    assert (CL0 : clean (log s) k).
    { revert CL. apply clean_mono. intros e X. apply Sub. right. exact X. }
    destruct (Cl CL0) as [PE LS]. rewrite P in PE. specialize (PE ltac:(discriminate)).
    rewrite R3. destruct (reason s) as [j|] eqn:R.
    + assert (L := b_reason s B j R). assert (Lj := b_bound s B _ L). simpl in Lj.
      assert (j = k).
      { destruct (Nat.lt_ge_cases j k) as [Q|Q]; [|lia].
        exfalso. destruct (CL0 j Q) as [X _]. exact (X L). }
      subst j. split; [exact SK|]. split; [reflexivity|]. apply Sub. right. exact L.
    + simpl. rewrite PE. destruct w; simpl.
      * destruct (unsigned32 code >? unsigned32 (p_max p))%Z eqn:Q.
        -- split; [exact SK|]. split; [eauto|]. intros a b d X. destruct (Ex1 a b d X) as [-> _].
           intro Y. apply (exit_spec code (p_max p) HC F) in Y. congruence.
        -- right. exists code, cr. split; [exact Ex|]. split; [apply exit_spec; auto|].
           intros X. destruct (Back _ X) as [[y Y]|Y]; [discriminate|].
           destruct Y as [Y|Y]; [discriminate|]. apply Sub. right. exact (LS eq_refl Y).
      * split; [exact SK|]. split; [eauto|]. intros a b d X. apply Ex1 in X. tauto.
Qed.

Lemma inv_step s e : inv s -> fits e -> inv (step s e).
Proof.
  intros V F. pose proof V as V0. destruct V as [B W C].
  destruct e as [l| | | |code cr w| | |thrown| |]; simpl.
  - (* ERun *)
    destruct (current s) as [kc|]; [exact V0|]. apply inv_next.
    + apply base_job; [exact B|lia|]. apply Forall_forall. intros [p|j] X; simpl; auto.
    + split; [exact C|exact W].
  - (* EReady *)
    destruct (ps s) eqn:P.
    + constructor; [apply base_socket; exact B|exact W|exact C].
    + destruct (current s) as [[k c]|] eqn:Cu; [|destruct C as [X _]; congruence].
      destruct C as [K [G [ND Bu]]].
      destruct c as [p|j]; [|destruct Bu as [X _]; congruence].
      unfold launch, run_of. cbn [current set_socket]. rewrite Cu.
      constructor.
      * apply base_tell; [exact I|simpl; lia|]. apply base_process; [apply base_socket; exact B|].
        exact (b_perr s B).
      * exact W.
      * simpl. rewrite Cu. split; [exact K|]. split; [right; exact G|].
        split; [intros o [X|X]; [discriminate|exact (ND o X)]|].
        apply (busy_tell (Launched k) (set_process Running (perr s) (set_socket true false s)) k (Process p));
          try discriminate.
        simpl in Bu. destruct Bu as [J [Z [SN [NE Bu]]]]. simpl.
        split; [exact J|]. split; [exact Z|]. split; [intro X; rewrite (SN X) in P; discriminate|].
        split; [exact NE|]. intros SK. destruct (Bu SK) as [_ Cl]. split; [discriminate|].
        intros CL. destruct (Cl CL) as [PE LS]. split; [|exact LS]. intros _. apply PE. congruence.
    + constructor; [apply base_socket; exact B|exact W|exact C].
  - (* ESocketError *)
    destruct (ps s) eqn:P; [constructor; [apply base_socket; exact B|exact W|exact C]| |].
    all: (destruct (current s) as [[k c]|] eqn:Cu; [|destruct C as [X _]; congruence];
      destruct C as [K [G [ND Bu]]];
      destruct c as [p|j]; [|destruct Bu as [X _]; congruence];
      simpl in Bu; destruct Bu as [J [Z [SN [NE Bu]]]];
      (destruct (p_skip p) eqn:SK; [rewrite (SN eq_refl) in P; discriminate|]);
      apply (inv_not_started _ k p); auto; apply base_socket; exact B).
  - (* EFailed *)
    destruct (ps s) eqn:P; [exact V0| |].
    all: (destruct (current s) as [[k c]|] eqn:Cu; [|destruct C as [X _]; congruence];
      destruct C as [K [G [ND Bu]]];
      destruct c as [p|j]; [|destruct Bu as [X _]; congruence];
      simpl in Bu; destruct Bu as [J [Z [SN [NE Bu]]]];
      (destruct (p_skip p) eqn:SK; [rewrite (SN eq_refl) in P; discriminate|]);
      apply (inv_not_started _ k p); auto).
  - (* EExit *)
    destruct (ps s) eqn:P; try exact V0.
    pose proof (inv_exit s code cr w V0 P F) as X. simpl in X. rewrite P in X. exact X.
  - (* ELate *)
    destruct (pwatch s) as [j|] eqn:PW; [|exact V0].
    destruct (b_pwatch s B j PW) as [q Gq]. assert (Lj := b_bound s B _ Gq). simpl in Lj.
    unfold p_cancel. set (s2 := set_reason (Some j) (tell (Late j) (set_pwatch None s))).
    assert (B2 : base s2).
    { apply base_reason.
      - apply base_tell; [exact I|simpl; lia|]. apply base_pwatch; [exact B|discriminate].
      - intros i E. inversion E. left. reflexivity. }
    destruct (current s) as [[k c]|] eqn:Cu.
    + destruct C as [K [G [ND Bu]]].
      assert (ND2 : forall o, ~ In (Done k o) (log s2)).
      { intros o [X|X]; [discriminate|exact (ND o X)]. }
      assert (Cl2 : clean (log s2) k -> clean (log s) k)
        by (apply clean_mono; intros x X; right; exact X).
      destruct c as [p|jc].
      * simpl in Bu. destruct Bu as [J [Z [SN [NE Bu]]]].
        assert (NE2 : forall a b d, ~ In (Exited k a b d) (log s2)).
        { intros a b d [X|X]; [discriminate|exact (NE a b d X)]. }
        assert (I2 : inv s2).
        { constructor; [exact B2|exact W|]. simpl. rewrite Cu. split; [exact K|].
          split; [right; exact G|]. split; [exact ND2|]. simpl. split; [exact J|]. split; [exact Z|].
          split; [exact SN|]. split; [exact NE2|]. intros SK. destruct (Bu SK) as [_ Cl]. split.
          - intros _. exists j. left. reflexivity.
          - intros CL. destruct (Cl (Cl2 CL)) as [PE _]. split; [exact PE|discriminate]. }
        change (ps s2) with (ps s). destruct (ps s) eqn:P; try exact I2.
        (destruct (p_skip p) eqn:SK; [specialize (SN eq_refl); discriminate|]).
        apply (inv_not_started s2 k p); auto. right. exact G.
      * assert (Pn : ps s = NotRunning) by apply Bu.
        change (ps s2) with (ps s). rewrite Pn.
        constructor; [exact B2|exact W|]. simpl. rewrite Cu. split; [exact K|].
        split; [right; exact G|]. split; [exact ND2|].
        apply (busy_tell (Late j) s k (Script jc)) in Bu; try discriminate; [exact Bu|].
        intros E. inversion E. subst j.
        pose proof (b_one s B k _ _ G Gq) as X. discriminate.
    + destruct C as [C1 [C2 C3]]. change (ps s2) with (ps s). rewrite C1.
      constructor; [exact B2|exact W|]. simpl. rewrite Cu. split; [exact C1|split; [exact C2|exact C3]].
  - (* EScriptLate *)
    destruct (jwatch s) as [j|] eqn:JW; [|exact V0].
    assert (JR := W j eq_refl). unfold j_cancel. cbn [jrun tell set_jwatch]. rewrite JR.
    destruct (current s) as [[k c]|] eqn:Cu; [|destruct C as [_ [X _]]; congruence].
    destruct C as [K [G [ND Bu]]].
    destruct c as [p|jc]; [destruct Bu as [X _]; congruence|].
    simpl in Bu. destruct Bu as [H1 [H2 [H3 [H4 H5]]]].
    assert (j = k) by (apply H4; exact JW). subst j.
    constructor.
    + apply base_script.
      * apply base_tell; [exact I|simpl; lia|]. apply base_jwatch. exact B.
      * intros _. exists k. left. left. reflexivity.
    + simpl. discriminate.
    + simpl. rewrite Cu. split; [exact K|]. split; [right; exact G|].
      split; [intros o [X|X]; [discriminate|exact (ND o X)]|].
      split; [exact H1|]. split; [exact H2|].
      split; [rewrite <- H3; symmetry; exact JR|]. split; [simpl; discriminate|].
      intros SK CL. simpl.
      assert (CL0 : clean (log s) k).
      { revert CL. apply clean_mono. intros x X. right. exact X. }
      destruct (H5 SK CL0) as [A1 [A2 _]]. split; [right; exact A1|].
      split; [intros [X|X]; [discriminate|contradiction]|]. split; [discriminate|].
      intros _. left. split; [reflexivity|left; reflexivity].
  - (* EScript *)
    destruct (jrun s) eqn:JR; [|exact V0].
    destruct (current s) as [[k c]|] eqn:Cu; [|destruct C as [_ [X _]]; congruence].
    destruct C as [K [G [ND Bu]]].
    destruct c as [p|jc]; [destruct Bu as [X _]; congruence|].
    simpl in Bu. destruct Bu as [H1 [H2 [H3 [H4 H5]]]].
    assert (SK : j_skip jc = false) by (destruct (j_skip jc); [simpl in H3; congruence|reflexivity]).
    unfold run_of. rewrite Cu. unfold j_finished.
    set (o := if thrown && negb (jcancelled s) then Failure ScriptError else jres s).
    set (s2 := if thrown then tell (Thrown k) s else s).
    assert (S2 : base s2 /\ ps s2 = NotRunning /\ zero s2 = false /\ jcancelled s2 = jcancelled s
       /\ (forall e, In e (log s) -> In e (log s2))
       /\ (forall e, In e (log s2) -> (e = Thrown k /\ thrown = true) \/ In e (log s))
       /\ (thrown = true -> In (Thrown k) (log s2))).
    { unfold s2. destruct thrown.
      - split; [apply base_tell; [exact I|simpl; lia|exact B]|].
        split; [exact H1|]. split; [rewrite <- SK; exact H2|]. split; [reflexivity|].
        split; [intros e X; right; exact X|]. split; [|intros _; left; reflexivity].
        intros e [X|X]; [left; auto|right; exact X].
      - split; [exact B|]. split; [exact H1|]. split; [rewrite <- SK; exact H2|]. split; [reflexivity|].
        split; [auto|]. split; [auto|discriminate]. }
    clearbody s2. destruct S2 as [B2 [P2 [Z2 [JC2 [Sub [Back Th]]]]]].
    apply inv_finished.
    + apply base_jwatch. apply base_script; [exact B2|]. exact (b_jc s2 B2).
    + split; [split; [exact P2|split; [reflexivity|exact Z2]]|]. simpl. discriminate.
    + exists (Script jc). apply Sub. exact G.
    + simpl. intros o' X. destruct (Back _ X) as [[Y _]|Y]; [discriminate|exact (ND o' Y)].
    + simpl. intros CL.
      assert (CL0 : clean (log s) k) by (revert CL; apply clean_mono; exact Sub).
      destruct (H5 SK CL0) as [A1 [A2 [A3 A4]]].
      exists (Script jc). split; [apply Sub; exact G|]. unfold o.
      destruct (jcancelled s) eqn:JC.
      * rewrite andb_false_r. destruct (A4 eq_refl) as [[-> L]|[-> St]].
        -- split; [exact SK|]. split; [reflexivity|apply Sub; exact L].
        -- right. split; [apply Sub; exact A1|]. intros _. apply Sub. exact St.
      * destruct (A3 eq_refl) as [-> NL]. destruct thrown; simpl.
        -- split; [exact SK|]. split; [apply Sub; exact A1|apply Th; reflexivity].
        -- right. split; [apply Sub; exact A1|]. intros [X|X]; destruct (Back _ X) as [[Y Y']|Y];
             try discriminate; contradiction.
  - (* EZero *)
    destruct (zero s) eqn:Zs; [|exact V0].
    destruct (current s) as [[k c]|] eqn:Cu; [|destruct C as [_ [_ X]]; congruence].
    destruct C as [K [G [ND Bu]]]. destruct c as [p|jc].
    + destruct Bu as [J [Z [SN [NE Bu]]]].
      change (inv (finished k Success (set_pwatch None (set_zero false s)))). apply inv_finished.
      * apply base_pwatch; [apply base_zero; exact B|discriminate].
      * split; [split; [apply SN; congruence|split; [exact J|reflexivity]]|exact W].
      * exists (Process p). exact G.
      * exact ND.
      * intros _. exists (Process p). split; [exact G|]. left. congruence.
    + destruct Bu as [H1 [H2 [H3 [H4 H5]]]]. 
      change (inv (finished k Success (set_jwatch None (set_zero false s)))). apply inv_finished.
      * apply base_jwatch. apply base_zero. exact B.
      * split; [split; [exact H1|split; [|reflexivity]]|simpl; discriminate].
        simpl. rewrite H3, <- H2, Zs. reflexivity.
      * exists (Script jc). exact G.
      * exact ND.
      * intros _. exists (Script jc). split; [exact G|]. left. congruence.
  - (* ECancel *)
    destruct (current s) as [[k c]|] eqn:Cu; [|exact V0].
    destruct C as [K [G [ND Bu]]].
    set (s1 := tell (Stopped k) (set_job (todo s) (Some (k, c)) true (count s) s)).
    assert (B1 : base s1).
    { apply base_tell; [exact I|simpl; lia|]. apply base_job; [exact B|lia|exact (b_todo s B)]. }
    assert (ND1 : forall o, ~ In (Done k o) (log s1)).
    { intros o [X|X]; [discriminate|exact (ND o X)]. }
    assert (Bu1 : busy s1 k c).
    { apply (busy_tell (Stopped k) (set_job (todo s) (Some (k, c)) true (count s) s) k c);
        try discriminate. exact Bu. }
    destruct c as [p|jc].
    + unfold p_cancel. set (s2 := set_reason None s1).
      assert (B2 : base s2) by (apply base_reason; [exact B1|discriminate]).
      simpl in Bu1. destruct Bu1 as [J [Z [SN [NE Bu1]]]].
      assert (I2 : inv s2).
      { constructor; [exact B2|exact W|]. split; [exact K|]. split; [right; exact G|].
        split; [exact ND1|]. simpl. split; [exact J|]. split; [exact Z|]. split; [exact SN|].
        split; [exact NE|]. intros SK. destruct (Bu1 SK) as [H6 H7]. split; [exact H6|].
        intros CL. destruct (H7 CL) as [PE _]. split; [exact PE|].
        intros _ _. left. reflexivity. }
      change (ps s2) with (ps s). change (ps s1) with (ps s) in SN.
      destruct (ps s) eqn:P; try exact I2.
      (destruct (p_skip p) eqn:SK; [specialize (SN eq_refl); congruence|]).
      apply (inv_not_started s2 k p); auto. right. exact G.
    + simpl in Bu1. destruct Bu1 as [H1 [H2 [H3 [H4 H5]]]].
      destruct (j_skip jc) eqn:SK.
      * constructor; [exact B1|exact W|]. split; [exact K|]. split; [right; exact G|].
        split; [exact ND1|]. split; [exact H1|]. split; [rewrite SK; exact H2|].
        split; [rewrite SK; exact H3|]. split; [exact H4|]. intro X. congruence.
      * unfold j_cancel. change (jrun s1) with (jrun s) in *. rewrite H3. cbn [negb].
        constructor.
        -- apply base_script; [exact B1|]. intros _. exists k. right. left. reflexivity.
        -- simpl. reflexivity.
        -- split; [exact K|]. split; [right; exact G|]. split; [exact ND1|].
           split; [exact H1|]. split; [rewrite SK; exact H2|]. split; [rewrite SK; reflexivity|].
           split; [exact H4|]. intros _ CL. destruct (H5 eq_refl CL) as [A1 [A2 _]].
           split; [exact A1|]. split; [exact A2|]. split; [discriminate|].
           intros _. right. split; [reflexivity|left; reflexivity].
Qed.

Lemma inv_init : inv init.
Proof.
  constructor.
  - constructor; simpl; try discriminate; try (intros; contradiction); try constructor.
  - discriminate.
  - simpl. repeat split; reflexivity.
Qed.

Lemma reachable_inv s : reachable s -> inv s.
Proof. induction 1; [apply inv_init|apply inv_step; assumption]. Qed.

Lemma judged_at l2 k o l1 : judged (l2 ++ Done k o :: l1) -> clean l1 k -> deserved l1 k o.
Proof.
  induction l2 as [|e l2 IH]; simpl.
  - intros [H _]. exact H.
  - destruct e; try exact IH. intros [_ H]. exact (IH H).
Qed.

(** ** C90: what is reported about a command is about this command *)

(** Full statement: without [clean]. It does not hold, see below: what happened
    to an earlier command of the job is held against later ones. *)
Theorem command_verdict_partial s l2 k o l1 : reachable s ->
  log s = l2 ++ Done k o :: l1 -> clean l1 k -> deserved l1 k o.
Proof.
  intros R E. pose proof (b_judged s (i_base s (reachable_inv s R))) as J.
  rewrite E in J. exact (judged_at _ _ _ _ J).
Qed.

(** In short: a process command that has run, of a job that is not cancelled,
    and that did not take too long, is successful exactly if the process has
    written its output and exited with a code in the range. *)
Corollary process_success_partial s l2 k o l1 p code cr w : reachable s ->
  log s = l2 ++ Done k o :: l1 -> clean l1 k ->
  In (Begun k (Process p)) l1 -> p_skip p = false ->
  In (Exited k code cr w) l1 -> (forall code' cr' w', In (Exited k code' cr' w') l1 -> code' = code /\ w' = w) ->
  ~ In (Late k) l1 -> p_dir p = true -> p_response p = true ->
  (o = Success <-> w = true /\ (0 <= code <= p_max p)%Z).
Proof.
  intros R E C G SK X U NL PD PR.
  destruct (command_verdict_partial s l2 k o l1 R E C) as [c [G' V]].
  assert (c = Process p).
  { apply (b_one s (i_base s (reachable_inv s R)) k); rewrite E; apply in_or_app; right; right; assumption. }
  subst c. destruct o as [|y]; split.
  - intros _. destruct V as [V|[code' [cr' [X' [V _]]]]]; [congruence|].
    destruct (U _ _ _ X') as [-> <-]. auto.
  - reflexivity.
  - discriminate.
  - intros [-> V0]. destruct V as [_ V]. destruct y; try contradiction; try congruence.
    + destruct V as [_ V]. exfalso. exact (V _ _ _ X).
    + destruct V as [_ V]. specialize (V _ _ _ X). discriminate.
    + destruct V as [_ V]. exfalso. exact (V _ _ _ X V0).
    + destruct V as [-> V]. contradiction.
Qed.

(** ** C91: a command is reported once *)

Theorem command_once s : reachable s ->
  forall l2 k o l1, log s = l2 ++ Done k o :: l1 ->
    (forall o', ~ In (Done k o') l1 /\ ~ In (Done k o') l2)
    /\ exists c, In (Begun k c) (log s).
Proof.
  intros R l2 k o l1 E. pose proof (i_base s (reachable_inv s R)) as B. split.
  - pose proof (b_dones s B) as ND. rewrite E in ND. unfold done_runs in ND.
    rewrite flat_map_app in ND. simpl in ND. apply NoDup_remove_2 in ND.
    intros o'. split; intro X; apply ND; apply in_or_app; [right|left];
      apply done_runs_In; eauto.
  - apply (b_begun s B k o). rewrite E. apply in_or_app. right. left. reflexivity.
Qed.

Lemma done_finished k o s : In (Done k o) (log (finished k o s)).
Proof.
  unfold finished, failed, job_finished. destruct o as [|w].
  - destruct (joberr s); [right; left; reflexivity|].
    unfold next. simpl. destruct (todo s) as [|[p|j] r]; [right; left; reflexivity| |].
    + unfold start_process.
      repeat match goal with |- context [if ?b then _ else _] => destruct b end;
        simpl; try (destruct (reason s); simpl); auto 10.
    + unfold start_script. cbn [jcancelled tell set_job].
      destruct (j_skip j), (jcancelled s), (j_timeout j); simpl; auto.
  - simpl. auto.
Qed.

(** Full statement: without the condition about [Late]. It does not hold: a
    process command that takes too long before the launcher can be reached, or
    that cannot be started after an earlier one took too long, never ends. *)
Theorem command_ends_partial s k c : reachable s -> current s = Some (k, c) ->
  (forall j, ~ In (Late j) (log s)) ->
  match c with
  | Process p =>
      if p_skip p then In (Done k Success) (log (step s EZero))
      else (exists o, In (Done k o) (log (step s EFailed)))
        /\ (exists o, In (Done k o) (log (step s ESocketError)))
        /\ forall code cr w, exists o, In (Done k o) (log (steps [EReady; EExit code cr w] s))
  | Script j =>
      if j_skip j then In (Done k Success) (log (step s EZero))
      else forall thrown, exists o, In (Done k o) (log (step s (EScript thrown)))
  end.
Proof.
  intros R Cu NL. destruct (reachable_inv s R) as [B W C]. rewrite Cu in C.
  destruct C as [K [G [ND Bu]]].
  assert (Rn : reason s = None).
  { destruct (reason s) as [j|] eqn:E; [|reflexivity]. exfalso. exact (NL j (b_reason s B j E)). }
  destruct c as [p|j]; cbn [busy] in Bu.
  - destruct Bu as [J [Z [SN [NE Bu]]]]. destruct (p_skip p) eqn:SK.
    + unfold step. rewrite Z, Cu. apply done_finished.
    + destruct (Bu eq_refl) as [P _].
      assert (Pn : ps s <> NotRunning).
      { intro X. destruct (P X) as [i Hi]. exact (NL i Hi). }
      assert (Nst : forall s', current s' = current s -> reason s' = None ->
                exists o, In (Done k o) (log (not_started s'))).
      { intros s' C' R'. exists (Failure NotStarted). unfold not_started, on_error, run_of. simpl.
        rewrite R'. rewrite C', Cu. apply (done_finished k (Failure NotStarted)). }
      split; [|split].
      * unfold step. destruct (ps s); [contradiction| |]; apply Nst; auto.
      * unfold step. cbn [set_socket ps]. destruct (ps s); [contradiction| |]; apply Nst; auto.
      * intros code cr w. unfold steps. cbn [fold_left].
        assert (E : exists s', step s EReady = s' /\ ps s' = Running /\ current s' = current s).
        { unfold step. cbn [set_socket ps]. destruct (ps s) eqn:Q; [contradiction| |].
          - eexists. split; [reflexivity|]. split; reflexivity.
          - eexists. split; [reflexivity|]. split; [exact Q|reflexivity]. }
        destruct E as [s' [-> [P' C']]]. unfold step. rewrite P'. unfold send_output, p_finished.
        set (o := match reason _ with Some _ => _ | None => _ end). exists o.
        assert (KK : run_of (tell (Exited (run_of s') code cr w) (set_process NotRunning (perr s') s')) = k).
        { unfold run_of. simpl. rewrite C', Cu. reflexivity. }
        rewrite KK. apply done_finished.
  - destruct Bu as [P [Z [J [JW Bu]]]]. destruct (j_skip j) eqn:SK.
    + unfold step. rewrite Z, Cu. apply done_finished.
    + intros thrown. unfold step. rewrite J. cbn [negb]. unfold j_finished.
      assert (KK : run_of s = k) by (unfold run_of; rewrite Cu; reflexivity). rewrite KK.
      eexists. apply done_finished.
Qed.

(** The result of each process is reported, as a success exactly if the command
    is one, as long as no time was over and nothing was cancelled. *)
Definition quiet (l : list note) : Prop := forall j, ~ In (Late j) l /\ ~ In (Stopped j) l.

Definition is_exit (e : note) : bool := match e with Exited _ _ _ _ => true | _ => false end.

Record grows (s s' : state) : Prop := {
  g_log : forall e, In e (log s) -> In e (log s');
  g_back : forall e, In e (log s') -> is_exit e = true -> In e (log s);
  g_conn : connected s' = connected s;
  g_reason : reason s' = reason s }.

Lemma grows_trans a b c : grows a b -> grows b c -> grows a c.
Proof. intros [] []. constructor; auto; congruence. Qed.

Lemma grows_same s s' : log s' = log s -> connected s' = connected s -> reason s' = reason s ->
  grows s s'.
Proof. intros E C R. constructor; auto; rewrite E; auto. Qed.

Lemma grows_tell e s : is_exit e = false -> grows s (tell e s).
Proof.
  intro H. constructor; auto; simpl; auto. intros x [->|X] Q; [congruence|exact X].
Qed.

Lemma grows_job_finished o s : grows s (job_finished o s).
Proof.
  unfold job_finished.
  eapply grows_trans; [|apply grows_tell; reflexivity]. apply grows_same; reflexivity.
Qed.

Lemma grows_failed k w s : grows s (failed k w s).
Proof.
  unfold failed. eapply grows_trans; [|apply grows_job_finished]. apply grows_tell. reflexivity.
Qed.

Lemma grows_next s : grows s (next s).
Proof.
  unfold next. destruct (todo s) as [|c r]; [apply grows_job_finished|].
  eapply grows_trans;
    [apply (grows_same s (set_job r (Some (S (count s), c)) (joberr s) (S (count s)) s)); reflexivity|].
  eapply grows_trans; [apply (grows_tell (Begun (S (count s)) c)); reflexivity|].
  set (s1 := tell _ _). clearbody s1. set (k := S (count s)). clearbody k. destruct c as [p|j].
  - unfold start_process. destruct (p_skip p); [apply grows_same; reflexivity|].
    destruct (negb (p_dir p)).
    { eapply grows_trans; [|apply grows_failed]. apply grows_same; reflexivity. }
    destruct (negb (p_response p)).
    { eapply grows_trans; [|apply grows_failed]. apply grows_same; reflexivity. }
    set (s2 := if sockerr s1 then _ else _).
    assert (Hs : grows s1 s2).
    { unfold s2. destruct (sockerr s1).
      - eapply grows_trans with (b := set_process (ps s1) true s1); [apply grows_same; reflexivity|].
        eapply grows_trans; [apply (grows_tell (Unstarted k)); reflexivity|].
        destruct (reason _); [apply grows_same; reflexivity|].
        eapply grows_trans; [|apply grows_failed]. apply grows_same; reflexivity.
      - destruct (ready s1); [|apply grows_same; reflexivity].
        eapply grows_trans; [|apply grows_tell; reflexivity]. apply grows_same; reflexivity. }
    clearbody s2. destruct (p_timeout p); [|exact Hs].
    eapply grows_trans; [exact Hs|]. apply grows_same; reflexivity.
  - unfold start_script. destruct (j_skip j); [apply grows_same; reflexivity|].
    set (s2 := if jcancelled s1 then _ else _).
    assert (Hs : grows s1 s2).
    { unfold s2. destruct (jcancelled s1); [apply grows_same; reflexivity|].
      eapply grows_trans; [|apply grows_tell; reflexivity]. apply grows_same; reflexivity. }
    clearbody s2. destruct (j_timeout j); [|exact Hs].
    eapply grows_trans; [exact Hs|]. apply grows_same; reflexivity.
Qed.

Lemma grows_finished k o s : grows s (finished k o s).
Proof.
  unfold finished. destruct o as [|w]; [|apply grows_failed]. destruct (joberr s).
  - eapply grows_trans; [|apply grows_job_finished]. apply grows_tell. reflexivity.
  - eapply grows_trans; [|apply grows_next]. apply grows_tell. reflexivity.
Qed.

Lemma grows_p_finished k o s : grows s (p_finished k o s).
Proof. eapply grows_trans; [|apply grows_finished]. apply grows_same; reflexivity. Qed.

Lemma grows_j_finished k o s : grows s (j_finished k o s).
Proof. eapply grows_trans; [|apply grows_finished]. apply grows_same; reflexivity. Qed.

Lemma grows_not_started s : grows s (not_started s).
Proof.
  unfold not_started, on_error.
  eapply grows_trans with (b := set_process NotRunning true s); [apply grows_same; reflexivity|].
  eapply grows_trans; [apply (grows_tell (Unstarted (run_of s))); reflexivity|].
  destruct (reason _); [apply grows_same; reflexivity|apply grows_p_finished].
Qed.

Definition told (s : state) : Prop :=
  quiet (log s) ->
  connected s = true /\ reason s = None /\
  forall k code cr w, In (Exited k code cr w) (log s) ->
    exists b o, In (Reported k b) (log s) /\ In (Done k o) (log s) /\ (b = true <-> o = Success).

Lemma told_grows s s' : grows s s' -> told s -> told s'.
Proof.
  intros [G Bk C R] T Q.
  assert (Q0 : quiet (log s)).
  { intro j. destruct (Q j) as [X Y]. split; intro H; [apply X|apply Y]; apply G; exact H. }
  destruct (T Q0) as [A [B D]]. split; [congruence|]. split; [congruence|].
  intros k code cr w H. destruct (D k code cr w (Bk _ H eq_refl)) as [b [o [X [Y Z]]]].
  exists b, o. auto.
Qed.

Lemma not_quiet_late s s' j : (forall e, In e (log s) -> In e (log s')) -> In (Late j) (log s) -> told s'.
Proof. intros G H Q. exfalso. destruct (Q j) as [X _]. apply X. auto. Qed.

Lemma not_quiet_stopped s s' j : (forall e, In e (log s) -> In e (log s')) -> In (Stopped j) (log s) -> told s'.
Proof. intros G H Q. exfalso. destruct (Q j) as [_ X]. apply X. auto. Qed.

Lemma told_step s e : told s -> told (step s e).
Proof.
  intro T. destruct e as [l| | | |code cr w| | |thrown| |]; unfold step.
  - destruct (current s); [exact T|]. eapply told_grows; [|exact T].
    eapply grows_trans; [|apply grows_next]. apply grows_same; reflexivity.
  - assert (H : grows s (set_socket true false s)) by (apply grows_same; reflexivity).
    apply (told_grows s); [|exact T]. destruct (ps _); try exact H.
    eapply grows_trans; [exact H|]. unfold launch.
    eapply grows_trans; [|apply grows_tell; reflexivity]. apply grows_same; reflexivity.
  - assert (H : grows s (set_socket false true s)) by (apply grows_same; reflexivity).
    apply (told_grows s); [|exact T].
    destruct (ps _); try exact H; (eapply grows_trans; [exact H|apply grows_not_started]).
  - destruct (ps s); try exact T; (eapply told_grows; [apply grows_not_started|exact T]).
  - destruct (ps s); try exact T. unfold send_output.
    set (s1 := tell _ _).
    intros Q.
    match type of Q with quiet (log ?x) => set (s3 := x) in * end.
    assert (E1 : log s1 = Exited (run_of s) code cr w :: log s) by reflexivity.
    assert (C1 : connected s1 = connected s) by reflexivity.
    assert (R1 : reason s1 = reason s) by reflexivity.
    set (error := perr s1 || negb w) in s3.
    set (bad := (unsigned32 code >? unsigned32 (max_of s1))%Z) in s3.
    set (s2 := if connected s1 then _ else s1) in s3.
    assert (G12 : forall e, In e (log s1) -> In e (log s2)).
    { unfold s2. destruct (connected s1); [intros e X; right; exact X|auto]. }
    assert (C2 : connected s2 = connected s) by (unfold s2; destruct (connected s1); reflexivity).
    assert (R2 : reason s2 = reason s) by (unfold s2; destruct (connected s1); reflexivity).
    set (o := match reason s2 with Some _ => _ | None => _ end) in s3.
    assert (D3 : In (Done (run_of s1) o) (log s3)) by apply done_finished.
    destruct (grows_p_finished (run_of s1) o s2) as [G23 B23 C23 R23].
    fold s3 in G23, B23, C23, R23. clearbody s3.
    assert (Q0 : quiet (log s)).
    { intro j. destruct (Q j) as [X Y].
      split; intro H; [apply X|apply Y]; apply G23, G12; rewrite E1; right; exact H. }
    destruct (T Q0) as [A [B D]]. rewrite A in C1, C2. rewrite B in R1, R2.
    split; [congruence|]. split; [congruence|].
    assert (Rep : In (Reported (run_of s1) (negb error && negb bad)) (log s3)).
    { apply G23. unfold s2. rewrite C1, R1. simpl. left. rewrite andb_true_r. reflexivity. }
    intros k code' cr' w' H.
    assert (H1 : In (Exited k code' cr' w') (log s1)).
    { pose proof (B23 _ H eq_refl) as H2. unfold s2 in H2. destruct (connected s1); [|exact H2].
      destruct H2 as [H2|H2]; [discriminate|exact H2]. }
    rewrite E1 in H1. destruct H1 as [H1|H1].
    + injection H1 as <- <- <- <-. exists (negb error && negb bad), o.
      split; [exact Rep|]. split; [exact D3|]. unfold o. rewrite R2.
      destruct error, bad; simpl; split; congruence.
    + destruct (D k code' cr' w' H1) as [b [o' [X [Y Z]]]]. exists b, o'.
      split; [|split; [|exact Z]]; apply G23, G12; rewrite E1; right; assumption.
  - destruct (pwatch s) as [j|]; [|exact T]. unfold p_cancel.
    set (s1 := tell (Late j) (set_pwatch None s)).
    pose proof (g_log _ _ (grows_not_started (set_reason (Some j) s1))) as GN.
    destruct (ps _); (apply (not_quiet_late s1 _ j); [auto|left; reflexivity]).
  - destruct (jwatch s) as [j|]; [|exact T]. unfold j_cancel.
    set (s1 := tell (Late j) (set_jwatch None s)).
    destruct (jrun _); (apply (not_quiet_late s1 _ j); [auto|left; reflexivity]).
  - destruct (jrun s); [|exact T]. eapply told_grows; [|exact T].
    eapply grows_trans; [|apply grows_j_finished].
    destruct thrown.
    + eapply grows_trans; [apply (grows_tell (Thrown (run_of s))); reflexivity|].
      apply grows_same; reflexivity.
    + apply grows_same; reflexivity.
  - destruct (zero s); [|exact T]. destruct (current s) as [[k [p|j]]|].
    + eapply told_grows; [|exact T].
      eapply grows_trans; [|apply grows_p_finished]. apply grows_same; reflexivity.
    + eapply told_grows; [|exact T].
      eapply grows_trans; [|apply grows_j_finished]. apply grows_same; reflexivity.
    + eapply told_grows; [|exact T]. apply grows_same; reflexivity.
  - destruct (current s) as [[k c]|] eqn:Cu; [|exact T].
    set (s1 := tell (Stopped k) _).
    assert (H1 : In (Stopped k) (log s1)) by (left; reflexivity).
    destruct c as [p|j].
    + unfold p_cancel.
      pose proof (g_log _ _ (grows_not_started (set_reason None s1))) as GN.
      destruct (ps _); (apply (not_quiet_stopped s1 _ k); [auto|exact H1]).
    + destruct (j_skip j); [apply (not_quiet_stopped s1 _ k); [auto|exact H1]|].
      unfold j_cancel. destruct (jrun s1); (apply (not_quiet_stopped s1 _ k); [auto|exact H1]).
Qed.

Theorem results_reported_partial s : reachable s -> quiet (log s) ->
  forall k code cr w, In (Exited k code cr w) (log s) ->
    exists b o, In (Reported k b) (log s) /\ In (Done k o) (log s) /\ (b = true <-> o = Success).
Proof.
  intros R Q. assert (T : told s).
  { clear Q. induction R; [|apply told_step; assumption].
    intros _. split; [reflexivity|]. split; [reflexivity|]. intros k code cr w []. }
  apply T. exact Q.
Qed.

(** ** C92: the commands of a list run one after the other *)

Inductive stage := Over | Doing (k : nat) (c : command) (rest : list command) (stopped : bool).

(** What one sees of a list of commands, the numbers starting behind n: each
    one begins after the one before it has succeeded; the list ends with the
    first failure, or with the command that is current when the job is
    cancelled; it succeeds only with the success of all. *)
Inductive course : nat -> list command -> list note -> stage -> Prop :=
| course_all n : course n [] [JobDone Success] Over
| course_doing n c l m :
    course n (c :: l) (Begun (S n) c :: repeat (Stopped (S n)) m)
           (Doing (S n) c l (negb (m =? 0)))
| course_failed n c l w :
    course n (c :: l) [Begun (S n) c; Done (S n) (Failure w); JobDone (Failure w)] Over
| course_stopped n c l m o : m <> 0 ->
    course n (c :: l) (Begun (S n) c :: repeat (Stopped (S n)) m
                        ++ [Done (S n) o; JobDone (Failure Cancelled)]) Over
| course_done n c l seq st : course (S n) l seq st ->
    course n (c :: l) (Begun (S n) c :: Done (S n) Success :: seq) st.

Definition milestones (l : list note) : list note :=
  filter (fun e => match e with
                   | Begun _ _ | Stopped _ | Done _ _ | JobDone _ => true | _ => false end) l.

Definition stage_of (s : state) : stage :=
  match current s with None => Over | Some (k, c) => Doing k c (todo s) (joberr s) end.

Lemma repeat_snoc {X} (x : X) m : repeat x m ++ [x] = repeat x (S m).
Proof. induction m; simpl; [reflexivity|]. rewrite IHm. reflexivity. Qed.

Lemma course_stop n l seq k c rest b : course n l seq (Doing k c rest b) ->
  course n l (seq ++ [Stopped k]) (Doing k c rest true).
Proof.
  intro H. remember (Doing k c rest b) as st eqn:E. induction H; try discriminate.
  - injection E as <- <- <- <-. simpl. rewrite repeat_snoc. exact (course_doing n c0 l (S m)).
  - simpl. apply course_done. apply IHcourse. exact E.
Qed.

Lemma course_end n l seq k c rest b o : course n l seq (Doing k c rest b) ->
  course n l (seq ++ [Done k o; JobDone (Failure (if b then Cancelled
                      else match o with Failure w => w | Success => Cancelled end))]) Over
  \/ (b = false /\ o = Success).
Proof.
  intro H. remember (Doing k c rest b) as st eqn:E. induction H; try discriminate.
  - injection E as <- <- <- <-. destruct m as [|m]; simpl.
    + destruct o as [|w]; [right; auto|]. left. apply course_failed.
    + left. apply (course_stopped n c0 l (S m) o). discriminate.
  - destruct (IHcourse E) as [X|X]; [left|right; exact X]. simpl. apply course_done. exact X.
Qed.

Lemma course_next n l seq k c rest seq' st : course n l seq (Doing k c rest false) ->
  course k rest seq' st -> course n l (seq ++ Done k Success :: seq') st.
Proof.
  intros H H'. remember (Doing k c rest false) as st0 eqn:E. induction H; try discriminate.
  - injection E as <- <- <- EM. destruct m as [|m]; [|discriminate]. simpl.
    apply course_done. exact H'.
  - simpl. apply course_done. apply IHcourse. exact E.
Qed.

Lemma next_course s : joberr s = false ->
  exists seq, milestones (log (next s)) = rev seq ++ milestones (log s)
              /\ course (count s) (todo s) seq (stage_of (next s)).
Proof.
  intro JE. unfold next. destruct (todo s) as [|c r] eqn:TD.
  - exists [JobDone Success]. split; [reflexivity|]. apply course_all.
  - assert (Fl : forall w, course (count s) (c :: r)
       [Begun (S (count s)) c; Done (S (count s)) (Failure w); JobDone (Failure w)] Over)
      by (intro; apply course_failed).
    assert (Do : course (count s) (c :: r) [Begun (S (count s)) c] (Doing (S (count s)) c r (joberr s))).
    { rewrite JE. exact (course_doing (count s) c r 0). }
    destruct c as [p|j].
    + unfold start_process, failed, job_finished, launch.
      cbn [sockerr ready reason joberr tell set_job set_process set_pwatch].
      rewrite JE. rewrite JE in Do.
      destruct (p_skip p); [exists [Begun (S (count s)) (Process p)]; split; [reflexivity|exact Do]|].
      destruct (p_dir p); simpl negb; cbv iota;
        [|exists [Begun (S (count s)) (Process p); Done (S (count s)) (Failure BadDirectory);
                  JobDone (Failure BadDirectory)]; split; [reflexivity|apply Fl]].
      destruct (p_response p); simpl negb; cbv iota;
        [|exists [Begun (S (count s)) (Process p); Done (S (count s)) (Failure NoResponseFile);
                  JobDone (Failure NoResponseFile)]; split; [reflexivity|apply Fl]].
      destruct (sockerr s).
      * destruct (reason s).
        -- exists [Begun (S (count s)) (Process p)]. destruct (p_timeout p); (split; [reflexivity|exact Do]).
        -- exists [Begun (S (count s)) (Process p); Done (S (count s)) (Failure NotStarted);
                  JobDone (Failure NotStarted)]. destruct (p_timeout p); (split; [reflexivity|apply Fl]).
      * exists [Begun (S (count s)) (Process p)].
        destruct (ready s), (p_timeout p); (split; [reflexivity|exact Do]).
    + exists [Begun (S (count s)) (Script j)]. unfold start_script.
      cbn [jcancelled tell set_job].
      destruct (j_skip j), (jcancelled s), (j_timeout j); (split; [reflexivity|exact Do]).
Qed.

Definition follows (n : nat) (l : list command) (base : list note) (s : state) : Prop :=
  exists seq, milestones (log s) = rev seq ++ base /\ course n l seq (stage_of s).

Lemma follows_same n l b s s' : milestones (log s') = milestones (log s) ->
  stage_of s' = stage_of s -> follows n l b s -> follows n l b s'.
Proof. intros E F [seq [A B]]. exists seq. rewrite E, F. auto. Qed.

Lemma follows_finished n l b s k c o : current s = Some (k, c) -> k = count s ->
  follows n l b s -> follows n l b (finished k o s).
Proof.
  intros Cu K [seq [A B]]. unfold stage_of in B. rewrite Cu in B.
  assert (End : forall s', milestones (log s') = JobDone (Failure (if joberr s then Cancelled
                      else match o with Failure w => w | Success => Cancelled end))
                      :: Done k o :: milestones (log s) -> current s' = None ->
                ~ (joberr s = false /\ o = Success) -> follows n l b s').
  { intros s' E C' N. destruct (course_end _ _ _ _ _ _ _ o B) as [X|X]; [|contradiction].
    eexists. split; [|unfold stage_of; rewrite C'; exact X].
    rewrite rev_app_distr. simpl. rewrite E, A. reflexivity. }
  unfold finished. destruct o as [|w].
  - destruct (joberr s) eqn:JE.
    + apply End; [reflexivity|reflexivity|]. intros [X _]. discriminate.
    + destruct (next_course (tell (Done k Success) s) JE) as [seq' [A' B']].
      exists (seq ++ Done k Success :: seq'). split.
      * rewrite A'. simpl. rewrite A, rev_app_distr. simpl. rewrite <- !app_assoc. reflexivity.
      * apply (course_next n l seq k c (todo s) seq'); [exact B|]. simpl in B'. rewrite <- K in B'. exact B'.
  - apply End; [reflexivity|reflexivity|]. intros [_ X]. discriminate.
Qed.

Lemma follows_not_started n l b s k c : current s = Some (k, c) -> k = count s ->
  follows n l b s -> follows n l b (not_started s).
Proof.
  intros Cu K H. unfold not_started, on_error. set (s2 := tell _ _).
  assert (H2 : follows n l b s2) by (revert H; apply follows_same; reflexivity).
  destruct (reason s2); [exact H2|]. unfold p_finished.
  assert (KK : run_of s2 = k) by (unfold run_of, s2; simpl; rewrite Cu; reflexivity). rewrite KK.
  apply (follows_finished n l b (set_pwatch None s2) k c); [exact Cu|exact K|].
  revert H2. apply follows_same; reflexivity.
Qed.

Lemma follows_step n l b s e : inv s -> (forall l', e <> ERun l') ->
  follows n l b s -> follows n l b (step s e).
Proof.
  intros V NR H. destruct V as [B W C].
  assert (NC : current s = None -> step s e = s \/
            (milestones (log (step s e)) = milestones (log s) /\ stage_of (step s e) = stage_of s)).
  { intro Cu. rewrite Cu in C. destruct C as [P [J Z]].
    destruct e as [l'| | | |code cr w| | |thrown| |]; unfold step.
    - exfalso. exact (NR l' eq_refl).
    - right. cbn [set_socket ps]. rewrite P. split; reflexivity.
    - right. cbn [set_socket ps]. rewrite P. split; reflexivity.
    - left. rewrite P. reflexivity.
    - left. rewrite P. reflexivity.
    - destruct (pwatch s); [|left; reflexivity]. right. unfold p_cancel. simpl. rewrite P. split; reflexivity.
    - destruct (jwatch s); [|left; reflexivity]. right. unfold j_cancel. simpl. rewrite J. split; reflexivity.
    - left. rewrite J. reflexivity.
    - left. rewrite Z. reflexivity.
    - left. rewrite Cu. reflexivity. }
  destruct (current s) as [[k c]|] eqn:Cu.
  2:{ destruct (NC eq_refl) as [->|[X Y]]; [exact H|]. revert H. apply follows_same; assumption. }
  clear NC. destruct C as [K _].
  assert (Same : forall s', milestones (log s') = milestones (log s) -> stage_of s' = stage_of s ->
                 follows n l b s') by (intros s' X Y; revert H; apply follows_same; assumption).
  assert (Nst : forall s', current s' = current s -> count s' = count s -> follows n l b s' ->
                 follows n l b (not_started s')).
  { intros s' X Y F. apply (follows_not_started n l b s' k c); [congruence|congruence|exact F]. }
  assert (Fin : forall s' o, current s' = current s -> count s' = count s -> follows n l b s' ->
                 follows n l b (finished k o s')).
  { intros s' o X Y F. apply (follows_finished n l b s' k c o); [congruence|congruence|exact F]. }
  assert (RO : run_of s = k) by (unfold run_of; rewrite Cu; reflexivity).
  destruct e as [l'| | | |code cr w| | |thrown| |]; unfold step.
  - exfalso. exact (NR l' eq_refl).
  - destruct (ps _); apply Same; reflexivity.
  - destruct (ps _); [apply Same; reflexivity| |]; (apply Nst; [reflexivity|reflexivity|apply Same; reflexivity]).
  - destruct (ps s); [exact H| |]; (apply Nst; [reflexivity|reflexivity|exact H]).
  - destruct (ps s); try exact H. unfold send_output, p_finished.
    set (s1 := tell _ _).
    assert (R1 : run_of s1 = k) by (unfold run_of, s1; simpl; rewrite Cu; reflexivity). rewrite R1.
    apply Fin; [destruct (connected s1); reflexivity|destruct (connected s1); reflexivity|].
    apply Same; destruct (connected s1); reflexivity.
  - destruct (pwatch s) as [j|]; [|exact H]. unfold p_cancel.
    destruct (ps _); [apply Same; reflexivity| |apply Same; reflexivity].
    apply Nst; [reflexivity|reflexivity|apply Same; reflexivity].
  - destruct (jwatch s) as [j|]; [|exact H]. unfold j_cancel.
    destruct (jrun _); apply Same; reflexivity.
  - destruct (jrun s); [|exact H]. rewrite RO. unfold j_finished.
    apply Fin; [destruct thrown; reflexivity|destruct thrown; reflexivity|].
    apply Same; destruct thrown; reflexivity.
  - destruct (zero s); [|exact H]. rewrite Cu. unfold p_finished, j_finished.
    destruct c; (apply Fin; [reflexivity|reflexivity|apply Same; reflexivity]).
  - rewrite Cu. set (s1 := tell (Stopped k) _).
    assert (H1 : follows n l b s1).
    { destruct H as [seq [X Y]]. unfold stage_of in Y. rewrite Cu in Y.
      exists (seq ++ [Stopped k]). split.
      - rewrite rev_app_distr. simpl. rewrite X. reflexivity.
      - exact (course_stop _ _ _ _ _ _ _ Y). }
    assert (C1 : current s1 = current s) by (rewrite Cu; reflexivity).
    destruct c as [p|j].
    + unfold p_cancel.
      destruct (ps _); try (revert H1; apply follows_same; reflexivity).
      apply Nst; [exact C1|reflexivity|]. revert H1; apply follows_same; reflexivity.
    + destruct (j_skip j); [exact H1|]. unfold j_cancel.
      destruct (jrun s1); [|exact H1]. revert H1; apply follows_same; reflexivity.
Qed.

Theorem commands_in_order s l es : reachable s -> current s = None ->
  fits (ERun l) -> Forall fits es -> (forall l', ~ In (ERun l') es) ->
  exists seq,
    milestones (log (steps es (step s (ERun l)))) = rev seq ++ milestones (log s)
    /\ course (count s) l seq (stage_of (steps es (step s (ERun l)))).
Proof.
  intros R Cu FL FE NR.
  assert (H0 : follows (count s) l (milestones (log s)) (step s (ERun l))).
  { unfold step. rewrite Cu. exact (next_course (set_job l None false (count s) s) eq_refl). }
  assert (V0 : inv (step s (ERun l))).
  { apply reachable_inv. constructor; assumption. }
  generalize dependent (step s (ERun l)).
  generalize (milestones (log s)) (count s). intros b n s1 H0 V0.
  change (follows n l b (steps es s1)). revert s1 H0 V0.
  induction es as [|e es IH]; simpl; intros s1 H0 V0; [exact H0|].
  inversion FE; subst. apply IH; [assumption|intros l' X; apply (NR l'); right; exact X| |].
  - apply follows_step; [exact V0|intros l' X; apply (NR l'); left; exact X|exact H0].
  - apply inv_step; assumption.
Qed.

(** ** Where it fails *)

Lemma reachable_steps es s : reachable s -> Forall fits es -> reachable (steps es s).
Proof.
  revert s. induction es as [|e es IH]; simpl; intros s R F; [exact R|].
  inversion F; subst. apply IH; [constructor; assumption|assumption].
Qed.

Definition tool := PCommand false true true 0 false.
Definition timed := PCommand false true true 0 true.
Definition lax := PCommand false true true 20 false.

Lemma fits_run l : Forall (fun c => c = Process tool \/ c = Process timed \/ c = Process lax
    \/ exists j, c = Script j) l -> fits (ERun l).
Proof.
  intros H p X. rewrite Forall_forall in H.
  destruct (H _ X) as [E|[E|[E|[j E]]]]; try discriminate; injection E as ->; simpl; lia.
Qed.

Ltac fit :=
  repeat (apply Forall_cons;
    [first [exact I | apply fits_run; repeat (apply Forall_cons; [eauto 8|]); apply Forall_nil
           | simpl; lia]|]);
  apply Forall_nil.

Ltac past es :=
  exists (steps es init);
  let x := eval vm_compute in (tl (tl (log (steps es init)))) in exists x;
  split; [apply reachable_steps; [constructor|fit]|split; [vm_compute; reflexivity|]].

(** After a command that took too long, a later one of the same job that exits
    with 0 fails, with the message about the other one. *)
Theorem timeout_sticks_refuted : exists s l1, reachable s /\
  log s = JobDone (Failure (TimedOut 1)) :: Done 2 (Failure (TimedOut 1)) :: l1
  /\ In (Begun 2 (Process tool)) l1 /\ In (Exited 2 0 false true) l1 /\ ~ In (Late 2) l1
  /\ ~ In (Reported 2 true) l1 /\ ~ In (Reported 2 false) l1
  /\ ~ deserved l1 2 (Failure (TimedOut 1)).
Proof.
  past [EReady; ERun [Process timed]; ELate; EExit 9 true true;
                 ERun [Process tool]; EExit 0 false true]. split; [simpl; auto 10|]. split; [simpl; auto 10|].
  split; [simpl; intuition discriminate|]. split; [simpl; intuition discriminate|].
  split; [simpl; intuition discriminate|].
  intros [c [G D]]. simpl in G.
  destruct c as [p|j]; [destruct D as [_ [X _]]|destruct D as [_ [X _]]]; discriminate.
Qed.

(** After a process that could not be started, a later one of the same job that
    exits with 0 fails. *)
Theorem start_error_sticks_refuted : exists s l1, reachable s /\
  log s = JobDone (Failure ProcessError) :: Done 2 (Failure ProcessError) :: l1
  /\ In (Begun 2 (Process tool)) l1 /\ In (Exited 2 0 false true) l1
  /\ ~ deserved l1 2 (Failure ProcessError).
Proof.
  past [EReady; ERun [Process tool]; EFailed;
                 ERun [Process tool]; EExit 0 false true]. split; [simpl; auto 10|]. split; [simpl; auto 10|].
  intros [c [G D]]. destruct c as [p|j]; [|destruct D as [_ []]].
  destruct D as [_ [[code [cr X]] _]]. simpl in X. intuition discriminate.
Qed.

(** After a script that took too long, a later one of the same job is not run,
    and fails with the message about the other one. *)
Theorem script_timeout_sticks_refuted : exists s l1, reachable s /\
  log s = JobDone (Failure (TimedOut 1)) :: Done 2 (Failure (TimedOut 1)) :: l1
  /\ In (Begun 2 (Script (JCommand false false))) l1 /\ ~ In (Evaluated 2) l1
  /\ ~ In (Late 2) l1 /\ ~ deserved l1 2 (Failure (TimedOut 1)).
Proof.
  past [ERun [Script (JCommand false true)]; EScriptLate; EScript true;
                 ERun [Script (JCommand false false)]; EScript false]. split; [simpl; auto 10|]. split; [simpl; intuition discriminate|].
  split; [simpl; intuition discriminate|].
  intros [c [G D]].
  destruct c as [p|j]; [destruct D as [_ [X _]]|destruct D as [_ [X _]]]; discriminate.
Qed.

(** A process that has crashed counts as a success if the number of the signal
    is not above the largest good exit code. *)
Theorem crash_succeeds_refuted : exists s l1, reachable s /\
  log s = JobDone Success :: Done 1 Success :: l1
  /\ In (Exited 1 11 true true) l1 /\ In (Reported 1 true) l1.
Proof.
  past [EReady; ERun [Process lax]; EExit 11 true true]. simpl. auto.
Qed.

(** The time of a command that could not be started goes on, and a later
    command of the same job, without a limit of its own, is stopped by it. *)
Theorem watchdog_stays_refuted : exists s l1, reachable s /\
  log s = JobDone (Failure (TimedOut 1)) :: Done 2 (Failure (TimedOut 1)) :: l1
  /\ In (Begun 2 (Process tool)) l1 /\ p_timeout tool = false
  /\ exists a b, l1 = a ++ Late 1 :: b /\ In (Done 1 (Failure NotStarted)) b
                 /\ In (Launched 2) b.
Proof.
  past [ESocketError; ERun [Process timed]; EReady; ERun [Process tool]; ELate;
                 EExit 15 true true]. split; [simpl; auto 10|]. split; [reflexivity|].
  exists [Exited 2 15 true true]. eexists. split; [reflexivity|]. simpl. auto 10.
Qed.

(** Nothing ends a process command whose process is not running and about
    which no error was given; not even the cancelling of the job. *)
Definition stuck (s : state) (k : nat) : Prop :=
  (exists p, current s = Some (k, Process p)) /\ ps s = NotRunning /\ jrun s = false
  /\ zero s = false /\ forall o, ~ In (Done k o) (log s).

Lemma stuck_step s k e : stuck s k -> stuck (step s e) k.
Proof.
  intros [[p Cu] [P [J [Z ND]]]].
  assert (T : forall x s', (forall o, x <> Done k o) -> log s' = x :: log s ->
                forall o, ~ In (Done k o) (log s')).
  { intros x s' NX E o. rewrite E. intros [X|X]; [exact (NX o X)|exact (ND o X)]. }
  destruct e as [l| | | |code cr w| | |thrown| |]; unfold step; cbn [set_socket ps].
  - rewrite Cu. split; eauto.
  - rewrite P. split; eauto.
  - rewrite P. split; eauto.
  - rewrite P. split; eauto.
  - rewrite P. split; eauto.
  - destruct (pwatch s) as [j|]; [|split; eauto]. unfold p_cancel. simpl. rewrite P.
    split; [eauto|]. split; [exact P|]. split; [exact J|]. split; [exact Z|].
    apply (T (Late j)); [discriminate|reflexivity].
  - destruct (jwatch s) as [j|]; [|split; eauto]. unfold j_cancel. simpl. rewrite J.
    split; [eauto|]. split; [exact P|]. split; [exact J|]. split; [exact Z|].
    apply (T (Late j)); [discriminate|reflexivity].
  - rewrite J. split; eauto.
  - rewrite Z. split; eauto.
  - rewrite Cu. unfold p_cancel. simpl. rewrite P.
    split; [exists p; reflexivity|]. split; [exact P|]. split; [exact J|]. split; [exact Z|].
    apply (T (Stopped k)); [discriminate|reflexivity].
Qed.

Lemma stuck_steps es s k : stuck s k -> stuck (steps es s) k.
Proof. revert s. induction es as [|e es IH]; simpl; intros s H; [exact H|]. apply IH, stuck_step, H. Qed.

Definition early := steps [ERun [Process timed]; ELate] init.

Lemma early_stuck : stuck early 1.
Proof.
  split; [exists timed; vm_compute; reflexivity|]. split; [vm_compute; reflexivity|].
  split; [vm_compute; reflexivity|]. split; [vm_compute; reflexivity|].
  intros o H. vm_compute in H. intuition discriminate.
Qed.

(** The time is over before the launcher can be reached. *)
Theorem command_hangs_refuted : exists s k c, reachable s /\ current s = Some (k, c) /\
  log s = [Unstarted 1; Late 1; Begun 1 (Process timed)] /\
  forall es o, ~ In (Done k o) (log (steps es s)).
Proof.
  exists early, 1, (Process timed).
  split; [apply reachable_steps; [constructor|fit]|]. split; [vm_compute; reflexivity|].
  split; [vm_compute; reflexivity|].
  intros es o. destruct (stuck_steps es early 1 early_stuck) as [_ [_ [_ [_ X]]]]. apply X.
Qed.

Definition afterwards :=
  steps [EReady; ERun [Process timed]; ELate; EExit 9 true true; ERun [Process tool]; EFailed] init.

Lemma afterwards_stuck : stuck afterwards 2.
Proof.
  split; [exists tool; vm_compute; reflexivity|]. split; [vm_compute; reflexivity|].
  split; [vm_compute; reflexivity|]. split; [vm_compute; reflexivity|].
  intros o H. vm_compute in H. intuition discriminate.
Qed.

(** A process that cannot be started, after another command took too long. *)
Theorem unstarted_hangs_refuted : exists s c, reachable s /\ current s = Some (2, c) /\
  In (Unstarted 2) (log s) /\ ~ In (Late 2) (log s) /\
  forall es o, ~ In (Done 2 o) (log (steps es s)).
Proof.
  exists afterwards, (Process tool).
  split; [apply reachable_steps; [constructor|fit]|]. split; [vm_compute; reflexivity|].
  split; [vm_compute; auto|]. split; [intro H; vm_compute in H; intuition discriminate|].
  intros es o. destruct (stuck_steps es afterwards 2 afterwards_stuck) as [_ [_ [_ [_ X]]]]. apply X.
Qed.

(** ** Examples *)

Module Demo.

(** Three commands; the second one is a script, the third one fails. *)
Definition s := steps [EReady; ERun [Process tool; Script (JCommand false true); Process lax; Process tool];
                       EExit 0 false true; EScript false; EExit 21 false true] init.

Example s_reachable : reachable s.
Proof. apply reachable_steps; [constructor|fit]. Qed.

Example s_log : milestones (log s) =
  [JobDone (Failure BadExit); Done 3 (Failure BadExit); Begun 3 (Process lax); Done 2 Success;
   Begun 2 (Script (JCommand false true)); Done 1 Success; Begun 1 (Process tool)].
Proof. vm_compute. reflexivity. Qed.

Example s_quiet : quiet (log s) /\ In (Exited 3 21 false true) (log s) /\ In (Reported 3 false) (log s).
Proof.
  split; [|vm_compute; auto 20].
  intro j. split; intro H; vm_compute in H; intuition discriminate.
Qed.

(** The hypotheses of the theorem about verdicts. *)
Example s_clean : exists l2 l1, log s = l2 ++ Done 3 (Failure BadExit) :: l1 /\ clean l1 3.
Proof.
  exists [JobDone (Failure BadExit)].
  let x := eval vm_compute in (tl (tl (log s))) in exists x. split; [vm_compute; reflexivity|].
  intros j _. repeat split; intro H; simpl in H; intuition discriminate.
Qed.

(** One that is running, and ends. *)
Example running : let s' := steps [ERun [Process timed]; EReady] init in
  reachable s' /\ current s' = Some (1, Process timed) /\ (forall j, ~ In (Late j) (log s')).
Proof.
  split; [apply reachable_steps; [constructor|fit]|]. split; [vm_compute; reflexivity|].
  intros j H. vm_compute in H. intuition discriminate.
Qed.

(** A list that is cancelled. *)
Example cancelled : milestones (log (steps [EReady; ERun [Process tool; Process tool]; ECancel;
                                             EExit 0 false true] init))
  = [JobDone (Failure Cancelled); Done 1 Success; Stopped 1; Begun 1 (Process tool)].
Proof. vm_compute. reflexivity. Qed.

End Demo.

Print Assumptions command_verdict_partial.
Print Assumptions process_success_partial.
Print Assumptions command_once.
Print Assumptions command_ends_partial.
Print Assumptions results_reported_partial.
Print Assumptions commands_in_order.
Print Assumptions timeout_sticks_refuted.
Print Assumptions start_error_sticks_refuted.
Print Assumptions script_timeout_sticks_refuted.
Print Assumptions crash_succeeds_refuted.
Print Assumptions watchdog_stays_refuted.
Print Assumptions command_hangs_refuted.
Print Assumptions unstarted_hangs_refuted.
