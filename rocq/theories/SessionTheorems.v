(** The session protocol delivers exactly the messages that were sent, however the stream is cut up. *)
From Coq Require Import List Bool Arith NArith ZArith Lia.
From Verif Require Import Str Bytes SessionModel.
Import ListNotations.

(** ** Specification *)

(** Text in which the packet marker does not occur (an IDE may write such text between packets). *)
Definition clean (g : str) : Prop := ~ exists a b, g = a ++ packet_start ++ b.

(** What the sender writes: messages, each possibly preceded by clean text. *)
Definition wire (ms : list (str * str)) : str := concat (map (fun m => fst m ++ create_packet (snd m)) ms).

(** The lengths fit into an [int], as every QByteArray's does. *)
Definition sendable (ms : list (str * str)) : Prop :=
  Forall (fun m => clean (fst m) /\ (Z.of_nat (length (snd m)) <= int_max)%Z) ms.

Definition received (ms : list (str * str)) : list event := map (fun m => Received (snd m)) ms.

(** ** Proofs *)
Definition wf (p : packet) : Prop :=
  match expected p with None => payload p = [] | Some n => length (payload p) < n end.

Lemma parse_payload_cases n p input : length (payload p) <= n ->
  parse_payload n p input =
    let k := n - length (payload p) in
    let p' := {| expected := Some n; payload := payload p ++ firstn k input |} in
    if k <=? length input then (Complete, p', skipn k input) else (Incomplete, p', []).
Proof.
  intros L. unfold parse_payload. cbv zeta. cbn [payload].
  destruct (Nat.ltb_spec n (length (payload p))); [lia|].
  rewrite app_length, firstn_length.
  destruct (Nat.leb_spec (n - length (payload p)) (length input)) as [H1|H1].
  - destruct (Nat.eqb_spec (length (payload p) + Nat.min (n - length (payload p)) (length input)) n); [reflexivity|lia].
  - destruct (Nat.eqb_spec (length (payload p) + Nat.min (n - length (payload p)) (length input)) n); [lia|].
    rewrite (skipn_all2 (n := n - length (payload p))) by lia. reflexivity.
Qed.

(** A header found in a prefix of the data is the one found in the whole. *)
Lemma skipn_app_le {A} n (a b : list A) : n <= length a -> skipn n (a ++ b) = skipn n a ++ b.
Proof. intros H. rewrite skipn_app. replace (n - length a) with 0 by lia. reflexivity. Qed.
Lemma firstn_app_le {A} n (a b : list A) : n <= length a -> firstn n (a ++ b) = firstn n a.
Proof. intros H. rewrite firstn_app. replace (n - length a) with 0 by lia. rewrite firstn_O. apply app_nil_r. Qed.
Lemma index_of_bound p s i : index_of p s = Some i -> i + length p <= length s.
Proof.
  intros H. destruct (index_of_spec _ _ _ H) as (t & A & B). rewrite A, !app_length, firstn_length. lia.
Qed.

(** Behaviour of one call on more data. *)
Lemma parse_input_app p a b : wf p ->
  match parse_input p a with
  | (Complete, p', d) => parse_input p (a ++ b) = (Complete, p', d ++ b) /\ (a <> [] -> length d < length a)
  | (Invalid, p', d) => exists d', parse_input p (a ++ b) = (Invalid, p', d')
  | (Incomplete, p', d) => wf p' /\ (d = [] -> parse_input p (a ++ b) = parse_input p' b \/ a = [] /\ p' = p)
                           /\ (d <> [] -> p' = p /\ d = a)
  | (Broken, _, _) => False
  end.
Proof.
  intros W. destruct p as [[n|] pl]; unfold wf in W; cbn [expected payload] in W.
  - unfold parse_input at 1. cbn [expected].
    rewrite parse_payload_cases by (cbn [payload]; lia). cbv zeta. cbn [payload].
    destruct (Nat.leb_spec (n - length pl) (length a)) as [H|H].
    + unfold parse_input. cbn [expected]. rewrite parse_payload_cases by (cbn [payload]; lia).
      cbv zeta. cbn [payload]. rewrite app_length. destruct (Nat.leb_spec (n - length pl) (length a + length b)); [|lia].
      rewrite firstn_app_le, skipn_app_le by lia. split; auto. intros _. rewrite skipn_length. lia.
    + split; [|split].
      * unfold wf; cbn [expected payload]. rewrite firstn_all2, app_length by lia. lia.
      * intros _. left. unfold parse_input. cbn [expected].
        rewrite !parse_payload_cases by (cbn [payload]; rewrite ?app_length, ?firstn_length; lia).
        cbv zeta. cbn [payload]. rewrite (firstn_all2 (n := n - length pl) a) by lia. rewrite !app_length.
        replace (n - (length pl + length a)) with (n - length pl - length a) by lia.
        rewrite firstn_app, (firstn_all2 (n := n - length pl) a), app_assoc by lia.
        rewrite skipn_app, (skipn_all2 (n := n - length pl) a) by lia.
        destruct (Nat.leb_spec (n - length pl) (length a + length b));
        destruct (Nat.leb_spec (n - length pl - length a) (length b)); try lia; reflexivity.
      * intros D. now destruct D.
  - subst pl. unfold parse_input. cbn [expected payload].
    destruct (index_of packet_start a) as [i|] eqn:Ei.
    2:{ split; [reflexivity|]. split; [intros ->; right; auto|auto]. }
    pose proof (index_of_bound _ _ _ Ei) as Bi. rewrite (index_of_app _ _ b _ Ei).
    set (off := i + length packet_start) in *.
    rewrite skipn_app_le by lia.
    destruct (index_of [newline] (skipn off a)) as [j|] eqn:Ej.
    2:{ split; [reflexivity|]. split; [intros ->; right; auto|auto]. }
    pose proof (index_of_bound _ _ _ Ej) as Bj. cbn [length] in Bj. rewrite skipn_length in Bj.
    rewrite (index_of_app _ _ b _ Ej). rewrite firstn_app_le by (rewrite skipn_length; lia).
    destruct (to_int (firstn j (skipn off a))) as [len|]; [|eauto].
    destruct (len <? 0)%Z; [eauto|].
    rewrite !parse_payload_cases by (cbn; lia). cbv zeta. cbn [payload length]. rewrite !Nat.sub_0_r, app_nil_l.
    rewrite skipn_app_le by lia.
    set (a' := skipn (off + j + 1) a). assert (La : length a' + (off + j + 1) = length a).
    { unfold a'. rewrite skipn_length. lia. }
    destruct (Nat.leb_spec (Z.to_nat len) (length a')) as [H|H].
    + rewrite app_length. destruct (Nat.leb_spec (Z.to_nat len) (length a' + length b)); [|lia].
      rewrite firstn_app_le, skipn_app_le by lia. split; auto. intros _. rewrite skipn_length. lia.
    + split; [|split].
      * unfold wf; cbn [expected payload]. rewrite firstn_all2 by lia. lia.
      * intros _. left. cbn [expected]. rewrite !parse_payload_cases by (cbn [payload]; rewrite ?firstn_length; lia).
        cbv zeta. cbn [payload]. rewrite (firstn_all2 (n := Z.to_nat len) a') by lia. rewrite !app_length.
        rewrite firstn_app, (firstn_all2 (n := Z.to_nat len) a') by lia.
        rewrite skipn_app, (skipn_all2 (n := Z.to_nat len) a') by lia.
        destruct (Nat.leb_spec (Z.to_nat len) (length a' + length b));
        destruct (Nat.leb_spec (Z.to_nat len - length a') (length b)); try lia; reflexivity.
      * intros D. now destruct D.
Qed.

Lemma parse_input_app_nil p a : wf p ->
  match parse_input p a with
  | (Complete, _, d) => a <> [] -> length d < length a
  | (Incomplete, p', _) => wf p'
  | (Invalid, _, _) => True
  | (Broken, _, _) => False
  end.
Proof.
  intros W. pose proof (parse_input_app p a [] W) as H. destruct (parse_input p a) as [[[] p'] d]; tauto.
Qed.

Lemma fresh_wf : wf fresh. Proof. reflexivity. Qed.
Local Hint Resolve fresh_wf : core.

Lemma loop_fuel k1 : forall k2 r, wf (r_packet r) -> length (r_data r) < k1 -> length (r_data r) < k2 ->
  loop k1 r = loop k2 r.
Proof.
  induction k1 as [|k1 IH]; intros [|k2] r W L1 L2; try lia. cbn [loop].
  destruct (r_data r) as [|c d] eqn:Ed; auto.
  pose proof (parse_input_app_nil (r_packet r) (c :: d) W) as H.
  destruct (parse_input (r_packet r) (c :: d)) as [[[] p'] d']; auto.
  rewrite (IH k2); auto; cbn [r_data]; specialize (H ltac:(discriminate)); simpl in *; lia.
Qed.

Definition same (x y : list event * reader) : Prop :=
  fst x = fst y /\ r_dead (snd x) = r_dead (snd y) /\ (r_dead (snd x) = false -> snd x = snd y).

Lemma same_refl x : same x x. Proof. unfold same. auto. Qed.

Lemma loop_wf k : forall r, wf (r_packet r) -> r_dead r = false ->
  r_dead (snd (loop k r)) = false -> wf (r_packet (snd (loop k r))).
Proof.
  induction k as [|k IH]; intros r W D; [auto|]. cbn [loop].
  destruct (r_data r) as [|c d]; [auto|].
  pose proof (parse_input_app_nil (r_packet r) (c :: d) W) as H.
  destruct (parse_input (r_packet r) (c :: d)) as [[[] p'] d']; simpl; auto; try discriminate.
  destruct (loop k {| r_data := d'; r_packet := fresh; r_dead := false |}) as [es r'] eqn:E.
  simpl. intros Hd. pose proof (IH {| r_data := d'; r_packet := fresh; r_dead := false |} fresh_wf eq_refl) as Q.
  rewrite E in Q. apply Q, Hd.
Qed.

(** Feeding [a] and then [b] is feeding [a ++ b]. *)
Lemma loop_app k : forall r b, wf (r_packet r) -> r_dead r = false -> length (r_data r) < k ->
  let (es, r1) := loop k r in
  same (let (es', r2) := feed r1 b in (es ++ es', r2))
       (loop (S (length (r_data r ++ b))) {| r_data := r_data r ++ b; r_packet := r_packet r; r_dead := false |}).
Proof.
  induction k as [|k IH]; intros [da p de] b W D L; cbn [r_data r_packet r_dead] in *; [lia|]. subst de.
  destruct da as [|c d].
  { change (loop (S k) {| r_data := []; r_packet := p; r_dead := false |})
      with (@nil event, {| r_data := []; r_packet := p; r_dead := false |}).
    unfold feed. cbn [r_dead r_data r_packet app].
    destruct (loop (S (length b)) {| r_data := b; r_packet := p; r_dead := false |}) as [es r'].
    apply same_refl. }
  cbn [loop r_data r_packet].
  remember (c :: d) as a eqn:Ea. assert (Na : a <> []) by (subst; discriminate).
  assert (Nab : a ++ b <> []) by (subst; discriminate).
  pose proof (parse_input_app p a b W) as H.
  destruct (a ++ b) as [|x y] eqn:Eab; [congruence|]. rewrite <- Eab in *. clear x y Eab.
  destruct (parse_input p a) as [[[] p'] d'] eqn:Ep.
  - (* incomplete *)
    destruct H as (W' & H1 & H2). destruct d' as [|z zs].
    + destruct (H1 eq_refl) as [E|[E _]]; [|congruence].
      unfold feed. cbn [r_dead r_data r_packet app]. destruct b as [|b0 bs].
      * (* no more data *)
        cbn [length loop r_data]. rewrite app_nil_r in *. rewrite Ep. unfold same. auto.
      * remember (b0 :: bs) as b eqn:Eb. cbn [loop r_data r_packet]. rewrite E.
        destruct b as [|b1 b2]; [discriminate|]. rewrite Eb in *. clear Eb. remember (b0 :: bs) as b eqn:Eb.
        pose proof (parse_input_app_nil p' b W') as Q.
        destruct (parse_input p' b) as [[[] q] e] eqn:Eq; try apply same_refl.
        rewrite (loop_fuel (length b) (length (a ++ b))); cbn [r_data r_packet]; auto.
        -- destruct (loop (length (a ++ b)) _) as [es' r']. apply same_refl.
        -- apply Q. subst b. discriminate.
        -- specialize (Q ltac:(subst b; discriminate)). rewrite app_length. lia.
    + destruct (H2 ltac:(discriminate)) as [-> ->].
      unfold feed. cbn [r_dead r_data r_packet].
      match goal with |- context [loop ?n ?r] => destruct (loop n r) as [es' r'] eqn:El end.
      cbn [loop r_data r_packet] in El.
      destruct (a ++ b) as [|x y] eqn:Eab; [congruence|]. rewrite <- Eab in *. change (([] : list event) ++ es') with es'.
      rewrite <- El. apply same_refl.
  - (* complete *)
    destruct H as [H1 H2]. rewrite H1. specialize (H2 Na).
    specialize (IH {| r_data := d'; r_packet := fresh; r_dead := false |} b fresh_wf eq_refl).
    cbn [r_data r_packet] in IH. specialize (IH ltac:(lia)).
    destruct (loop k {| r_data := d'; r_packet := fresh; r_dead := false |}) as [es r1].
    rewrite (loop_fuel (length (a ++ b)) (S (length (d' ++ b)))); cbn [r_data r_packet]; auto;
      [|rewrite !app_length; lia].
    destruct (feed r1 b) as [es' r2].
    destruct (loop (S (length (d' ++ b))) _) as [es'' r3].
    unfold same in *. cbn [fst snd] in *. destruct IH as (A & B & C). subst es''. auto.
  - destruct H as [d'' ->]. unfold feed. cbn [r_dead]. unfold same. simpl. auto. split; auto. split; auto. discriminate.
  - destruct H.
Qed.

Definition ok (r : reader) : Prop := r_dead r = false -> wf (r_packet r).
Lemma feed_ok r c : ok r -> ok (snd (feed r c)).
Proof.
  intros O. unfold feed. destruct (r_dead r) eqn:D; [exact O|]. intros H. apply loop_wf; cbn; auto.
Qed.

Lemma same_trans x y z : same x y -> same y z -> same x z.
Proof.
  unfold same. intros (A & B & C) (A' & B' & C'). split; [congruence|]. split; [congruence|].
  intros D. rewrite C by auto. apply C'. congruence.
Qed.

Lemma feed_app r a b : ok r ->
  same (let (es, r1) := feed r a in let (es', r2) := feed r1 b in (es ++ es', r2)) (feed r (a ++ b)).
Proof.
  intros O. unfold feed at 1 3. destruct (r_dead r) eqn:D.
  - unfold feed. rewrite D. apply same_refl.
  - pose proof (loop_app (S (length (r_data r ++ a))) {| r_data := r_data r ++ a; r_packet := r_packet r; r_dead := false |} b
      (O D) eq_refl ltac:(cbn; lia)) as H.
    cbn [r_data r_packet] in H. rewrite app_assoc.
    destruct (loop (S (length (r_data r ++ a))) {| r_data := r_data r ++ a; r_packet := r_packet r; r_dead := false |}) as [es r1].
    exact H.
Qed.

Lemma feed_all_one chunks : forall r, ok r -> chunks <> [] ->
  same (feed_all r chunks) (feed r (concat chunks)).
Proof.
  induction chunks as [|c cs IH]; intros r O N; [congruence|]. cbn [feed_all concat].
  pose proof (feed_ok r c O) as O1. destruct cs as [|c' cs'].
  - cbn [feed_all concat]. rewrite app_nil_r. destruct (feed r c) as [es r1]. rewrite app_nil_r. apply same_refl.
  - eapply same_trans; [|apply feed_app; auto]. destruct (feed r c) as [es r1]. cbn [snd] in O1.
    specialize (IH r1 O1 ltac:(discriminate)). destruct (feed_all r1 (c' :: cs')) as [e2 r2].
    destruct (feed r1 (concat (c' :: cs'))) as [e3 r3]. unfold same in *. cbn [fst snd] in *.
    destruct IH as (-> & B & C). auto.
Qed.

Lemma clean_cons c g : clean (c :: g) -> clean g.
Proof. intros H (a & b & ->). apply H. now exists (c :: a), b. Qed.

Lemma find_start g t : clean g -> index_of packet_start (g ++ packet_start ++ t) = Some (length g).
Proof.
  induction g as [|c g IH]; intros C; [rewrite app_nil_l; rewrite index_of_head; reflexivity|].
  assert (N : starts_with packet_start ((c :: g) ++ packet_start ++ t) = false).
  { destruct (starts_with packet_start ((c :: g) ++ packet_start ++ t)) eqn:E; auto. exfalso.
    apply starts_with_spec in E. destruct E as [u E]. unfold packet_start in E. simpl in E.
    injection E as -> E. destruct g as [|c2 g]; [discriminate E|]. injection E as -> E.
    destruct g as [|c3 g]; [discriminate E|]. injection E as -> E.
    destruct g as [|c4 g]; [discriminate E|]. injection E as -> E.
    destruct g as [|c5 g]; [discriminate E|]. injection E as -> E.
    destruct g as [|c6 g]; [discriminate E|]. injection E as -> E.
    destruct g as [|c7 g]; [discriminate E|]. injection E as -> E.
    apply C. exists [], g. reflexivity. }
  change ((c :: g) ++ packet_start ++ t) with (c :: g ++ packet_start ++ t) in *. cbn [index_of].
  rewrite N, IH by (eapply clean_cons; eauto). reflexivity.
Qed.

Lemma parse_header g sz t : clean g -> ~ In newline sz ->
  parse_input fresh (g ++ packet_start ++ sz ++ [newline] ++ t)
  = match to_int sz with
    | None => (Invalid, fresh, g ++ packet_start ++ sz ++ [newline] ++ t)
    | Some len => if (len <? 0)%Z then (Invalid, fresh, g ++ packet_start ++ sz ++ [newline] ++ t)
                  else parse_payload (Z.to_nat len) {| expected := Some (Z.to_nat len); payload := [] |} t
    end.
Proof.
  intros C N. unfold parse_input. cbn [expected fresh payload].
  rewrite find_start by auto.
  assert (E1 : skipn (length g + length packet_start) (g ++ packet_start ++ sz ++ [newline] ++ t) = sz ++ [newline] ++ t).
  { rewrite app_assoc, skipn_app, skipn_all2 by (rewrite app_length; lia).
    rewrite app_length, Nat.sub_diag. reflexivity. }
  rewrite E1. change (sz ++ [newline] ++ t) with (sz ++ newline :: t). rewrite index_of_char by auto.
  rewrite firstn_app, Nat.sub_diag, firstn_all, firstn_O, app_nil_r.
  destruct (to_int sz) as [len|]; auto. destruct (len <? 0)%Z; auto. f_equal.
  replace (length g + length packet_start + length sz + 1) with (length (g ++ packet_start ++ sz ++ [newline]))
    by (rewrite !app_length; simpl; lia).
  change (sz ++ newline :: t) with (sz ++ [newline] ++ t).
  replace (g ++ packet_start ++ sz ++ [newline] ++ t) with ((g ++ packet_start ++ sz ++ [newline]) ++ t)
    by (now rewrite <- !app_assoc).
  rewrite skipn_app, skipn_all, Nat.sub_diag. reflexivity.
Qed.

Lemma dec_no_newline n : ~ In newline (dec n).
Proof. now apply dec_no_char. Qed.

Lemma parse_packet g body rest : clean g -> (Z.of_nat (length body) <= int_max)%Z ->
  parse_input fresh (g ++ create_packet body ++ rest)
  = (Complete, {| expected := Some (length body); payload := body |}, rest).
Proof.
  intros C L. unfold create_packet.
  replace (g ++ (packet_start ++ dec (N.of_nat (length body)) ++ [newline] ++ body) ++ rest)
    with (g ++ packet_start ++ dec (N.of_nat (length body)) ++ [newline] ++ (body ++ rest))
    by (now rewrite <- !app_assoc).
  rewrite parse_header by (auto using dec_no_newline).
  rewrite to_int_dec by (now rewrite nat_N_Z). rewrite nat_N_Z.
  destruct (Z.ltb_spec (Z.of_nat (length body)) 0); [lia|]. rewrite Nat2Z.id.
  rewrite parse_payload_cases by (cbn; lia). cbv zeta. cbn [payload length]. rewrite Nat.sub_0_r, app_length.
  destruct (Nat.leb_spec (length body) (length body + length rest)); [|lia].
  rewrite firstn_app, skipn_app, firstn_all, skipn_all, Nat.sub_diag, firstn_O, skipn_O, app_nil_r. reflexivity.
Qed.

Lemma create_packet_nonempty b : create_packet b <> []. Proof. discriminate. Qed.

(** One go over the whole stream. *)
Lemma feed_wire ms : forall t, sendable ms ->
  feed start (wire ms ++ t) = let (es, r) := feed start t in (received ms ++ es, r).
Proof.
  induction ms as [|[g b] ms IH]; intros t Q.
  - cbn [wire map concat received app]. destruct (feed start t); reflexivity.
  - pose proof (Forall_inv Q) as [C L]. pose proof (Forall_inv_tail Q) as Q'. cbn [fst snd] in C, L.
    change (wire ((g, b) :: ms)) with ((g ++ create_packet b) ++ wire ms). rewrite <- !app_assoc.
    unfold feed. cbn [start r_dead r_data r_packet app].
    specialize (IH t Q'). unfold feed in IH. cbn [start r_dead r_data r_packet app] in IH.
    remember (loop (S (length t)) {| r_data := t; r_packet := fresh; r_dead := false |}) as R.
    cbn [loop r_data r_packet].
    rewrite parse_packet by auto.
    set (w := g ++ create_packet b ++ wire ms ++ t).
    assert (W : w <> []) by (unfold w; destruct g; discriminate).
    assert (Lw : length (wire ms ++ t) < length w).
    { unfold w. rewrite (app_length g), (app_length (create_packet b)). unfold create_packet. rewrite !app_length. simpl. lia. }
    destruct w as [|x y] eqn:Ew; [congruence|]. rewrite <- Ew in *.
    rewrite (loop_fuel (length w) (S (length (wire ms ++ t)))); cbn [r_packet r_data]; auto.
    rewrite IH. destruct R. reflexivity.
Qed.

(** [t] is what has arrived so far of the next packet: not all of it. *)
Definition unfinished (t : str) : Prop :=
  exists g b u, clean g /\ (Z.of_nat (length b) <= int_max)%Z /\ u <> [] /\ t ++ u = g ++ create_packet b.

Lemma feed_unfinished t : unfinished t -> fst (feed start t) = [] /\ r_dead (snd (feed start t)) = false.
Proof.
  intros (g & b & u & C & L & U & E). unfold feed. cbn [start r_dead r_data r_packet app].
  cbn [loop r_data r_packet]. destruct t as [|c t]; [auto|]. remember (c :: t) as w.
  pose proof (parse_input_app fresh w u fresh_wf) as H.
  pose proof (parse_packet g b [] C L) as P. rewrite app_nil_r in P. rewrite <- E in P.
  destruct (parse_input fresh w) as [[[] p'] d]; auto.
  - exfalso. destruct H as [H _]. rewrite P in H. injection H as _ H. symmetry in H. apply app_eq_nil in H. tauto.
  - exfalso. destruct H as [d' H]. rewrite P in H. discriminate.
  - destruct H.
Qed.

Lemma start_ok : ok start. Proof. intros _. reflexivity. Qed.

Lemma feed_all_start chunks : same (feed_all start chunks) (feed start (concat chunks)).
Proof.
  destruct chunks as [|c cs]; [apply same_refl|]. apply feed_all_one; [apply start_ok|discriminate].
Qed.

(** ** Theorems *)

(** C34.  However the stream of packets is cut into chunks, the reader reports exactly the packets that have
    arrived completely, in the order they were sent: none lost, none made up, none merged and none delayed until
    further data arrives.  [t] is the part of the next packet that is still in transit. *)
Theorem session_framing chunks ms t :
  sendable ms -> unfinished t -> concat chunks = wire ms ++ t ->
  fst (feed_all start chunks) = received ms.
Proof.
  intros S U E. destruct (feed_all_start chunks) as (A & _). rewrite A, E, feed_wire by auto.
  destruct (feed_unfinished t U) as [B _]. destruct (feed start t). cbn [fst] in *. subst. apply app_nil_r.
Qed.

(** After complete packets the reader is as good as new. *)
Theorem session_reusable chunks ms :
  sendable ms -> concat chunks = wire ms -> feed_all start chunks = (received ms, start).
Proof.
  intros S E. destruct (feed_all_start chunks) as (A & B & C). rewrite E in *.
  pose proof (feed_wire ms [] S) as F. rewrite app_nil_r in F. rewrite F in *.
  change (feed start []) with (@nil event, start) in *. cbn [fst snd] in *. rewrite app_nil_r in A.
  destruct (feed_all start chunks) as [es r]. cbn [fst snd] in *. rewrite A, C; auto.
Qed.

(** Whatever is sent, well-formed or not, only the bytes matter and not how they were cut up. *)
Theorem session_chunks_irrelevant chunks chunks' :
  concat chunks = concat chunks' -> fst (feed_all start chunks) = fst (feed_all start chunks').
Proof.
  intros E. destruct (feed_all_start chunks) as (A & _). destruct (feed_all_start chunks') as (B & _).
  rewrite A, B, E. reflexivity.
Qed.

(** A size field that is not a non-negative number is reported; everything before it is delivered and nothing
    after it is. *)
Theorem session_bad_size chunks ms g sz rest :
  sendable ms -> clean g -> ~ In newline sz ->
  (forall n, to_int sz = Some n -> (n < 0)%Z) ->
  concat chunks = wire ms ++ g ++ packet_start ++ sz ++ [newline] ++ rest ->
  fst (feed_all start chunks) = received ms ++ [Error].
Proof.
  intros S C N B E. destruct (feed_all_start chunks) as (A & _). rewrite A, E, feed_wire by auto.
  pose proof (parse_header g sz rest C N) as H.
  set (w := g ++ packet_start ++ sz ++ [newline] ++ rest) in *.
  unfold feed. cbn [start r_dead r_data r_packet app]. cbn [loop r_data r_packet]. rewrite H.
  destruct w as [|x y] eqn:Ew; [exfalso; destruct g; discriminate|].
  destruct (to_int sz) as [len|]; [|reflexivity].
  destruct (Z.ltb_spec len 0); [reflexivity|]. specialize (B len eq_refl). lia.
Qed.

(** The assertion in parseInput never fails. *)
Lemma loop_no_assert k : forall r, wf (r_packet r) -> ~ In AssertFailed (fst (loop k r)).
Proof.
  induction k as [|k IH]; intros r W; [simpl; auto|]. cbn [loop]. destruct (r_data r) as [|c d]; [simpl; auto|].
  pose proof (parse_input_app_nil (r_packet r) (c :: d) W) as H.
  destruct (parse_input (r_packet r) (c :: d)) as [[[] p'] d']; simpl; auto.
  - specialize (IH {| r_data := d'; r_packet := fresh; r_dead := false |} fresh_wf).
    destruct (loop k _). simpl in *. intros [K|K]; [discriminate|auto].
  - intros [K|[]]; discriminate.
Qed.
Theorem session_no_assert chunks : ~ In AssertFailed (fst (feed_all start chunks)).
Proof.
  destruct (feed_all_start chunks) as (A & _). rewrite A. unfold feed. cbn [start r_dead].
  apply loop_no_assert. reflexivity.
Qed.

(** ** A concrete stream: two packets with a stray line in between, the third one still in transit, in five
    chunks cutting the marker, the size and the payload. *)
Module Demo.
  Local Open Scope N_scope.
  Definition ms : list (str * str) := [([], [101; 51; 48]); ([10], [97; 98; 99; 100])].
  Definition t : str := [113; 98; 115; 109; 115; 103; 58; 49; 50].
  Definition chunks : list str :=
    [[113; 98; 115]; [109; 115; 103; 58; 51; 10; 101; 51]; [48; 10; 113; 98; 115; 109; 115; 103; 58];
     []; [52; 10; 97; 98; 99; 100; 113; 98; 115; 109; 115; 103; 58; 49; 50]].
  Lemma short_clean g : (length g < length packet_start)%nat -> clean g.
  Proof. intros L (a & b & ->). rewrite !app_length in L. lia. Qed.
  Example sends : sendable ms.
  Proof.
    repeat constructor; try (apply short_clean; simpl; lia); unfold int_max; simpl; lia.
  Qed.
  Example in_transit : unfinished t.
  Proof.
    exists [], (repeat 97 12), (10 :: repeat 97 12). split; [apply short_clean; simpl; lia|].
    split; [unfold int_max; simpl; lia|]. split; [discriminate|]. vm_compute. reflexivity.
  Qed.
  Example cut : concat chunks = wire ms ++ t. Proof. vm_compute. reflexivity. Qed.
  Example delivered : fst (feed_all start chunks) = [Received [101; 51; 48]; Received [97; 98; 99; 100]].
  Proof. vm_compute. reflexivity. Qed.
  (** "qbsmsg:x\n" *)
  Example bad : fst (feed_all start [[113; 98; 115; 109; 115; 103; 58]; [120; 10; 113]]) = [Error].
  Proof. vm_compute. reflexivity. Qed.
  Example bad_hyp : forall n, to_int [120] = Some n -> (n < 0)%Z. Proof. discriminate. Qed.
  Example negative_hyp : forall n, to_int [45; 51] = Some n -> (n < 0)%Z.
  Proof. intros n [= <-]. reflexivity. Qed.
End Demo.

Print Assumptions session_framing.
Print Assumptions session_reusable.
Print Assumptions session_chunks_irrelevant.
Print Assumptions session_bad_size.
Print Assumptions session_no_assert.
