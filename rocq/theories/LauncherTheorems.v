(** The launcher protocol: every packet arrives unchanged and once, however the stream is cut up. *)
From Coq Require Import List Bool Arith NArith ZArith Lia.
From Verif Require Import Str LauncherModel.
Import ListNotations.

(** ** Specification *)

(** Values that fit the C++ types.  Qt strings and lists have fewer than 2^31 elements; a string's length in
    bytes, which is what is transmitted, must stay below 2^32 - 1. *)
Definition string_ok (s : qstr) : Prop :=
  match s with None => True | Some u => Forall (fun c => (c < 65536)%N) u /\ (2 * N.of_nat (length u) < null_mark)%N end.
Definition bytes_ok (b : qbytes) : Prop :=
  match b with None => True | Some s => (N.of_nat (length s) < null_mark)%N end.
Definition list_ok (l : list qstr) : Prop := Forall string_ok l /\ (N.of_nat (length l) < two32)%N.
Definition packet_ok (p : packet) : Prop :=
  match p with
  | Shutdown | StopProcess => True
  | StartProcess c a w e => string_ok c /\ list_ok a /\ string_ok w /\ list_ok e
  | ProcessError e s => (e < 256)%N /\ string_ok s
  | ProcessFinished s o e st er c =>
      string_ok s /\ bytes_ok o /\ bytes_ok e /\ (st < 256)%N /\ (er < 256)%N /\ (-2147483648 <= c < 2147483648)%Z
  end.

(** What is sent: pairs of token and packet. *)
Definition message := (N * packet)%type.
Definition message_ok (m : message) : Prop :=
  (fst m < 18446744073709551616)%N /\ packet_ok (snd m)
  /\ (Z.of_nat (length (serialize (fst m) (snd m))) < 2147483648)%Z.
Definition wire (ms : list message) : str := concat (map (fun m => serialize (fst m) (snd m)) ms).

(** What the receiver makes of an event: the token and the deserialized packet. *)
Definition decoded (e : event) : option message :=
  match e with
  | Packet r => option_map (pair (r_token r)) (deserialize (r_type r) (r_data r))
  | _ => None
  end.

(** ** Proofs: the data stream *)

Lemma be_length k n : length (be k n) = k.
Proof. revert n. induction k as [|k IH]; intros n; simpl; auto. rewrite app_length, IH. simpl. lia. Qed.
Lemma unbe_be k : forall n, (n < 256 ^ N.of_nat k)%N -> unbe (be k n) = n.
Proof.
  induction k as [|k IH]; intros n H.
  - change (256 ^ N.of_nat 0)%N with 1%N in H. assert (n = 0%N) by lia. now subst.
  - rewrite Nat2N.inj_succ, N.pow_succ_r' in H. cbn [be]. unfold unbe in *. rewrite fold_left_app. simpl fold_left.
    rewrite IH by (apply N.div_lt_upper_bound; lia).
    rewrite (N.div_mod n 256) at 3 by lia. reflexivity.
Qed.
Lemma take_app a b : take (length a) (a ++ b) = Some (a, b).
Proof.
  unfold take. rewrite app_length. destruct (Nat.ltb_spec (length a + length b) (length a)); [lia|].
  rewrite firstn_app, skipn_app, firstn_all, skipn_all, Nat.sub_diag, firstn_O, skipn_O, app_nil_r. reflexivity.
Qed.
Lemma take_be k n rest : take k (be k n ++ rest) = Some (be k n, rest).
Proof. rewrite <- (be_length k n) at 1. apply take_app. Qed.

Definition reads {A} (r : reader A) (w : str) (a : A) : Prop := forall rest, r (w ++ rest) = Some (a, rest).
Lemma reads_bind {A B} (r : reader A) (f : A -> reader B) w1 w2 a b :
  reads r w1 a -> reads (f a) w2 b -> reads (bind r f) (w1 ++ w2) b.
Proof. intros H1 H2 rest. unfold bind. rewrite <- app_assoc, H1. apply H2. Qed.
Lemma reads_ret {A} (a : A) : reads (ret a) [] a.
Proof. intros rest. reflexivity. Qed.
Lemma reads_map {A B} (r : reader A) (f : A -> reader B) w a b :
  reads r w a -> (forall rest, f a rest = Some (b, rest)) -> reads (bind r f) w b.
Proof. intros H1 H2. rewrite <- (app_nil_r w). apply (reads_bind r f w [] a b H1). intros rest. apply H2. Qed.

Lemma reads_be k n (H : (n < 256 ^ N.of_nat k)%N) : reads (bind (take k) (fun s => ret (unbe s))) (be k n) n.
Proof. intros rest. unfold bind. rewrite take_be. unfold ret. rewrite unbe_be; auto. Qed.
Lemma reads_U8 n : (n < 256)%N -> reads rU8 (wU8 n) n.
Proof. intros H. apply (reads_be 1). exact H. Qed.
Lemma reads_U32 n : (n < two32)%N -> reads rU32 (wU32 n) n.
Proof. intros H. apply (reads_be 4). exact H. Qed.
Lemma reads_U64 n : (n < 18446744073709551616)%N -> reads rU64 (wU64 n) n.
Proof. intros H. apply (reads_be 8). exact H. Qed.
Lemma reads_I32 z : (-2147483648 <= z < 2147483648)%Z -> reads rI32 (wI32 z) z.
Proof.
  intros H rest. unfold rI32, wI32, bind. rewrite take_be. unfold ret.
  assert (B : (0 <= z mod 4294967296 < 4294967296)%Z) by (apply Z.mod_pos_bound; lia).
  rewrite unbe_be by (change (256 ^ N.of_nat 4)%N with 4294967296%N; lia).
  f_equal. f_equal. unfold to_signed.
  assert (M : (z mod 4294967296 = if z <? 0 then z + 4294967296 else z)%Z).
  { destruct (Z.ltb_spec z 0).
    - symmetry. apply (Z.mod_unique_pos z 4294967296 (-1)); lia.
    - apply Z.mod_small; lia. }
  rewrite M in *. clear M. set (x := if (z <? 0)%Z then (z + 4294967296)%Z else z) in *.
  assert (X : (x = if (z <? 0)%Z then z + 4294967296 else z)%Z) by reflexivity. clearbody x.
  destruct (Z.ltb_spec z 0); destruct (N.ltb_spec (Z.to_N x) 2147483648); lia.
Qed.
Lemma reads_Bytes b : bytes_ok b -> reads rBytes (wBytes b) b.
Proof.
  intros H. destruct b as [s|]; cbn [wBytes].
  - unfold rBytes. eapply reads_bind; [apply reads_U32; simpl in H; unfold null_mark, two32 in *; lia|].
    simpl in H. destruct (N.eqb_spec (N.of_nat (length s)) null_mark); [lia|].
    intros rest. unfold bind. rewrite Nat2N.id, take_app. reflexivity.
  - eapply reads_map; [apply reads_U32; reflexivity|]. reflexivity.
Qed.
Lemma reads_Units u : Forall (fun c => (c < 65536)%N) u -> reads (rUnits (length u)) (wUnits u) u.
Proof.
  intros F. induction F as [|c u Hc F IH]; [apply reads_ret|]. change (wUnits (c :: u)) with (be 2 c ++ wUnits u).
  cbn [length rUnits]. intros rest. unfold bind at 1. rewrite <- app_assoc, take_be.
  unfold bind. rewrite IH. unfold ret. rewrite unbe_be; auto.
Qed.
Lemma reads_String s : string_ok s -> reads rString (wString s) s.
Proof.
  intros H. destruct s as [u|]; cbn [wString].
  - destruct H as [F L]. unfold rString.
    eapply reads_bind; [apply reads_U32; unfold null_mark, two32 in *; lia|].
    destruct (N.eqb_spec (2 * N.of_nat (length u)) null_mark); [lia|].
    rewrite N.odd_mul. cbn [N.odd andb]. eapply reads_map.
    + rewrite (N.mul_comm 2), N.div_mul, Nat2N.id by lia. apply reads_Units; auto.
    + reflexivity.
  - eapply reads_map; [apply reads_U32; reflexivity|]. reflexivity.
Qed.
Lemma reads_Items l : Forall string_ok l -> reads (rItems (length l)) (concat (map wString l)) l.
Proof.
  intros F. induction F as [|s l Hs F IH]; [apply reads_ret|]. cbn [length rItems map concat].
  eapply reads_bind; [apply reads_String; auto|]. eapply reads_map; [apply IH|]. reflexivity.
Qed.
Lemma reads_List l : list_ok l -> reads rList (wList l) l.
Proof.
  intros [F L]. unfold rList, wList. eapply reads_bind; [apply reads_U32; auto|]. rewrite Nat2N.id.
  apply reads_Items; auto.
Qed.

Lemma run_reads (r : reader packet) w p : reads r w p -> option_map fst (r w) = Some p.
Proof. intros H. rewrite <- (app_nil_r w), H. reflexivity. Qed.

(** C35, first half: the payload of every packet is restored exactly. *)
Theorem packet_roundtrip p : packet_ok p -> deserialize (type_of p) (do_serialize p) = Some p.
Proof.
  destruct p as [|c a w e| |e s|s o e st er c]; intros H; try reflexivity; simpl in H.
  - destruct H as (H1 & H2 & H3 & H4). unfold deserialize.
    change (type_of (StartProcess c a w e)) with tStart. simpl N.eqb. cbv iota. apply run_reads. cbn [do_serialize].
    eapply reads_bind; [apply reads_String; auto|]. eapply reads_bind; [apply reads_List; auto|].
    eapply reads_bind; [apply reads_String; auto|]. eapply reads_map; [apply reads_List; auto|]. reflexivity.
  - destruct H as (H1 & H2). unfold deserialize.
    change (type_of (ProcessError e s)) with tError. simpl N.eqb. cbv iota. apply run_reads. cbn [do_serialize].
    eapply reads_bind; [apply reads_U8; auto|]. eapply reads_map; [apply reads_String; auto|]. reflexivity.
  - destruct H as (H1 & H2 & H3 & H4 & H5 & H6). unfold deserialize.
    change (type_of (ProcessFinished s o e st er c)) with tFinished. simpl N.eqb. cbv iota. apply run_reads. cbn [do_serialize].
    eapply reads_bind; [apply reads_String; auto|]. eapply reads_bind; [apply reads_Bytes; auto|].
    eapply reads_bind; [apply reads_Bytes; auto|]. eapply reads_bind; [apply reads_U8; auto|].
    eapply reads_bind; [apply reads_U8; auto|]. eapply reads_map; [apply reads_I32; auto|]. reflexivity.
Qed.

(** ** Proofs: the packet parser *)

Lemma skipn_app_le {A} n (a b : list A) : n <= length a -> skipn n (a ++ b) = skipn n a ++ b.
Proof. intros H. rewrite skipn_app. replace (n - length a) with 0 by lia. reflexivity. Qed.
Lemma firstn_app_le {A} n (a b : list A) : n <= length a -> firstn n (a ++ b) = firstn n a.
Proof. intros H. rewrite firstn_app. replace (n - length a) with 0 by lia. rewrite firstn_O. apply app_nil_r. Qed.

Lemma skipn_skipn {A} a b (l : list A) : skipn a (skipn b l) = skipn (b + a) l.
Proof.
  revert l. induction b as [|b IH]; intros l; [reflexivity|]. destruct l; [destruct a; reflexivity|apply IH].
Qed.

Lemma take_more k a b x y : take k a = Some (x, y) -> take k (a ++ b) = Some (x, y ++ b).
Proof.
  unfold take. destruct (Nat.ltb_spec (length a) k); [discriminate|]. intros [= <- <-].
  rewrite app_length. destruct (Nat.ltb_spec (length a + length b) k); [lia|].
  rewrite firstn_app_le, skipn_app_le by lia. reflexivity.
Qed.
Lemma num_some {A} k (f : str -> A) a : k <= length a ->
  bind (take k) (fun s => ret (f s)) a = Some (f (firstn k a), skipn k a).
Proof. intros H. unfold bind, take. destruct (Nat.ltb_spec (length a) k); [lia|]. reflexivity. Qed.
Lemma num_none {A} k (f : str -> A) a : length a < k -> bind (take k) (fun s => ret (f s)) a = None.
Proof. intros H. unfold bind, take. destruct (Nat.ltb_spec (length a) k); [reflexivity|lia]. Qed.

Lemma parse_body_eq n s : common_size <= n ->
  parse_body n s =
  if length s <? n then NeedMore {| p_size := Some n; p_data := s |}
  else Got {| r_type := unbe (firstn 1 s); r_token := unbe (firstn 8 (skipn 1 s));
              r_data := firstn (n - common_size) (skipn common_size s) |}
           {| p_size := None; p_data := skipn n s |}.
Proof.
  unfold common_size. intros L. unfold parse_body. destruct (Nat.ltb_spec (length s) n); [reflexivity|].
  unfold rU8, rU64. rewrite num_some by lia. rewrite num_some by (rewrite skipn_length; lia).
  rewrite !skipn_skipn. unfold common_size. f_equal. f_equal. f_equal. lia.
Qed.

Definition wf (p : parser) : Prop := match p_size p with None => True | Some n => common_size <= n end.

Definition grow (p : parser) (b : str) : parser := {| p_size := p_size p; p_data := p_data p ++ b |}.

Lemma parse_grow p b : wf p ->
  match parse p with
  | NeedMore p' => wf p' /\ parse (grow p b) = parse (grow p' b) /\ length (p_data p') <= length (p_data p)
                   /\ (parse p' = NeedMore p')
  | BadSize z => parse (grow p b) = BadSize z
  | Got r p' => parse (grow p b) = Got r (grow p' b) /\ length (p_data p') < length (p_data p) /\ p_size p' = None
  end.
Proof.
  destruct p as [[n|] s]; unfold wf; cbn [p_size]; intros W.
  - unfold parse at 1, grow. cbn [p_size p_data]. rewrite parse_body_eq by auto.
    unfold common_size in W.
    destruct (Nat.ltb_spec (length s) n) as [H|H].
    + cbn [p_size p_data]. repeat split; auto. unfold parse. cbn [p_size p_data].
      rewrite parse_body_eq by auto. destruct (Nat.ltb_spec (length s) n); [reflexivity|lia].
    + unfold parse. cbn [p_size p_data]. rewrite parse_body_eq by auto. rewrite app_length.
      destruct (Nat.ltb_spec (length s + length b) n); [lia|]. split; [|split; [rewrite skipn_length; lia|reflexivity]].
      rewrite !skipn_app_le by (unfold common_size; lia).
      rewrite !firstn_app_le by (rewrite ?skipn_length; unfold common_size; lia). reflexivity.
  - unfold parse at 1. unfold rI32. cbn [p_size p_data].
    destruct (Nat.lt_ge_cases (length s) 4) as [L|L].
    + rewrite num_none by auto. repeat split; auto. unfold parse, rI32. cbn [p_size p_data]. now rewrite num_none.
    + rewrite num_some by auto. set (z := to_signed (unbe (firstn 4 s))).
      destruct (Z.ltb_spec z (Z.of_nat common_size)) as [H|H].
      * unfold parse, rI32, grow. cbn [p_size p_data]. rewrite num_some by (rewrite app_length; lia).
        rewrite firstn_app_le by auto. fold z. destruct (Z.ltb_spec z (Z.of_nat common_size)); [reflexivity|lia].
      * rewrite parse_body_eq by lia. set (n := Z.to_nat z). assert (Hn : common_size <= n) by (unfold n; lia).
        destruct (Nat.ltb_spec (length (skipn 4 s)) n) as [K|K].
        -- split; [exact Hn|]. split; [|split; [cbn [p_data]; rewrite skipn_length; lia|]].
           ++ unfold parse, rI32, grow. cbn [p_size p_data]. rewrite num_some by (rewrite app_length; lia).
              rewrite firstn_app_le, skipn_app_le by auto. fold z n.
              destruct (Z.ltb_spec z (Z.of_nat common_size)); [lia|reflexivity].
           ++ unfold parse. cbn [p_size p_data]. rewrite parse_body_eq by auto.
              destruct (Nat.ltb_spec (length (skipn 4 s)) n); [reflexivity|lia].
        -- cbn [p_data]. split; [|split; [rewrite !skipn_length; unfold common_size in *; lia|reflexivity]].
           unfold parse, rI32, grow. cbn [p_size p_data]. rewrite num_some by (rewrite app_length; lia).
           rewrite firstn_app_le, (skipn_app_le 4) by auto. fold z n.
           destruct (Z.ltb_spec z (Z.of_nat common_size)); [lia|]. rewrite parse_body_eq by auto.
           rewrite (app_length (skipn 4 s)). unfold common_size in *. destruct (Nat.ltb_spec (length (skipn 4 s) + length b) n); [lia|].
           rewrite !(skipn_app_le _ (skipn 4 s)) by lia.
           rewrite !firstn_app_le by (rewrite ?(skipn_length _ (skipn 4 s)); lia). reflexivity.
Qed.

Section Side.
  Variable side : N -> verdict.

  Lemma grow_nil p : grow p [] = p.
  Proof. destruct p. unfold grow. cbn. now rewrite app_nil_r. Qed.

  Lemma loop_fuel k1 : forall k2 p, wf p -> length (p_data p) < k1 -> length (p_data p) < k2 ->
    loop side k1 p = loop side k2 p.
  Proof.
    induction k1 as [|k1 IH]; intros [|k2] p W L1 L2; try lia. cbn [loop].
    pose proof (parse_grow p [] W) as H. destruct (parse p) as [p'|z|r p']; auto.
    destruct (side (r_type r)); auto. destruct H as (_ & H & H'). rewrite (IH k2); auto; try lia.
    unfold wf. now rewrite H'.
  Qed.

  Definition same (x y : list event * receiver) : Prop :=
    fst x = fst y /\ rc_closed (snd x) = rc_closed (snd y) /\ (rc_closed (snd x) = false -> snd x = snd y).
  Lemma same_refl x : same x x. Proof. unfold same. auto. Qed.
  Lemma same_trans x y z : same x y -> same y z -> same x z.
  Proof.
    unfold same. intros (A & B & C) (A' & B' & C'). split; [congruence|]. split; [congruence|].
    intros D. rewrite C by auto. apply C'. congruence.
  Qed.

  Definition ok (rc : receiver) : Prop := rc_closed rc = false -> wf (rc_parser rc).
  Lemma loop_ok k : forall p, wf p -> ok (snd (loop side k p)).
  Proof.
    induction k as [|k IH]; intros p W; [intros _; exact W|]. cbn [loop].
    pose proof (parse_grow p [] W) as H. destruct (parse p) as [p'|z|r p']; cbn [snd].
    - intros _. apply H.
    - intros D. discriminate D.
    - destruct (side (r_type r)); try (intros D; discriminate D).
      specialize (IH p'). destruct (loop side k p'). apply IH. unfold wf. destruct H as (_ & _ & ->). exact I.
  Qed.

  Lemma feed_eq rc b : rc_closed rc = false ->
    feed side rc b = loop side (S (length (p_data (grow (rc_parser rc) b)))) (grow (rc_parser rc) b).
  Proof. intros D. unfold feed. rewrite D. reflexivity. Qed.

  (** A loop that stops for want of data makes no difference. *)
  Lemma loop_app k : forall p b, wf p -> length (p_data p) < k ->
    let (es, rc) := loop side k p in
    same (let (es', rc') := feed side rc b in (es ++ es', rc')) (loop side (S (length (p_data (grow p b)))) (grow p b)).
  Proof.
    induction k as [|k IH]; intros p b W L; [lia|]. cbn [loop].
    pose proof (parse_grow p b W) as H. destruct (parse p) as [p'|z|r p'] eqn:E.
    - destruct H as (W' & H & Lp & _). rewrite feed_eq by reflexivity. cbn [rc_parser].
      change (same (let (es', rc') := loop side (S (length (p_data (grow p' b)))) (grow p' b) in ([] ++ es', rc'))
                   (loop side (S (length (p_data (grow p b)))) (grow p b))).
      assert (G : wf (grow p' b)) by exact W'.
      rewrite (loop_fuel (S (length (p_data (grow p' b)))) (S (length (p_data (grow p b)))));
        [|exact G|lia|cbn; rewrite !app_length; lia].
      cbn [loop]. rewrite H. destruct (parse (grow p' b)) as [q|z|r q].
      1: apply same_refl. 1: unfold same; cbn; repeat split; auto; discriminate.
      destruct (side (r_type r)); try apply same_refl. destruct (loop side _ q). apply same_refl.
    - rewrite H. unfold feed. cbn [rc_closed]. unfold same. cbn. repeat split; auto. discriminate.
    - destruct H as (H & Lp & Sp). rewrite H.
      assert (W' : wf p') by (unfold wf; now rewrite Sp).
      destruct (side (r_type r)).
      + specialize (IH p' b W' ltac:(lia)). destruct (loop side k p') as [es rc].
        rewrite (loop_fuel (length (p_data (grow p b))) (S (length (p_data (grow p' b)))));
          [|exact W'|cbn; rewrite !app_length; lia|lia].
        destruct (feed side rc b) as [es' rc']. destruct (loop side _ (grow p' b)) as [e2 r2].
        unfold same in *. cbn [fst snd] in *. destruct IH as (A & B & C). subst e2. auto.
      + unfold feed. cbn [rc_closed]. unfold same. cbn. repeat split; auto. discriminate.
      + unfold feed. cbn [rc_closed]. unfold same. cbn. repeat split; auto. discriminate.
  Qed.

  Lemma feed_app rc a b : ok rc ->
    same (let (es, r1) := feed side rc a in let (es', r2) := feed side r1 b in (es ++ es', r2))
         (feed side rc (a ++ b)).
  Proof.
    intros O. destruct (rc_closed rc) eqn:D.
    - unfold feed at 1 3. rewrite D. unfold feed. rewrite D. apply same_refl.
    - rewrite (feed_eq rc a D), (feed_eq rc (a ++ b) D).
      pose proof (loop_app (S (length (p_data (grow (rc_parser rc) a)))) (grow (rc_parser rc) a) b (O D) ltac:(lia)) as H.
      destruct (loop side (S (length (p_data (grow (rc_parser rc) a)))) (grow (rc_parser rc) a)) as [es r1].
      replace (grow (rc_parser rc) (a ++ b)) with (grow (grow (rc_parser rc) a) b); [exact H|].
      unfold grow. cbn [p_data p_size]. now rewrite app_assoc.
  Qed.

  Lemma feed_ok rc c : ok rc -> ok (snd (feed side rc c)).
  Proof.
    intros O. destruct (rc_closed rc) eqn:D; [unfold feed; rewrite D; exact O|].
    rewrite feed_eq by auto. apply loop_ok. exact (O D).
  Qed.

  Lemma feed_all_one chunks : forall rc, ok rc -> chunks <> [] ->
    same (feed_all side rc chunks) (feed side rc (concat chunks)).
  Proof.
    induction chunks as [|c cs IH]; intros r O N; [congruence|]. cbn [feed_all concat].
    pose proof (feed_ok r c O) as O1. destruct cs as [|c' cs'].
    - cbn [feed_all concat]. rewrite app_nil_r. destruct (feed side r c) as [es r1]. rewrite app_nil_r. apply same_refl.
    - eapply same_trans; [|apply feed_app; auto]. destruct (feed side r c) as [es r1]. cbn [snd] in O1.
      specialize (IH r1 O1 ltac:(discriminate)). destruct (feed_all side r1 (c' :: cs')) as [e2 r2].
      destruct (feed side r1 (concat (c' :: cs'))) as [e3 r3]. unfold same in *. cbn [fst snd] in *.
      destruct IH as (-> & B & C). auto.
  Qed.
  Lemma feed_all_start chunks : same (feed_all side start chunks) (feed side start (concat chunks)).
  Proof. destruct chunks as [|c cs]; [apply same_refl|]. apply feed_all_one; [intros _; exact I|discriminate]. Qed.

  Definition raw_of (m : message) : raw :=
    {| r_type := type_of (snd m); r_token := fst m; r_data := do_serialize (snd m) |}.

  Lemma type_small p : (type_of p < 256)%N. Proof. destruct p; reflexivity. Qed.

  Lemma parse_message m rest : message_ok m ->
    parse {| p_size := None; p_data := serialize (fst m) (snd m) ++ rest |}
    = Got (raw_of m) {| p_size := None; p_data := rest |}.
  Proof.
    destruct m as [tok p]. intros (T & P & L). cbn [fst snd] in *. unfold serialize in *. cbv zeta in *.
    set (body := wU8 (type_of p) ++ wU64 tok ++ do_serialize p) in *.
    rewrite app_length in L. unfold wI32 in L at 1. rewrite be_length in L.
    assert (Lb : length body = common_size + length (do_serialize p)).
    { unfold body. rewrite !app_length. unfold wU8, wU64. rewrite !be_length. reflexivity. }
    unfold parse. cbn [p_size p_data]. rewrite <- app_assoc, reads_I32 by lia.
    destruct (Z.ltb_spec (Z.of_nat (length body)) (Z.of_nat common_size)); [lia|]. rewrite Nat2Z.id.
    unfold parse_body. rewrite app_length. destruct (Nat.ltb_spec (length body + length rest) (length body)); [lia|].
    replace (length body - common_size) with (length (do_serialize p)) by lia.
    unfold body. rewrite <- !app_assoc, reads_U8 by apply type_small. rewrite reads_U64 by auto.
    rewrite firstn_app, skipn_app, firstn_all, skipn_all, Nat.sub_diag, firstn_O, skipn_O, app_nil_r. reflexivity.
  Qed.

  Definition handled (ms : list message) : Prop := Forall (fun m => message_ok m /\ side (type_of (snd m)) = Handle) ms.

  Lemma serialize_length tok p : 4 <= length (serialize tok p).
  Proof. unfold serialize. cbv zeta. rewrite app_length. unfold wI32. rewrite be_length. lia. Qed.

  Lemma feed_wire ms : forall t, handled ms ->
    feed side start (wire ms ++ t) = let (es, r) := feed side start t in (map (fun m => Packet (raw_of m)) ms ++ es, r).
  Proof.
    induction ms as [|m ms IH]; intros t Q.
    - change (wire [] ++ t) with t. destruct (feed side start t). reflexivity.
    - pose proof (Forall_inv Q) as [Q1 Q2]. pose proof (Forall_inv_tail Q) as Q'. specialize (IH t Q').
      destruct (feed side start t) as [es r] eqn:Et. rewrite feed_eq in * by reflexivity.
      change (wire (m :: ms)) with (serialize (fst m) (snd m) ++ wire ms). rewrite <- app_assoc.
      unfold grow in *. cbn [start rc_parser p_data p_size] in *. rewrite !app_nil_l in *.
      cbn [loop]. rewrite parse_message by auto. cbn [raw_of r_type]. rewrite Q2.
      rewrite (loop_fuel _ (S (length (wire ms ++ t)))); [rewrite IH; reflexivity|exact I| |cbn; lia].
      cbn [p_data]. rewrite (app_length (serialize _ _)). pose proof (serialize_length (fst m) (snd m)). lia.
  Qed.

  (** [t] is what has arrived so far of the next packet: not all of it. *)
  Definition unfinished (t : str) : Prop :=
    exists m u, message_ok m /\ u <> [] /\ t ++ u = serialize (fst m) (snd m).

  Lemma feed_unfinished t : unfinished t -> fst (feed side start t) = [] /\ rc_closed (snd (feed side start t)) = false.
  Proof.
    intros (m & u & M & U & E). rewrite feed_eq by reflexivity. unfold grow. cbn [start rc_parser p_data p_size].
    rewrite app_nil_l. cbn [loop].
    pose proof (parse_grow {| p_size := None; p_data := t |} u I) as H.
    pose proof (parse_message m [] M) as P. rewrite app_nil_r, <- E in P. unfold grow in H. cbn [p_data p_size] in H.
    destruct (parse {| p_size := None; p_data := t |}) as [p'|z|r p']; auto.
    - congruence.
    - destruct H as [H _]. rewrite P in H. injection H as _ _ H. symmetry in H. apply app_eq_nil in H. tauto.
  Qed.
End Side.

(** ** Theorems *)

(** C35.  For both ends of the connection: the packets delivered are exactly the completely received ones, in
    order, with type, token and every field unchanged.  [t] is the part of the next packet in transit. *)
Theorem launcher_framing side chunks ms t :
  handled side ms -> unfinished t -> concat chunks = wire ms ++ t ->
  map decoded (fst (feed_all side start chunks)) = map Some ms.
Proof.
  intros H U E. destruct (feed_all_start side chunks) as (A & _). rewrite A, E, feed_wire by auto.
  destruct (feed_unfinished side t U) as [B _]. destruct (feed side start t) as [es r]. cbn [fst] in *. subst es.
  rewrite app_nil_r, map_map. apply map_ext_in. intros [tok p] Hm. unfold decoded, raw_of. cbn [r_type r_token r_data fst snd].
  rewrite packet_roundtrip; [reflexivity|].
  apply (proj1 (Forall_forall _ _) H) in Hm. apply Hm.
Qed.

(** Nothing is left over once everything sent has arrived. *)
Theorem launcher_reusable side chunks ms :
  handled side ms -> concat chunks = wire ms -> snd (feed_all side start chunks) = start.
Proof.
  intros H E. destruct (feed_all_start side chunks) as (A & B & C).
  assert (F : feed side start (concat chunks) = (map (fun m => Packet (raw_of m)) ms, start)).
  { pose proof (feed_wire side ms [] H) as F. rewrite app_nil_r in F. rewrite E, F.
    change (feed side start []) with (@nil event, start). cbv iota. now rewrite app_nil_r. }
  rewrite F in *. apply C. rewrite B. reflexivity.
Qed.

(** A shutdown request ends the conversation: it is delivered, and nothing after it is. *)
Theorem launcher_shutdown chunks ms rest :
  handled launcher_side ms -> concat chunks = wire ms ++ serialize 0 Shutdown ++ rest ->
  map decoded (fst (feed_all launcher_side start chunks)) = map Some (ms ++ [(0%N, Shutdown)])
  /\ rc_closed (snd (feed_all launcher_side start chunks)) = true.
Proof.
  intros H E. destruct (feed_all_start launcher_side chunks) as (A & B & _). rewrite A, B, E, feed_wire by auto.
  assert (M : message_ok (0%N, Shutdown)) by (repeat split; simpl; lia).
  rewrite feed_eq by reflexivity. unfold grow. cbn [start rc_parser p_data p_size]. rewrite app_nil_l. cbn [loop].
  pose proof (parse_message (0%N, Shutdown) rest M) as P. cbn [fst snd] in P. rewrite P.
  cbn [fst snd rc_closed raw_of type_of r_type]. change (launcher_side tShutdown) with HandleLast.
  split; [|reflexivity]. cbv iota. cbn [fst]. rewrite !map_app, map_map. f_equal.
  apply map_ext_in. intros [tok p] Hm. unfold decoded, raw_of. cbn [r_type r_token r_data fst snd].
  rewrite packet_roundtrip; [reflexivity|]. apply (proj1 (Forall_forall _ _) H) in Hm. apply Hm.
Qed.

(** Only the bytes matter, even of a malformed stream. *)
Theorem launcher_chunks_irrelevant side chunks chunks' :
  concat chunks = concat chunks' -> fst (feed_all side start chunks) = fst (feed_all side start chunks').
Proof.
  intros E. destruct (feed_all_start side chunks) as (A & _). destruct (feed_all_start side chunks') as (B & _).
  rewrite A, B, E. reflexivity.
Qed.

(** A packet of a type the receiver does not expect is refused. *)
Theorem launcher_refuses side chunks ms m rest :
  handled side ms -> message_ok m -> side (type_of (snd m)) = Refuse ->
  concat chunks = wire ms ++ serialize (fst m) (snd m) ++ rest ->
  fst (feed_all side start chunks) = map (fun m => Packet (raw_of m)) ms ++ [TypeError (type_of (snd m))].
Proof.
  intros H M R E. destruct (feed_all_start side chunks) as (A & _). rewrite A, E, feed_wire by auto.
  rewrite feed_eq by reflexivity. unfold grow. cbn [start rc_parser p_data p_size]. rewrite app_nil_l. cbn [loop].
  rewrite parse_message by auto. cbn [raw_of r_type]. rewrite R. reflexivity.
Qed.

(** ** A concrete conversation *)
Module Demo.
  Local Open Scope N_scope.
  Definition m1 : message := (4886718345, StartProcess (Some [108; 115]) [Some [97]; None; Some []] None [Some [65; 61; 8364]]).
  Definition m2 : message := (7, StopProcess).
  Definition m3 : message := (7, ProcessFinished None (Some [104; 105; 0]) (Some []) 0 5 (-1)%Z).
  Definition bytes := wire [m1; m2].
  Definition chunks : list str := [firstn 3 bytes; firstn 8 (skipn 3 bytes); []; skipn 11 bytes ++ [0; 0]].
  Example handled12 : handled launcher_side [m1; m2].
  Proof. repeat constructor; simpl; try reflexivity; lia. Qed.
  Example handled3 : handled qbs_side [m3].
  Proof. repeat constructor; simpl; try reflexivity; try lia. Qed.
  Example in_transit : unfinished [0; 0].
  Proof. exists m2, (skipn 2 (serialize 7 StopProcess)). repeat split; simpl; try discriminate; try reflexivity; lia. Qed.
  Example cut : concat chunks = wire [m1; m2] ++ [0; 0]. Proof. vm_compute. reflexivity. Qed.
  Example delivered : map decoded (fst (feed_all launcher_side start chunks)) = [Some m1; Some m2].
  Proof. vm_compute. reflexivity. Qed.
  Example refused : qbs_side (type_of (snd m2)) = Refuse. Proof. reflexivity. Qed.
  Example size_error : fst (feed_all qbs_side start [[0; 0]; [0; 8; 3]]) = [SizeError 8%Z].
  Proof. vm_compute. reflexivity. Qed.
End Demo.

Print Assumptions packet_roundtrip.
Print Assumptions launcher_framing.
Print Assumptions launcher_reusable.
Print Assumptions launcher_shutdown.
Print Assumptions launcher_chunks_irrelevant.
Print Assumptions launcher_refuses.
