(** The language server receives exactly the messages that were sent, however the stream is cut up. *)
From Coq Require Import List Bool Arith NArith ZArith Lia.
From Verif Require Import Str Bytes LspModel.
Import ListNotations.

(** ** Specification *)

(** The fields of a message header, in any order: the content length, and others, of which the content type must name
    a known character set if it names one. *)
Inductive field := Length | Field (name value : str).

Definition line (body : str) (f : field) : str :=
  match f with
  | Length => [67; 111; 110; 116; 101; 110; 116; 45; 76; 101; 110; 103; 116; 104; 58; 32]%N
              ++ dec (N.of_nat (length body)) ++ [13; 10]%N
  | Field n v => n ++ [58; 32]%N ++ v ++ [13; 10]%N
  end.

Section Codecs.
  Variable known : str -> bool.

  Definition field_ok (f : field) : Prop :=
    match f with
    | Length => True
    | Field n v =>
        n <> [] /\ Forall (fun c => is_space c = false /\ c <> 58%N) n /\ n <> length_name /\ ~ In 10%N v
        /\ (n = type_name -> type_error known (trimmed v) = false)
    end.

  Definition sent := (list field * str)%type.
  Definition head (m : sent) : str := concat (map (line (snd m)) (fst m)) ++ [13; 10]%N.
  Definition encoded (m : sent) : str := head m ++ snd m.
  Definition sent_ok (m : sent) : Prop :=
    Forall field_ok (fst m) /\ In Length (fst m) /\ (Z.of_nat (length (snd m)) <= int_max)%Z.
  Definition wire (ms : list sent) : str := concat (map encoded ms).

  (** The messages among the events. *)
  Definition messages (es : list event) : list str :=
    flat_map (fun e => match e with Message c => [c] | ParseError => [] end) es.

  (** ** Proofs *)

  Lemma ltrim_app_space s t : Forall (fun c => is_space c = true) s -> ltrim (s ++ t) = ltrim t.
  Proof. intros F. induction F as [|c s H F IH]; simpl; auto. now rewrite H. Qed.
  Lemma ltrim_nonspace s : match s with [] => True | c :: _ => is_space c = false end -> ltrim s = s.
  Proof. destruct s as [|c s]; simpl; auto. now intros ->. Qed.
  Lemma rev_crlf v : rev (v ++ [13; 10]%N) = [10; 13]%N ++ rev v.
  Proof. now rewrite rev_app_distr. Qed.
  Lemma ltrim_cases s t : ltrim (s ++ t) = ltrim s ++ t \/ (ltrim s = [] /\ ltrim (s ++ t) = ltrim t).
  Proof.
    induction s as [|c s IH]; simpl; [right; auto|]. destruct (is_space c); [exact IH|left; reflexivity].
  Qed.
  Lemma trimmed_crlf v : trimmed (v ++ [13; 10]%N) = trimmed v.
  Proof.
    unfold trimmed. destruct (ltrim_cases v [13; 10]%N) as [E|[E1 E2]].
    - rewrite E, rev_crlf. now rewrite ltrim_app_space by (repeat constructor).
    - rewrite E1, E2. reflexivity.
  Qed.
  Lemma trimmed_id n : Forall (fun c => is_space c = false) n -> trimmed n = n.
  Proof.
    intros F. assert (G : Forall (fun c => is_space c = false) (rev n)) by now apply Forall_rev.
    unfold trimmed. rewrite (ltrim_nonspace n) by (destruct F; auto).
    rewrite (ltrim_nonspace (rev n)) by (destruct G; auto). apply rev_involutive.
  Qed.

  Lemma index_sep n t : Forall (fun c => c <> 58%N) n -> index_of field_separator (n ++ field_separator ++ t) = Some (length n).
  Proof.
    intros F. induction F as [|c n H F IH].
    - rewrite app_nil_l. apply index_of_head.
    - cbn [app length]. cbn [index_of field_separator starts_with].
      destruct (N.eqb_spec 58 c) as [E|E]; [congruence|]. cbn [andb]. now rewrite IH.
  Qed.
  Lemma split_line_field n v : Forall (fun c => c <> 58%N) n -> split_line (n ++ field_separator ++ v) = (n, v).
  Proof.
    intros F. unfold split_line. rewrite index_sep by auto.
    rewrite firstn_app, Nat.sub_diag, firstn_all, firstn_O, app_nil_r. f_equal.
    rewrite app_assoc, skipn_app, skipn_all2 by (rewrite app_length; lia). rewrite app_length, Nat.sub_diag. reflexivity.
  Qed.

  Lemma digit_nonspace c : is_digit c = true -> is_space c = false.
  Proof.
    unfold is_digit, is_space. rewrite andb_true_iff, !N.leb_le. intros [A B].
    destruct (N.leb_spec 9 c), (N.leb_spec c 13), (N.eqb_spec c 32); simpl; auto; lia.
  Qed.

  (** The effect of each kind of line. *)
  Lemma header_length m err body : (Z.of_nat (length body) <= int_max)%Z ->
    header_line known m err (line body Length) = ({| m_length := Z.of_nat (length body); m_content := m_content m |}, err).
  Proof.
    intros L. unfold header_line. change (line body Length) with (length_name ++ field_separator ++ dec (N.of_nat (length body)) ++ [13; 10]%N).
    rewrite split_line_field by (repeat constructor; discriminate).
    change (trimmed length_name) with length_name.
    rewrite trimmed_crlf, trimmed_id.
    2:{ eapply Forall_impl; [|apply dec_digits]. intros c. apply digit_nonspace. }
    change (str_eqb length_name []) with false. rewrite str_eqb_refl.
    rewrite to_int_dec by (now rewrite nat_N_Z). now rewrite nat_N_Z.
  Qed.
  Lemma header_field m err body n v : field_ok (Field n v) -> header_line known m err (line body (Field n v)) = (m, err).
  Proof.
    intros (N1 & F & N2 & _ & T). unfold header_line. cbn [line].
    change (n ++ [58; 32]%N ++ v ++ [13; 10]%N) with (n ++ field_separator ++ v ++ [13; 10]%N).
    rewrite split_line_field by (eapply Forall_impl; [|exact F]; intros c H; apply H).
    rewrite (trimmed_id n) by (eapply Forall_impl; [|exact F]; intros c H; apply H).
    rewrite (proj2 (str_eqb_neq n [])), (proj2 (str_eqb_neq n length_name)) by auto.
    rewrite trimmed_crlf. destruct (str_eqb n type_name) eqn:E; auto.
    apply str_eqb_eq in E. rewrite (T E), orb_false_r. reflexivity.
  Qed.

  Lemma read_line_full l t : ~ In 10%N l -> read_line (l ++ 10%N :: t) = (l ++ [10%N], t).
  Proof.
    induction l as [|c l IH]; intros H; simpl; auto.
    destruct (N.eqb_spec c 10) as [E|E]; [exfalso; apply H; left; congruence|].
    rewrite IH; auto. intros K. apply H. now right.
  Qed.
  Lemma read_line_partial l : ~ In 10%N l -> read_line l = (l, []).
  Proof.
    induction l as [|c l IH]; intros H; simpl; auto.
    destruct (N.eqb_spec c 10) as [E|E]; [exfalso; apply H; left; congruence|].
    rewrite IH; auto. intros K. apply H. now right.
  Qed.

  (** Every line is some text without a newline, and a newline. *)
  Lemma line_shape body f : field_ok f -> exists l, line body f = l ++ [10%N] /\ ~ In 10%N l /\ line body f <> crlf
    /\ 2 < length (line body f).
  Proof.
    destruct f as [|n v]; intros H.
    - exists (length_name ++ field_separator ++ dec (N.of_nat (length body)) ++ [13%N]). repeat split.
      + unfold line. now rewrite <- !app_assoc.
      + rewrite !in_app_iff. intros [K|[K|[K|K]]].
        * revert K. simpl. intuition discriminate.
        * revert K. simpl. intuition discriminate.
        * revert K. now apply dec_no_char.
        * revert K. simpl. intuition discriminate.
      + discriminate.
      + unfold line. rewrite app_length. simpl. lia.
    - destruct H as (N1 & F & N2 & V & T). exists (n ++ [58; 32]%N ++ v ++ [13%N]). repeat split.
      + cbn [line]. now rewrite <- !app_assoc.
      + rewrite !in_app_iff. intros [K|[K|[K|K]]]; auto.
        * apply (proj1 (Forall_forall _ _) F) in K. now destruct K.
        * revert K. simpl. intuition discriminate.
        * revert K. simpl. intuition discriminate.
      + cbn [line]. intros E. apply (f_equal (@length N)) in E. rewrite !app_length in E. simpl in E. lia.
      + cbn [line]. rewrite !app_length. simpl. destruct n; [congruence|simpl; lia].
  Qed.

  (** Scanning a whole header. *)
  Definition after (body : str) (m : message) (f : field) : message :=
    match f with
    | Length => {| m_length := Z.of_nat (length body); m_content := m_content m |}
    | Field _ _ => m
    end.
  Lemma header_step m body f : field_ok f -> (Z.of_nat (length body) <= int_max)%Z ->
    header_line known m false (line body f) = (after body m f, false).
  Proof. intros F L. destruct f; [now apply header_length|now apply header_field]. Qed.

  Lemma scan_full fs body x (L : (Z.of_nat (length body) <= int_max)%Z) : Forall field_ok fs ->
    forall fuel m, length (concat (map (line body) fs) ++ crlf ++ x) < fuel ->
    scan known fuel m false (concat (map (line body) fs) ++ crlf ++ x) = Separator (fold_left (after body) fs m) false x.
  Proof.
    intros F. induction F as [|f fs Hf F IH]; intros fuel m Hl.
    - destruct fuel as [|fuel]; [lia|]. cbn [map concat app fold_left]. reflexivity.
    - destruct fuel as [|fuel]; [lia|]. cbn [map concat fold_left]. cbn [map concat] in Hl. rewrite <- app_assoc in *.
      destruct (line_shape body f Hf) as (l & E & Nl & Nc & Ln).
      set (r := concat (map (line body) fs) ++ crlf ++ x) in *.
      assert (RL : read_line (line body f ++ r) = (line body f, r)).
      { rewrite E, <- app_assoc. cbn [app]. now rewrite read_line_full. }
      cbn [scan]. destruct (line body f ++ r) as [|c0 r0] eqn:Es.
      { apply app_eq_nil in Es. destruct Es as [Es _]. rewrite Es in Ln. simpl in Ln. lia. }
      rewrite RL, (proj2 (str_eqb_neq _ _) Nc), header_step by auto.
      apply IH. assert (length (line body f ++ r) = S (length r0)) by now rewrite Es.
      rewrite app_length in H. simpl in Hl. lia.
  Qed.

  Lemma scan_cons fuel m err s : s <> [] ->
    scan known (S fuel) m err s = let (line, rest) := read_line s in
      if str_eqb line crlf then Separator m err rest
      else let (m', err') := header_line known m err line in scan known fuel m' err' rest.
  Proof. destruct s; [congruence|reflexivity]. Qed.

  (** A header that has not arrived completely ends before the empty line. *)
  Lemma scan_partial fs body : Forall field_ok fs ->
    forall fuel m err s u, s ++ u = concat (map (line body) fs) ++ crlf -> u <> [] ->
    exists err', scan known fuel m err s = AtEnd err'.
  Proof.
    intros F. induction F as [|f fs Hf F IH]; intros fuel m err s u E U.
    - destruct fuel as [|fuel]; [cbn [scan]; eauto|]. cbn [map concat app] in E.
      destruct s as [|c s]; [cbn; eauto|]. destruct s as [|c' s].
      + cbn [app] in E. injection E as -> _. cbn. destruct fuel; simpl; eauto.
      + cbn [app] in E. injection E as -> -> E. apply app_eq_nil in E. tauto.
    - destruct fuel as [|fuel]; [cbn [scan]; eauto|]. cbn [map concat] in E. rewrite <- app_assoc in E.
      destruct (line_shape body f Hf) as (l & El & Nl & Nc & Ln).
      destruct s as [|c s]; [cbn; eauto|]. assert (Es0 : c :: s <> []) by discriminate. set (s0 := c :: s) in *. clearbody s0.
      destruct (Nat.lt_ge_cases (length s0) (length (line body f))) as [H|H].
      + (* inside this line *)
        assert (Ns : ~ In 10%N s0).
        { intros K. apply Nl. apply (f_equal (firstn (length s0))) in E.
          rewrite firstn_app, Nat.sub_diag, firstn_all, firstn_O, app_nil_r in E.
          rewrite El in E, H. rewrite app_length in H. simpl in H.
          rewrite <- app_assoc, firstn_app in E. replace (length s0 - length l) with 0 in E by lia.
          rewrite firstn_O, app_nil_r in E. rewrite E in K.
          rewrite <- (firstn_skipn (length s0) l). apply in_or_app. now left. }
        rewrite scan_cons by exact Es0. rewrite read_line_partial by auto.
        replace (str_eqb s0 crlf) with false.
        2:{ symmetry. apply str_eqb_neq. intros ->. apply Ns. right. now left. }
        destruct (header_line known m err s0) as [m' err']. destruct fuel; cbn; eauto.
      + (* beyond it *)
        pose proof (f_equal (firstn (length (line body f))) E) as E1.
        pose proof (f_equal (skipn (length (line body f))) E) as E2.
        rewrite !firstn_app, Nat.sub_diag, firstn_all, firstn_O, app_nil_r in E1.
        replace (length (line body f) - length s0) with 0 in E1 by lia. rewrite firstn_O, app_nil_r in E1.
        rewrite !skipn_app, Nat.sub_diag, skipn_all, skipn_O, app_nil_l in E2.
        replace (length (line body f) - length s0) with 0 in E2 by lia. rewrite skipn_O in E2.
        assert (S0 : s0 = line body f ++ skipn (length (line body f)) s0).
        { rewrite <- E1 at 1. symmetry. apply firstn_skipn. }
        set (r := skipn (length (line body f)) s0) in *.
        assert (RL : read_line s0 = (line body f, r)).
        { rewrite S0, El, <- app_assoc. cbn [app]. now rewrite read_line_full. }
        rewrite scan_cons by exact Es0. rewrite RL, (proj2 (str_eqb_neq _ _) Nc).
        destruct (header_line known m err (line body f)) as [m' err']. exact (IH fuel m' err' r u E2 U).
  Qed.

  Lemma after_length fs body : In Length fs -> forall m, m_length (fold_left (after body) fs m) = Z.of_nat (length body).
  Proof.
    assert (K : forall fs m, m_length m = Z.of_nat (length body) -> m_length (fold_left (after body) fs m) = Z.of_nat (length body)).
    { induction fs0 as [|f fs0 IH]; intros m H; auto. cbn [fold_left]. apply IH. destruct f; auto. }
    induction fs as [|f fs IH]; intros H m; [destruct H|]. cbn [fold_left]. destruct H as [->|H].
    - apply K. reflexivity.
    - now apply IH.
  Qed.

  Lemma parse_full m x : sent_ok m ->
    parse known no_message (head m ++ x)
    = ({| m_length := Z.of_nat (length (snd m)); m_content := firstn (length (snd m)) x |}, false, skipn (length (snd m)) x).
  Proof.
    destruct m as [fs body]. intros (F & I & L). cbn [fst snd] in *. unfold parse, head. cbn [is_valid no_message m_length fst snd].
    change (0 <=? -1)%Z with false. cbv iota. rewrite <- app_assoc.
    change ([13; 10]%N ++ x) with (crlf ++ x). rewrite scan_full by (auto; lia).
    unfold is_valid. rewrite after_length by auto.
    destruct (Z.leb_spec 0 (Z.of_nat (length body))); [|lia]. rewrite Nat2Z.id. reflexivity.
  Qed.
  Lemma parse_partial m s u : sent_ok m -> s ++ u = head m -> u <> [] ->
    exists err, parse known no_message s = (no_message, err, s).
  Proof.
    destruct m as [fs body]. intros (F & I & L) E U. unfold parse. cbn [is_valid no_message m_length].
    change (0 <=? -1)%Z with false. cbv iota.
    destruct (scan_partial fs body F (S (length s)) no_message false s u E U) as [err Q].
    exists err. rewrite Q. reflexivity.
  Qed.

  (** What the server remembers of the undelivered messages [rem] of which [R] has not arrived yet. *)
  Definition remembers (s : server) (rem : list sent) (R : str) : Prop :=
    match rem with
    | [] => s = start /\ R = []
    | m :: rest =>
        (s_message s = no_message /\ s_unread s ++ R = wire rem /\ length (s_unread s) < length (head m))
        \/ (m_length (s_message s) = Z.of_nat (length (snd m)) /\ s_unread s = []
            /\ m_content (s_message s) ++ R = snd m ++ wire rest
            /\ length (m_content (s_message s)) < length (snd m))
    end.

  Lemma head_length m : 2 <= length (head m).
  Proof. unfold head. rewrite app_length. simpl. lia. Qed.

  Lemma split_prefix {A} (a b x y : list A) : a ++ b = x ++ y -> length x <= length a ->
    exists t, a = x ++ t /\ t ++ b = y.
  Proof.
    revert a. induction x as [|c x IH]; intros a E L.
    - exists a. auto.
    - destruct a as [|c' a]; [simpl in L; lia|]. cbn in E. injection E as -> E. simpl in L.
      destruct (IH a E ltac:(lia)) as (t & -> & T). exists t. auto.
  Qed.
  Lemma split_short {A} (a b x y : list A) : a ++ b = x ++ y -> length a < length x ->
    exists u, a ++ u = x /\ u <> [] /\ b = u ++ y.
  Proof.
    intros E L. destruct (split_prefix x y a b (eq_sym E) ltac:(lia)) as (t & -> & T).
    exists t. rewrite app_length in L. repeat split; auto. destruct t; [simpl in L; lia|discriminate].
  Qed.

  (** Processing unread data that starts at a message boundary. *)
  Lemma handle_fresh rem : forall fuel d R, Forall sent_ok rem -> d ++ R = wire rem -> length d < fuel ->
    exists es s' r1 r2, handle known fuel {| s_unread := d; s_message := no_message |} = (es, s')
      /\ rem = r1 ++ r2 /\ messages es = map snd r1 /\ remembers s' r2 R
      /\ (R = [] -> es = map Message (map snd r1)).
  Proof.
    induction rem as [|m rest IH]; intros fuel d R F E Hf.
    - cbn in E. apply app_eq_nil in E. destruct E as [-> ->]. destruct fuel as [|fuel]; [simpl in Hf; lia|].
      exists [], start, [], []. cbn. repeat split; auto.
    - pose proof (Forall_inv F) as M. pose proof (Forall_inv_tail F) as F'.
      destruct fuel as [|fuel]; [lia|]. pose proof E as E0.
      change (wire (m :: rest)) with (encoded m ++ wire rest) in E. unfold encoded in E. rewrite <- app_assoc in E.
      destruct (Nat.lt_ge_cases (length d) (length (head m))) as [H|H].
      + destruct (split_short _ _ _ _ E H) as (u & E1 & U & E2).
        destruct (parse_partial m d u M E1 U) as [err P]. cbn [handle s_message s_unread]. rewrite P.
        assert (RN : R <> []) by (rewrite E2; destruct u; [congruence|discriminate]).
        destruct err.
        * exists [ParseError], {| s_unread := d; s_message := no_message |}, [], (m :: rest). repeat split; auto.
          -- left. cbn [s_message s_unread]. auto.
          -- congruence.
        * exists [], {| s_unread := d; s_message := no_message |}, [], (m :: rest). cbn. repeat split; auto.
      + destruct (split_prefix _ _ _ _ E H) as (x & -> & E2).
        cbn [handle s_message s_unread]. rewrite parse_full by auto.
        unfold is_complete, is_valid. cbn [m_length m_content].
        destruct (Z.leb_spec 0 (Z.of_nat (length (snd m)))); [|lia]. cbn [andb].
        rewrite firstn_length.
        destruct (Nat.lt_ge_cases (length x) (length (snd m))) as [K|K].
        * destruct (Z.eqb_spec (Z.of_nat (Nat.min (length (snd m)) (length x))) (Z.of_nat (length (snd m)))); [lia|].
          destruct (split_short _ _ _ _ E2 K) as (u & E3 & U & E4).
          exists [], {| s_unread := skipn (length (snd m)) x; s_message := {| m_length := Z.of_nat (length (snd m)); m_content := firstn (length (snd m)) x |} |}, [], (m :: rest).
          repeat split; auto. right. cbn [s_message s_unread m_length m_content].
          rewrite firstn_all2, skipn_all2 by lia. auto.
        * destruct (Z.eqb_spec (Z.of_nat (Nat.min (length (snd m)) (length x))) (Z.of_nat (length (snd m)))); [|lia].
          destruct (split_prefix _ _ _ _ E2 K) as (y & -> & E3).
          rewrite firstn_app, Nat.sub_diag, firstn_all, firstn_O, app_nil_r.
          rewrite skipn_app, Nat.sub_diag, skipn_all, skipn_O, app_nil_l.
          destruct (IH fuel y R F' E3) as (es & s' & r1 & r2 & A & B & C & D & G).
          { rewrite !app_length in Hf. pose proof (head_length m). lia. }
          rewrite A. exists (Message (snd m) :: es), s', (m :: r1), r2. repeat split; auto.
          -- cbn. now rewrite B.
          -- change (messages (Message (snd m) :: es)) with (snd m :: messages es). now rewrite C.
          -- intros R0. cbn. now rewrite (G R0).
  Qed.

  Lemma feed_remembers s rem d R : Forall sent_ok rem -> remembers s rem (d ++ R) ->
    exists es s' r1 r2, feed known s d = (es, s') /\ rem = r1 ++ r2 /\ messages es = map snd r1 /\ remembers s' r2 R.
  Proof.
    intros F H. destruct rem as [|m rest].
    - destruct H as [-> H]. apply app_eq_nil in H. destruct H as [-> ->]. exists [], start, [], []. cbn. repeat split; auto.
    - cbn [remembers] in H. destruct H as [(H1 & H2 & H3)|(H1 & H2 & H3 & H4)].
      + unfold feed. cbv zeta. rewrite H1. rewrite app_assoc in H2.
        destruct (handle_fresh (m :: rest) (S (S (length (s_unread s ++ d)))) (s_unread s ++ d) R F H2 ltac:(lia)) as (es & s' & r1 & r2 & A & B & C & D & _).
        eauto 10.
      + unfold feed. cbv zeta. rewrite H2, app_nil_l. remember (S (length d)) as fu eqn:Efu. cbn [handle s_message s_unread].
        destruct s as [un [ml mc]]. cbn [s_unread s_message m_length m_content] in *. subst ml un.
        unfold parse, is_valid. cbn [m_length m_content].
        destruct (Z.leb_spec 0 (Z.of_nat (length (snd m)))); [|lia]. rewrite Nat2Z.id.
        unfold is_complete, is_valid. cbn [m_length m_content].
        destruct (Z.leb_spec 0 (Z.of_nat (length (snd m)))); [|lia]. cbn [andb]. rewrite app_length, firstn_length.
        rewrite app_assoc in H3.
        destruct (Nat.lt_ge_cases (length (mc ++ d)) (length (snd m))) as [K|K]; rewrite app_length in K.
        * destruct (Z.eqb_spec (Z.of_nat (length mc + Nat.min (length (snd m) - length mc) (length d))) (Z.of_nat (length (snd m)))); [lia|].
          exists [], {| s_unread := skipn (length (snd m) - length mc) d; s_message := {| m_length := Z.of_nat (length (snd m)); m_content := mc ++ firstn (length (snd m) - length mc) d |} |}, [], (m :: rest).
          repeat split; auto. cbn [remembers]. right. cbn [s_message s_unread m_length m_content].
          rewrite firstn_all2, skipn_all2 by lia. rewrite app_length. auto.
        * destruct (Z.eqb_spec (Z.of_nat (length mc + Nat.min (length (snd m) - length mc) (length d))) (Z.of_nat (length (snd m)))); [|lia].
          destruct (split_prefix _ _ _ _ H3 ltac:(rewrite app_length; lia)) as (y & E1 & E2).
          assert (X : mc ++ firstn (length (snd m) - length mc) d = snd m /\ skipn (length (snd m) - length mc) d = y).
          { pose proof (f_equal (firstn (length (snd m))) E1) as Q1. pose proof (f_equal (skipn (length (snd m))) E1) as Q2.
            rewrite !firstn_app, Nat.sub_diag, firstn_all, firstn_O, app_nil_r in Q1.
            rewrite !skipn_app, Nat.sub_diag, skipn_all, skipn_O, app_nil_l in Q2.
            rewrite firstn_all2 in Q1 by lia. rewrite skipn_all2, app_nil_l in Q2 by lia. auto. }
          destruct X as [X1 X2]. rewrite X1, X2. pose proof (Forall_inv_tail F) as F'.
          destruct (handle_fresh rest fu y R F' E2) as (es & s' & r1 & r2 & A & B & C & D & _).
          { rewrite <- X2, skipn_length. lia. }
          rewrite A. exists (Message (snd m) :: es), s', (m :: r1), r2. repeat split; auto.
          -- cbn. now rewrite B.
          -- change (messages (Message (snd m) :: es)) with (snd m :: messages es). now rewrite C.
  Qed.

  Lemma feed_all_remembers chunks : forall s rem R, Forall sent_ok rem -> remembers s rem (concat chunks ++ R) ->
    exists es s' r1 r2, feed_all known s chunks = (es, s') /\ rem = r1 ++ r2 /\ messages es = map snd r1 /\ remembers s' r2 R.
  Proof.
    induction chunks as [|c cs IH]; intros s rem R F H.
    - exists [], s, [], rem. repeat split; auto.
    - cbn [concat] in H. rewrite <- app_assoc in H. cbn [feed_all].
      destruct (feed_remembers s rem c _ F H) as (es & s1 & r1 & r2 & A & B & C & D). rewrite A.
      assert (F2 : Forall sent_ok r2) by (rewrite B in F; now apply Forall_app in F).
      destruct (IH s1 r2 R F2 D) as (es' & s2 & q1 & q2 & A' & B' & C' & D'). rewrite A'.
      exists (es ++ es'), s2, (r1 ++ q1), q2. repeat split; auto.
      + rewrite B, B'. now rewrite app_assoc.
      + unfold messages in *. rewrite flat_map_app, C, C', map_app. reflexivity.
  Qed.

  Lemma start_remembers ms : remembers start ms (wire ms).
  Proof.
    destruct ms as [|m ms]; [split; reflexivity|]. left. repeat split; auto. cbn. pose proof (head_length m). lia.
  Qed.

  Lemma wire_app a b : wire (a ++ b) = wire a ++ wire b.
  Proof. unfold wire. now rewrite map_app, concat_app. Qed.

  (** How much of the stream the memory accounts for. *)
  Lemma remembers_length s rem R : remembers s rem R ->
    length R <= length (wire rem) /\ match rem with [] => True | m :: rest => length (wire rest) < length R end.
  Proof.
    destruct rem as [|m rest]; [intros [_ ->]; simpl; lia|].
    intros [(H1 & H2 & H3)|(H1 & H2 & H3 & H4)].
    - apply (f_equal (@length N)) in H2. rewrite app_length in H2.
      change (wire (m :: rest)) with (encoded m ++ wire rest) in *. unfold encoded in *. rewrite !app_length in *. lia.
    - apply (f_equal (@length N)) in H3.
      change (wire (m :: rest)) with (encoded m ++ wire rest). unfold encoded. rewrite !app_length in *. lia.
  Qed.

  (** [t] is what has arrived so far of the next message: not all of it. *)
  Definition unfinished (t : str) : Prop := exists m u, sent_ok m /\ u <> [] /\ t ++ u = encoded m.

  (** ** Theorems *)

  (** C36.  However the stream is cut up, the messages handled are exactly those that have arrived
      completely, in order and with their content unchanged. *)
  Theorem lsp_framing chunks ms t : Forall sent_ok ms -> unfinished t -> concat chunks = wire ms ++ t ->
    messages (fst (feed_all known start chunks)) = map snd ms.
  Proof.
    intros F (m & u & M & U & E) C.
    assert (W : concat chunks ++ u = wire (ms ++ [m])).
    { rewrite C, wire_app, <- app_assoc. unfold wire at 3. cbn. now rewrite app_nil_r, E. }
    assert (F' : Forall sent_ok (ms ++ [m])) by (apply Forall_app; auto).
    pose proof (start_remembers (ms ++ [m])) as H. rewrite <- W in H.
    destruct (feed_all_remembers chunks start (ms ++ [m]) u F' H) as (es & s' & r1 & r2 & A & B & D & G).
    rewrite A. cbn [fst]. rewrite D. f_equal.
    pose proof (remembers_length _ _ _ G) as [L1 L2].
    assert (LU : 0 < length u <= length (encoded m)).
    { rewrite <- E, app_length. destruct u; [congruence|]. simpl. lia. }
    destruct r2 as [|m1 rest]; [simpl in L1; lia|].
    destruct rest as [|m2 rest].
    - apply app_inj_tail in B. symmetry. apply B.
    - exfalso. (* then the last message would be among the rest *)
      destruct (exists_last (l := m2 :: rest) ltac:(discriminate)) as (q & z & Eq). rewrite Eq in *.
      assert (z = m).
      { assert (X : ms ++ [m] = (r1 ++ m1 :: q) ++ [z]) by (rewrite B, <- app_assoc; reflexivity).
        apply app_inj_tail in X. symmetry. apply X. }
      subst z. rewrite wire_app, app_length in L2. unfold wire in L2 at 2. cbn in L2. rewrite app_nil_r in L2. lia.
  Qed.

  (** When everything sent has arrived, nothing is left over. *)
  Theorem lsp_reusable chunks ms : Forall sent_ok ms -> concat chunks = wire ms ->
    messages (fst (feed_all known start chunks)) = map snd ms /\ snd (feed_all known start chunks) = start.
  Proof.
    intros F E. pose proof (start_remembers ms) as H. rewrite <- E, <- (app_nil_r (concat chunks)) in H.
    destruct (feed_all_remembers chunks start ms [] F H) as (es & s' & r1 & r2 & A & B & D & G).
    rewrite A. cbn [fst snd]. pose proof (remembers_length _ _ _ G) as [L1 L2].
    destruct r2 as [|m1 rest]; [|simpl in L2; lia]. rewrite app_nil_r in B. subst r1. split; auto. apply G.
  Qed.

  (** Messages that arrive whole are handled without an error response. *)
  Theorem lsp_whole_messages mss : Forall (Forall sent_ok) mss ->
    feed_all known start (map wire mss) = (map Message (map snd (concat mss)), start).
  Proof.
    intros F. induction F as [|ms mss H F IH]; [reflexivity|]. cbn [map feed_all concat].
    unfold feed. cbn [start s_unread s_message]. rewrite app_nil_l.
    destruct (handle_fresh ms (S (S (length (wire ms)))) (wire ms) [] H (app_nil_r _) ltac:(lia)) as (es & s' & r1 & r2 & A & B & C & D & G).
    rewrite A. pose proof (remembers_length _ _ _ D) as [L1 L2].
    destruct r2 as [|m1 rest]; [|simpl in L2; lia]. rewrite app_nil_r in B. subst r1. destruct D as [-> _].
    rewrite IH, (G eq_refl), !map_app. reflexivity.
  Qed.

  (** The messages this code base itself sends are of the specified form. *)
  Theorem lsp_own_messages ct content :
    (Z.of_nat (length content) <= int_max)%Z ->
    (forall v, ct = Some v -> ~ In 10%N v /\ type_error known (trimmed v) = false) ->
    exists m, sent_ok m /\ snd m = content /\ encoded m = encode ct content.
  Proof.
    intros L H. destruct ct as [v|].
    - exists ([Length; Field type_name v], content). repeat split; auto.
      + cbn [fst]. constructor; [exact I|]. constructor; auto. destruct (H v eq_refl) as [V T].
        split; [discriminate|]. split; [repeat constructor; discriminate|]. split; [discriminate|]. auto.
      + simpl. auto.
      + unfold encoded, encode, head, header, length_header. cbn [fst snd map concat line]. rewrite <- !app_assoc. reflexivity.
    - exists ([Length], content). repeat split; auto.
      + repeat constructor.
      + simpl. auto.
      + unfold encoded, encode, head, header, length_header. cbn [fst snd map concat line]. rewrite <- !app_assoc. reflexivity.
  Qed.
End Codecs.

(** A stream of correct messages can be answered with a parse error: a chunk that ends right after "Content-Length: "
    is taken for a header with an empty number.  (The message itself is still handled, see [lsp_framing].) *)
Module Demo.
  Local Open Scope N_scope.
  Definition utf8 (s : str) : bool := str_eqb s [117; 116; 102; 45; 56].
  Definition m : sent := ([Length], [123; 125]).
  (** Content-Type: a; charset=utf-8, before the length. *)
  Definition m2 : sent := ([Field type_name [97; 59; 32; 99; 104; 97; 114; 115; 101; 116; 61; 117; 116; 102; 45; 56]; Length], [91; 49; 93]).
  Example m_ok : sent_ok utf8 m.
  Proof. split; [repeat constructor|]. split; [now left|]. unfold int_max. simpl. lia. Qed.
  Example m2_ok : sent_ok utf8 m2.
  Proof.
    split; [|split; [right; now left|unfold int_max; simpl; lia]].
    constructor; [|repeat constructor]. split; [discriminate|]. split; [repeat constructor; discriminate|].
    split; [discriminate|]. split; [simpl; intuition discriminate|]. intros _. vm_compute. reflexivity.
  Qed.
  Definition bytes := wire [m; m2].
  Definition chunks : list str := [firstn 5 bytes; firstn 14 (skipn 5 bytes); []; firstn 20 (skipn 19 bytes); skipn 39 bytes ++ [67; 111]].
  Example in_transit : unfinished utf8 [67; 111].
  Proof. exists m, (skipn 2 (encoded m)). repeat split; try exact m_ok; vm_compute; try discriminate; auto. Qed.
  Example cut : concat chunks = wire [m; m2] ++ [67; 111]. Proof. vm_compute. reflexivity. Qed.
  Example delivered : messages (fst (feed_all utf8 start chunks)) = [[123; 125]; [91; 49; 93]].
  Proof. vm_compute. reflexivity. Qed.
  Example spurious : fst (feed_all utf8 start [firstn 16 (encoded m); skipn 16 (encoded m)]) = [ParseError; Message [123; 125]].
  Proof. vm_compute. reflexivity. Qed.
End Demo.

Theorem lsp_no_error_response_refuted :
  exists known m a b, sent_ok known m /\ a ++ b = encoded m /\ In ParseError (fst (feed_all known start [a; b])).
Proof.
  exists Demo.utf8, Demo.m, (firstn 16 (encoded Demo.m)), (skipn 16 (encoded Demo.m)).
  split; [exact Demo.m_ok|]. split; [apply firstn_skipn|]. rewrite Demo.spurious. now left.
Qed.

Print Assumptions lsp_framing.
Print Assumptions lsp_reusable.
Print Assumptions lsp_whole_messages.
Print Assumptions lsp_own_messages.
Print Assumptions lsp_no_error_response_refuted.
