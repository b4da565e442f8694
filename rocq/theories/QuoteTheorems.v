(** Properties of the quoting of strings for C, and of hashes for names of directories. *)

From Coq Require Import String Ascii.
From Coq Require Import List Bool Arith NArith Lia.
From Verif Require Import Str QuoteModel.
Import ListNotations.
Local Open Scope N_scope.

(* ------------------------------------------------------------------------------------ *)
(** ** Specification: how a compiler reads a string literal *)

(** The value of a hexadecimal digit. *)
Inductive hex_digit : N -> N -> Prop :=
| Hex_num d : d < 10 -> hex_digit (48 + d) d
| Hex_upper d : 10 <= d -> d < 16 -> hex_digit (55 + d) d
| Hex_lower d : 10 <= d -> d < 16 -> hex_digit (87 + d) d.

(** The value of a sequence of hexadecimal digits, the least significant one last. *)
Inductive hex_number : list N -> N -> Prop :=
| Hex_nil : hex_number [] 0
| Hex_snoc ds v c d : hex_number ds v -> hex_digit c d -> hex_number (ds ++ [c]) (16 * v + d).

(** The code units of a code point. *)
Definition units (u : N) : list N :=
  if u <? 65536 then [u]
  else [55296 + (u - 65536) / 1024; 56320 + (u - 65536) mod 1024].

(** The simple escape sequences of C: single quote, double quote, question mark,
    backslash, a, b, f, n, r, t, v. *)
Definition simple_escapes : list (N * N) :=
  [(39, 39); (34, 34); (63, 63); (92, 92); (97, 7); (98, 8); (102, 12); (110, 10);
   (114, 13); (116, 9); (118, 11)].

(** What a literal denotes, from after the opening quote up to its end, when the language
    accepts the code points with [ok] in universal character names. Octal and \x escapes
    are left out. *)
Inductive reads (ok : N -> Prop) : str -> list N -> Prop :=
| R_end : reads ok [34] []
| R_raw c s t : c <> 34 -> c <> 92 -> c <> 10 -> c <> 13 ->
    reads ok s t -> reads ok (c :: s) (c :: t)
| R_escape e v s t : In (e, v) simple_escapes ->
    reads ok s t -> reads ok (92 :: e :: s) (v :: t)
| R_u ds v s t : List.length ds = 4%nat -> hex_number ds v -> ok v ->
    reads ok s t -> reads ok (92 :: 117 :: ds ++ s) (units v ++ t)
| R_U ds v s t : List.length ds = 8%nat -> hex_number ds v -> ok v ->
    reads ok s t -> reads ok (92 :: 85 :: ds ++ s) (units v ++ t).

Definition denotes (ok : N -> Prop) (literal : str) (t : list N) : Prop :=
  exists s, literal = 34 :: s /\ reads ok s t.

(** C++11 and later, in a literal: everything but surrogates and too large values. *)
Definition cpp11 (u : N) : Prop := u < 55296 \/ (57344 <= u /\ u < 1114112).

(** C99 to C17: nothing below A0 but $, @ and the backquote. *)
Definition c99 (u : N) : Prop := cpp11 u /\ (160 <= u \/ u = 36 \/ u = 64 \/ u = 96).

(** Well-formed UTF-16. *)
Definition high (c : N) : Prop := 55296 <= c /\ c < 56320.
Definition low (c : N) : Prop := 56320 <= c /\ c < 57344.

Inductive utf16 : str -> Prop :=
| U_nil : utf16 []
| U_one c s : c < 65536 -> ~ high c -> ~ low c -> utf16 s -> utf16 (c :: s)
| U_two h l s : high h -> low l -> utf16 s -> utf16 (h :: l :: s).

(** The first phase of the translation of C (and of C++ before C++17): trigraphs. *)
Definition trigraph (c : N) : option N :=
  match c with
  | 61 => Some 35 | 47 => Some 92 | 39 => Some 94 | 40 => Some 91 | 41 => Some 93
  | 33 => Some 124 | 60 => Some 123 | 62 => Some 125 | 45 => Some 126
  | _ => None
  end.
Fixpoint phase1 (s : str) : str :=
  match s with
  | [] => []
  | a :: s1 =>
      match s1 with
      | b :: (c :: s3) =>
          if (a =? 63) && (b =? 63)
          then match trigraph c with
               | Some d => d :: phase1 s3
               | None => a :: phase1 s1
               end
          else a :: phase1 s1
      | _ => a :: phase1 s1
      end
  end.

(** Which files the lines of a file include: the name is what is between the quotes,
    without any escape sequences. *)
Inductive includes : str -> list str -> Prop :=
| I_nil : includes [] []
| I_line f t fs : ~ In 34 f -> ~ In 10 f -> includes t fs ->
    includes ([35; 105; 110; 99; 108; 117; 100; 101; 32; 34] ++ f ++ [34; 10] ++ t) (f :: fs).

(** The strings of which all is printed as it is. *)
Inductive plain (print : N -> bool) : str -> Prop :=
| P_nil : plain print []
| P_one c s : print c = true -> c <> 92 -> c <> 34 -> plain print s -> plain print (c :: s)
| P_two h l s : print h = false -> high h -> low l ->
    print (65536 + (h - 55296) * 1024 + (l - 56320)) = true ->
    plain print s -> plain print (h :: l :: s).

(* ------------------------------------------------------------------------------------ *)
(** ** Lemmas *)

Lemma digit_ok v : hex_digit (hex_upper v) (v mod 16).
Proof.
  unfold hex_upper. pose proof (N.mod_lt v 16 ltac:(lia)).
  destruct (v mod 16 <? 10) eqn:E.
  - apply N.ltb_lt in E. constructor; assumption.
  - apply N.ltb_ge in E. constructor; assumption.
Qed.

Lemma digit_unique c d e : hex_digit c d -> hex_digit c e -> d = e.
Proof. intros X Y. inversion X; inversion Y; subst; lia. Qed.

Lemma number_unique ds : forall v w, hex_number ds v -> hex_number ds w -> v = w.
Proof.
  induction ds as [|c ds IH] using rev_ind; intros v w X Y.
  - inversion X as [E|ds' v' c' d' A1 A2 E]; [|destruct ds'; discriminate].
    inversion Y as [E2|ds' v' c' d' A1 A2 E2]; [|destruct ds'; discriminate]. reflexivity.
  - inversion X as [E|ds' v' c' d' A1 A2 E]; [destruct ds; discriminate|].
    inversion Y as [E2|ds2 v2 c2 d2 B1 B2 E2]; [destruct ds; discriminate|].
    apply app_inj_tail in E. apply app_inj_tail in E2. destruct E, E2. subst.
    rewrite (IH _ _ A1 B1), (digit_unique _ _ _ A2 B2). reflexivity.
Qed.

Lemma number4 c : c < 65536 ->
  hex_number [hex_upper (c / 4096); hex_upper (c / 256); hex_upper (c / 16); hex_upper c] c.
Proof.
  intro B.
  assert (E : c = 16 * (16 * (16 * (16 * 0 + (c / 4096) mod 16) + (c / 256) mod 16)
                        + (c / 16) mod 16) + c mod 16).
  { pose proof (N.div_mod c 16 ltac:(lia)). pose proof (N.div_mod (c / 16) 16 ltac:(lia)).
    pose proof (N.div_mod (c / 256) 16 ltac:(lia)).
    assert (c / 4096 < 16) by (apply N.div_lt_upper_bound; lia).
    rewrite (N.mod_small (c / 4096)) by assumption.
    assert (c / 16 / 16 = c / 256) by (rewrite N.div_div by lia; reflexivity).
    assert (c / 256 / 16 = c / 4096) by (rewrite N.div_div by lia; reflexivity).
    lia. }
  rewrite E at 5.
  apply (Hex_snoc [_; _; _]); [|apply digit_ok].
  apply (Hex_snoc [_; _]); [|apply digit_ok].
  apply (Hex_snoc [_]); [|apply digit_ok].
  apply (Hex_snoc []); [|apply digit_ok]. constructor.
Qed.

Lemma number8 c : c < 16777216 ->
  hex_number [48; 48; hex_upper (c / 1048576); hex_upper (c / 65536); hex_upper (c / 4096);
              hex_upper (c / 256); hex_upper (c / 16); hex_upper c] c.
Proof.
  intro B.
  assert (E : c = 16 * (16 * (16 * (16 * (16 * (16 * (16 * (16 * 0 + 0) + 0)
                     + (c / 1048576) mod 16) + (c / 65536) mod 16)
                     + (c / 4096) mod 16) + (c / 256) mod 16)
                     + (c / 16) mod 16) + c mod 16).
  { pose proof (N.div_mod c 16 ltac:(lia)). pose proof (N.div_mod (c / 16) 16 ltac:(lia)).
    pose proof (N.div_mod (c / 256) 16 ltac:(lia)).
    pose proof (N.div_mod (c / 4096) 16 ltac:(lia)).
    pose proof (N.div_mod (c / 65536) 16 ltac:(lia)).
    assert (c / 1048576 < 16) by (apply N.div_lt_upper_bound; lia).
    rewrite (N.mod_small (c / 1048576)) by assumption.
    assert (c / 16 / 16 = c / 256) by (rewrite N.div_div by lia; reflexivity).
    assert (c / 256 / 16 = c / 4096) by (rewrite N.div_div by lia; reflexivity).
    assert (c / 4096 / 16 = c / 65536) by (rewrite N.div_div by lia; reflexivity).
    assert (c / 65536 / 16 = c / 1048576) by (rewrite N.div_div by lia; reflexivity).
    lia. }
  rewrite E at 7.
  apply (Hex_snoc [_; _; _; _; _; _; _]); [|apply digit_ok].
  apply (Hex_snoc [_; _; _; _; _; _]); [|apply digit_ok].
  apply (Hex_snoc [_; _; _; _; _]); [|apply digit_ok].
  apply (Hex_snoc [_; _; _; _]); [|apply digit_ok].
  apply (Hex_snoc [_; _; _]); [|apply digit_ok].
  apply (Hex_snoc [_; _]); [|apply digit_ok].
  apply (Hex_snoc [_]); [|apply (Hex_num 0); lia].
  apply (Hex_snoc []); [|apply (Hex_num 0); lia]. constructor.
Qed.

Lemma high_ok c : is_high c = true <-> high c.
Proof. unfold is_high, high. rewrite andb_true_iff, N.leb_le, N.ltb_lt. reflexivity. Qed.
Lemma low_ok c : is_low c = true <-> low c.
Proof. unfold is_low, low. rewrite andb_true_iff, N.leb_le, N.ltb_lt. reflexivity. Qed.

Lemma ucs4_ok h l : high h -> low l ->
  to_ucs4 h l = 65536 + (h - 55296) * 1024 + (l - 56320).
Proof. unfold high, low, to_ucs4. lia. Qed.

Lemma units_pair h l : high h -> low l -> units (to_ucs4 h l) = [h; l].
Proof.
  intros X Y. rewrite (ucs4_ok _ _ X Y). unfold units, high, low in *.
  rewrite (proj2 (N.ltb_ge _ _)) by lia.
  replace (65536 + (h - 55296) * 1024 + (l - 56320) - 65536)
    with ((l - 56320) + (h - 55296) * 1024) by lia.
  rewrite N.div_add, N.mod_add by lia.
  rewrite N.div_small, N.mod_small by lia. f_equal; [lia|f_equal; lia].
Qed.

Lemma letter_cases c e : letter c = Some e -> In (e, c) simple_escapes.
Proof.
  unfold letter, simple_escapes. intro E.
  destruct (in_dec N.eq_dec c [34; 92; 8; 12; 10; 13; 9]) as [K|K].
  - simpl in K. repeat (destruct K as [<-|K]; [simpl in E; injection E as <-; simpl; tauto|]).
    destruct K.
  - exfalso.
    assert (c <> 34 /\ c <> 92 /\ c <> 8 /\ c <> 12 /\ c <> 10 /\ c <> 13 /\ c <> 9)
      as (? & ? & ? & ? & ? & ? & ?)
      by (repeat split; intro Z; apply K; subst; simpl; tauto).
    destruct c as [|p]; [discriminate E|].
    do 7 (destruct p; try discriminate E; try congruence).
Qed.

Lemma letter_none c : letter c = None ->
  c <> 34 /\ c <> 92 /\ c <> 8 /\ c <> 12 /\ c <> 10 /\ c <> 13 /\ c <> 9.
Proof. intro E. repeat split; intros ->; discriminate E. Qed.

(** Which code points end up in a universal character name. *)
Inductive named (print : N -> bool) : str -> N -> Prop :=
| N_here c s : c < 65536 -> print c = false ->
    ~ In c [34; 92; 8; 12; 10; 13; 9] ->
    (~ high c \/ match s with [] => True | l :: _ => ~ low l end) -> named print (c :: s) c
| N_pair h l s : print h = false -> high h -> low l -> named print (h :: l :: s) (to_ucs4 h l)
| N_skip h l s u : print h = false -> high h -> low l -> named print s u ->
    named print (h :: l :: s) u
| N_later c s u :
    (print c = true \/ ~ high c \/ match s with [] => True | l :: _ => ~ low l end) ->
    named print s u -> named print (c :: s) u.

Section Reading.
Variable print : N -> bool.
Variable ok : N -> Prop.

(** Qt does not print line ends. *)
Hypothesis newline : print 10 = false.
Hypothesis return_ : print 13 = false.

Lemma read_units n : forall s, (List.length s <= n)%nat -> (forall c, In c s -> c < 65536) ->
  (forall u, named print s u -> ok u) -> reads ok (quote_units print s ++ [34]) s.
Proof.
  induction n as [|n IH]; intros s L B K.
  - destruct s; [constructor|simpl in L; lia].
  - destruct s as [|c r]; [constructor|].
    assert (Lr : (List.length r <= n)%nat) by (simpl in L; lia).
    assert (Br : forall c, In c r -> c < 65536) by (intros; apply B; right; assumption).
    assert (Kr : print c = true \/ ~ high c \/ match r with [] => True | l :: _ => ~ low l end ->
                 forall u, named print r u -> ok u)
      by (intros; apply K; apply N_later; assumption).
    pose proof (B c (or_introl eq_refl)) as Bc.
    simpl. destruct (copied print c) eqn:Cp.
    + unfold copied in Cp. rewrite !andb_true_iff, !negb_true_iff, !N.eqb_neq in Cp.
      destruct Cp as ((P & D1) & D2).
      simpl. apply R_raw; try assumption; try (intros ->; congruence).
      apply IH; [exact Lr|exact Br|]. apply Kr. left. exact P.
    + destruct (letter c) as [e|] eqn:El.
      * simpl. apply R_escape; [apply letter_cases; exact El|].
        apply IH; [exact Lr|exact Br|]. apply Kr. right. left. intro Hc. unfold high in Hc.
        apply letter_cases in El. simpl in El.
        repeat (destruct El as [El|El]; [injection El as _ <-; lia|]). exact El.
      * pose proof (letter_none _ El) as Ln.
        assert (P : print c = false).
        { destruct (print c) eqn:P; [|reflexivity]. exfalso. unfold copied in Cp.
          rewrite P in Cp. simpl in Cp.
          rewrite (proj2 (N.eqb_neq c 92)), (proj2 (N.eqb_neq c 34)) in Cp by tauto.
          discriminate Cp. }
        assert (Nn : ~ In c [34; 92; 8; 12; 10; 13; 9])
          by (simpl; intro Z; repeat (destruct Z as [Z|Z]; [subst c; tauto|]); exact Z).
        assert (one : (~ high c \/ match r with [] => True | l :: _ => ~ low l end) ->
                      reads ok ((escape4 c ++ quote_units print r) ++ [34]) (c :: r)).
        { intro Hn. rewrite <- app_assoc.
          change (c :: r) with ([c] ++ r).
          replace [c] with (units c)
            by (unfold units; rewrite (proj2 (N.ltb_lt _ _) Bc); reflexivity).
          apply (R_u ok [_; _; _; _]); [reflexivity|apply number4; exact Bc| |].
          - apply K. constructor; assumption.
          - apply IH; [exact Lr|exact Br|]. apply Kr. right. exact Hn. }
        destruct (is_high c) eqn:H.
        -- destruct r as [|l r'].
           ++ specialize (one (or_intror I)). rewrite app_nil_r in one. exact one.
           ++ destruct (is_low l) eqn:Lo.
              ** apply high_ok in H. apply low_ok in Lo.
                 assert (Lr' : (List.length r' <= n)%nat) by (simpl in Lr; lia).
                 assert (T : reads ok (quote_units print r' ++ [34]) r').
                 { apply IH; [exact Lr'| |].
                   - intros; apply Br; right; assumption.
                   - intros; apply K; apply N_skip; assumption. }
                 destruct (print (to_ucs4 c l)).
                 --- unfold high, low in H, Lo.
                     simpl. apply R_raw; try lia. apply R_raw; try lia. exact T.
                 --- rewrite <- app_assoc.
                     change (c :: l :: r') with ([c; l] ++ r').
                     rewrite <- (units_pair c l H Lo).
                     apply (R_U ok [_; _; _; _; _; _; _; _]); [reflexivity| | |exact T].
                     +++ apply number8. rewrite (ucs4_ok _ _ H Lo). unfold high, low in *. lia.
                     +++ apply K. constructor; assumption.
              ** apply one. right. intro Z. apply low_ok in Z. congruence.
        -- apply one. left. intro Z. apply high_ok in Z. congruence.
Qed.

End Reading.

Lemma named_utf16 print s : (forall c, high c -> print c = false) -> utf16 s ->
  forall u, named print s u -> (~ high u /\ ~ low u /\ In u s) \/ (65536 <= u /\ u < 1114112).
Proof.
  intros Np. induction 1 as [|c s Bc Nh Nl W IH|h l s Hh Hl W IH]; intros u Nm.
  - inversion Nm.
  - inversion Nm as [c' s' A1 A2 A3 A4|h' l' s' A1 A2 A3|h' l' s' u' A1 A2 A3 A4|c' s' u' A0 A1];
      subst.
    + left. split; [exact Nh|]. split; [exact Nl|left; reflexivity].
    + contradiction.
    + contradiction.
    + destruct (IH _ A1) as [(B1 & B2 & B3)|B1]; [left|right; exact B1].
      split; [exact B1|]. split; [exact B2|right; exact B3].
  - inversion Nm as [c' s' A1 A2 A3 A4|h' l' s' A1 A2 A3|h' l' s' u' A1 A2 A3 A4|c' s' u' A0 A1];
      subst.
    + destruct A4 as [A4|A4]; contradiction.
    + right. rewrite (ucs4_ok _ _ Hh Hl). unfold high, low in *. lia.
    + destruct (IH _ A4) as [(C1 & C2 & C3)|C1]; [left|right; exact C1].
      split; [exact C1|]. split; [exact C2|right; right; exact C3].
    + exfalso. destruct A0 as [A0|[A0|A0]]; try contradiction.
      rewrite (Np _ Hh) in A0. discriminate A0.
Qed.

(** *** Reading is unambiguous *)

Lemma app_len_inj (a b x y : str) : List.length a = List.length b -> a ++ x = b ++ y ->
  a = b /\ x = y.
Proof.
  revert b. induction a as [|c a IH]; intros [|d b] L E; try discriminate L.
  - split; [reflexivity|exact E].
  - simpl in L, E. injection L as L. injection E as -> E.
    destruct (IH _ L E) as (-> & ->). split; reflexivity.
Qed.

Lemma escape_inj e v w : In (e, v) simple_escapes -> In (e, w) simple_escapes -> v = w.
Proof.
  intros X Y.
  assert (F : forallb (fun p => forallb (fun q => implb (fst p =? fst q) (snd p =? snd q))
                                 simple_escapes) simple_escapes = true) by reflexivity.
  rewrite forallb_forall in F. specialize (F _ X). rewrite forallb_forall in F.
  specialize (F _ Y). simpl in F. rewrite N.eqb_refl in F. apply N.eqb_eq. exact F.
Qed.

Lemma escape_not e v : In (e, v) simple_escapes -> e <> 117 /\ e <> 85.
Proof.
  unfold simple_escapes. simpl. intros X.
  repeat (destruct X as [X|X]; [injection X as <- <-; split; discriminate|]). destruct X.
Qed.

Theorem reading_unique ok s t : reads ok s t -> forall t', reads ok s t' -> t = t'.
Proof.
  induction 1 as [|c s t D1 D2 D3 D4 R IH|e v s t Ie R IH|ds v s t Ld Hd Od R IH
                 |ds v s t Ld Hd Od R IH]; intros t' R'.
  - inversion R'; subst; congruence.
  - inversion R'; subst; try congruence. f_equal. apply IH. assumption.
  - inversion R' as [|c' s' t1 E1 E2 E3 E4 R1|e' v' s' t1 I1 R1|ds' v' s' t1 L1 H1 O1 R1
                    |ds' v' s' t1 L1 H1 O1 R1]; subst; try congruence.
    + rewrite (escape_inj _ _ _ Ie I1). f_equal. apply IH. exact R1.
    + destruct (escape_not _ _ Ie). congruence.
    + destruct (escape_not _ _ Ie). congruence.
  - inversion R' as [|c' s' t1 E1 E2 E3 E4 R1|e' v' s' t1 I1 R1|ds' v' s' t1 L1 H1 O1 R1 E1
                    |ds' v' s' t1 L1 H1 O1 R1]; subst; try congruence.
    + destruct (escape_not _ _ I1). congruence.
    + destruct (app_len_inj ds ds' _ _ ltac:(congruence) (eq_sym E1)) as (-> & ->).
      rewrite (number_unique _ _ _ Hd H1). f_equal. apply IH. exact R1.
  - inversion R' as [|c' s' t1 E1 E2 E3 E4 R1|e' v' s' t1 I1 R1|ds' v' s' t1 L1 H1 O1 R1
                    |ds' v' s' t1 L1 H1 O1 R1 E1]; subst; try congruence.
    + destruct (escape_not _ _ I1). congruence.
    + destruct (app_len_inj ds ds' _ _ ltac:(congruence) (eq_sym E1)) as (-> & ->).
      rewrite (number_unique _ _ _ Hd H1). f_equal. apply IH. exact R1.
Qed.

(* ------------------------------------------------------------------------------------ *)
(** ** C113: a quoted string is the literal for the string *)

Lemma utf16_bound s : utf16 s -> forall c, In c s -> c < 65536.
Proof.
  induction 1 as [|c s B H L W IH|h l s H L W IH]; intros x Ix.
  - destruct Ix.
  - destruct Ix as [<-|Ix]; auto.
  - unfold high, low in *. destruct Ix as [<-|[<-|Ix]]; [lia|lia|auto].
Qed.

(** In C++11 and later the quoted string is a literal for the string. *)
Theorem quoted_denotes_cpp print s :
  print 10 = false -> print 13 = false -> (forall c, high c -> print c = false) ->
  utf16 s -> denotes cpp11 (c_quote print s) s.
Proof.
  intros P1 P2 P3 W. exists (quote_units print s ++ [34]). split; [reflexivity|].
  apply (read_units print cpp11 P1 P2 (List.length s)); [constructor|apply utf16_bound; exact W|].
  intros u Nm. unfold cpp11.
  destruct (named_utf16 print s P3 W u Nm) as [(H & L & Iu)|B]; [|right; lia].
  pose proof (utf16_bound s W u Iu). unfold high, low in *. lia.
Qed.

(** In C it is one unless control characters are in the string for which C has no simple
    escape sequence. *)
Theorem quoted_denotes_c_partial print s :
  print 10 = false -> print 13 = false -> (forall c, high c -> print c = false) ->
  utf16 s -> (forall c, In c s -> c < 160 -> print c = false -> In c [8; 9; 10; 12; 13; 34; 92]) ->
  denotes c99 (c_quote print s) s.
Proof.
  intros P1 P2 P3 W Ctl. exists (quote_units print s ++ [34]). split; [reflexivity|].
  apply (read_units print c99 P1 P2 (List.length s)); [constructor|apply utf16_bound; exact W|].
  intros u Nm.
  assert (C11 : cpp11 u).
  { unfold cpp11. destruct (named_utf16 print s P3 W u Nm) as [(H & L & Iu)|B]; [|right; lia].
    pose proof (utf16_bound s W u Iu). unfold high, low in *. lia. }
  split; [exact C11|]. left.
  assert (G : forall s u, named print s u ->
     (In u s /\ print u = false /\ ~ In u [34; 92; 8; 12; 10; 13; 9]) \/ 65536 <= u).
  { clear. intros s u Nm. induction Nm as [c s B P Nn _|h l s _ H L|h l s u _ _ _ _ IH|c s u _ _ IH].
    - left. split; [left; reflexivity|]. split; assumption.
    - right. rewrite (ucs4_ok _ _ H L). lia.
    - destruct IH as [(A1 & A2)|A1]; [left|right; exact A1]. split; [right; right; exact A1|exact A2].
    - destruct IH as [(A1 & A2)|A1]; [left|right; exact A1]. split; [right; exact A1|exact A2]. }
  destruct (G s u Nm) as [(Iu & Pu & Nu)|B]; [|lia].
  destruct (N.lt_ge_cases u 160) as [Lt|Ge]; [|exact Ge].
  exfalso. apply Nu. specialize (Ctl u Iu Lt Pu). simpl in *. tauto.
Qed.

(** The text of the literal is one line, and no two strings have the same literal. *)
Theorem quoted_injective print s t :
  print 10 = false -> print 13 = false ->
  (forall c, In c s -> c < 65536) -> (forall c, In c t -> c < 65536) ->
  c_quote print s = c_quote print t -> s = t.
Proof.
  intros P1 P2 Bs Bt E. injection E as E.
  pose proof (read_units print (fun _ => True) P1 P2 _ s (le_n _) Bs (fun _ _ => I)) as Rs.
  pose proof (read_units print (fun _ => True) P1 P2 _ t (le_n _) Bt (fun _ _ => I)) as Rt.
  rewrite E in Rs. exact (reading_unique _ _ _ Rs _ Rt).
Qed.

Lemma hex_upper_range v : 48 <= hex_upper v /\ hex_upper v <= 70.
Proof.
  unfold hex_upper. pose proof (N.mod_lt v 16 ltac:(lia)) as B. revert B.
  generalize (v mod 16). intros d B. cbv zeta.
  destruct (d <? 10) eqn:E; [apply N.ltb_lt in E|apply N.ltb_ge in E]; lia.
Qed.

Lemma quote_elements print n : forall s, (List.length s <= n)%nat ->
  forall c, In c (quote_units print s) ->
  (In c s /\ (print c = true \/ high c \/ low c)) \/ (48 <= c /\ c <= 70)
  \/ In c [92; 117; 85; 34; 98; 102; 110; 114; 116].
Proof.
  assert (E4 : forall c x, In x (escape4 c) -> (48 <= x /\ x <= 70) \/ In x [92; 117; 85; 34; 98; 102; 110; 114; 116]).
  { intros c x. unfold escape4. simpl.
    intros [<-|[<-|[<-|[<-|[<-|[<-|[]]]]]]];
      try (left; apply hex_upper_range); right; tauto. }
  assert (E8 : forall c x, In x (escape8 c) -> (48 <= x /\ x <= 70) \/ In x [92; 117; 85; 34; 98; 102; 110; 114; 116]).
  { intros c x. unfold escape8. simpl.
    intros [<-|[<-|[<-|[<-|[<-|[<-|[<-|[<-|[<-|[<-|[]]]]]]]]]]];
      try (left; apply hex_upper_range); try (right; tauto); left; lia. }
  induction n as [|n IH]; intros s L x Ix.
  - destruct s; [destruct Ix|simpl in L; lia].
  - destruct s as [|c r]; [destruct Ix|].
    assert (Lr : (List.length r <= n)%nat) by (simpl in L; lia).
    assert (go : In x (quote_units print r) ->
       (In x (c :: r) /\ (print x = true \/ high x \/ low x)) \/ (48 <= x /\ x <= 70)
       \/ In x [92; 117; 85; 34; 98; 102; 110; 114; 116]).
    { intro K. destruct (IH r Lr x K) as [(A1 & A2)|A1]; [left; split; [right; exact A1|exact A2]|right; exact A1]. }
    assert (esc : In x (escape4 c ++ quote_units print r) ->
       (In x (c :: r) /\ (print x = true \/ high x \/ low x)) \/ (48 <= x /\ x <= 70)
       \/ In x [92; 117; 85; 34; 98; 102; 110; 114; 116]).
    { intro K. apply in_app_or in K. destruct K as [K|K]; [right; exact (E4 _ _ K)|exact (go K)]. }
    simpl in Ix. destruct (copied print c) eqn:Cp.
    + destruct Ix as [<-|Ix]; [|exact (go Ix)]. left. split; [left; reflexivity|].
      unfold copied in Cp. rewrite !andb_true_iff in Cp. left. tauto.
    + destruct (letter c) as [e|] eqn:El.
      * destruct Ix as [<-|[<-|Ix]]; [right; right; simpl; tauto| |exact (go Ix)].
        right; right. unfold letter in El.
        destruct c as [|p]; [discriminate El|].
        do 7 (destruct p; try discriminate El; try (injection El as <-; simpl; tauto)).
      * destruct (is_high c) eqn:H; [|exact (esc Ix)].
        destruct r as [|l r']; [apply esc; apply in_or_app; left; exact Ix|].
        destruct (is_low l) eqn:Lo; [|exact (esc Ix)].
        apply in_app_or in Ix. destruct Ix as [Ix|Ix].
        -- destruct (print (to_ucs4 c l)).
           ++ apply high_ok in H. apply low_ok in Lo. left.
              destruct Ix as [<-|[<-|[]]]; (split; [simpl; tauto|tauto]).
           ++ right. exact (E8 _ _ Ix).
        -- assert (Lr' : (List.length r' <= n)%nat) by (simpl in Lr; lia).
           destruct (IH r' Lr' x Ix) as [(A1 & A2)|A1];
             [left; split; [right; right; exact A1|exact A2]|right; exact A1].
Qed.

Theorem quoted_one_line print s :
  print 10 = false -> print 13 = false -> print 0 = false ->
  ~ In 10 (c_quote print s) /\ ~ In 13 (c_quote print s) /\ ~ In 0 (c_quote print s).
Proof.
  intros P1 P2 P3.
  assert (G : forall c, print c = false -> c < 34 -> ~ In c (c_quote print s)).
  { intros c Pc Lc K. unfold c_quote in K. destruct K as [K|K]; [lia|].
    apply in_app_or in K. destruct K as [K|[K|[]]]; [|lia].
    destruct (quote_elements print _ s (le_n _) c K) as [(_ & A1)|[A1|A1]].
    - unfold high, low in A1. destruct A1 as [A1|A1]; [congruence|lia].
    - lia.
    - simpl in A1. repeat (destruct A1 as [A1|A1]; [lia|]). exact A1. }
  split; [apply G; [exact P1|lia]|]. split; apply G; try assumption; lia.
Qed.

(** A string made of printable characters only stays as it is, between quotes. *)
Lemma plain_units print s : plain print s -> quote_units print s = s.
Proof.
  induction 1 as [|c s P D1 D2 Pl IH|h l s Pn H L P Pl IH]; [reflexivity| |].
  - simpl. unfold copied. rewrite P, (proj2 (N.eqb_neq _ _) D1), (proj2 (N.eqb_neq _ _) D2).
    simpl. rewrite IH. reflexivity.
  - simpl. unfold copied. rewrite Pn. simpl.
    assert (El : letter h = None).
    { destruct (letter h) eqn:E; [|reflexivity]. apply letter_cases in E. unfold high in H.
      simpl in E. repeat (destruct E as [E|E]; [injection E as _ E; lia|]). destruct E. }
    rewrite El, (proj2 (high_ok h) H), (proj2 (low_ok l) L).
    rewrite (ucs4_ok _ _ H L), P, IH. reflexivity.
Qed.

Lemma quote_grows print n : forall s, (List.length s <= n)%nat ->
  (List.length s <= List.length (quote_units print s))%nat.
Proof.
  induction n as [|n IH]; intros s L.
  - destruct s; [simpl; lia|simpl in L; lia].
  - destruct s as [|c r]; [simpl; lia|].
    assert (Lr : (List.length r <= n)%nat) by (simpl in L; lia).
    pose proof (IH r Lr) as G. simpl.
    destruct (copied print c); [simpl; lia|].
    destruct (letter c); [simpl; lia|].
    destruct (is_high c); [|simpl; lia].
    destruct r as [|l r']; [simpl; lia|].
    destruct (is_low l); [|simpl; simpl in G; lia].
    pose proof (IH r' ltac:(simpl in Lr; lia)). rewrite app_length.
    destruct (print (to_ucs4 c l)); simpl; lia.
Qed.

Theorem quoted_unchanged_exact print s :
  c_quote print s = 34 :: s ++ [34] <-> plain print s.
Proof.
  split.
  - intro E. injection E as E. apply app_inj_tail in E. destruct E as (E & _).
    remember (List.length s) as n eqn:Ln. assert (L : (List.length s <= n)%nat) by lia.
    clear Ln. revert s L E. induction n as [|n IH]; intros s L E.
    + destruct s; [constructor|simpl in L; lia].
    + destruct s as [|c r]; [constructor|].
      assert (Lr : (List.length r <= n)%nat) by (simpl in L; lia).
      pose proof (quote_grows print _ r (le_n _)) as G.
      simpl in E. destruct (copied print c) eqn:Cp.
      * injection E as E. unfold copied in Cp.
        rewrite !andb_true_iff, !negb_true_iff, !N.eqb_neq in Cp. destruct Cp as ((P & D1) & D2).
        apply P_one; auto.
      * destruct (letter c) as [e|] eqn:El.
        { exfalso. apply (f_equal (@List.length N)) in E. simpl in E. lia. }
        assert (no : escape4 c ++ quote_units print r = c :: r -> False).
        { intro K. apply (f_equal (@List.length N)) in K. rewrite app_length in K. simpl in K. lia. }
        destruct (is_high c) eqn:H; [|destruct (no E)].
        destruct r as [|l r']; [discriminate E|].
        destruct (is_low l) eqn:Lo; [|destruct (no E)].
        pose proof (letter_none _ El) as Ln.
        assert (P : print c = false).
        { destruct (print c) eqn:P; [|reflexivity]. exfalso. unfold copied in Cp.
          rewrite P in Cp. simpl in Cp.
          rewrite (proj2 (N.eqb_neq c 92)), (proj2 (N.eqb_neq c 34)) in Cp by tauto.
          discriminate Cp. }
        apply high_ok in H. apply low_ok in Lo.
        destruct (print (to_ucs4 c l)) eqn:Pu.
        -- injection E as E. rewrite (ucs4_ok _ _ H Lo) in Pu.
           apply P_two; try assumption. apply IH; [simpl in Lr; lia|exact E].
        -- exfalso. pose proof (quote_grows print _ r' (le_n _)).
           apply (f_equal (@List.length N)) in E. rewrite app_length in E. simpl in E. lia.
  - intro Pl. unfold c_quote. rewrite (plain_units _ _ Pl). reflexivity.
Qed.

(** Trigraphs do not matter for strings without two question marks in a row. *)
Fixpoint doubled (s : str) : Prop :=
  match s with
  | a :: ((b :: _) as r) => (a = 63 /\ b = 63) \/ doubled r
  | _ => False
  end.

Lemma phase1_same s : ~ doubled s -> phase1 s = s.
Proof.
  induction s as [|a s IH]; intro Nd; [reflexivity|].
  assert (Nr : ~ doubled s) by (intro D; apply Nd; destruct s; [destruct D|right; exact D]).
  specialize (IH Nr). simpl. destruct s as [|b s1]; [reflexivity|].
  destruct s1 as [|c s3]; [rewrite IH; reflexivity|].
  assert (E : (a =? 63) && (b =? 63) = false).
  { destruct (a =? 63) eqn:Ea; [|reflexivity]. destruct (b =? 63) eqn:Eb; [|reflexivity].
    apply N.eqb_eq in Ea. apply N.eqb_eq in Eb. destruct Nd. left. split; assumption. }
  rewrite E, IH. reflexivity.
Qed.

Theorem quoted_not_printable_refuted : exists print s,
  print 10 = false /\ print 13 = false /\ (forall c, high c -> print c = false) /\
  (forall c, 32 <= c -> c < 127 -> print c = true) /\ utf16 s /\
  forall t, ~ denotes c99 (c_quote print s) t.
Proof.
  exists (fun c => (32 <=? c) && (c <? 127)), [27].
  split; [reflexivity|]. split; [reflexivity|].
  split.
  { intros c H. unfold high in H. apply andb_false_iff. right. apply N.ltb_ge. lia. }
  split.
  { intros c A1 A2. apply andb_true_iff. split; [apply N.leb_le; exact A1|apply N.ltb_lt; exact A2]. }
  split.
  { constructor; [lia|unfold high; lia|unfold low; lia|constructor]. }
  intros t (s & E & R).
  assert (Q : c_quote (fun c => (32 <=? c) && (c <? 127)) [27] = [34; 92; 117; 48; 48; 49; 66; 34])
    by reflexivity.
  rewrite Q in E. clear Q. injection E as <-.
  inversion R as [|c' s' t1 E1 E2 E3 E4 R1|e' v' s' t1 I1 R1|ds' v' s' t1 L1 H1 O1 R1 E1
                    |ds' v' s' t1 L1 H1 O1 R1]; subst.
  - congruence.
  - destruct (escape_not _ _ I1). congruence.
  - pose proof (number4 27 ltac:(lia)) as K.
    change (hex_number [48; 48; 49; 66] 27) in K.
    destruct (app_len_inj ds' [48; 48; 49; 66] s' [34] L1 E1) as (-> & ->).
    pose proof (number_unique _ _ _ K H1) as <-. unfold c99, cpp11 in O1. lia.
Qed.

Theorem quoted_trigraph_refuted : exists print s,
  (forall c, 32 <= c -> c < 127 -> print c = true) /\ (forall c, In c s -> 32 <= c /\ c < 127) /\
  forall t, ~ denotes c99 (phase1 (c_quote print s)) t.
Proof.
  exists (fun c => (32 <=? c) && (c <? 127)), [63; 63; 47].
  split.
  { intros c A1 A2. apply andb_true_iff. split; [apply N.leb_le; exact A1|apply N.ltb_lt; exact A2]. }
  split.
  { intros c [<-|[<-|[<-|[]]]]; lia. }
  intros t (s & E & R).
  assert (Q : phase1 (c_quote (fun c => (32 <=? c) && (c <? 127)) [63; 63; 47]) = [34; 92; 34])
    by reflexivity.
  rewrite Q in E. clear Q. injection E as <-.
  inversion R as [|c' s' t1 E1 E2 E3 E4 R1|e' v' s' t1 I1 R1|ds' v' s' t1 L1 H1 O1 R1 E1
                    |ds' v' s' t1 L1 H1 O1 R1]; subst.
  - congruence.
  - inversion R1.
Qed.

Lemma doubled_skip a b : ~ In 63 a -> doubled (a ++ b) -> doubled b.
Proof.
  induction a as [|c a IH]; intros Na D; [exact D|].
  apply IH; [intro K; apply Na; right; exact K|].
  simpl in D. destruct (a ++ b) as [|d r] eqn:E; [destruct D|].
  destruct D as [(D & _)|D]; [destruct Na; left; symmetry; congruence|exact D].
Qed.

Lemma hex_upper_not v : hex_upper v <> 63.
Proof.
  unfold hex_upper. pose proof (N.mod_lt v 16 ltac:(lia)) as B. revert B.
  generalize (v mod 16). intros d B. cbv zeta.
  destruct (d <? 10) eqn:E; [apply N.ltb_lt in E|apply N.ltb_ge in E]; lia.
Qed.

Lemma escape4_not c : ~ In 63 (escape4 c).
Proof.
  unfold escape4. simpl.
  intros [E|[E|[E|[E|[E|[E|[]]]]]]]; try discriminate E; exact (hex_upper_not _ E).
Qed.

Lemma escape8_not c : ~ In 63 (escape8 c).
Proof.
  unfold escape8. simpl.
  intros [E|[E|[E|[E|[E|[E|[E|[E|[E|[E|[]]]]]]]]]]]; try discriminate E;
    exact (hex_upper_not _ E).
Qed.

Lemma letter_not c e : letter c = Some e -> e <> 63.
Proof.
  intros El ->. unfold letter in El. destruct c as [|p]; [discriminate El|].
  do 7 (destruct p; try discriminate El).
Qed.

Lemma doubled_quote print n : forall s, (List.length s <= n)%nat ->
  (doubled (quote_units print s) -> doubled s) /\
  (forall r, quote_units print s = 63 :: r -> exists r', s = 63 :: r').
Proof.
  induction n as [|n IH]; intros s L.
  - destruct s; [|simpl in L; lia]. split; [intro D; exact D|intros r E; discriminate E].
  - destruct s as [|c r]; [split; [intro D; exact D|intros r E; discriminate E]|].
    assert (Lr : (List.length r <= n)%nat) by (simpl in L; lia).
    destruct (IH r Lr) as (D & Hd).
    assert (up : doubled r -> doubled (c :: r))
      by (intro K; destruct r; [destruct K|right; exact K]).
    assert (esc : (doubled (escape4 c ++ quote_units print r) -> doubled (c :: r)) /\
                  (forall r0, escape4 c ++ quote_units print r = 63 :: r0 ->
                              exists r', c :: r = 63 :: r')).
    { split; [|intros r0 E; discriminate E].
      intro K. apply up, D. exact (doubled_skip _ _ (escape4_not c) K). }
    simpl quote_units. destruct (copied print c) eqn:Cp.
    + split.
      * intro K. destruct (quote_units print r) as [|d q] eqn:Q; [destruct K|].
        destruct K as [(E1 & E2)|K]; [|exact (up (D K))].
        subst d. destruct (Hd q eq_refl) as (r' & ->). left. split; [exact E1|reflexivity].
      * intros r0 E. injection E as -> _. exists r. reflexivity.
    + destruct (letter c) as [e|] eqn:El.
      * split; [|intros r0 E; discriminate E].
        intro K. apply up, D. apply (doubled_skip [92; e]); [|exact K].
        intros [E|[E|[]]]; [discriminate E|exact (letter_not _ _ El E)].
      * destruct (is_high c) eqn:H; [|exact esc].
        destruct r as [|l r'].
        { split; [intro K; exfalso|intros r0 E; discriminate E].
          rewrite <- (app_nil_r (escape4 c)) in K.
          exact (doubled_skip _ _ (escape4_not c) K). }
        destruct (is_low l) eqn:Lo; [|exact esc].
        apply high_ok in H. apply low_ok in Lo.
        destruct (IH r' ltac:(simpl in Lr; lia)) as (D' & _).
        assert (up' : doubled r' -> doubled (c :: l :: r')).
        { intro K. right. destruct r'; [destruct K|right; exact K]. }
        unfold high, low in H, Lo.
        destruct (print (to_ucs4 c l)).
        -- split.
           ++ intro K. apply up', D'. apply (doubled_skip [c; l]); [|exact K].
              intros [E|[E|[]]]; lia.
           ++ intros r0 E. injection E as E _. lia.
        -- split; [|intros r0 E; discriminate E].
           intro K. apply up', D'. exact (doubled_skip _ _ (escape8_not _) K).
Qed.

Theorem quoted_trigraphs_partial print s : ~ doubled s ->
  phase1 (c_quote print s) = c_quote print s.
Proof.
  intro Nd. apply phase1_same. intro D. apply Nd.
  apply (proj1 (doubled_quote print _ s (le_n _))).
  unfold c_quote in D. apply (doubled_skip [34]) in D; [|intros [E|[]]; discriminate E].
  revert D. generalize (quote_units print s). intro q.
  induction q as [|a q IH]; intro D; [destruct D|].
  destruct q as [|b q]; [destruct D as [(_ & E)|[]]; discriminate E|].
  destruct D as [D|D]; [left; exact D|right; exact (IH D)].
Qed.

(* ------------------------------------------------------------------------------------ *)
(** ** C114: a combined source file includes the sources *)

Lemma plain_elements print s : plain print s -> print 10 = false -> ~ In 34 s /\ ~ In 10 s.
Proof.
  intros Pl P1. induction Pl as [|c s P D1 D2 Pl IH|h l s Pn H L P Pl IH].
  - split; intros [].
  - destruct IH as (A1 & A2). split; intros [E|K]; try contradiction; congruence.
  - destruct IH as (A1 & A2). unfold high, low in *.
    split; intros [E|[E|K]]; try contradiction; lia.
Qed.

Theorem combined_includes_partial print files : print 10 = false ->
  (forall f, In f files -> plain print f) -> includes (combined print files) files.
Proof.
  intros P1. induction files as [|f fs IH]; intro K; [constructor|].
  destruct (plain_elements print f (K f (or_introl eq_refl)) P1) as (A1 & A2).
  change (combined print (f :: fs))
    with ((include_word ++ c_quote print f ++ [10]) ++ combined print fs).
  rewrite (proj2 (quoted_unchanged_exact print f) (K f (or_introl eq_refl))).
  replace ((include_word ++ (34 :: f ++ [34]) ++ [10]) ++ combined print fs)
    with ([35; 105; 110; 99; 108; 117; 100; 101; 32; 34] ++ f ++ [34; 10] ++ combined print fs).
  - apply I_line; [exact A1|exact A2|]. apply IH. intros g Ig. apply K. right. exact Ig.
  - unfold include_word. generalize (combined print fs). intro t.
    repeat (simpl; rewrite <- ?app_assoc). reflexivity.
Qed.

Theorem includes_unique t fs : includes t fs -> forall gs, includes t gs -> fs = gs.
Proof.
  induction 1 as [|f t fs A1 A2 R IH]; intros gs R'.
  - inversion R'. reflexivity.
  - inversion R' as [|g t' gs' B1 B2 R1 E]. subst.
    simpl in E.
    assert (G : g = f /\ t' = t).
    { clear - E A1 B1. revert g B1 E.
      induction f as [|c f IHf]; intros [|d g] B1 E; simpl in E.
      - injection E as ->. split; reflexivity.
      - injection E as E0 _. destruct B1. left. congruence.
      - injection E as E0 _. destruct A1. left. congruence.
      - injection E as -> E.
        destruct (IHf ltac:(intro K; apply A1; right; exact K) g
                      ltac:(intro K; apply B1; right; exact K) E) as (-> & ->).
        split; reflexivity. }
    destruct G as (-> & ->). f_equal. apply IH. exact R1.
Qed.

(** The file for a source with a backslash in its path (an ordinary character on Unix)
    includes another file. *)
Theorem combined_backslash_refuted : exists print f g,
  (forall c, 32 <= c -> c < 127 -> print c = true) /\ (forall c, In c f -> 32 <= c /\ c < 127) /\
  f <> g /\ includes (combined print [f]) [g] /\ ~ includes (combined print [f]) [f].
Proof.
  exists (fun c => (32 <=? c) && (c <? 127)), [47; 97; 92; 98], [47; 97; 92; 92; 98].
  split.
  { intros c A1 A2. apply andb_true_iff. split; [apply N.leb_le; exact A1|apply N.ltb_lt; exact A2]. }
  split.
  { intros c [<-|[<-|[<-|[<-|[]]]]]; lia. }
  split; [discriminate|].
  assert (K : includes (combined (fun c => (32 <=? c) && (c <? 127)) [[47; 97; 92; 98]])
                       [[47; 97; 92; 92; 98]]).
  { apply (I_line [47; 97; 92; 92; 98] [] []); [| |constructor];
      intros [E|[E|[E|[E|[E|[]]]]]]; discriminate E. }
  split; [exact K|].
  intro K2. pose proof (includes_unique _ _ K _ K2) as E. discriminate E.
Qed.

(* ------------------------------------------------------------------------------------ *)
(** ** C115: hashes for directories *)

Theorem hash_shape sha1 s :
  (forall b, List.length (sha1 b) = 20%nat) ->
  List.length (get_hash sha1 s) = 16%nat /\
  forall c, In c (get_hash sha1 s) -> (48 <= c /\ c <= 57) \/ (97 <= c /\ c <= 102).
Proof.
  intro L. unfold get_hash. split.
  - rewrite firstn_length. unfold to_hex.
    assert (G : forall b, List.length (concat (map (fun x => [hex_lower (x / 16); hex_lower x]) b))
                          = (2 * List.length b)%nat).
    { induction b as [|x b IH]; [reflexivity|]. simpl. rewrite IH. lia. }
    rewrite G, L. reflexivity.
  - intros c K.
    assert (K' : In c (to_hex (sha1 (map latin1 s)))).
    { revert K. generalize (to_hex (sha1 (map latin1 s))). generalize 16%nat.
      clear. intros n l. revert n. induction l as [|d l IH]; intros [|n] K; simpl in K; try destruct K.
      - left. assumption.
      - right. exact (IH n H). }
    unfold to_hex in K'. apply in_concat in K'. destruct K' as (l & Il & Ic).
    apply in_map_iff in Il. destruct Il as (x & <- & _).
    assert (G : forall v, (48 <= hex_lower v /\ hex_lower v <= 57) \/
                          (97 <= hex_lower v /\ hex_lower v <= 102)).
    { clear. intro v. unfold hex_lower. pose proof (N.mod_lt v 16 ltac:(lia)) as B. revert B.
      generalize (v mod 16). intros d B. cbv zeta.
      destruct (d <? 10) eqn:E; [apply N.ltb_lt in E|apply N.ltb_ge in E]; lia. }
    destruct Ic as [<-|[<-|[]]]; apply G.
Qed.

(** Two strings have the same hash whatever the hash function is iff they differ in
    characters outside Latin-1 (and question marks) only. *)
Definition blurred (a b : N) : Prop := a = b \/ ((256 <= a \/ a = 63) /\ (256 <= b \/ b = 63)).

Theorem hash_same_exact s t :
  (forall sha1, (forall b, List.length (sha1 b) = 20%nat) -> get_hash sha1 s = get_hash sha1 t)
  <-> Forall2 blurred s t.
Proof.
  assert (G : forall a b, latin1 a = latin1 b <-> blurred a b).
  { intros a b. unfold latin1, blurred.
    destruct (a <? 256) eqn:E1; destruct (b <? 256) eqn:E2;
      rewrite ?N.ltb_lt, ?N.ltb_ge in *; split; intro; lia. }
  split.
  - intro K.
    assert (E : map latin1 s = map latin1 t).
    { destruct (str_dec (map latin1 s) (map latin1 t)) as [E|D]; [exact E|exfalso].
      specialize (K (fun b => if str_dec b (map latin1 s) then repeat 0 20 else repeat 1 20)).
      assert (Lk : forall b, List.length (if str_dec b (map latin1 s) then repeat 0 20 else repeat 1 20)
                             = 20%nat) by (intro b; destruct (str_dec b (map latin1 s)); reflexivity).
      specialize (K Lk). unfold get_hash in K.
      destruct (str_dec (map latin1 s) (map latin1 s)) as [_|F]; [|destruct (F eq_refl)].
      destruct (str_dec (map latin1 t) (map latin1 s)) as [F|_]; [destruct D; symmetry; exact F|].
      vm_compute in K. discriminate K. }
    clear K. revert t E. induction s as [|a s IH]; intros [|b t] E; try discriminate E;
      [constructor|]. simpl in E. injection E as E1 E2. constructor; [apply G; exact E1|auto].
  - intros F sha1 _. unfold get_hash.
    assert (E : map latin1 s = map latin1 t).
    { clear -F G. induction F as [|a b s t B F IH]; [reflexivity|].
      simpl. rewrite IH. apply G in B. rewrite B. reflexivity. }
    rewrite E. reflexivity.
Qed.

(** In particular the hash depends on all of a string in Latin-1. *)
Theorem hash_latin1 s t : (forall c, In c s -> c < 256) -> (forall c, In c t -> c < 256) ->
  (forall sha1, (forall b, List.length (sha1 b) = 20%nat) -> get_hash sha1 s = get_hash sha1 t) ->
  s = t.
Proof.
  intros Bs Bt K. apply hash_same_exact in K. induction K as [|a b s t Ab K IH]; [reflexivity|].
  pose proof (Bs a (or_introl eq_refl)). pose proof (Bt b (or_introl eq_refl)).
  f_equal.
  - destruct Ab as [E|Ab]; [exact E|lia].
  - apply IH; intros; [apply Bs|apply Bt]; right; assumption.
Qed.

(** Two files with the same name in different directories have the same object file,
    whatever the hash function is. *)
Theorem object_files_refuted : exists dir1 dir2, dir1 <> dir2 /\
  forall sha1 file_name suffix,
    object_path sha1 dir1 file_name suffix = object_path sha1 dir2 file_name suffix.
Proof.
  (* The directories have one letter: alpha and beta. *)
  exists [47; 945], [47; 946]. split; [discriminate|]. reflexivity.
Qed.

(** Where the hashes differ, so do the paths of the object files. *)
Theorem object_files_partial sha1 dir1 dir2 name1 name2 suffix :
  (forall b, List.length (sha1 b) = 20%nat) ->
  object_path sha1 dir1 name1 suffix = object_path sha1 dir2 name2 suffix ->
  get_hash sha1 dir1 = get_hash sha1 dir2 /\ name1 = name2.
Proof.
  intros L E. unfold object_path in E.
  destruct (app_len_inj (get_hash sha1 dir1) (get_hash sha1 dir2) _ _
              ltac:(rewrite (proj1 (hash_shape sha1 dir1 L)), (proj1 (hash_shape sha1 dir2 L)); reflexivity) E)
    as (E1 & E2).
  split; [exact E1|]. injection E2 as E2. apply app_inv_tail in E2. exact E2.
Qed.

(* ------------------------------------------------------------------------------------ *)
(** ** Examples *)

Module Demo.
  Definition txt (s : String.string) : str := List.map N_of_ascii (list_ascii_of_string s).
  Arguments txt s%string.
  Definition ascii_print (c : N) : bool := ((32 <=? c) && (c <? 127)) || (160 <=? c) && (c <? 55296).

  (** A quote, a backslash, a tab, an e with acute, an escape and a non-character. *)
  Example quote_demo : c_quote ascii_print (txt "a" ++ [34; 92; 9; 233; 27; 56256; 57343])
    = [34] ++ txt "a\" ++ [34] ++ txt "\\\t" ++ [233] ++ txt "\u001B\U001003FF" ++ [34].
  Proof. vm_compute. reflexivity. Qed.

  Example quote_utf16 : utf16 (txt "a" ++ [34; 92; 9; 233; 27; 56256; 57343]).
  Proof.
    change (utf16 [97; 34; 92; 9; 233; 27; 56256; 57343]).
    repeat first [apply U_one; [lia|unfold high; lia|unfold low; lia|]
                 |apply U_two; [unfold high; lia|unfold low; lia|] |apply U_nil].
  Qed.

  Example print_ok : ascii_print 10 = false /\ ascii_print 13 = false /\ ascii_print 0 = false /\
    (forall c, high c -> ascii_print c = false).
  Proof.
    split; [reflexivity|]. split; [reflexivity|]. split; [reflexivity|].
    intros c H. unfold high in H. unfold ascii_print.
    rewrite (proj2 (N.ltb_ge c 127)), (proj2 (N.ltb_ge c 55296)) by lia.
    rewrite !andb_false_r. reflexivity.
  Qed.

  Example plain_demo : plain ascii_print (txt "/src/main.c").
  Proof. repeat (apply P_one; [reflexivity|discriminate|discriminate|]). apply P_nil. Qed.

  Example hash_demo : List.length (get_hash (fun _ => repeat 171 20) (txt "/src")) = 16%nat.
  Proof. reflexivity. Qed.

  Example blurred_demo : Forall2 blurred (txt "/" ++ [945]) (txt "/" ++ [946]).
  Proof. constructor; [left; reflexivity|constructor; [right; lia|constructor]]. Qed.
End Demo.

Print Assumptions quoted_denotes_cpp.
Print Assumptions quoted_denotes_c_partial.
Print Assumptions quoted_injective.
Print Assumptions quoted_one_line.
Print Assumptions quoted_unchanged_exact.
Print Assumptions quoted_trigraphs_partial.
Print Assumptions combined_includes_partial.
Print Assumptions hash_same_exact.
Print Assumptions object_files_partial.
