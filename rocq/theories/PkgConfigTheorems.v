(** C43: reading pkg-config files: lines, words, substitution of variables; C56: required modules; C57: flags; C58: which package is found. *)
From Coq Require Import List Bool Arith NArith Lia Sorted Permutation String.
From Verif Require Import Str SettingsModel SettingsTheorems PkgConfigModel.
Import ListNotations.
Local Open Scope N_scope.
Local Notation "n # l" := (List.length l = n) (at level 70, only parsing).

(** ** Specification: lines *)

(** What a logical line consists of: characters, an escaped number sign, a backslash before something else, and an escaped line break. *)
Inductive lpiece := Char (c : N) | Hash | Backslash (c : N) | Continue.
Definition lpiece_ok (p : lpiece) : Prop :=
  match p with Char c => c <> 10 /\ c <> 13 /\ c <> 35 /\ c <> 92 | Backslash c => c <> 10 /\ c <> 13 /\ c <> 35 | _ => True end.
Definition lpiece_text (p : lpiece) : str := match p with Char c => [c] | Hash => [92; 35] | Backslash c => [92; c] | Continue => [92; 10] end.
Definition lpiece_value (p : lpiece) : str := match p with Char c => [c] | Hash => [35] | Backslash c => [92; c] | Continue => [] end.
(** A line: pieces, and a comment up to the end of the line. *)
Record line := mkLine { l_pieces : list lpiece; l_comment : option str }.
Definition line_ok (l : line) : Prop :=
  Forall lpiece_ok (l_pieces l) /\ match l_comment l with Some t => ~ In 10 t /\ ~ In 13 t | None => True end.
Definition line_body (l : line) : str := flat_map lpiece_text (l_pieces l) ++ match l_comment l with Some t => 35 :: t | None => [] end.
Definition line_value (l : line) : str := flat_map lpiece_value (l_pieces l).

(** ** Specification: words *)

(** What a word consists of: characters, escaped characters, and quoted text, in which the quotation mark may be escaped and a backslash before something else is
    one. *)
Inductive qpiece := QChar (c : N) | QQuote | QBackslash (c : N).
Inductive wpiece := Bare (c : N) | Escaped (c : N) | Quoted (q : N) (l : list qpiece).
Definition qpiece_ok (q : N) (p : qpiece) : Prop := match p with QChar c => c <> q /\ c <> 92 | QQuote => True | QBackslash c => c <> q end.
Definition wpiece_ok (p : wpiece) : Prop :=
  match p with
  | Bare c => is_space c = false /\ c <> 34 /\ c <> 39 /\ c <> 92 /\ c <> 0
  | Escaped c => True
  | Quoted q l => (q = 34 \/ q = 39) /\ Forall (qpiece_ok q) l
  end.
Definition qpiece_text (q : N) (p : qpiece) : str := match p with QChar c => [c] | QQuote => [92; q] | QBackslash c => [92; c] end.
Definition qpiece_value (q : N) (p : qpiece) : str := match p with QChar c => [c] | QQuote => [q] | QBackslash c => [92; c] end.
Definition wpiece_text (p : wpiece) : str := match p with Bare c => [c] | Escaped c => [92; c] | Quoted q l => q :: flat_map (qpiece_text q) l ++ [q] end.
Definition wpiece_value (p : wpiece) : str := match p with Bare c => [c] | Escaped c => [c] | Quoted q l => flat_map (qpiece_value q) l end.
Definition word_text (w : list wpiece) : str := flat_map wpiece_text w.
Definition word_value (w : list wpiece) : str := flat_map wpiece_value w.
Definition spaces (s : str) : Prop := s <> [] /\ forallb is_space s = true.
Definition nonempty (s : str) : bool := match s with [] => false | _ => true end.

(** ** Specification: substitution *)

Definition put (w : str) (r : result str) : result str := match r with Ok t => Ok (w ++ t) | Err e => Err e end.
Inductive substituted (get : str -> option str) : str -> result str -> Prop :=
| sub_end : substituted get [] (Ok [])
| sub_dollar s r : substituted get s r -> substituted get (36 :: 36 :: s) (put [36] r)
| sub_variable name s v r : ~ In 125 name -> get name = Some v -> substituted get s r -> substituted get (36 :: 123 :: name ++ 125 :: s) (put v r)
| sub_undefined name s : ~ In 125 name -> get name = None -> substituted get (36 :: 123 :: name ++ 125 :: s) (Err (UndefinedVariable name))
| sub_brace s : ~ In 125 s -> substituted get (36 :: 123 :: s) (Err MissingBrace)
| sub_char c s r : (c = 36 -> forall d t, s = d :: t -> d <> 36 /\ d <> 123) -> substituted get s r -> substituted get (c :: s) (put [c] r).

(** ** Lines *)

Lemma read_piece p rest : lpiece_ok p -> forall read line, exists read', read_line false false read line (lpiece_text p ++ rest) = read_line false false read' (line ++ lpiece_value p) rest /\ read' = true.
Proof.
  intros O read line. exists true. split; [|reflexivity]. destruct p as [c| |c|]; cbn -[N.eqb].
  - destruct O as (A & B & C & D). apply N.eqb_neq in A, B, C, D. now rewrite B, C, D, A.
  - reflexivity.
  - destruct O as (A & B & C). apply N.eqb_neq in A, B, C. cbn. now rewrite B, C, A.
  - cbn. now rewrite app_nil_r.
Qed.
Lemma read_pieces ps rest : Forall lpiece_ok ps -> forall read line, exists read', read_line false false read line (flat_map lpiece_text ps ++ rest) = read_line false false read' (line ++ flat_map lpiece_value ps) rest /\
  (ps <> [] -> read' = true) /\ (ps = [] -> read' = read).
Proof.
  induction 1 as [|p ps O F IH]; intros read line; cbn; [exists read; rewrite app_nil_r; split; [reflexivity|split; [easy|auto]]|].
  rewrite <- app_assoc. destruct (read_piece p (flat_map lpiece_text ps ++ rest) O read line) as (r1 & -> & ->).
  destruct (IH true (line ++ lpiece_value p)) as (r2 & -> & A & B). exists true. rewrite <- app_assoc. split; [|split; [auto|discriminate]]. destruct ps; [now rewrite (B eq_refl)|rewrite A; [reflexivity|discriminate]].
Qed.
Lemma read_comment t : forall read line rest, ~ In 10 t -> ~ In 13 t -> (rest = [] \/ exists r, rest = 10 :: r) ->
  read_line false true read line (t ++ rest) = match rest with [] => (match t with [] => read | _ => true end, line, []) | _ :: r => (true, line, r) end.
Proof.
  induction t as [|c t IH]; intros read line rest A B R; cbn -[N.eqb].
  - destruct R as [->|(r & ->)]; reflexivity.
  - assert (C10 : (c =? 10) = false) by (apply N.eqb_neq; intros ->; apply A; now left). assert (C13 : (c =? 13) = false) by (apply N.eqb_neq; intros ->; apply B; now left).
    rewrite C13, C10. assert (A' : ~ In 10 t) by (intros H; apply A; now right). assert (B' : ~ In 13 t) by (intros H; apply B; now right).
    assert (E : forall rd, rd = true -> read_line false true rd line (t ++ rest) = match rest with [] => (true, line, []) | _ :: r => (true, line, r) end).
    { intros rd ->. rewrite IH by assumption. destruct rest; [now destruct t|reflexivity]. }
    destruct (c =? 35); [now apply E|]. destruct (c =? 92); now apply E.
Qed.
Lemma read_body l rest : line_ok l -> (rest = [] \/ exists r, rest = 10 :: r) ->
  read_line false false false [] (line_body l ++ rest) = match rest with [] => (match line_body l with [] => false | _ => true end, line_value l, []) | _ :: r => (true, line_value l, r) end.
Proof.
  intros [P C] R. unfold line_body, line_value. rewrite <- app_assoc. destruct (read_pieces (l_pieces l) (match l_comment l with Some t => 35 :: t | None => [] end ++ rest) P false []) as (rd & -> & T & F).
  cbn [app]. destruct (l_comment l) as [t|].
  - destruct C as [C1 C2]. cbn [app]. change (read_line false false rd (flat_map lpiece_value (l_pieces l)) (35 :: t ++ rest)) with (read_line false true true (flat_map lpiece_value (l_pieces l)) (t ++ rest)).
    rewrite read_comment by assumption. destruct rest; [|reflexivity]. destruct t, (flat_map lpiece_text (l_pieces l)); reflexivity.
  - cbn [app]. rewrite app_nil_r. destruct R as [->|(r & ->)]; [|reflexivity]. cbn. destruct (l_pieces l) as [|p ps] eqn:E; [now rewrite (F eq_refl)|].
    rewrite T by discriminate. destruct p; reflexivity.
Qed.
Lemma read_line_shrinks : forall s quoted comment read line ok l s', read_line quoted comment read line s = (ok, l, s') ->
  (List.length s' <= List.length s)%nat /\ (ok = true -> read = false -> (List.length s' < List.length s)%nat).
Proof.
  induction s as [|c s IH]; intros quoted comment read line ok l s' E; cbn in E; [injection E as <- _ <-; split; [lia|congruence]|].
    assert (K : forall q k r ln, read_line q k r ln s = (ok, l, s') -> (List.length s' <= List.length (c :: s))%nat /\ (ok = true -> read = false -> (List.length s' < List.length (c :: s))%nat)).
    { intros q k r ln H. destruct (IH _ _ _ _ _ _ _ H) as [A _]. cbn. split; [lia|]. intros _ _. lia. }
    destruct (c =? 13); [eapply K; eassumption|]. destruct quoted; [destruct (c =? 35); [|destruct (c =? 10)]; eapply K; eassumption|].
    destruct (c =? 35); [eapply K; eassumption|]. destruct (c =? 92); [eapply K; eassumption|]. destruct (c =? 10); [|eapply K; eassumption].
    injection E as <- _ <-. cbn. split; [lia|]. intros _ _. lia.
Qed.
Lemma read_lines_fuel f : forall s g, (List.length s < f)%nat -> (List.length s < g)%nat -> read_lines f s = read_lines g s.
Proof.
  induction f as [|f IH]; intros s g F G; [lia|]. destruct g as [|g]; [lia|]. cbn.
  destruct (read_line false false false [] s) as [[ok l] s'] eqn:E. destruct ok; [|reflexivity]. destruct (read_line_shrinks _ _ _ _ _ _ _ _ E) as [_ L]. specialize (L eq_refl eq_refl).
  rewrite (IH s' g) by lia. reflexivity.
Qed.

(** C43.  A file is read as its logical lines; an unfinished last line counts if it is not empty. *)
Theorem lines_exact lines last : Forall line_ok lines -> line_ok last ->
  file_lines (flat_map (fun l => line_body l ++ [10]) lines ++ line_body last) = Some (map line_value lines ++ match line_body last with [] => [] | _ => [line_value last] end).
Proof.
  intros F L. unfold file_lines. induction F as [|l lines O F IH]; cbn [flat_map app map].
  - cbn [read_lines]. pose proof (read_body last [] L (or_introl eq_refl)) as R. rewrite app_nil_r in R. rewrite R. destruct (line_body last); reflexivity.
  - cbn [read_lines]. rewrite <- !app_assoc. cbn [app]. rewrite read_body; [|assumption|eauto].
    set (rest := flat_map (fun l => line_body l ++ [10]) lines ++ line_body last) in *.
    rewrite (read_lines_fuel _ rest (S (List.length rest))); [now rewrite IH| |lia]. rewrite app_length. cbn. lia.
Qed.
(** C43.  A backslash at the end of the file stands for itself. *)
Theorem lines_backslash_end lines ps : Forall line_ok lines -> Forall lpiece_ok ps ->
  file_lines (flat_map (fun l => line_body l ++ [10]) lines ++ flat_map lpiece_text ps ++ [92]) = Some (map line_value lines ++ [flat_map lpiece_value ps ++ [92]]).
Proof.
  intros F L. unfold file_lines. induction F as [|l lines O F IH]; cbn [flat_map app map].
  - cbn [read_lines]. destruct (read_pieces ps [92] L false []) as (rd & -> & _ & _). cbn -[List.length]. rewrite app_length, Nat.add_comm. reflexivity.
  - cbn [read_lines]. rewrite <- !app_assoc. cbn [app]. rewrite read_body; [|assumption|eauto].
    set (rest := flat_map (fun l => line_body l ++ [10]) lines ++ flat_map lpiece_text ps ++ [92]) in *.
    rewrite (read_lines_fuel _ rest (S (List.length rest))); [now rewrite IH| |lia]. rewrite app_length. cbn. lia.
Qed.
(** C43.  Carriage returns do not matter. *)
Definition without_returns (s : str) : str := filter (fun c => negb (c =? 13)) s.
Theorem carriage_returns s : file_lines s = file_lines (without_returns s).
Proof.
  assert (R : forall s quoted comment read line, exists ok l t, read_line quoted comment read line s = (ok, l, t) /\
              read_line quoted comment read line (without_returns s) = (ok, l, without_returns t) /\ (List.length t <= List.length s)%nat /\
              (ok = true -> read = false -> (List.length t < List.length s)%nat)).
  { clear s. induction s as [|c s IH]; intros quoted comment read line; cbn [read_line without_returns filter].
    - eexists _, _, []. split; [reflexivity|]. split; [reflexivity|]. split; [cbn; lia|]. cbn. congruence.
    - fold (without_returns s). assert (K : forall q k rd ln, (c =? 13) = false -> exists ok l t, read_line q k rd ln s = (ok, l, t) /\
              read_line q k rd ln (without_returns s) = (ok, l, without_returns t) /\ (List.length t <= List.length (c :: s))%nat /\
              (ok = true -> read = false -> (List.length t < List.length (c :: s))%nat)).
      { intros q k rd ln _. destruct (IH q k rd ln) as (ok & l & t & A & B & C & D). exists ok, l, t. split; [assumption|]. split; [assumption|]. cbn. split; [lia|]. intros. lia. }
      destruct (c =? 13) eqn:C13; cbn [negb].
      + destruct (IH quoted comment read line) as (ok & l & t & A & B & C & D). exists ok, l, t. split; [assumption|]. split; [assumption|]. cbn. split; [lia|]. intros X Y. specialize (D X Y). lia.
      + cbn [read_line]. rewrite C13. destruct quoted; [destruct (c =? 35); [|destruct (c =? 10)]; now apply K|].
        destruct (c =? 35); [now apply K|]. destruct (c =? 92); [now apply K|]. destruct (c =? 10); [|now apply K].
        eexists true, line, s. split; [reflexivity|]. split; [reflexivity|]. cbn. split; lia. }
  unfold file_lines.
  assert (G : forall f (s : str) g, (List.length s < f)%nat -> (List.length (without_returns s) < g)%nat -> read_lines f s = read_lines g (without_returns s)).
  { induction f as [|f IH]; intros t g F G; [lia|]. destruct g as [|g]; [lia|]. cbn [read_lines]. destruct (R t false false false []) as (ok & l & u & E1 & E2 & _ & L). rewrite E1, E2. destruct ok; [|reflexivity].
    specialize (L eq_refl eq_refl). destruct (read_line_shrinks _ _ _ _ _ _ _ _ E2) as [_ L2]. specialize (L2 eq_refl eq_refl). rewrite (IH u g) by lia. reflexivity. }
  apply G; lia.
Qed.

(** ** Words *)

Definition one (w : str) : list str := match w with [] => [] | _ => [w] end.
Lemma split_qpieces q l rest : (q = 34 \/ q = 39) -> Forall (qpiece_ok q) l -> forall arg, split_command q arg (flat_map (qpiece_text q) l ++ q :: rest) = split_command 0 (arg ++ flat_map (qpiece_value q) l) rest.
Proof.
  intros Q F. assert (Q0 : (q =? 0) = false) by (destruct Q; subst; reflexivity). assert (Q92 : (q =? 92) = false) by (destruct Q; subst; reflexivity).
  induction F as [|p l O F IH]; intros arg; cbn [flat_map app].
  - cbn [split_command]. now rewrite N.eqb_refl, app_nil_r.
  - rewrite <- app_assoc. destruct p as [c| |c]; cbn [qpiece_text qpiece_value app split_command].
    + destruct O as [A B]. apply N.eqb_neq in B. rewrite (N.eqb_sym q c). apply N.eqb_neq in A. rewrite A, Q0, B. cbn [negb]. rewrite IH, <- app_assoc. reflexivity.
    + rewrite Q92, Q0. cbn [negb]. change (92 =? 92) with true. cbn iota. rewrite N.eqb_refl, IH, <- app_assoc. reflexivity.
    + cbn in O. apply N.eqb_neq in O. rewrite Q92, Q0. cbn [negb]. change (92 =? 92) with true. cbn iota. rewrite O, IH, <- app_assoc. reflexivity.
Qed.
Lemma split_wpieces w rest : Forall wpiece_ok w -> forall arg, split_command 0 arg (word_text w ++ rest) = split_command 0 (arg ++ word_value w) rest.
Proof.
  induction 1 as [|p w O F IH]; intros arg; cbn [word_text word_value flat_map app]; [now rewrite app_nil_r|]. fold (word_text w). fold (word_value w).
  rewrite <- app_assoc. destruct p as [c|c|q l]; cbn [wpiece_text wpiece_value app].
  - destruct O as (A & B & C & D & E). cbn [split_command]. rewrite (N.eqb_sym 0 c). apply N.eqb_neq in B, C, D, E. rewrite E, A, B, C, D. cbn [negb orb]. rewrite IH, <- app_assoc. reflexivity.
  - cbn [split_command]. change (0 =? 92) with false. change (0 =? 0) with true. change (is_space 92) with false. change ((92 =? 34) || (92 =? 39)) with false. change (92 =? 92) with true. cbn [negb].
    cbn iota. rewrite IH, <- app_assoc. reflexivity.
  - destruct O as [Q O]. cbn [split_command]. assert (Q0 : (0 =? q) = false) by (destruct Q; subst; reflexivity). assert (QS : is_space q = false) by (destruct Q; subst; reflexivity).
    assert (QQ : (q =? 34) || (q =? 39) = true) by (destruct Q; subst; reflexivity). rewrite Q0, QS, QQ. change (0 =? 0) with true. cbn [negb]. rewrite <- app_assoc. cbn [app].
    rewrite split_qpieces by assumption. rewrite IH, <- app_assoc. reflexivity.
Qed.
Lemma is_space_nul c : is_space c = true -> (0 =? c) = false.
Proof. intros H. destruct (N.eqb_spec 0 c) as [<-|]; [discriminate H|reflexivity]. Qed.
Lemma split_spaces sp rest : forallb is_space sp = true -> split_command 0 [] (sp ++ rest) = split_command 0 [] rest.
Proof.
  induction sp as [|c sp IH]; intros F; [reflexivity|]. cbn [forallb] in F. apply andb_prop in F as [C F]. cbn [app split_command]. rewrite (is_space_nul c C), C. change (0 =? 0) with true. cbn [negb].
  rewrite IH by assumption. destruct (split_command 0 [] rest); reflexivity.
Qed.
Lemma split_sep arg sp rest : spaces sp -> split_command 0 arg (sp ++ rest) = match split_command 0 [] rest with Some l => Some (one arg ++ l) | None => None end.
Proof.
  intros [N F]. destruct sp as [|c sp]; [easy|]. cbn [forallb] in F. apply andb_prop in F as [C F]. cbn [app split_command]. rewrite (is_space_nul c C), C. change (0 =? 0) with true. cbn [negb].
  rewrite split_spaces by assumption. destruct (split_command 0 [] rest); [|reflexivity]. now destruct arg.
Qed.
(** C43.  Words are separated by spaces; each non-empty one is recovered. *)
Theorem words_exact before words last : forallb is_space before = true -> Forall (fun w => Forall wpiece_ok (fst w) /\ spaces (snd w)) words -> Forall wpiece_ok last ->
  split_command 0 [] (before ++ flat_map (fun w => word_text (fst w) ++ snd w) words ++ word_text last) = Some (filter nonempty (map (fun w => word_value (fst w)) words ++ [word_value last])).
Proof.
  intros B F L. rewrite split_spaces by assumption. induction F as [|[w sp] words [O S] F IH]; cbn [flat_map app map filter].
  - rewrite <- (app_nil_r (word_text last)). rewrite split_wpieces by assumption. cbn [app split_command]. destruct (word_value last); reflexivity.
  - cbn [fst snd] in *. rewrite <- !app_assoc. rewrite split_wpieces by assumption. rewrite split_sep by assumption. cbn [app] in IH |- *. rewrite IH. destruct (word_value w); reflexivity.
Qed.
(** C43.  Whatever the words are, they are recovered when every character is escaped. *)
Fixpoint escaped_words (l : list str) : str := match l with [] => [] | [w] => flat_map (fun c => [92; c]) w | w :: l => flat_map (fun c => [92; c]) w ++ 32 :: escaped_words l end.
Theorem words_escaped l : Forall (fun w => w <> []) l -> split_command 0 [] (escaped_words l) = Some l.
Proof.
  assert (T : forall w, flat_map (fun c => [92; c]) w = word_text (map Escaped w)) by (induction w as [|c w IH]; [reflexivity|cbn in *; now rewrite IH]).
  assert (V : forall w, word_value (map Escaped w) = w) by (induction w as [|c w IH]; [reflexivity|]; unfold word_value in *; cbn [map flat_map wpiece_value app]; now rewrite IH).
  assert (O : forall w, Forall wpiece_ok (map Escaped w)) by (intros w; apply Forall_forall; intros p I; apply in_map_iff in I as (c & <- & _); constructor).
  induction 1 as [|w l H F IH]; [reflexivity|]. destruct l as [|v l].
  - cbn [escaped_words]. rewrite T, <- (app_nil_r (word_text _)), split_wpieces, V by apply O. cbn. destruct w; easy.
  - change (escaped_words (w :: v :: l)) with (flat_map (fun c => [92; c]) w ++ [32] ++ escaped_words (v :: l)). rewrite T, split_wpieces, V by apply O.
    rewrite split_sep by (split; [discriminate|reflexivity]). rewrite IH. destruct w; easy.
Qed.
(** The only error is a backslash at the end. *)
Theorem words_error s : split_command 0 [] s = None -> exists t, s = t ++ [92].
Proof.
  assert (G : forall n s, (List.length s <= n)%nat -> forall q arg, split_command q arg s = None -> exists t, s = t ++ [92]).
  { clear s. induction n as [|n IH]; intros [|c s] L q arg H; try discriminate H; [cbn in L; lia|].
    assert (K : forall q arg, split_command q arg s = None -> exists t, c :: s = t ++ [92]).
    { intros q' arg' H'. destruct (IH s ltac:(cbn in L; lia) _ _ H') as [t ->]. now exists (c :: t). }
    cbn [split_command] in H. destruct (q =? c); [eauto|]. destruct (negb (q =? 0)).
    - destruct (N.eqb_spec c 92) as [->|]; [|eauto]. destruct s as [|d s]; [now exists []|]. destruct (IH s ltac:(cbn in *; lia) _ _ H) as [t ->]. now exists (92 :: d :: t).
    - destruct (is_space c); [destruct (split_command 0 [] s) eqn:E; [discriminate|eauto]|]. destruct ((c =? 34) || (c =? 39)); [eauto|].
      destruct (N.eqb_spec c 92) as [->|]; [|eauto]. destruct s as [|d s]; [now exists []|]. destruct (IH s ltac:(cbn in *; lia) _ _ H) as [t ->]. now exists (92 :: d :: t). }
  intros H. eapply G; eauto.
Qed.
(** Empty arguments are lost, though they can be written with quotes. *)
Theorem words_empty_refuted : ~ (forall before words last, forallb is_space before = true -> Forall (fun w => Forall wpiece_ok (fst w) /\ fst w <> [] /\ spaces (snd w)) words -> Forall wpiece_ok last -> last <> [] ->
  split_command 0 [] (before ++ flat_map (fun w => word_text (fst w) ++ snd w) words ++ word_text last) = Some (map (fun w => word_value (fst w)) words ++ [word_value last])).
Proof.
  intros H. specialize (H [] [] [Quoted 34 []] eq_refl (Forall_nil _)). cbn in H. discriminate H; [|discriminate]. repeat constructor.
Qed.

(** ** Substitution *)

Lemma put_app a b r : put a (put b r) = put (a ++ b) r.
Proof. destruct r; cbn; [now rewrite app_assoc|reflexivity]. Qed.
Lemma no_brace s : ~ In 125 s -> Forall (fun c => negb (c =? 125) = true) s.
Proof. intros H. apply Forall_forall. intros c I. apply negb_true_iff, N.eqb_neq. now intros ->. Qed.
Lemma brace_none s : Forall (fun c => negb (c =? 125) = true) s -> ~ In 125 s.
Proof. intros H I. rewrite Forall_forall in H. specialize (H _ I). discriminate. Qed.

Lemma substitute_reads get n : forall s, (List.length s <= n)%nat -> exists r, substitute get n s = Some r /\ substituted get s r.
Proof.
  induction n as [|n IH]; intros s L.
  - destruct s; [|cbn in L; lia]. exists (Ok []). split; [reflexivity|constructor].
  - destruct s as [|c s]; [exists (Ok []); split; [reflexivity|constructor]|]. cbn [List.length] in L. cbn [substitute].
    destruct (starts_with [36; 36] (c :: s)) eqn:D.
    + apply starts_with_spec in D as [t E]. cbn in E. injection E as -> ->. cbn [skipn]. destruct (IH t ltac:(cbn in L; lia)) as (r & -> & R). exists (put [36] r). split; [destruct r; reflexivity|now constructor].
    + destruct (starts_with [36; 123] (c :: s)) eqn:V.
      * apply starts_with_spec in V as [t E]. cbn in E. injection E as -> ->. cbn [skipn]. pose proof (span_spec (fun c => negb (c =? 125)) t) as SP.
        destruct (span (fun c => negb (c =? 125)) t) as [name rest]. destruct SP as (-> & A & B). destruct rest as [|b rest].
        -- eexists. split; [reflexivity|]. rewrite app_nil_r. constructor. now apply brace_none.
        -- apply negb_false_iff, N.eqb_eq in B. subst b. destruct (get name) as [v|] eqn:G.
           ++ destruct (IH rest) as (r & -> & R); [cbn in L; rewrite app_length in L; cbn in L; lia|]. exists (put v r). split; [destruct r; reflexivity|]. constructor; auto. now apply brace_none.
           ++ eexists. split; [reflexivity|]. constructor; auto. now apply brace_none.
      * destruct (IH s ltac:(lia)) as (r & -> & R). exists (put [c] r). split; [destruct r; reflexivity|]. constructor; [|assumption].
        intros -> d t ->. cbn in D, V. split; intros ->; [now destruct t|now destruct t].
Qed.
Lemma split_at_brace a : forall b x y, ~ In 125 a -> ~ In 125 b -> a ++ 125 :: x = b ++ 125 :: y -> a = b /\ x = y.
Proof.
  induction a as [|c a IH]; intros [|d b] x y A B E; cbn in E; injection E.
  - auto.
  - intros _ <-. destruct B. now left.
  - intros _ ->. destruct A. now left.
  - intros E' ->. destruct (IH b x y) as [-> ->]; auto; intros I; [apply A|apply B]; now right.
Qed.
Lemma substituted_unique get s r : substituted get s r -> forall r', substituted get s r' -> r = r'.
Proof.
  assert (NB : forall name s t : str, ~ In 125 t -> name ++ 125 :: s = t -> False) by (intros name s0 t H <-; apply H; apply in_or_app; right; now left).
  induction 1 as [|s r H IH|name s v r B G H IH|name s B G|s B|c s r C H IH]; intros r' H'.
  - now inversion H'.
  - inversion H' as [|s1 r1 H1| | | |c1 s1 r1 C1 H1]; subst; [f_equal; auto|]. destruct (C1 eq_refl 36 s eq_refl). easy.
  - inversion H' as [| |n1 s1 v1 r1 B1 G1 H1 E1|n1 s1 B1 G1 E1|s1 B1 E1|c1 s1 r1 C1 H1 E1]; subst.
    + apply split_at_brace in E1 as [-> ->]; auto. rewrite G in G1. injection G1 as <-. f_equal. auto.
    + apply split_at_brace in E1 as [-> ->]; auto. congruence.
    + destruct (NB name s _ B1 eq_refl).
    + destruct (C1 eq_refl 123 _ eq_refl). easy.
  - inversion H' as [| |n1 s1 v1 r1 B1 G1 H1 E1|n1 s1 B1 G1 E1|s1 B1 E1|c1 s1 r1 C1 H1 E1]; subst.
    + apply split_at_brace in E1 as [-> ->]; auto. congruence.
    + apply split_at_brace in E1 as [-> ->]; auto.
    + destruct (NB name s _ B1 eq_refl).
    + destruct (C1 eq_refl 123 _ eq_refl). easy.
  - inversion H' as [| |n1 s1 v1 r1 B1 G1 H1 E1|n1 s1 B1 G1 E1|s1 B1 E1|c1 s1 r1 C1 H1 E1]; subst.
    + destruct (NB n1 s1 _ B eq_refl).
    + destruct (NB n1 s1 _ B eq_refl).
    + reflexivity.
    + destruct (C1 eq_refl 123 _ eq_refl). easy.
  - inversion H' as [|s1 r1 H1|n1 s1 v1 r1 B1 G1 H1 E1|n1 s1 B1 G1 E1|s1 B1 E1|c1 s1 r1 C1 H1 E1]; subst.
    + destruct (C eq_refl 36 _ eq_refl). easy.
    + destruct (C eq_refl 123 _ eq_refl). easy.
    + destruct (C eq_refl 123 _ eq_refl). easy.
    + destruct (C eq_refl 123 _ eq_refl). easy.
    + f_equal. auto.
Qed.
(** C43.  What the text becomes, or why it is not accepted. *)
Theorem substitution_exact o p s r : trim_and_substitute o p s = r <-> substituted (get_variable o p) (trim s) r.
Proof.
  unfold trim_and_substitute. destruct (substitute_reads (get_variable o p) _ (trim s) (le_n _)) as (r' & -> & R). split; [now intros <-|]. intros R'. eapply substituted_unique; eauto.
Qed.
(** Text in which every dollar sign is doubled stays what it was. *)
Definition doubled (s : str) : str := flat_map (fun c => if c =? 36 then [36; 36] else [c]) s.
Theorem substitution_doubled get s : substituted get (doubled s) (Ok s).
Proof.
  induction s as [|c s IH]; cbn; [constructor|]. destruct (N.eqb_spec c 36) as [->|N]; cbn [app].
  - change (Ok (36 :: s)) with (put [36] (Ok s)). now constructor.
  - change (Ok (c :: s)) with (put [c] (Ok s)). constructor; [easy|assumption].
Qed.
(** Parts that do not end with a dollar sign are independent. *)
Theorem substitution_app get a r : substituted get a (Ok r) -> (forall t, a <> t ++ [36]) -> forall b x, substituted get b x -> substituted get (a ++ b) (put r x).
Proof.
  intros H. remember (Ok r) as R eqn:ER. revert r ER. induction H as [|s r' H IH|name s v r' B G H IH|name s B G|s B|c s r' C H IH]; intros r ER N b x X.
  - injection ER as <-. now destruct x.
  - destruct r' as [r'|]; [|discriminate]. injection ER as <-. change (36 :: r') with ([36] ++ r'). rewrite <- put_app. cbn [app]. constructor.
    apply IH; auto. intros t ->. now apply (N (36 :: 36 :: t)).
  - destruct r' as [r'|]; [|discriminate]. injection ER as <-. rewrite <- put_app. cbn [app]. rewrite <- app_assoc. cbn [app]. constructor; auto.
    apply IH; auto. intros t ->. apply (N (36 :: 123 :: name ++ 125 :: t)). cbn. now rewrite <- app_assoc.
  - discriminate.
  - discriminate.
  - destruct r' as [r'|]; [|discriminate]. injection ER as <-. change (c :: r') with ([c] ++ r'). rewrite <- put_app. cbn [app]. constructor.
    + intros -> d t E. destruct s as [|e s]; [now destruct (N [])|]. cbn in E. injection E as -> _. eapply C; reflexivity.
    + apply IH; auto. intros t ->. now apply (N (c :: t)).
Qed.

(** ** Lines of a file *)

Definition rtrim (s : str) : str := rev (trim_left (rev s)).
Lemma trim_def s : trim s = rtrim (trim_left s).
Proof. reflexivity. Qed.
Lemma trim_left_spaces sp s : forallb is_space sp = true -> trim_left (sp ++ s) = trim_left s.
Proof. induction sp as [|c sp IH]; intros F; [reflexivity|]. cbn in *. apply andb_prop in F as [C F]. rewrite C. auto. Qed.
Lemma trim_left_stop s c t : is_space c = false -> trim_left (s ++ c :: t) = trim_left s ++ c :: t.
Proof. intros C. induction s as [|d s IH]; cbn; [now rewrite C|]. destruct (is_space d); [assumption|reflexivity]. Qed.
Lemma trim_left_split s : exists sp, s = sp ++ trim_left s /\ forallb is_space sp = true.
Proof.
  induction s as [|c s (sp & E & F)]; [now exists []|]. cbn. destruct (is_space c) eqn:C; [|now exists []]. exists (c :: sp). cbn. rewrite C, F. split; [now f_equal|reflexivity].
Qed.
Lemma trim_left_head s c t : trim_left s = c :: t -> is_space c = false.
Proof. induction s as [|d s IH]; cbn; [discriminate|]. destruct (is_space d) eqn:D; [assumption|]. intros E. now injection E as <- _. Qed.
Lemma forallb_rev {A} (f : A -> bool) l : forallb f (rev l) = forallb f l.
Proof. induction l as [|a l IH]; [reflexivity|]. cbn. rewrite forallb_app, IH. cbn. rewrite andb_true_r. apply andb_comm. Qed.
Lemma rtrim_stop s c t : is_space c = false -> rtrim (s ++ c :: t) = s ++ c :: rtrim t.
Proof.
  intros C. unfold rtrim. rewrite rev_app_distr. cbn [rev]. rewrite <- app_assoc. cbn [app]. rewrite trim_left_stop by assumption. rewrite rev_app_distr. cbn [rev].
  rewrite <- app_assoc, rev_involutive. reflexivity.
Qed.
Lemma rtrim_spaces s sp : forallb is_space sp = true -> rtrim (s ++ sp) = rtrim s.
Proof. intros F. unfold rtrim. rewrite rev_app_distr, trim_left_spaces; [reflexivity|]. now rewrite forallb_rev. Qed.
Lemma rtrim_split s : exists sp, s = rtrim s ++ sp /\ forallb is_space sp = true.
Proof.
  destruct (trim_left_split (rev s)) as (sp & E & F). exists (rev sp). split; [|now rewrite forallb_rev]. unfold rtrim. rewrite <- rev_app_distr, <- E. now rewrite rev_involutive.
Qed.
Lemma trim_left_all sp : forallb is_space sp = true -> trim_left sp = [].
Proof. intros F. rewrite <- (app_nil_r sp). now rewrite trim_left_spaces. Qed.
Lemma trim_spaces s sp : forallb is_space sp = true -> trim (s ++ sp) = trim s.
Proof.
  intros F. rewrite !trim_def. destruct (trim_left_split s) as (x & E & X). destruct (trim_left s) as [|c t] eqn:T.
  - rewrite app_nil_r in E. subst s. rewrite trim_left_spaces by assumption. now rewrite (trim_left_all sp F).
  - pose proof (trim_left_head _ _ _ T) as C. rewrite E. rewrite <- app_assoc. rewrite trim_left_spaces by assumption. cbn [app trim_left]. rewrite C.
    change (c :: t ++ sp) with ((c :: t) ++ sp). now apply rtrim_spaces.
Qed.
Lemma trim_rtrim s : trim (rtrim s) = trim s.
Proof. destruct (rtrim_split s) as (sp & E & F). rewrite E at 2. now rewrite trim_spaces. Qed.
Lemma rtrim_rtrim s : rtrim (rtrim s) = rtrim s.
Proof. destruct (rtrim_split s) as (sp & E & F). rewrite E at 2. now rewrite rtrim_spaces. Qed.
Lemma trim_trim value : trim (trim value) = trim value.
Proof.
  rewrite (trim_def (trim value)). destruct (trim value) as [|c t] eqn:TV; [reflexivity|]. rewrite trim_def in TV.
  assert (C : is_space c = false).
  { destruct (rtrim_split (trim_left value)) as (sp & E2 & _). rewrite TV in E2. cbn in E2. eapply trim_left_head, E2. }
  cbn [trim_left]. rewrite C. rewrite <- TV. apply rtrim_rtrim.
Qed.
Lemma tag_not_space c : is_tag c = true -> is_space c = false.
Proof.
  intros H. destruct (is_space c) eqn:S; [exfalso|reflexivity]. unfold is_space in S. apply orb_prop in S as [S|S].
  - apply N.eqb_eq in S as ->. discriminate H.
  - apply andb_prop in S as [S1 S2]. apply N.leb_le in S1, S2. assert (K : In c [9; 10; 11; 12; 13]) by (cbn; lia). cbn in K.
    destruct K as [<-|[<-|[<-|[<-|[<-|[]]]]]]; discriminate H.
Qed.
Lemma space_not_tag c : is_space c = true -> is_tag c = false.
Proof. intros H. destruct (is_tag c) eqn:T; [|reflexivity]. now rewrite (tag_not_space _ T) in H. Qed.

(** A line that says what a tag is. *)
Inductive says (c : N) (tag value : str) : str -> Prop :=
| Says sp1 sp2 : forallb is_space sp1 = true -> forallb is_space sp2 = true -> forallb is_tag tag = true -> tag <> [] -> says c tag value (sp1 ++ tag ++ sp2 ++ c :: value).
Theorem line_says o p c tag value s : says c tag value s -> c = 58 \/ c = 61 -> parse_line o p s = if c =? 58 then keyword o p tag (trim value) else variable o p tag (trim value).
Proof.
  intros [sp1 sp2 S1 S2 T NT] C. assert (CS : is_space c = false) by (destruct C; subst; reflexivity). assert (CT : is_tag c = false) by (destruct C; subst; reflexivity).
  unfold parse_line. assert (E : trim (sp1 ++ tag ++ sp2 ++ c :: value) = tag ++ sp2 ++ c :: rtrim value).
  { rewrite trim_def, trim_left_spaces by assumption. assert (TL : trim_left (tag ++ sp2 ++ c :: value) = tag ++ sp2 ++ c :: value).
    { destruct tag as [|d tag]; [easy|]. cbn in *. apply andb_prop in T as [T _]. now rewrite (tag_not_space _ T). }
    rewrite TL. rewrite app_assoc, rtrim_stop by assumption. now rewrite <- app_assoc. }
  rewrite E. rewrite span_app.
  - rewrite trim_def, trim_left_spaces by assumption. cbn [trim_left]. rewrite CS. pose proof (rtrim_stop [] c (rtrim value) CS) as R. cbn [app] in R. rewrite R, rtrim_rtrim, trim_rtrim.
    destruct C; subst; reflexivity.
  - apply Forall_forall. intros d D. rewrite forallb_forall in T. auto.
  - destruct sp2 as [|d sp2]; [exact CT|]. cbn. cbn in S2. apply andb_prop in S2 as [S2 _]. now apply space_not_tag.
Qed.

Lemma lookup_cons k' v' m k : lookup ((k', v') :: m) k = if str_eqb k' k then Some v' else lookup m k.
Proof. unfold lookup. cbn. now destruct (str_eqb k' k). Qed.
Lemma lookup_app m n k : lookup (m ++ n) k = match lookup m k with Some v => Some v | None => lookup n k end.
Proof. induction m as [|[j w] m IH]; [reflexivity|]. cbn [app]. rewrite !lookup_cons, IH. now destruct (str_eqb j k). Qed.
Lemma insert_new_ok m k v m' : insert_new m k v = Some m' -> lookup m k = None /\ lookup m' k = Some v /\ (forall j w, lookup m j = Some w -> lookup m' j = Some w) /\ (forall j, j <> k -> lookup m' j = lookup m j).
Proof.
  unfold insert_new. destruct (lookup m k) eqn:L; [discriminate|]. intros E. injection E as <-. split; [reflexivity|]. split; [|split].
  - rewrite lookup_app, L, lookup_cons. now rewrite str_eqb_refl.
  - intros j w H. now rewrite lookup_app, H.
  - intros j J. rewrite lookup_app. destruct (lookup m j); [reflexivity|]. rewrite lookup_cons. destruct (str_eqb k j) eqn:E; [apply str_eqb_eq in E; congruence|reflexivity].
Qed.

(** What a line leaves alone: values of variables, and fields that are not empty. *)
Definition kept (p q : package) : Prop :=
  (forall k v, lookup (pc_variables p) k = Some v -> lookup (pc_variables q) k = Some v) /\
  (pc_name p <> [] -> pc_name q = pc_name p) /\ (pc_version p <> [] -> pc_version q = pc_version p) /\ (pc_description p <> [] -> pc_description q = pc_description p) /\ (pc_url p <> [] -> pc_url q = pc_url p) /\
  (pc_libs p <> [] -> pc_libs q = pc_libs p) /\ (pc_libs_private p <> [] -> pc_libs_private q = pc_libs_private p) /\ (pc_cflags p <> [] -> pc_cflags q = pc_cflags p) /\
  (pc_requires p <> [] -> pc_requires q = pc_requires p) /\ (pc_requires_private p <> [] -> pc_requires_private q = pc_requires_private p) /\ (pc_conflicts p <> [] -> pc_conflicts q = pc_conflicts p) /\
  pc_path q = pc_path p /\ pc_base q = pc_base p.
Lemma kept_refl p : kept p p.
Proof. repeat split; auto. Qed.
Lemma kept_trans p q r : kept p q -> kept q r -> kept p r.
Proof.
  intros (A1 & A2 & A3 & A4 & A5 & A6 & A7 & A8 & A9 & A10 & A11 & A12 & A13) (B1 & B2 & B3 & B4 & B5 & B6 & B7 & B8 & B9 & B10 & B11 & B12 & B13).
  split; [auto|]. repeat split; try congruence; intros H;
    [rewrite B2|rewrite B3|rewrite B4|rewrite B5|rewrite B6|rewrite B7|rewrite B8|rewrite B9|rewrite B10|rewrite B11]; auto; rewrite ?A2, ?A3, ?A4, ?A5, ?A6, ?A7, ?A8, ?A9, ?A10, ?A11; auto.
Qed.
Lemma string_of_ok o p old f s v : string_of o p old f s = Ok v -> old = [] /\ trim_and_substitute o p s = Ok v.
Proof. unfold string_of. destruct old; [auto|discriminate]. Qed.
Lemma modules_of_ok o p old f s v : modules_of o p old f s = Ok v -> old = [].
Proof. unfold modules_of. now destruct old. Qed.
Lemma flags_of_ok o p old f loop s v : flags_of o p old f loop s = Ok v -> old = [].
Proof. unfold flags_of. now destruct old. Qed.
Lemma keyword_kept o p tag s q : keyword o p tag s = Ok q -> kept p q.
Proof.
  unfold keyword. intros H.
  repeat match type of H with context [if ?b then _ else _] => destruct b end; try (injection H as <-; apply kept_refl);
    match type of H with bind ?r _ = _ => destruct r as [v|] eqn:E; [|discriminate H] end; cbn [bind] in H; injection H as <-;
    try (apply string_of_ok in E as [E _]); try (apply modules_of_ok in E); try (apply flags_of_ok in E); repeat split; cbn; auto; congruence.
Qed.
Lemma variable_kept o p tag s q : variable o p tag s = Ok q -> kept p q.
Proof.
  unfold variable. destruct (evaluate_variable o p tag s) as [p' r] eqn:E. intros H. destruct r as [v|]; [|discriminate H]. cbn in H.
  assert (P : p' = p \/ exists t, p' = with_old_prefix p t).
  { unfold evaluate_variable in E. destruct (o_define_prefix o); [|left; congruence]. destruct (str_eqb tag (lit "prefix")); [right; injection E as <- _; eauto|].
    destruct (pc_old_prefix p); [destruct (starts_with _ s)|]; left; congruence. }
  destruct (insert_new (pc_variables p') tag v) as [m|] eqn:I; [|discriminate]. injection H as <-. apply insert_new_ok in I as (_ & _ & M & _).
  destruct P as [->|[t ->]]; repeat split; cbn in *; auto.
Qed.
Lemma line_kept o p s q : parse_line o p s = Ok q -> kept p q.
Proof.
  unfold parse_line. destruct (span is_tag (trim s)) as [tag rest]. destruct (trim rest) as [|c t]; [intros H; injection H as <-; apply kept_refl|].
  destruct (c =? 58); [apply keyword_kept|]. destruct (c =? 61); [apply variable_kept|]. intros H. injection H as <-. apply kept_refl.
Qed.
Lemma lines_kept o l : forall p q, parse_lines o p l = Ok q -> kept p q.
Proof.
  induction l as [|s l IH]; intros p q H; cbn in H; [injection H as <-; apply kept_refl|]. destruct (parse_line o p s) as [p'|] eqn:E; [|discriminate]. eapply kept_trans; [eapply line_kept, E|eapply IH, H].
Qed.
Lemma parse_lines_app o l : forall p m, parse_lines o p (l ++ m) = bind (parse_lines o p l) (fun q => parse_lines o q m).
Proof. induction l as [|s l IH]; intros p m; [reflexivity|]. cbn. destruct (parse_line o p s); [apply IH|reflexivity]. Qed.

(** C43.  Where the value of a variable in the text comes from: the environment variable PKG_CONFIG_package_variable, in capitals and with underscores for everything else;
    else the global variables; else the file. *)
Definition capital (c d : N) : Prop := (97 <= c <= 122 /\ d = c - 32) \/ (65 <= c <= 90 /\ d = c) \/ (48 <= c <= 57 /\ d = c) \/ (~ 97 <= c <= 122 /\ ~ 65 <= c <= 90 /\ ~ 48 <= c <= 57 /\ d = 95).
Theorem environment_name pkg var : exists a b, env_var pkg var = lit "PKG_CONFIG_" ++ a ++ lit "_" ++ b /\ Forall2 capital pkg a /\ Forall2 capital var b.
Proof.
  assert (K : forall s, Forall2 capital s (map env_char s)).
  { induction s as [|c s IH]; [constructor|]. constructor; [|exact IH]. unfold env_char, capital.
    destruct (97 <=? c) eqn:A; destruct (c <=? 122) eqn:B; cbn [andb]; try (apply N.leb_le in A); try (apply N.leb_gt in A); try (apply N.leb_le in B); try (apply N.leb_gt in B).
    1: replace ((48 <=? c - 32) && (c - 32 <=? 57)) with false by (symmetry; apply andb_false_intro2, N.leb_gt; lia); replace ((65 <=? c - 32) && (c - 32 <=? 90)) with true by (symmetry; apply andb_true_intro; split; apply N.leb_le; lia); left; split; [lia|reflexivity].
    all: destruct ((48 <=? c) && (c <=? 57)) eqn:D; [apply andb_true_iff in D as [D1 D2]; apply N.leb_le in D1, D2; right; right; left; split; [lia|reflexivity]|].
    all: destruct ((65 <=? c) && (c <=? 90)) eqn:E; cbn [orb]; [apply andb_true_iff in E as [E1 E2]; apply N.leb_le in E1, E2; right; left; split; [lia|reflexivity]|].
    all: right; right; right; split; [lia|]; apply andb_false_iff in D as [D|D]; apply N.leb_gt in D; apply andb_false_iff in E as [E|E]; apply N.leb_gt in E; (split; [lia|split; [lia|reflexivity]]). }
  exists (map env_char pkg), (map env_char var). split; [|auto]. unfold env_var. rewrite !map_app. reflexivity.
Qed.
Theorem variable_precedence o p var : var <> [] ->
  (forall v, pc_base p <> [] -> lookup (o_system o) (env_var (pc_base p) var) = Some v -> get_variable o p var = Some v) /\
  ((pc_base p = [] \/ lookup (o_system o) (env_var (pc_base p) var) = None) -> forall v, lookup (o_globals o) var = Some v -> get_variable o p var = Some v) /\
  ((pc_base p = [] \/ lookup (o_system o) (env_var (pc_base p) var) = None) -> lookup (o_globals o) var = None -> get_variable o p var = lookup (pc_variables p) var).
Proof.
  intros N. unfold get_variable. destruct var as [|c var]; [congruence|]. split; [|split].
  - intros v B E. destruct (pc_base p); [congruence|]. now rewrite E.
  - intros [B|B] v G; [rewrite B|destruct (pc_base p); [|rewrite B]]; rewrite G; reflexivity.
  - intros [B|B] G; [rewrite B|destruct (pc_base p); [|rewrite B]]; rewrite G; reflexivity.
Qed.

(** C43.  The value of a variable: its text with the values that variables have after the lines before it; it stays the same. *)
Theorem variable_value o p before tag value line after q :
  o_define_prefix o = false -> says 61 tag value line -> parse_lines o p (before ++ line :: after) = Ok q ->
  exists p1 v, parse_lines o p before = Ok p1 /\ substituted (get_variable o p1) (trim value) (Ok v) /\ lookup (pc_variables p1) tag = None /\ lookup (pc_variables q) tag = Some v.
Proof.
  intros D S H. rewrite parse_lines_app in H. destruct (parse_lines o p before) as [p1|] eqn:E; [|discriminate]. cbn in H. rewrite (line_says o p1 61 tag value line S (or_intror eq_refl)) in H. cbn in H.
  unfold variable, evaluate_variable in H. rewrite D in H. destruct (trim_and_substitute o p1 (trim value)) as [v|] eqn:T; [|discriminate]. cbn in H.
  destruct (insert_new (pc_variables p1) tag v) as [m|] eqn:I; [|discriminate]. apply insert_new_ok in I as (N & V & _). exists p1, v. split; [reflexivity|]. split; [|split; [assumption|]].
  - apply substitution_exact in T. now rewrite trim_trim in T.
  - apply lines_kept in H as [H _]. apply H. exact V.
Qed.
(** A variable cannot be defined twice. *)
Theorem variable_once o p before tag value line between value' line' after q :
  says 61 tag value line -> says 61 tag value' line' -> parse_lines o p (before ++ line :: between ++ line' :: after) <> Ok q.
Proof.
  assert (V : forall p tag s q, variable o p tag s = Ok q -> lookup (pc_variables p) tag = None /\ exists v, lookup (pc_variables q) tag = Some v).
  { clear. intros p tag s q H. unfold variable in H. destruct (evaluate_variable o p tag s) as [p' r] eqn:E. destruct r as [v|]; [|discriminate H]. cbn in H.
    assert (P : pc_variables p' = pc_variables p).
    { unfold evaluate_variable in E. destruct (o_define_prefix o); [|now injection E as <- _]. destruct (str_eqb tag (lit "prefix")); [now injection E as <- _|].
      destruct (pc_old_prefix p); [destruct (starts_with _ s)|]; now injection E as <- _. }
    rewrite P in H. destruct (insert_new (pc_variables p) tag v) as [m|] eqn:I; [|discriminate]. injection H as <-. apply insert_new_ok in I as (A & B & _). eauto. }
  intros S S' H. rewrite parse_lines_app in H. destruct (parse_lines o p before) as [p1|]; [|discriminate]. cbn in H. rewrite (line_says o p1 61 tag value line S (or_intror eq_refl)) in H. cbn in H.
  destruct (variable o p1 tag (trim value)) as [p2|] eqn:V1; [|discriminate]. cbn in H. rewrite parse_lines_app in H. destruct (parse_lines o p2 between) as [p3|] eqn:B; [|discriminate]. cbn in H.
  rewrite (line_says o p3 61 tag value' line' S' (or_intror eq_refl)) in H. cbn in H. destruct (variable o p3 tag (trim value')) as [p4|] eqn:V2; [|discriminate].
  apply V in V1 as (_ & v & V1). apply V in V2 as (V2 & _). apply lines_kept in B as [B _]. apply B in V1. congruence.
Qed.
(** C43, C56, C57.  The fields: from the text of their lines with the values that variables have there. *)
Theorem field_values o p before tag value line after q :
  says 58 tag value line -> parse_lines o p (before ++ line :: after) = Ok q ->
  exists p1, parse_lines o p before = Ok p1 /\
    (tag = lit "Name" -> exists v, substituted (get_variable o p1) (trim value) (Ok v) /\ (v <> [] -> pc_name q = v)) /\
    (tag = lit "Version" -> exists v, substituted (get_variable o p1) (trim value) (Ok v) /\ (v <> [] -> pc_version q = v)) /\
    (tag = lit "Libs" -> exists t argv, substituted (get_variable o p1) (trim value) (Ok t) /\ split_command 0 [] t = Some argv /\ (parse_libs argv <> [] -> pc_libs q = parse_libs argv)) /\
    (tag = lit "Libs.private" -> exists t argv, substituted (get_variable o p1) (trim value) (Ok t) /\ split_command 0 [] t = Some argv /\ (parse_libs argv <> [] -> pc_libs_private q = parse_libs argv)) /\
    (tag = lit "Cflags" \/ tag = lit "CFlags" -> exists t argv, substituted (get_variable o p1) (trim value) (Ok t) /\ split_command 0 [] t = Some argv /\ (parse_cflags argv <> [] -> pc_cflags q = parse_cflags argv)) /\
    (tag = lit "Requires" -> exists t l, substituted (get_variable o p1) (trim value) (Ok t) /\ (~ In 0 t -> parse_module_list t = Ok l) /\ (l <> [] -> pc_requires q = l)) /\
    (tag = lit "Requires.private" -> exists t l, substituted (get_variable o p1) (trim value) (Ok t) /\ (~ In 0 t -> parse_module_list t = Ok l) /\ (l <> [] -> pc_requires_private q = l)) /\
    (tag = lit "Conflicts" -> exists t l, substituted (get_variable o p1) (trim value) (Ok t) /\ (~ In 0 t -> parse_module_list t = Ok l) /\ (l <> [] -> pc_conflicts q = l)).
Proof.
  intros S H. rewrite parse_lines_app in H. destruct (parse_lines o p before) as [p1|] eqn:E; [|discriminate]. cbn in H. rewrite (line_says o p1 58 tag value line S (or_introl eq_refl)) in H. cbn [N.eqb Pos.eqb] in H.
  exists p1. split; [reflexivity|]. destruct (keyword o p1 tag (trim value)) as [p2|] eqn:K; [|discriminate]. cbn in H. apply lines_kept in H as (_ & N & V & _ & _ & L & LP & C & R & RP & CF & _).
  assert (ST : forall old f v, string_of o p1 old f (trim value) = Ok v -> substituted (get_variable o p1) (trim value) (Ok v)).
  { intros old f v Q. apply string_of_ok in Q as [_ Q]. apply substitution_exact in Q. now rewrite trim_trim in Q. }
  assert (FT : forall old f loop v, loop [] = [] -> flags_of o p1 old f loop (trim value) = Ok v -> exists t argv, substituted (get_variable o p1) (trim value) (Ok t) /\ split_command 0 [] t = Some argv /\ v = loop argv).
  { intros old f loop v LN Q. unfold flags_of in Q. destruct old; [|discriminate]. destruct (trim_and_substitute o p1 (trim value)) as [t|] eqn:T; [|discriminate]. apply substitution_exact in T. rewrite trim_trim in T.
    cbn in Q. exists t. destruct t as [|c t]; [exists []; injection Q as <-; auto|]. destruct (split_command 0 [] (c :: t)) as [argv|]; [|discriminate]. injection Q as <-. eauto. }
  assert (MT : forall old f v, modules_of o p1 old f (trim value) = Ok v -> exists t, substituted (get_variable o p1) (trim value) (Ok t) /\ (~ In 0 t -> parse_module_list t = Ok v)).
  { intros old f v Q. unfold modules_of in Q. destruct old; [|discriminate]. destruct (trim_and_substitute o p1 (trim value)) as [t|] eqn:T; [|discriminate]. apply substitution_exact in T. rewrite trim_trim in T.
    cbn in Q. exists t. split; [assumption|]. intros Z. pose proof (span_app (fun c => negb (c =? 0)) t []) as SP. rewrite app_nil_r in SP. rewrite SP in Q; [exact Q| |exact I].
    apply Forall_forall. intros c I. apply negb_true_iff, N.eqb_neq. now intros ->. }
  unfold keyword in K.
  split; [|split; [|split; [|split; [|split; [|split; [|split]]]]]].
  - intros ->. cbn -[lit] in K. change (str_eqb (lit "Name") (lit "Name")) with true in K. cbn iota in K.
    destruct (string_of o p1 (pc_name p1) (lit "Name") (trim value)) as [v|] eqn:Q; [|discriminate]. injection K as <-. exists v. split; [eapply ST, Q|]. intros X. now apply N.
  - intros ->. vm_compute (str_eqb _ _) in K. cbn [orb] in K. cbn iota in K.
    destruct (string_of o p1 (pc_version p1) (lit "Version") (trim value)) as [v|] eqn:Q; [|discriminate]. injection K as <-. exists v. split; [eapply ST, Q|]. intros X. now apply V.
  - intros ->. vm_compute (str_eqb _ _) in K. cbn [orb] in K. cbn iota in K.
    destruct (flags_of o p1 (pc_libs p1) (lit "Libs") parse_libs (trim value)) as [v|] eqn:Q; [|discriminate]. injection K as <-.
    apply FT in Q as (t & argv & A & B & ->); [|reflexivity]. exists t, argv. split; [assumption|]. split; [assumption|]. intros X. now apply L.
  - intros ->. vm_compute (str_eqb _ _) in K. cbn [orb] in K. cbn iota in K.
    destruct (flags_of o p1 (pc_libs_private p1) (lit "Libs.private") parse_libs (trim value)) as [v|] eqn:Q; [|discriminate]. injection K as <-.
    apply FT in Q as (t & argv & A & B & ->); [|reflexivity]. exists t, argv. split; [assumption|]. split; [assumption|]. intros X. now apply LP.
  - intros T. assert (K' : bind (flags_of o p1 (pc_cflags p1) (lit "Cflags") parse_cflags (trim value)) (fun v => Ok (with_flags p1 (pc_libs p1) (pc_libs_private p1) v)) = Ok p2).
    { destruct T as [->| ->]; vm_compute (str_eqb _ _) in K; exact K. }
    destruct (flags_of o p1 (pc_cflags p1) (lit "Cflags") parse_cflags (trim value)) as [v|] eqn:Q; [|discriminate]. injection K' as <-.
    apply FT in Q as (t & argv & A & B & ->); [|reflexivity]. exists t, argv. split; [assumption|]. split; [assumption|]. intros X. now apply C.
  - intros ->. vm_compute (str_eqb _ _) in K. cbn [orb] in K. cbn iota in K.
    destruct (modules_of o p1 (pc_requires p1) (lit "Requires") (trim value)) as [v|] eqn:Q; [|discriminate]. injection K as <-.
    apply MT in Q as (t & A & B). exists t, v. split; [assumption|]. split; [assumption|]. intros X. now apply R.
  - intros ->. vm_compute (str_eqb _ _) in K. cbn [orb] in K. cbn iota in K.
    destruct (modules_of o p1 (pc_requires_private p1) (lit "Requires.private") (trim value)) as [v|] eqn:Q; [|discriminate]. injection K as <-.
    apply MT in Q as (t & A & B). exists t, v. split; [assumption|]. split; [assumption|]. intros X. now apply RP.
  - intros ->. vm_compute (str_eqb _ _) in K. cbn [orb] in K. cbn iota in K.
    destruct (modules_of o p1 (pc_conflicts p1) (lit "Conflicts") (trim value)) as [v|] eqn:Q; [|discriminate]. injection K as <-.
    apply MT in Q as (t & A & B). exists t, v. split; [assumption|]. split; [assumption|]. intros X. now apply CF.
Qed.

(** ** C56: Required modules *)

Definition operator_text (c : comparison) : str :=
  match c with LessThan => lit "<" | GreaterThan => lit ">" | LessThanEqual => lit "<=" | GreaterThanEqual => lit ">=" | Equal => lit "=" | NotEqual => lit "!=" | AlwaysMatch => [] end.
(** A module as it is written: the name, and the operator and the version with spaces before them. *)
Inductive written : required -> str -> Prop :=
| written_name name : name <> [] -> forallb (fun c => negb (is_separator c)) name = true -> (forall c t, name = c :: t -> is_operator c = false) -> written (mkRequired name AlwaysMatch []) name
| written_version name cmp version sp1 sp2 : name <> [] -> forallb (fun c => negb (is_separator c)) name = true -> (forall c t, name = c :: t -> is_operator c = false) -> cmp <> AlwaysMatch ->
    version <> [] -> forallb (fun c => negb (is_separator c)) version = true -> spaces sp1 -> spaces sp2 ->
    written (mkRequired name cmp version) (name ++ sp1 ++ operator_text cmp ++ sp2 ++ version).
Definition separators (s : str) : Prop := s <> [] /\ forallb is_separator s = true.
(** A list of modules with separators between them. *)
Inductive written_list : list required -> str -> Prop :=
| written_one m s : written m s -> written_list [m] s
| written_more m s sep l t : written m s -> separators sep -> written_list l t -> written_list (m :: l) (s ++ sep ++ t).

Lemma space_separator c : is_space c = true -> is_separator c = true.
Proof. intros H. unfold is_separator. rewrite H. apply orb_true_r. Qed.
Lemma sep_space c : is_separator c = false -> is_space c = false.
Proof. unfold is_separator. intros H. now apply orb_false_elim in H as [_ H]. Qed.
Lemma operator_not_space c : is_operator c = true -> is_space c = false.
Proof.
  unfold is_operator. intros H. repeat (apply orb_prop in H as [H|H]); apply N.eqb_eq in H as ->; reflexivity.
Qed.
Lemma outside_seps sep : forall cur s, forallb is_separator sep = true -> split_modules OutsideModule cur (sep ++ s) = split_modules OutsideModule (cur ++ sep) s.
Proof.
  induction sep as [|c sep IH]; intros cur s F; [now rewrite app_nil_r|]. cbn [forallb] in F. apply andb_prop in F as [C F]. cbn [app split_modules mstep]. rewrite C. cbn [outside negb andb].
  rewrite IH by assumption. now rewrite <- app_assoc.
Qed.
Lemma in_name name : forall cur s, forallb (fun c => negb (is_separator c)) name = true -> split_modules InModuleName cur (name ++ s) = split_modules InModuleName (cur ++ name) s.
Proof.
  induction name as [|c name IH]; intros cur s F; [now rewrite app_nil_r|]. cbn [forallb] in F. apply andb_prop in F as [C F]. apply negb_true_iff in C. cbn [app split_modules mstep].
  rewrite (sep_space _ C), C. cbn [outside andb]. rewrite IH by assumption. now rewrite <- app_assoc.
Qed.
Lemma outside_name name cur s : name <> [] -> forallb (fun c => negb (is_separator c)) name = true -> split_modules OutsideModule cur (name ++ s) = split_modules InModuleName (cur ++ name) s.
Proof.
  intros N F. destruct name as [|c name]; [easy|]. cbn [forallb] in F. apply andb_prop in F as [C F]. apply negb_true_iff in C. cbn [app split_modules mstep]. rewrite C. cbn [outside andb].
  rewrite in_name by assumption. now rewrite <- app_assoc.
Qed.
Lemma in_version version : forall cur s, forallb (fun c => negb (is_separator c)) version = true -> split_modules InModuleVersion cur (version ++ s) = split_modules InModuleVersion (cur ++ version) s.
Proof.
  induction version as [|c v IH]; intros cur s F; [now rewrite app_nil_r|]. cbn [forallb] in F. apply andb_prop in F as [C F]. apply negb_true_iff in C. cbn [app split_modules mstep].
  rewrite C. cbn [outside andb]. rewrite IH by assumption. now rewrite <- app_assoc.
Qed.
Lemma before_operator sp : forall cur s, forallb is_space sp = true -> split_modules BeforeOperator cur (sp ++ s) = split_modules BeforeOperator (cur ++ sp) s.
Proof.
  induction sp as [|c sp IH]; intros cur s F; [now rewrite app_nil_r|]. cbn [forallb] in F. apply andb_prop in F as [C F]. cbn [app split_modules mstep]. rewrite C. cbn [outside andb].
  rewrite IH by assumption. now rewrite <- app_assoc.
Qed.
Lemma after_operator sp : forall cur s, forallb is_space sp = true -> split_modules AfterOperator cur (sp ++ s) = split_modules AfterOperator (cur ++ sp) s.
Proof.
  induction sp as [|c sp IH]; intros cur s F; [now rewrite app_nil_r|]. cbn [forallb] in F. apply andb_prop in F as [C F]. cbn [app split_modules mstep]. rewrite C. cbn [outside andb].
  rewrite IH by assumption. now rewrite <- app_assoc.
Qed.
Lemma in_operator op : forall cur s, forallb is_operator op = true -> split_modules InOperator cur (op ++ s) = split_modules InOperator (cur ++ op) s.
Proof.
  induction op as [|c op IH]; intros cur s F; [now rewrite app_nil_r|]. cbn [forallb] in F. apply andb_prop in F as [C F]. cbn [app split_modules mstep]. rewrite C. cbn [outside andb].
  rewrite IH by assumption. now rewrite <- app_assoc.
Qed.
Lemma operator_text_ok cmp : cmp <> AlwaysMatch -> forallb is_operator (operator_text cmp) = true /\ operator_text cmp <> [] /\ (forall name, comparison_of name (operator_text cmp) = Ok cmp).
Proof. intros N. destruct cmp; try (now destruct N); (split; [reflexivity|split; [discriminate|reflexivity]]). Qed.

(** Reading one module leads to a state in which it is left at the next separator. *)
Lemma written_split m s : written m s -> exists state, state <> OutsideModule /\
  (forall cur rest, (rest = [] \/ exists sep t, rest = sep ++ t /\ separators sep /\ exists c t', t = c :: t' /\ is_separator c = false /\ is_operator c = false) ->
    split_modules OutsideModule cur (s ++ rest) = split_modules state (cur ++ s) rest) /\
  (forall cur sep t, cur <> [] -> separators sep -> (exists c t', t = c :: t' /\ is_separator c = false /\ is_operator c = false) ->
    split_modules state cur (sep ++ t) = skip_separators cur :: split_modules OutsideModule sep t) /\
  (forall cur, cur <> [] -> split_modules state cur [] = [skip_separators cur]).
Proof.
  intros [name N F NO|name cmp version sp1 sp2 N F NO CM NV FV [SN1 S1] [SN2 S2]].
  - exists InModuleName. split; [discriminate|]. split; [|split].
    + intros cur rest _. now rewrite outside_name.
    + intros cur sep t NC [SN S] (c & t' & -> & C & O). destruct sep as [|d sep]; [easy|]. cbn [forallb] in S. apply andb_prop in S as [D S].
      assert (E : mstep InModuleName d ((d :: sep) ++ c :: t') = OutsideModule).
      { cbn [mstep]. destruct (is_space d) eqn:DS; [|now rewrite D]. cbn [app trim_left]. rewrite DS.
        destruct (trim_left (sep ++ c :: t')) as [|e r] eqn:T; [reflexivity|]. assert (EO : is_operator e = false); [|now rewrite EO].
        clear - S C O T. induction sep as [|f sep IH]; cbn in T.
        - rewrite (sep_space _ C) in T. now injection T as <- _.
        - cbn in S. apply andb_prop in S as [Ff S]. destruct (is_space f) eqn:SF; [auto|]. injection T as <- _. unfold is_separator in Ff. rewrite SF, orb_false_r in Ff. apply N.eqb_eq in Ff as ->. reflexivity. }
      cbn [app split_modules]. change (mstep InModuleName d (d :: sep ++ c :: t')) with (mstep InModuleName d ((d :: sep) ++ c :: t')). rewrite E. cbn [outside negb andb]. f_equal. now rewrite outside_seps.
    + intros cur NC. cbn. destruct cur; [easy|reflexivity].
  - exists InModuleVersion. destruct (operator_text_ok cmp CM) as (OP & ON & _). split; [discriminate|]. split; [|split].
    + intros cur rest _. rewrite <- !app_assoc. rewrite outside_name by assumption. destruct sp1 as [|d sp1]; [easy|]. cbn [forallb] in S1. apply andb_prop in S1 as [D S1].
      set (op := operator_text cmp) in *. clearbody op. destruct op as [|c op]; [easy|]. cbn [forallb] in OP. apply andb_prop in OP as [C OP].
      assert (E : mstep InModuleName d (d :: sp1 ++ (c :: op) ++ sp2 ++ version ++ rest) = BeforeOperator).
      { cbn [mstep]. rewrite D. cbn [trim_left]. rewrite D. rewrite trim_left_spaces by assumption. cbn [app trim_left]. rewrite (operator_not_space _ C), C. reflexivity. }
      cbn [app] in E. cbn [app split_modules]. rewrite E. cbn [outside andb]. rewrite before_operator by assumption.
      cbn [app split_modules mstep]. rewrite (operator_not_space _ C), C. cbn [outside andb]. rewrite in_operator by assumption.
      destruct sp2 as [|e sp2]; [easy|]. cbn [forallb] in S2. apply andb_prop in S2 as [Ee S2]. cbn [app split_modules mstep].
      assert (EO : is_operator e = false) by (destruct (is_operator e) eqn:X; [now rewrite (operator_not_space _ X) in Ee|reflexivity]). rewrite EO. cbn [outside andb].
      rewrite after_operator by assumption. destruct version as [|v version]; [easy|]. cbn [forallb] in FV. apply andb_prop in FV as [Fv FV]. apply negb_true_iff in Fv. cbn [app split_modules mstep].
      rewrite (sep_space _ Fv). cbn [outside andb]. rewrite in_version by assumption. f_equal. repeat (rewrite <- ?app_assoc; cbn [app]). reflexivity.
    + intros cur sep t NC [SN S] _. destruct sep as [|d sep]; [easy|]. cbn [forallb] in S. apply andb_prop in S as [D S]. cbn [app split_modules mstep]. rewrite D. cbn [outside negb andb]. f_equal. now rewrite outside_seps.
    + intros cur NC. cbn. destruct cur; [easy|reflexivity].
Qed.
Lemma written_head m s : written m s -> exists c t, s = c :: t /\ is_separator c = false /\ is_operator c = false.
Proof.
  assert (H : forall name : str, name <> [] -> forallb (fun c => negb (is_separator c)) name = true -> (forall c t, name = c :: t -> is_operator c = false) -> forall r, exists c t, name ++ r = c :: t /\ is_separator c = false /\ is_operator c = false).
  { intros [|c name] N F O r; [easy|]. cbn [forallb] in F. apply andb_prop in F as [C _]. apply negb_true_iff in C. exists c, (name ++ r). split; [reflexivity|]. split; [assumption|eapply O; reflexivity]. }
  intros [name N F NO|name cmp version sp1 sp2 N F NO _ _ _ _ _]; [|now apply H]. destruct (H name N F NO []) as (c & t & E). rewrite app_nil_r in E. eauto.
Qed.
Lemma written_list_head l s : written_list l s -> exists c t, s = c :: t /\ is_separator c = false /\ is_operator c = false.
Proof.
  intros [m t W|m t sep l' u W _ _]; apply written_head in W as (c & r & -> & A); [eauto|]. exists c, (r ++ sep ++ u). auto.
Qed.
Lemma skip_seps sep s : forallb is_separator sep = true -> (exists c t, s = c :: t /\ is_separator c = false /\ is_operator c = false) -> skip_separators (sep ++ s) = s.
Proof.
  intros F (c & t & -> & C & _). induction sep as [|d sep IH]; cbn; [now rewrite C|]. cbn in F. apply andb_prop in F as [D F]. rewrite D. auto.
Qed.
Lemma nonspace_span s rest : forallb (fun c => negb (is_separator c)) s = true -> (rest = [] \/ exists c t, rest = c :: t /\ is_space c = true) -> span not_space (s ++ rest) = (s, rest).
Proof.
  intros F R. apply span_app.
  - apply Forall_forall. intros c I. rewrite forallb_forall in F. specialize (F c I). apply negb_true_iff in F. unfold not_space. now rewrite (sep_space _ F).
  - destruct R as [->|(c & t & -> & C)]; [exact Logic.I|]. unfold not_space. now rewrite C.
Qed.
Lemma written_parse m s : written m s -> parse_module s = Ok m.
Proof.
  intros [name N F NO|name cmp version sp1 sp2 N F NO CM NV FV [SN1 S1] [SN2 S2]]; unfold parse_module.
  - pose proof (nonspace_span name [] F (or_introl eq_refl)) as E. rewrite app_nil_r in E. rewrite E. destruct name; [easy|]. reflexivity.
  - destruct (operator_text_ok cmp CM) as (OP & ON & OC).
    assert (SP : forall sp t, sp <> [] -> forallb is_space sp = true -> exists c u, sp ++ t = c :: u /\ is_space c = true).
    { intros [|c sp] t X Y; [easy|]. cbn in Y. apply andb_prop in Y as [Y _]. exists c, (sp ++ t). auto. }
    rewrite nonspace_span; [|assumption|right; now apply SP]. destruct name as [|n0 name]; [easy|]. set (nm := n0 :: name) in *.
    assert (T1 : trim_left (sp1 ++ operator_text cmp ++ sp2 ++ version) = operator_text cmp ++ sp2 ++ version).
    { rewrite trim_left_spaces by assumption. destruct (operator_text cmp) as [|c op]; [easy|]. cbn in OP |- *. apply andb_prop in OP as [C _]. now rewrite (operator_not_space _ C). }
    rewrite T1. rewrite span_app.
    + rewrite OC. cbn [bind]. assert (T2 : trim_left (sp2 ++ version) = version).
      { rewrite trim_left_spaces by assumption. destruct version as [|c v]; [easy|]. cbn in FV |- *. apply andb_prop in FV as [C _]. apply negb_true_iff in C. now rewrite (sep_space _ C). }
      rewrite T2. pose proof (nonspace_span version [] FV (or_introl eq_refl)) as E. rewrite app_nil_r in E. rewrite E. destruct version; [easy|]. destruct cmp; try reflexivity.
    + apply Forall_forall. intros c I. rewrite forallb_forall in OP. specialize (OP c I). unfold not_space. now rewrite (operator_not_space _ OP).
    + destruct (SP sp2 version SN2 S2) as (c & u & -> & C). unfold not_space. now rewrite C.
Qed.
(** C56.  A list of modules is read as what is written, however they are separated. *)
Theorem modules_exact before l s : forallb is_separator before = true -> written_list l s -> parse_module_list (before ++ s) = Ok l.
Proof.
  intros B W. unfold parse_module_list. rewrite outside_seps by assumption. cbn [app]. revert before B. induction W as [m s W|m s sep l t W [SN S] WL IH]; intros before B.
  - pose proof (written_split m s W) as (state & NS & A & _ & E). specialize (A before [] (or_introl eq_refl)). rewrite app_nil_r in A. rewrite A.
    destruct (written_head m s W) as (c & r & Es & Hc). rewrite E by (rewrite Es; destruct before; discriminate).
    rewrite skip_seps; [|assumption|eauto]. cbn. now rewrite (written_parse m s W).
  - pose proof (written_split m s W) as (state & NS & A & L & _). destruct (written_list_head l t WL) as (c & r & Et & Hc).
    rewrite A by (right; exists sep, t; split; [reflexivity|split; [split; assumption|eauto]]).
    destruct (written_head m s W) as (d & u & Es & Hd). rewrite L; [|rewrite Es; destruct before; discriminate|split; assumption|eauto].
    rewrite skip_seps; [|assumption|eauto]. cbn. rewrite (written_parse m s W). cbn. now rewrite IH.
Qed.
Theorem modules_none : parse_module_list [] = Ok [].
Proof. reflexivity. Qed.
(** Commas are meant to be like spaces, so that empty substitutions do no harm; but one at the end is an error. *)
Theorem modules_comma_refuted : ~ (forall before l s after, forallb is_separator before = true -> written_list l s -> forallb is_separator after = true -> parse_module_list (before ++ s ++ after) = Ok l).
Proof.
  intros H. specialize (H [] [mkRequired (lit "glib") AlwaysMatch []] (lit "glib") [44] eq_refl). vm_compute in H. discriminate H; [|reflexivity]. constructor. constructor; [discriminate|reflexivity|].
  intros c t E. injection E as <- _. reflexivity.
Qed.

(** ** C43: the prefix *)

Lemma last_index_none c s : ~ In c s -> forall i f, last_index c s i f = f.
Proof.
  induction s as [|d s IH]; intros N i f; [reflexivity|]. cbn in *. destruct (N.eqb_spec d c) as [->|D]; [exfalso; auto|]. apply IH. auto.
Qed.
Lemma last_index_app c a b : ~ In c b -> forall i f, last_index c (a ++ c :: b) i f = Some (i + List.length a)%nat.
Proof.
  intros N. induction a as [|d a IH]; intros i f; cbn [app last_index].
  - rewrite N.eqb_refl, last_index_none by assumption. cbn. now rewrite Nat.add_0_r.
  - rewrite IH. cbn. f_equal. lia.
Qed.
Lemma parent_of a b : a <> [] -> ~ In 47 b -> parent_path (a ++ 47 :: b) = a.
Proof.
  intros NE N. unfold parent_path. rewrite last_index_app by assumption. destruct a as [|c a]; [easy|]. cbn [app Nat.add List.length firstn]. f_equal.
  clear. induction a as [|d a IH]; [reflexivity|]. cbn. now rewrite IH.
Qed.
(** With definePrefix, the prefix is the directory two levels above the one called pkgconfig, whatever the file says. *)
Theorem prefix_located o p root libdir file s : o_define_prefix o = true -> root <> [] -> ~ In 47 libdir -> ~ In 47 file ->
  pc_path p = root ++ lit "/" ++ libdir ++ lit "/pkgconfig/" ++ file -> evaluate_variable o p (lit "prefix") s = (with_old_prefix p s, Ok root).
Proof.
  intros D NR NL NF P. unfold evaluate_variable. rewrite D. change (str_eqb (lit "prefix") (lit "prefix")) with true. cbn iota.
  assert (E1 : parent_path (pc_path p) = (root ++ 47 :: libdir) ++ 47 :: lit "pkgconfig").
  { rewrite P. change (lit "/pkgconfig/") with ([47] ++ lit "pkgconfig" ++ [47]). rewrite <- (parent_of ((root ++ 47 :: libdir) ++ 47 :: lit "pkgconfig") file);
      [|destruct root; discriminate|assumption]. f_equal. repeat (rewrite <- ?app_assoc; cbn [app]). reflexivity. }
  rewrite E1. assert (E2 : complete_base_name ((root ++ 47 :: libdir) ++ 47 :: lit "pkgconfig") = lit "pkgconfig").
  { unfold complete_base_name, file_name. rewrite last_index_app by (vm_compute; intuition discriminate). cbn [Nat.add].
    assert (SK : forall (x y : str), skipn (S (List.length x)) (x ++ 47 :: y) = y) by (induction x as [|c x IH]; intros y; [reflexivity|cbn; apply IH]). rewrite SK. vm_compute. reflexivity. }
  rewrite E2. change (str_eqb (lit "pkgconfig") (lit "pkgconfig")) with true. cbn iota.
  rewrite (parent_of (root ++ 47 :: libdir)); [|destruct root; discriminate|vm_compute; intuition discriminate]. rewrite parent_of by assumption. now destruct root.
Qed.
Lemma sub_plain get s : ~ In 36 s -> substituted get s (Ok s).
Proof.
  induction s as [|c s IH]; intros N; [constructor|]. change (Ok (c :: s)) with (put [c] (Ok s)). constructor; [intros ->; exfalso; apply N; now left|]. apply IH. intros X. apply N. now right.
Qed.
Lemma trim_prefix a b : a <> [] -> trim_left a = a -> trim_left b = b -> b <> [] -> trim (a ++ b) = a ++ trim b.
Proof.
  intros NA A B NB. rewrite !trim_def. assert (L : trim_left (a ++ b) = a ++ b).
  { destruct a as [|c a]; [easy|]. cbn in *. destruct (is_space c) eqn:C; [|reflexivity]. exfalso. destruct (trim_left_split a) as (sp & E & _). rewrite A in E. apply (f_equal (@List.length N)) in E. rewrite app_length in E. cbn in E. lia. }
  rewrite L, B. destruct b as [|c b]; [easy|]. assert (C : is_space c = false) by (eapply trim_left_head, B). rewrite rtrim_stop by assumption. f_equal. symmetry. apply (rtrim_stop [] c b C).
Qed.
(** Later values that start with the prefix the file gives get the new one, if there is no dollar sign in it; the rest of the value is substituted as usual. *)
Theorem prefix_relocated o p tag old new rest r : o_define_prefix o = true -> tag <> lit "prefix" -> pc_old_prefix p = Some old -> lookup (pc_variables p) (lit "prefix") = Some new ->
  new <> [] -> trim_left new = new -> ~ In 36 new -> substituted (get_variable o p) (trim (47 :: rest)) (Ok r) ->
  evaluate_variable o p tag (old ++ 47 :: rest) = (p, Ok (new ++ r)).
Proof.
  intros D T O L N TN ND S. unfold evaluate_variable. rewrite D, O, L. destruct (str_eqb tag (lit "prefix")) eqn:E; [apply str_eqb_eq in E; contradiction|].
  assert (SW : starts_with (old ++ [47]) (old ++ 47 :: rest) = true) by (apply starts_with_spec; exists rest; now rewrite <- app_assoc). rewrite SW.
  assert (SK : skipn (List.length old) (old ++ 47 :: rest) = 47 :: rest) by (clear; induction old; [reflexivity|cbn; assumption]). rewrite SK. f_equal.
  apply substitution_exact. rewrite trim_prefix; try assumption; try reflexivity; [|discriminate]. change (Ok (new ++ r)) with (put new (Ok r)).
  apply substitution_app; [now apply sub_plain| |assumption]. intros t ->. apply ND. apply in_or_app. right. now left.
Qed.
(** Values that do not start with the old prefix are not moved. *)
Theorem prefix_other o p tag old s : o_define_prefix o = true -> tag <> lit "prefix" -> pc_old_prefix p = Some old -> (forall rest, s <> old ++ 47 :: rest) ->
  evaluate_variable o p tag s = (p, trim_and_substitute o p s).
Proof.
  intros D T O N. unfold evaluate_variable. rewrite D, O. destruct (str_eqb tag (lit "prefix")) eqn:E; [apply str_eqb_eq in E; contradiction|].
  destruct (starts_with (old ++ [47]) s) eqn:SW; [|reflexivity]. apply starts_with_spec in SW as [t ->]. exfalso. apply (N t). now rewrite <- app_assoc.
Qed.
(** With dollar signs in the name of the directory the new prefix is taken for text to be substituted. *)
Theorem prefix_relocated_refuted : ~ (forall o p tag old new rest r, o_define_prefix o = true -> tag <> lit "prefix" -> pc_old_prefix p = Some old -> lookup (pc_variables p) (lit "prefix") = Some new ->
  new <> [] -> trim_left new = new -> substituted (get_variable o p) (trim (47 :: rest)) (Ok r) -> evaluate_variable o p tag (old ++ 47 :: rest) = (p, Ok (new ++ r))).
Proof.
  intros H. specialize (H (mkOptions true [] []) (with_old_prefix (with_variables (empty_package [] []) [(lit "prefix", lit "/opt/a$$b")]) (lit "/usr")) (lit "libdir") (lit "/usr") (lit "/opt/a$$b") (lit "lib") (lit "/lib")
    eq_refl). vm_compute in H. specialize (H ltac:(discriminate) eq_refl eq_refl ltac:(discriminate) eq_refl).
  discriminate H. apply (sub_plain _ (lit "/lib")). vm_compute. intuition discriminate.
Qed.

(** ** C57: flags *)

Local Arguments trim _ : simpl never.

(** What a flag looks like on the command line. *)
Definition flag_words (f : flag) : list str :=
  match f_type f with
  | LibraryName => [lit "-l" ++ f_value f] | LibraryPath => [lit "-L" ++ f_value f] | FrameworkPath => [lit "-F" ++ f_value f] | Framework => [lit "-framework"; f_value f]
  | StaticLibraryName | LinkerFlag | CompilerFlag => [f_value f]
  | IncludePath => [lit "-I" ++ f_value f] | Define => [lit "-D" ++ f_value f] | SystemIncludePath => [lit "-isystem"; f_value f] | DirAfterIncludePath => [lit "-idirafter"; f_value f]
  end.
Definition begins (p s : str) : Prop := exists t, s = p ++ t.
Definition static_name (s : str) : Prop := ~ begins (lit "-") s /\ exists t, s = t ++ lit ".a" \/ s = t ++ lit ".lib".
(** Each flag is what it is called. *)
Definition lib_fits (f : flag) (last : bool) : Prop :=
  let v := f_value f in
  trim v = v /\
  match f_type f with
  | LibraryName => ~ begins (lit "ib:") v
  | LibraryPath | FrameworkPath | Framework => True
  | StaticLibraryName => static_name v
  | LinkerFlag => v <> [] /\ (begins (lit "-l") v -> begins (lit "-lib:") v) /\ ~ begins (lit "-L") v /\ ~ begins (lit "-F") v /\ ~ static_name v /\ (v = lit "-framework" -> last = true)
  | _ => False
  end.
Definition cflag_fits (f : flag) (last : bool) : Prop :=
  let v := f_value f in
  trim v = v /\
  match f_type f with
  | IncludePath | Define | SystemIncludePath | DirAfterIncludePath => True
  | CompilerFlag => v <> [] /\ ~ begins (lit "-I") v /\ ~ begins (lit "-D") v /\ (v = lit "-isystem" \/ v = lit "-idirafter" -> last = true)
  | _ => False
  end.
Fixpoint all_fit (fits : flag -> bool -> Prop) (l : list flag) : Prop :=
  match l with [] => True | f :: l => fits f (match l with [] => true | _ => false end) /\ all_fit fits l end.

Lemma trimmed_left s : trim s = s -> trim_left s = s.
Proof.
  intros H. destruct (trim_left_split s) as (sp & E & _). rewrite trim_def in H. destruct (rtrim_split (trim_left s)) as (sp2 & E2 & _). rewrite H in E2.
  assert (L : (List.length (trim_left s) >= List.length s)%nat) by (rewrite E2, app_length; lia).
  destruct sp as [|c sp]; [now symmetry|]. apply (f_equal (@List.length N)) in E. cbn in E. rewrite app_length in E. lia.
Qed.
Lemma trimmed_right s : trim s = s -> rtrim s = s.
Proof. intros H. pose proof (trimmed_left s H) as L. rewrite trim_def, L in H. exact H. Qed.
Lemma trim_word p c v : is_space c = false -> trim_left (p ++ [c]) = p ++ [c] -> trim v = v -> trim (p ++ c :: v) = p ++ c :: v.
Proof.
  intros C P V. rewrite trim_def. assert (L : trim_left (p ++ c :: v) = p ++ c :: v).
  { destruct p as [|d p]; cbn in *; [now rewrite C|]. destruct (is_space d) eqn:D; [|reflexivity]. exfalso. destruct (trim_left_split (p ++ [c])) as (sp & E & _). rewrite P in E.
    apply (f_equal (@List.length N)) in E. repeat (rewrite ?app_length in E; cbn [List.length] in E). lia. }
  rewrite L, rtrim_stop by assumption. now rewrite (trimmed_right v V).
Qed.
Lemma begins_iff p s : starts_with p s = true <-> begins p s.
Proof. apply starts_with_spec. Qed.
Lemma begins_not p s : starts_with p s = false <-> ~ begins p s.
Proof. rewrite <- begins_iff. destruct (starts_with p s); split; congruence. Qed.
Lemma ends_iff p s : ends_with p s = true <-> exists t, s = t ++ p.
Proof.
  unfold ends_with. rewrite starts_with_spec. split.
  - intros [t E]. exists (rev t). apply (f_equal (@rev N)) in E. rewrite rev_involutive, rev_app_distr, rev_involutive in E. exact E.
  - intros [t ->]. exists (rev t). now rewrite rev_app_distr.
Qed.
Lemma static_iff s : negb (starts_with (lit "-") s) && (ends_with (lit ".a") s || ends_with (lit ".lib") s) = true <-> static_name s.
Proof.
  rewrite andb_true_iff, negb_true_iff, orb_true_iff, begins_not, !ends_iff. unfold static_name. split.
  - intros (A & [[t ->]|[t ->]]); (split; [assumption|]); exists t; auto.
  - intros (A & t & [->| ->]); (split; [assumption|]); [left|right]; eauto.
Qed.
Lemma trim_option c d v : is_space d = false -> is_space c = false -> trim v = v -> trim (c :: d :: v) = c :: d :: v.
Proof. intros D C V. apply (trim_word [c] d v D); [cbn; now rewrite C|assumption]. Qed.
Lemma not_static s : ~ static_name s -> negb (starts_with (lit "-") s) && (ends_with (lit ".a") s || ends_with (lit ".lib") s) = false.
Proof. rewrite <- static_iff. intros H. now apply not_true_is_false. Qed.
(** C57.  Reading flags is the inverse of writing them, if they fit. *)
Theorem libs_read fs : all_fit lib_fits fs -> parse_libs (flat_map flag_words fs) = fs.
Proof.
  induction fs as [|[t v] fs IH]; [reflexivity|]. intros [[V F] A]. specialize (IH A). cbn [f_value f_type] in *. cbn [flat_map].
  destruct t; try (now destruct F); cbn [flag_words f_type f_value app].
  - cbn [parse_libs]. change (lit "-l" ++ v) with (45 :: 108 :: v). rewrite trim_option by (reflexivity || assumption).
    assert (E : starts_with (lit "-lib:") (45 :: 108 :: v) = false) by (change (starts_with (lit "ib:") v = false); now apply begins_not). rewrite E. cbn. now rewrite V, IH.
  - cbn [parse_libs]. rewrite V. pose proof (proj2 (static_iff v) F) as S. rewrite S. apply andb_prop in S as [S _]. apply negb_true_iff in S.
    assert (B : forall p, starts_with (45 :: p) v = false) by (intros p; destruct v as [|c v]; [reflexivity|]; cbn in S |- *; rewrite andb_true_r in S; now rewrite S).
    change (lit "-l") with (45 :: lit "l"). change (lit "-L") with (45 :: lit "L"). change (lit "-F") with (45 :: lit "F"). rewrite !B. cbn [andb]. rewrite IH.
    destruct (str_eqb v (lit "-framework")) eqn:E; [|now destruct (flat_map flag_words fs)]. apply str_eqb_eq in E as ->. discriminate S.
  - cbn [parse_libs]. change (lit "-L" ++ v) with (45 :: 76 :: v). rewrite trim_option by (reflexivity || assumption). cbn. now rewrite V, IH.
  - cbn [parse_libs]. rewrite V, IH. reflexivity.
  - cbn [parse_libs]. change (lit "-F" ++ v) with (45 :: 70 :: v). rewrite trim_option by (reflexivity || assumption). cbn. rewrite V, IH. now destruct (flat_map flag_words fs).
  - destruct F as (N & L1 & L2 & L3 & S & L). cbn [parse_libs]. rewrite V.
    assert (E : starts_with (lit "-l") v && negb (starts_with (lit "-lib:") v) = false).
    { destruct (starts_with (lit "-l") v) eqn:X; [|reflexivity]. apply begins_iff in X. apply L1, begins_iff in X. now rewrite X. }
    rewrite E, (proj2 (begins_not _ _) L2), (proj2 (begins_not _ _) L3), (not_static v S). rewrite IH. destruct (str_eqb v (lit "-framework")) eqn:Q.
    + apply str_eqb_eq in Q. specialize (L Q). destruct fs; [|discriminate]. subst v. reflexivity.
    + destruct v; [easy|]. now destruct (flat_map flag_words fs).
Qed.
(** Words as the splitting yields them, without spaces at the ends and after an option of one letter. *)
Definition clean_word (opts : list str) (a : str) : Prop := a <> [] /\ trim a = a /\ forall o, In o opts -> begins o a -> trim (skipn 2 a) = skipn 2 a.
Definition lib_options := [lit "-l"; lit "-L"; lit "-F"].
Definition cflag_options := [lit "-I"; lit "-D"].
Lemma begins2 x y a : begins [x; y] a -> a = x :: y :: skipn 2 a.
Proof. intros [t ->]. reflexivity. Qed.
(** C57.  Every list of words gets a meaning, with no word lost, in which each flag fits. *)
Theorem libs_meaning argv : Forall (clean_word lib_options) argv -> all_fit lib_fits (parse_libs argv) /\ flat_map flag_words (parse_libs argv) = argv.
Proof.
  assert (G : forall n argv, (List.length argv <= n)%nat -> Forall (clean_word lib_options) argv -> all_fit lib_fits (parse_libs argv) /\ flat_map flag_words (parse_libs argv) = argv).
  { clear argv. induction n as [|n IH]; intros [|a argv] L F; cbn in L; try lia; try (split; [exact Logic.I|reflexivity]). inversion F as [|? ? (N & T & O) F']; subst.
    assert (one : forall t v, flag_words (mkFlag t v) = [a] -> lib_fits (mkFlag t v) (match parse_libs argv with [] => true | _ => false end) ->
              all_fit lib_fits (mkFlag t v :: parse_libs argv) /\ flat_map flag_words (mkFlag t v :: parse_libs argv) = a :: argv).
    { intros t v W Ft. destruct (IH argv ltac:(lia) F') as [A B]. split; [split; [exact Ft|exact A]|]. cbn [flat_map]. now rewrite W, B. }
    cbn [parse_libs]. rewrite T. destruct (starts_with (lit "-l") a && negb (starts_with (lit "-lib:") a)) eqn:E1.
    { apply andb_prop in E1 as [E1 E2]. apply negb_true_iff in E2. apply begins_iff in E1. pose proof (O _ (or_introl eq_refl) E1) as TS. rewrite TS. apply begins2 in E1.
      apply one; [unfold flag_words; cbn [f_type f_value]; now rewrite E1 at 2|]. split; [assumption|]. cbn [f_type f_value]. apply begins_not. rewrite E1 in E2. exact E2. }
    destruct (starts_with (lit "-L") a) eqn:E2.
    { apply begins_iff in E2. pose proof (O _ (or_intror (or_introl eq_refl)) E2) as TS. rewrite TS. apply begins2 in E2.
      apply one; [unfold flag_words; cbn [f_type f_value]; now rewrite E2 at 2|]. now split. }
    assert (other : (str_eqb a (lit "-framework") = true -> argv = []) ->
      all_fit lib_fits (if starts_with (lit "-F") a then mkFlag FrameworkPath (trim (skipn 2 a)) :: parse_libs argv
         else if negb (starts_with (lit "-") a) && (ends_with (lit ".a") a || ends_with (lit ".lib") a) then mkFlag StaticLibraryName a :: parse_libs argv
         else match a with [] => parse_libs argv | _ => mkFlag LinkerFlag a :: parse_libs argv end) /\
      flat_map flag_words (if starts_with (lit "-F") a then mkFlag FrameworkPath (trim (skipn 2 a)) :: parse_libs argv
         else if negb (starts_with (lit "-") a) && (ends_with (lit ".a") a || ends_with (lit ".lib") a) then mkFlag StaticLibraryName a :: parse_libs argv
         else match a with [] => parse_libs argv | _ => mkFlag LinkerFlag a :: parse_libs argv end) = a :: argv).
    { intros FW. destruct (starts_with (lit "-F") a) eqn:E3.
      { apply begins_iff in E3. pose proof (O _ (or_intror (or_intror (or_introl eq_refl))) E3) as TS. rewrite TS. apply begins2 in E3.
        apply one; [unfold flag_words; cbn [f_type f_value]; now rewrite E3 at 2|]. now split. }
      destruct (negb (starts_with (lit "-") a) && (ends_with (lit ".a") a || ends_with (lit ".lib") a)) eqn:E4.
      { apply one; [reflexivity|]. split; [assumption|]. now apply static_iff. }
      destruct a as [|c a]; [easy|]. apply one; [reflexivity|]. split; [assumption|]. cbn [f_type f_value]. split; [discriminate|]. split; [|split; [|split; [|split]]].
      - intros B. apply begins_iff in B. rewrite B in E1. apply negb_false_iff in E1. now apply begins_iff.
      - now apply begins_not.
      - now apply begins_not.
      - intros S. apply static_iff in S. congruence.
      - intros Q. rewrite FW; [reflexivity|]. rewrite Q. reflexivity. }
    destruct argv as [|next argv]; [apply other; auto|]. destruct (str_eqb a (lit "-framework")) eqn:Q; [|apply other; discriminate].
    apply str_eqb_eq in Q as ->. inversion F' as [|? ? (N' & T' & _) F'']; subst. rewrite T'. destruct (IH argv ltac:(cbn in L; lia) F'') as [A B]. split.
    - split; [now split|exact A].
    - cbn [flat_map flag_words f_type f_value app]. now rewrite B. }
  intros F. apply (G (List.length argv) argv (le_n _) F).
Qed.
Theorem cflags_read fs : all_fit cflag_fits fs -> parse_cflags (flat_map flag_words fs) = fs.
Proof.
  induction fs as [|[t v] fs IH]; [reflexivity|]. intros [[V F] A]. specialize (IH A). cbn [f_value f_type] in *. cbn [flat_map].
  destruct t; try (now destruct F); cbn [flag_words f_type f_value app].
  - cbn [parse_cflags]. change (lit "-I" ++ v) with (45 :: 73 :: v). rewrite trim_option by (reflexivity || assumption). cbn. now rewrite V, IH.
  - cbn [parse_cflags]. rewrite V, IH. reflexivity.
  - cbn [parse_cflags]. rewrite V, IH. reflexivity.
  - cbn [parse_cflags]. change (lit "-D" ++ v) with (45 :: 68 :: v). rewrite trim_option by (reflexivity || assumption). cbn. now rewrite V, IH.
  - destruct F as (N & L1 & L2 & L). cbn [parse_cflags]. rewrite V, (proj2 (begins_not _ _) L1), (proj2 (begins_not _ _) L2), IH.
    destruct (str_eqb v (lit "-isystem")) eqn:Q; [|destruct (str_eqb v (lit "-idirafter")) eqn:Q'].
    + apply str_eqb_eq in Q. specialize (L (or_introl Q)). destruct fs; [|discriminate]. subst v. reflexivity.
    + apply str_eqb_eq in Q'. specialize (L (or_intror Q')). destruct fs; [|discriminate]. subst v. reflexivity.
    + destruct v; [easy|]. now destruct (flat_map flag_words fs).
Qed.
Theorem cflags_meaning argv : Forall (clean_word cflag_options) argv -> all_fit cflag_fits (parse_cflags argv) /\ flat_map flag_words (parse_cflags argv) = argv.
Proof.
  assert (G : forall n argv, (List.length argv <= n)%nat -> Forall (clean_word cflag_options) argv -> all_fit cflag_fits (parse_cflags argv) /\ flat_map flag_words (parse_cflags argv) = argv).
  { clear argv. induction n as [|n IH]; intros [|a argv] L F; cbn in L; try lia; try (split; [exact Logic.I|reflexivity]). inversion F as [|? ? (N & T & O) F']; subst.
    assert (one : forall t v, flag_words (mkFlag t v) = [a] -> cflag_fits (mkFlag t v) (match parse_cflags argv with [] => true | _ => false end) ->
              all_fit cflag_fits (mkFlag t v :: parse_cflags argv) /\ flat_map flag_words (mkFlag t v :: parse_cflags argv) = a :: argv).
    { intros t v W Ft. destruct (IH argv ltac:(lia) F') as [A B]. split; [split; [exact Ft|exact A]|]. cbn [flat_map]. now rewrite W, B. }
    cbn [parse_cflags]. rewrite T. destruct (starts_with (lit "-I") a) eqn:E1.
    { apply begins_iff in E1. pose proof (O _ (or_introl eq_refl) E1) as TS. rewrite TS. apply begins2 in E1. apply one; [unfold flag_words; cbn [f_type f_value]; now rewrite E1 at 2|]. now split. }
    destruct (starts_with (lit "-D") a) eqn:E2.
    { apply begins_iff in E2. pose proof (O _ (or_intror (or_introl eq_refl)) E2) as TS. rewrite TS. apply begins2 in E2. apply one; [unfold flag_words; cbn [f_type f_value]; now rewrite E2 at 2|]. now split. }
    assert (other : (a = lit "-isystem" \/ a = lit "-idirafter" -> argv = []) ->
      all_fit cflag_fits (match a with [] => parse_cflags argv | _ => mkFlag CompilerFlag a :: parse_cflags argv end) /\
      flat_map flag_words (match a with [] => parse_cflags argv | _ => mkFlag CompilerFlag a :: parse_cflags argv end) = a :: argv).
    { intros FW. destruct a as [|c a]; [easy|]. apply one; [reflexivity|]. split; [assumption|]. cbn [f_type f_value]. split; [discriminate|]. split; [|split].
      - now apply begins_not.
      - now apply begins_not.
      - intros Q. now rewrite FW. }
    destruct argv as [|next argv]; [apply other; auto|]. inversion F' as [|? ? (N' & T' & _) F'']; subst. rewrite T'. destruct (IH argv ltac:(cbn in L; lia) F'') as [A B].
    destruct (str_eqb a (lit "-isystem")) eqn:Q; [apply str_eqb_eq in Q as ->|destruct (str_eqb a (lit "-idirafter")) eqn:Q'; [apply str_eqb_eq in Q' as ->|]].
    - split; [split; [now split|exact A]|]. cbn [flat_map flag_words f_type f_value app]. now rewrite B.
    - split; [split; [now split|exact A]|]. cbn [flat_map flag_words f_type f_value app]. now rewrite B.
    - apply other. intros [->| ->]; discriminate. }
  intros F. apply (G (List.length argv) argv (le_n _) F).
Qed.

(** ** C57: system root and system paths *)

Definition has_path (t : flag_type) : Prop := In t [IncludePath; SystemIncludePath; DirAfterIncludePath; LibraryPath].
Lemma has_path_iff t : is_path t = true <-> has_path t.
Proof. unfold has_path. destruct t; cbn; split; intuition discriminate. Qed.
Lemma has_path_not t : is_path t = false <-> ~ has_path t.
Proof. rewrite <- has_path_iff. destruct (is_path t); split; congruence. Qed.
(** With a system root every absolute path is below it, and nothing else changes. *)
Theorem sysroot_prepended sysroot p : sysroot <> [] -> sysroot <> [47] ->
  let q := prepend_sysroot sysroot p in
  forall get, get = pc_libs \/ get = pc_libs_private \/ get = pc_cflags ->
  Forall2 (fun f g => f_type g = f_type f /\
    (has_path (f_type f) -> begins [47] (f_value f) -> begins sysroot (f_value g) /\ (f_value g = f_value f \/ f_value g = sysroot ++ f_value f)) /\
    (~ has_path (f_type f) \/ ~ begins [47] (f_value f) -> g = f)) (get p) (get q) /\
  prepend_sysroot sysroot q = q.
Proof.
  intros N R q get G. split.
  - assert (E : get q = map (prepend_flag sysroot) (get p)) by (unfold q, prepend_sysroot; destruct sysroot; [easy|]; destruct G as [->|[->| ->]]; reflexivity).
    rewrite E. clear E. induction (get p) as [|[t v] l IH]; cbn [map]; constructor; [|assumption]. clear IH. unfold prepend_flag, should_rewrite. cbn [f_type f_value].
    destruct sysroot as [|r sysroot]; [easy|]. set (sr := r :: sysroot) in *. destruct v as [|c v]; cbn [andb].
    { split; [reflexivity|]. split; [intros _ [t' X]; discriminate X|reflexivity]. }
    destruct (N.eqb_spec c 47) as [->|C]; cbn [andb].
    + destruct (str_eqb sr [47]) eqn:S; [apply str_eqb_eq in S; contradiction|]. cbn [negb andb]. destruct (starts_with sr (47 :: v)) eqn:W; cbn [negb andb].
      * split; [reflexivity|]. split; [intros _ _; split; [now apply begins_iff|now left]|reflexivity].
      * destruct (is_path t) eqn:P; cbn [f_type f_value].
        -- split; [reflexivity|]. split; [intros _ _; split; [now exists (47 :: v)|now right]|]. intros [X|X]; [apply has_path_not in X; congruence|]. exfalso. apply X. now exists v.
        -- split; [reflexivity|]. split; [intros X; apply has_path_iff in X; congruence|reflexivity].
    + split; [reflexivity|]. split; [intros _ [t' X]; injection X as -> _; contradiction|reflexivity].
  - assert (I : forall f, prepend_flag sysroot (prepend_flag sysroot f) = prepend_flag sysroot f).
    { intros [t v]. unfold prepend_flag. cbn [f_type f_value]. destruct (should_rewrite sysroot v && is_path t) eqn:E; cbn [f_type f_value]; [|now rewrite E].
      assert (S : should_rewrite sysroot (sysroot ++ v) = false).
      { unfold should_rewrite. destruct sysroot as [|r s]; [easy|]. cbn [app]. assert (W : starts_with (r :: s) (r :: s ++ v) = true) by (apply starts_with_spec; now exists v). rewrite W. now rewrite andb_false_r. }
      now rewrite S. }
    assert (M : forall l, map (prepend_flag sysroot) (map (prepend_flag sysroot) l) = map (prepend_flag sysroot) l) by (intros l; rewrite map_map; apply map_ext, I).
    unfold q, prepend_sysroot. destruct sysroot as [|r s]; [easy|]. unfold with_flags. cbn. now rewrite !M.
Qed.
(** But the system root is compared as text: a path in another directory whose name starts the same way stays where it is. *)
Theorem sysroot_directory_refuted : ~ (forall sysroot p f, sysroot <> [] -> sysroot <> [47] -> In f (pc_libs (prepend_sysroot sysroot p)) -> f_type f = LibraryPath -> begins [47] (f_value f) ->
  f_value f = sysroot \/ begins (sysroot ++ [47]) (f_value f)).
Proof.
  intros H. specialize (H (lit "/opt/s") (with_flags (empty_package [] []) [mkFlag LibraryPath (lit "/opt/src/lib")] [] []) (mkFlag LibraryPath (lit "/opt/src/lib"))).
  vm_compute in H. destruct H as [H|[t H]]; try discriminate; [now left|reflexivity|now exists [111; 112; 116; 47; 115; 114; 99; 47; 108; 105; 98]].
Qed.
(** System library paths are removed, and nothing else. *)
Theorem system_paths_removed paths p : let q := remove_system_paths paths p in
  (forall f, In f (pc_libs q) <-> In f (pc_libs p) /\ ~ (f_type f = LibraryPath /\ In (f_value f) paths)) /\
  (forall f, In f (pc_libs_private q) <-> In f (pc_libs_private p) /\ ~ (f_type f = LibraryPath /\ In (f_value f) paths)) /\ pc_cflags q = pc_cflags p /\
  (forall f g l1 l2 l3, pc_libs p = l1 ++ f :: l2 ++ g :: l3 -> ~ (f_type f = LibraryPath /\ In (f_value f) paths) -> ~ (f_type g = LibraryPath /\ In (f_value g) paths) ->
     exists k1 k2 k3, pc_libs q = k1 ++ f :: k2 ++ g :: k3).
Proof.
  assert (S : forall f, negb (is_system paths f) = true <-> ~ (f_type f = LibraryPath /\ In (f_value f) paths)).
  { intros [t v]. unfold is_system. cbn [f_type f_value]. rewrite negb_true_iff. destruct t; try (split; [intros _ [X _]; discriminate X|reflexivity]). rewrite mem_str_not. tauto. }
  cbn. split; [|split; [|split; [reflexivity|]]].
  - intros f. rewrite filter_In. now rewrite S.
  - intros f. rewrite filter_In. now rewrite S.
  - intros f g l1 l2 l3 -> Sf Sg. apply S in Sf, Sg. rewrite !filter_app. cbn [filter]. rewrite Sf. rewrite filter_app. cbn [filter]. rewrite Sg. eexists _, _, _. reflexivity.
Qed.

(** ** C58 *)

(** What std::sort yields: the packages in the order of their names; nothing is said about those with equal names. *)
Definition sorted_packages {A} (found l : list (str * A)) : Prop := Permutation found l /\ StronglySorted (fun a b => str_leb (fst a) (fst b) = true) l.
(** A package is found exactly if there is one of that name. *)
Theorem package_found {A} (found l : list (str * A)) name : sorted_packages found l ->
  (forall e, get_package name l = Some e -> In e found /\ fst e = name) /\ ((exists e, In e found /\ fst e = name) <-> get_package name l <> None).
Proof.
  intros [P S]. assert (F : forall e, get_package name l = Some e -> In e found /\ fst e = name).
  { intros e H. unfold get_package in H. destruct (lower_bound name l) as [x|] eqn:L; [|discriminate]. destruct (str_eqb (fst x) name) eqn:Q; [|discriminate]. injection H as ->. apply str_eqb_eq in Q. split; [|assumption].
    apply (Permutation_in _ (Permutation_sym P)). clear - L. induction l as [|y l IH]; [discriminate|]. cbn in L. destruct (str_leb name (fst y)); [injection L as ->; now left|right; auto]. }
  split; [exact F|]. split.
  - intros (e & I & N). apply (Permutation_in _ P) in I. clear - I N S. unfold get_package. induction S as [|y l S IH Fy]; [destruct I|]. cbn [lower_bound].
    destruct (str_leb name (fst y)) eqn:L.
    + destruct I as [->|I]; [rewrite N, str_eqb_refl; discriminate|]. rewrite Forall_forall in Fy. specialize (Fy e I). rewrite N in Fy. rewrite (str_leb_antisym _ _ Fy L), str_eqb_refl. discriminate.
    + destruct I as [->|I]; [|auto]. rewrite N in L. destruct (str_leb_total name name); congruence.
  - intros H. destruct (get_package name l) as [e|] eqn:G; [|easy]. exists e. auto.
Qed.
(** If there is only one of that name, it is the one found. *)
Theorem package_unique {A} (found l : list (str * A)) e : sorted_packages found l -> In e found -> (forall e', In e' found -> fst e' = fst e -> e' = e) -> get_package (fst e) l = Some e.
Proof.
  intros S I U. destruct (package_found found l (fst e) S) as [F [G _]]. destruct (get_package (fst e) l) as [x|] eqn:X.
  - destruct (F x eq_refl) as [X1 X2]. now rewrite (U x X1 X2).
  - exfalso. apply G; [eauto|reflexivity].
Qed.
(** With several of that name, the order of the search paths does not decide which one is found: std::sort may put either first. *)
Theorem package_precedence_refuted : ~ (forall (found l : list (str * N)) e1 e2 a b c, found = a ++ e1 :: b ++ e2 :: c -> fst e1 = fst e2 -> ~ In (fst e1) (map fst a) -> sorted_packages found l -> get_package (fst e1) l = Some e1).
Proof.
  intros H. specialize (H [(lit "z", 1); (lit "z", 2)] [(lit "z", 2); (lit "z", 1)] (lit "z", 1) (lit "z", 2) [] [] [] eq_refl eq_refl (fun X => X)). vm_compute in H. discriminate H. split.
  - apply perm_swap.
  - repeat constructor.
Qed.

(** ** Examples *)

Module Demo.
Definition nl : str := [10].
Definition file : str :=
  lit "# the graphics library" ++ nl ++ lit "prefix=/usr/local" ++ nl ++ lit "libdir = ${prefix}/lib" ++ nl ++ lit "Name: Gfx \# 2" ++ nl ++ lit "Version: 2.1" ++ nl ++
  lit "Requires: glib >= 2.4, zlib" ++ nl ++ lit "Libs: -L${libdir} \" ++ nl ++ lit " -lgfx '-Wl,-rpath,a b' $$" ++ nl ++ lit "Cflags: -I${prefix}/include -DGFX=1 -isystem /opt/x".
Definition opts := mkOptions false [] [(lit "PKG_CONFIG_GFX_2_LIBDIR", lit "/alt/lib")].
Example parsed : exists p, parse_file (mkOptions false [] []) (lit "/usr/lib/pkgconfig/gfx-2.pc") (lit "/usr/lib/pkgconfig") file = Ok p /\
  pc_base p = lit "gfx-2" /\ pc_name p = lit "Gfx # 2" /\ pc_version p = lit "2.1" /\
  pc_requires p = [mkRequired (lit "glib") GreaterThanEqual (lit "2.4"); mkRequired (lit "zlib") AlwaysMatch []] /\
  pc_libs p = [mkFlag LibraryPath (lit "/usr/local/lib"); mkFlag LibraryName (lit "gfx"); mkFlag LinkerFlag (lit "-Wl,-rpath,a b"); mkFlag LinkerFlag (lit "$")] /\
  pc_cflags p = [mkFlag IncludePath (lit "/usr/local/include"); mkFlag Define (lit "GFX=1"); mkFlag SystemIncludePath (lit "/opt/x")].
Proof. eexists. split; [vm_compute; reflexivity|]. vm_compute. auto 10. Qed.
Example overridden : exists p, parse_file opts (lit "/usr/lib/pkgconfig/gfx-2.pc") (lit "/usr/lib/pkgconfig") file = Ok p /\ hd_error (pc_libs p) = Some (mkFlag LibraryPath (lit "/alt/lib")).
Proof. eexists. split; vm_compute; reflexivity. Qed.
Example relocated : exists p, parse_file (mkOptions true [] []) (lit "/opt/gfx/lib/pkgconfig/gfx-2.pc") (lit "/opt/gfx/lib/pkgconfig") (lit "prefix=/usr/local" ++ nl ++ lit "libdir=/usr/local/lib") = Ok p /\
  lookup (pc_variables p) (lit "prefix") = Some (lit "/opt/gfx") /\ lookup (pc_variables p) (lit "libdir") = Some (lit "/opt/gfx/lib").
Proof. eexists. split; [vm_compute; reflexivity|]. vm_compute. auto. Qed.
(** The hypotheses of the theorems. *)
Example says_ex : says 58 (lit "Libs") (lit " -lgfx ") (lit "  Libs : -lgfx ").
Proof. apply (Says 58 (lit "Libs") (lit " -lgfx ") (lit "  ") (lit " ")); (reflexivity || discriminate). Qed.
Example words_ex : split_command 0 [] (lit " a\ b 'c ""d' ") = Some [lit "a b"; lit "c ""d"].
Proof. reflexivity. Qed.
Example written_ex : written_list [mkRequired (lit "glib") GreaterThanEqual (lit "2.4"); mkRequired (lit "zlib") AlwaysMatch []] (lit "glib >=  2.4, zlib").
Proof.
  apply (written_more _ (lit "glib >=  2.4") (lit ", ") _ (lit "zlib")).
  - apply (written_version (lit "glib") GreaterThanEqual (lit "2.4") (lit " ") (lit "  ")); try (reflexivity || discriminate); try (split; [discriminate|reflexivity]). intros c t E. now injection E as <- _.
  - split; [discriminate|reflexivity].
  - constructor. constructor; try (reflexivity || discriminate). intros c t E. now injection E as <- _.
Qed.
Definition ldflags := [mkFlag LibraryPath (lit "/usr/lib"); mkFlag LibraryName (lit "m"); mkFlag Framework (lit "Cocoa"); mkFlag StaticLibraryName (lit "libx.a"); mkFlag LinkerFlag (lit "-pthread"); mkFlag LinkerFlag (lit "-framework")].
Example fits_ex : all_fit lib_fits ldflags.
Proof.
  assert (B : forall p s, starts_with p s = false -> ~ begins p s) by (intros; now apply begins_not). assert (SN : forall s, negb (starts_with (lit "-") s) && (ends_with (lit ".a") s || ends_with (lit ".lib") s) = false -> ~ static_name s).
  { intros s H X. apply static_iff in X. congruence. }
  unfold ldflags, all_fit, lib_fits. cbn [f_type f_value].
  repeat match goal with
  | |- _ /\ _ => split
  | |- True => exact Logic.I
  | |- trim _ = _ => reflexivity
  | |- ~ begins _ _ => apply B; reflexivity
  | |- ~ static_name _ => apply SN; reflexivity
  | |- static_name _ => apply static_iff; reflexivity
  | |- _ -> true = true => reflexivity
  | |- _ <> _ => discriminate
  | |- begins _ _ -> _ => intros X; exfalso; revert X; apply B; reflexivity
  | |- _ = _ -> _ => discriminate
  end.
Qed.
Example environment_ex : env_var (lit "gtk+-3.0") (lit "libDir") = lit "PKG_CONFIG_GTK__3_0_LIBDIR".
Proof. reflexivity. Qed.
Example flags_ex : parse_libs (flat_map flag_words ldflags) = ldflags.
Proof. apply libs_read, fits_ex. Qed.
Example clean_ex : Forall (clean_word lib_options) (flat_map flag_words ldflags).
Proof.
  repeat constructor; try discriminate; intros o [<-|[<-|[<-|[]]]] H; apply begins_iff in H; try discriminate H; reflexivity.
Qed.
Example sysroot_ex : pc_libs (finish [lit "/usr/lib"] (lit "/sys") (with_flags (empty_package [] []) (mkFlag LibraryPath (lit "/opt/lib") :: ldflags) [] [])) = mkFlag LibraryPath (lit "/sys/opt/lib") :: tl ldflags.
Proof. reflexivity. Qed.
Example sorted_ex : sorted_packages [(lit "z", 1); (lit "a", 2); (lit "m", 3)] [(lit "a", 2); (lit "m", 3); (lit "z", 1)] /\ get_package (lit "m") [(lit "a", 2); (lit "m", 3); (lit "z", 1)] = Some (lit "m", 3).
Proof.
  split; [|reflexivity]. split; [|repeat constructor]. apply (Permutation_cons_append [(lit "a", 2); (lit "m", 3)] (lit "z", 1)).
Qed.
End Demo.

Print Assumptions lines_exact.
Print Assumptions lines_backslash_end.
Print Assumptions environment_name.
Print Assumptions variable_precedence.
Print Assumptions carriage_returns.
Print Assumptions words_exact.
Print Assumptions words_escaped.
Print Assumptions words_error.
Print Assumptions words_empty_refuted.
Print Assumptions substitution_exact.
Print Assumptions substitution_doubled.
Print Assumptions substitution_app.
Print Assumptions line_says.
Print Assumptions variable_value.
Print Assumptions variable_once.
Print Assumptions field_values.
Print Assumptions prefix_located.
Print Assumptions prefix_relocated.
Print Assumptions prefix_other.
Print Assumptions prefix_relocated_refuted.
Print Assumptions modules_exact.
Print Assumptions modules_comma_refuted.
Print Assumptions libs_read.
Print Assumptions libs_meaning.
Print Assumptions cflags_read.
Print Assumptions cflags_meaning.
Print Assumptions sysroot_prepended.
Print Assumptions sysroot_directory_refuted.
Print Assumptions system_paths_removed.
Print Assumptions package_found.
Print Assumptions package_unique.
Print Assumptions package_precedence_refuted.
