(** Quoted command lines are split by the shells into exactly the original arguments. *)
From Coq Require Import List Bool Arith NArith Lia.
From Verif Require Import Str ShellModel.
Import ListNotations.
Local Open Scope N_scope.

(** ** Specification: how a POSIX shell splits a command into words (POSIX XCU 2.2, 2.3, 2.6.7).

    A character that would start anything but literal text (expansion, redirection, comment, command separator,
    pattern, history, brace expansion) makes the result [None]: whatever happens then, it is not what was meant. *)
Definition sh_active (c : N) : bool :=
  memN c [10; 124; 38; 59; 60; 62; 40; 41; 36; 96; 34; 42; 63; 91; 93; 35; 126; 33; 123; 125].
Definition sh_blank (c : N) : bool := (c =? 32) || (c =? 9).

(** [cur] is the word being read, if one has been started; in single quotes everything up to the next one is literal. *)
Fixpoint sh_words (single : bool) (cur : option str) (s : str) : option (list str) :=
  let word c := Some (match cur with Some w => w ++ [c] | None => [c] end) in
  match s with
  | [] => if single then None else Some (match cur with Some w => [w] | None => [] end)
  | c :: r =>
      if single then
        if c =? 39 then sh_words false cur r else sh_words true (word c) r
      else if c =? 39 then sh_words true (Some (match cur with Some w => w | None => [] end)) r
      else if c =? 92 then
        match r with
        | [] => None
        | d :: r' => if d =? 10 then sh_words false cur r' else sh_words false (Some (match cur with Some w => w ++ [d] | None => [d] end)) r'
        end
      else if sh_blank c then
        match cur with
        | None => sh_words false None r
        | Some w => option_map (cons w) (sh_words false None r)
        end
      else if sh_active c then None
      else sh_words false (word c) r
  end.
Definition sh_split (s : str) : option (list str) := sh_words false None s.

(** A command whose first word is, literally, a name and an equals sign is an assignment (POSIX XCU 2.9.1, 2.10.2). *)
Definition name_char (c : N) : bool :=
  ((65 <=? c) && (c <=? 90)) || ((97 <=? c) && (c <=? 122)) || (c =? 95) || is_digit c.
Definition sh_assignment (s : str) : bool :=
  match span name_char s with
  | (n0 :: _, 61 :: _) => negb (is_digit n0)
  | _ => false
  end.
(** The program the shell runs, and its arguments. *)
Definition sh_runs (s : str) : option (str * list str) :=
  if sh_assignment s then None
  else match sh_split s with Some (p :: args) => Some (p, args) | _ => None end.

(** ** Specification: Windows.

    The command interpreter: a quote toggles quoting and is passed on; outside of quotes, a circumflex makes the next
    character literal and meta characters are active.  Percent signs start variable expansion even in quotes, and a
    line break ends the command. *)
Definition cmd_active (c : N) : bool := memN c [38; 40; 41; 60; 62; 124].
Definition cmd_never (c : N) : bool := memN c [37; 10; 13].
Fixpoint cmd_pass (quoted : bool) (s : str) : option str :=
  match s with
  | [] => Some []
  | c :: r =>
      if cmd_never c then None
      else if c =? 34 then option_map (cons c) (cmd_pass (negb quoted) r)
      else if quoted then option_map (cons c) (cmd_pass true r)
      else if c =? 94 then
        match r with
        | [] => None
        | d :: r' => if cmd_never d then None else option_map (cons d) (cmd_pass false r')
        end
      else if cmd_active c then None
      else option_map (cons c) (cmd_pass false r)
  end.

(** The C runtime (CommandLineToArgvW): n backslashes before a quote stand for n/2 backslashes, and an odd one makes the quote
    literal; other backslashes are literal; two quotes inside quotes are a literal one. *)
Definition win_blank (c : N) : bool := (c =? 32) || (c =? 9).
Definition add (cur : option str) (t : str) : str := match cur with Some w => w ++ t | None => t end.
Fixpoint argv (inq : bool) (bs : nat) (cur : option str) (s : str) : list str :=
  match s with
  | [] =>
      match bs, cur with
      | O, None => []
      | _, _ => [add cur (backslashes bs)]
      end
  | c :: r =>
      if c =? 92 then argv inq (S bs) cur r
      else if c =? 34 then
        let cur' := add cur (backslashes (Nat.div2 bs)) in
        if Nat.odd bs then argv inq O (Some (cur' ++ [34])) r
        else if inq then
          match r with
          | 34 :: r' => argv true O (Some (cur' ++ [34])) r'
          | _ => argv false O (Some cur') r
          end
        else argv true O (Some cur') r
      else if win_blank c && negb inq then
        match bs, cur with
        | O, None => argv false O None r
        | _, _ => add cur (backslashes bs) :: argv false O None r
        end
      else argv inq O (Some (add cur (backslashes bs ++ [c]))) r
  end.
Definition win_split (s : str) : option (list str) := option_map (argv false O None) (cmd_pass false s).

(** ** Proofs: Unix *)

Lemma has_special_spec tab s : has_special tab s = true <-> exists c, In c s /\ is_special tab c = true.
Proof.
  unfold has_special. rewrite existsb_exists. split; intros (c & H & K); exists c; split; auto; now apply in_rev in H || (apply in_rev; rewrite rev_involutive).
Qed.
Lemma no_special tab s : has_special tab s = false -> Forall (fun c => is_special tab c = false) s.
Proof.
  intros H. apply Forall_forall. intros c Hc. destruct (is_special tab c) eqn:E; auto.
  assert (has_special tab s = true) by (apply has_special_spec; eauto). congruence.
Qed.

(** Every active character is in the table. *)
Lemma unix_special c : is_special unix_quoted_chars c = false ->
  sh_active c = false /\ sh_blank c = false /\ c <> 39 /\ c <> 92.
Proof.
  intros H. split; [|split; [|split]].
  - destruct (sh_active c) eqn:E; auto. unfold sh_active in E. apply memN_In in E. simpl in E.
    repeat (destruct E as [<-|E]; [discriminate H|]). destruct E.
  - unfold sh_blank. destruct (N.eqb_spec c 32) as [->|]; [discriminate H|]. destruct (N.eqb_spec c 9) as [->|]; [discriminate H|]. reflexivity.
  - intros ->. discriminate H.
  - intros ->. discriminate H.
Qed.

Definition cur_app (cur : option str) (t : str) : option str := Some (match cur with Some w => w ++ t | None => t end).

Lemma words_plain s : Forall (fun c => is_special unix_quoted_chars c = false) s -> forall cur rest, s <> [] ->
  sh_words false cur (s ++ rest) = sh_words false (cur_app cur s) rest.
Proof.
  intros F. induction F as [|c s Hc F IH]; intros cur rest N; [congruence|].
  destruct (unix_special c Hc) as (A & B & C & D). cbn [app sh_words].
  rewrite (proj2 (N.eqb_neq c 39) C), (proj2 (N.eqb_neq c 92) D), B, A.
  destruct s as [|d s].
  - cbn [app]. destruct cur; reflexivity.
  - rewrite IH by discriminate. unfold cur_app. destruct cur as [w|]; cbn; [|reflexivity].
    now rewrite <- app_assoc.
Qed.
Lemma words_single s : forall w rest,
  sh_words true (Some w) (escape_single s ++ 39 :: rest) = sh_words false (Some (w ++ s)) rest.
Proof.
  induction s as [|c s IH]; intros w rest.
  - cbn. now rewrite app_nil_r.
  - unfold escape_single. cbn [flat_map]. fold (escape_single s). destruct (N.eqb_spec c 39) as [->|E].
    + cbn [app]. cbn [sh_words]. simpl N.eqb. cbv iota. rewrite IH, <- app_assoc. reflexivity.
    + cbn [app]. cbn [sh_words]. rewrite (proj2 (N.eqb_neq c 39) E). rewrite IH, <- app_assoc. reflexivity.
Qed.
Lemma words_quoted a rest : sh_words false None (quote_unix a ++ rest) = sh_words false (Some a) rest.
Proof.
  unfold quote_unix. destruct a as [|c a]; [reflexivity|]. remember (c :: a) as s. assert (N : s <> []) by (subst; discriminate).
  destruct (has_special unix_quoted_chars s) eqn:H.
  - cbn [app]. cbn [sh_words]. simpl N.eqb. cbv iota. rewrite <- app_assoc. apply words_single.
  - rewrite words_plain by (auto using no_special). reflexivity.
Qed.

Lemma fold_quote o rest : forall x, fold_left (fun result b => result ++ 32 :: quote o b) rest x
  = x ++ concat (map (fun b => 32 :: quote o b) rest).
Proof.
  induction rest as [|b rest IH]; intros x; cbn; [now rewrite app_nil_r|]. rewrite IH, <- app_assoc. reflexivity.
Qed.
Lemma words_rest rest : forall w, sh_words false (Some w) (concat (map (fun b => 32 :: quote Unix b) rest)) = Some (w :: rest).
Proof.
  induction rest as [|b rest IH]; intros w; [reflexivity|]. cbn [map concat app]. cbn [sh_words quote]. simpl N.eqb. simpl sh_blank. cbv iota.
  rewrite words_quoted, IH. reflexivity.
Qed.

(** ** Theorems: Unix *)

(** C32.  The shell splits the quoted list into exactly the original arguments, whatever characters they contain. *)
Theorem unix_list_exact args : sh_split (quote_list Unix args) = Some args.
Proof.
  destruct args as [|a rest]; [reflexivity|]. unfold sh_split, quote_list. rewrite fold_quote.
  cbn [quote]. rewrite words_quoted. apply words_rest.
Qed.

Theorem unix_command_exact program args : sh_split (quote_command Unix program args) = Some (program :: args).
Proof.
  replace (quote_command Unix program args) with (quote_list Unix (program :: args)); [apply unix_list_exact|].
  unfold quote_command, quote_list. rewrite fold_quote. destruct args as [|a rest]; cbn [map concat]; [now rewrite app_nil_r|].
  rewrite fold_quote. reflexivity.
Qed.

(** Command lines that are assembled piece by piece: raw pieces are up to the caller. *)
Theorem unix_command_line_exact program args : Forall (fun a => a_quote a = true) args ->
  sh_split (command_line Unix program false args) = Some (program :: map a_value args).
Proof.
  intros F. replace (command_line Unix program false args) with (quote_list Unix (program :: map a_value args)).
  { apply unix_list_exact. }
  unfold command_line, quote_list. cbn [native]. generalize (quote Unix program).
  induction F as [|a args Ha F IH]; intros x; [reflexivity|]. cbn [map fold_left]. rewrite Ha.
  replace (if a_is_path a then a_value a else a_value a) with (a_value a) by (destruct (a_is_path a); reflexivity).
  apply IH.
Qed.

(** The command that is run is the program, unless its name looks like an assignment. *)
Lemma span_fst_app p s : forall c r, span p s = (c, r) -> s = c ++ r.
Proof. intros c r H. pose proof (span_spec p s) as K. rewrite H in K. apply K. Qed.

Theorem unix_command_run_partial program args :
  ~ In 61 program -> sh_runs (quote_command Unix program args) = Some (program, args).
Proof.
  intros N. unfold sh_runs. rewrite unix_command_exact.
  replace (sh_assignment (quote_command Unix program args)) with false; [reflexivity|]. symmetry.
  unfold sh_assignment. destruct (span name_char (quote_command Unix program args)) as [n r] eqn:E.
  destruct n as [|n0 n]; [reflexivity|]. destruct r as [|e r]; [reflexivity|].
  destruct (N.eq_dec e 61) as [->|Ne]; [exfalso|repeat (match goal with |- context [match ?x with _ => _ end] => is_var x; destruct x end; try reflexivity); congruence].
  pose proof (span_spec name_char (quote_command Unix program args)) as S. rewrite E in S. destruct S as (S & F & _).
  (* the text before the equals sign consists of name characters, so it stays within the program *)
  assert (Q : exists t, quote_command Unix program args = quote_unix program ++ t /\ (t = [] \/ exists t', t = 32 :: t')).
  { unfold quote_command. destruct args; [exists []; rewrite app_nil_r; auto|]. eexists. split; [reflexivity|]. right. eauto. }
  destruct Q as (t & Qe & Qt). rewrite Qe in S. clear Qe E.
  assert (P : quote_unix program = program \/ exists u, quote_unix program = 39 :: u).
  { unfold quote_unix. destruct program as [|p0 p]; [right; eexists; reflexivity|].
    destruct (has_special unix_quoted_chars (p0 :: p)); [right; eexists; reflexivity|left; reflexivity]. }
  destruct P as [P|[u P]]; rewrite P in S.
  - clear P. revert S F. generalize (n0 :: n). induction program as [|p0 p IH]; intros l S F.
    + cbn in S. destruct Qt as [->|[t' ->]].
      * symmetry in S. destruct l; discriminate.
      * destruct l as [|x l]; cbn in S; injection S as S1 S2; [discriminate|]. subst x. pose proof (Forall_inv F) as K. discriminate K.
    + destruct l as [|x l]; cbn in S.
      * injection S as -> _. apply N. now left.
      * injection S as -> S. apply (IH (fun K => N (or_intror K)) l S). now apply Forall_inv_tail in F.
  - cbn in S. injection S as <- _. pose proof (Forall_inv F) as K. discriminate K.
Qed.

Theorem unix_command_run_refuted : exists program args, sh_runs (quote_command Unix program args) <> Some (program, args).
Proof. exists [65; 61; 66], [[97]]. vm_compute. discriminate. Qed.

(** ** Proofs: Windows *)

(** What the program is to see between the quotes. *)
Fixpoint escaped (n : nat) (s : str) : str :=
  match s with
  | [] => backslashes (n + n)
  | c :: r =>
      if c =? 92 then escaped (S n) r
      else if c =? 34 then backslashes (n + n) ++ [92; 34] ++ escaped 0 r
      else backslashes n ++ c :: escaped 0 r
  end.

Lemma backslashes_app n m : backslashes n ++ backslashes m = backslashes (n + m).
Proof. unfold backslashes. now rewrite repeat_app. Qed.
Lemma rev_backslashes n : rev (backslashes n) = backslashes n.
Proof.
  induction n as [|n IH]; [reflexivity|]. change (backslashes (S n)) with (92 :: backslashes n). cbn [rev]. rewrite IH.
  change [92] with (backslashes 1). rewrite backslashes_app. rewrite Nat.add_1_r. reflexivity.
Qed.
Lemma leading_app n s : match s with c :: _ => c <> 92 | [] => True end -> leading_backslashes (backslashes n ++ s) = (n, s).
Proof.
  intros H. induction n as [|n IH].
  - cbn. destruct s as [|c s]; [reflexivity|]. cbn. now rewrite (proj2 (N.eqb_neq c 92) H).
  - change (backslashes (S n) ++ s) with (92 :: backslashes n ++ s). cbn [leading_backslashes]. simpl N.eqb. cbv iota. now rewrite IH.
Qed.

(** A string, its last character not being a backslash, followed by backslashes. *)
Lemma double_at_end_spec s n : match rev s with c :: _ => c <> 92 | [] => True end -> (n = O -> match rev s with c :: _ => c <> 10 | [] => True end) ->
  double_at_end (s ++ backslashes n) = s ++ backslashes (n + n).
Proof.
  intros H H0. unfold double_at_end. rewrite rev_app_distr, rev_backslashes.
  pose proof (leading_app n (rev s) H) as L.
  destruct (backslashes n ++ rev s) as [|c r] eqn:E.
  - apply app_eq_nil in E. destruct E as [E1 E2]. destruct n; [|discriminate]. apply (f_equal (@rev N)) in E2.
    rewrite rev_involutive in E2. subst. reflexivity.
  - replace (c =? 10) with false.
    + rewrite L. rewrite rev_app_distr, rev_involutive, rev_backslashes. reflexivity.
    + symmetry. apply N.eqb_neq. destruct n as [|n].
      * cbn in E. rewrite E in H0. now apply H0.
      * injection E as <- _. discriminate.
Qed.

Lemma double_split n s : ~ In 10 s -> exists t k, double_before_quotes n s = t ++ backslashes k
  /\ match rev t with c :: _ => c <> 92 /\ c <> 10 | [] => True end /\ escaped n s = t ++ backslashes (k + k).
Proof.
  revert n. induction s as [|c s IH]; intros n NL.
  - exists [], n. repeat split; auto.
  - assert (NL' : ~ In 10 s) by (intros K; apply NL; now right). cbn [double_before_quotes escaped].
    destruct (N.eqb_spec c 92) as [->|E1]; [now apply IH|].
    destruct (IH O NL') as (t & k & A & B & C).
    assert (G : forall pre, (match rev pre with x :: _ => x <> 92 /\ x <> 10 | [] => False end) ->
              match rev (pre ++ t) with x :: _ => x <> 92 /\ x <> 10 | [] => True end).
    { intros pre P. rewrite rev_app_distr. destruct (rev t); [cbn; destruct (rev pre); auto|exact B]. }
    destruct (N.eqb_spec c 34) as [->|E2].
    + exists (backslashes (n + n) ++ [92; 34] ++ t), k. rewrite A, C. rewrite app_assoc, backslashes_app. repeat split.
      * now rewrite <- !app_assoc.
      * rewrite app_assoc. apply G. rewrite rev_app_distr. cbn. split; discriminate.
      * now rewrite <- !app_assoc.
    + exists (backslashes n ++ c :: t), k. rewrite A, C. repeat split.
      * now rewrite <- app_assoc.
      * change (backslashes n ++ c :: t) with (backslashes n ++ [c] ++ t). rewrite app_assoc. apply G.
        rewrite rev_app_distr. cbn. split; auto. intros ->. apply NL. now left.
      * now rewrite <- app_assoc.
Qed.

Lemma doubled_is_escaped s : ~ In 10 s -> double_at_end (double_before_quotes 0 s) = escaped 0 s.
Proof.
  intros NL. destruct (double_split 0 s NL) as (t & k & A & B & C). rewrite A, C. apply double_at_end_spec.
  - destruct (rev t); tauto.
  - destruct (rev t); tauto.
Qed.

Definition printable (s : str) : Prop := Forall (fun c => cmd_never c = false) s.
Lemma printable_no_newline s : printable s -> ~ In 10 s.
Proof. intros F K. apply (proj1 (Forall_forall _ _) F) in K. discriminate K. Qed.

Lemma escaped_printable s : printable s -> forall n, printable (escaped n s).
Proof.
  assert (B : forall n, printable (backslashes n)) by (intros n; apply Forall_forall; intros c H; apply repeat_spec in H; now subst).
  intros F. induction F as [|c s Hc F IH]; intros n; cbn [escaped]; [apply B|].
  destruct (c =? 92); [apply IH|]. destruct (c =? 34).
  - apply Forall_app. split; [apply B|]. repeat constructor. apply IH.
  - apply Forall_app. split; [apply B|]. constructor; auto. apply IH.
Qed.

Lemma win_meta c : is_special win_meta_chars c = false -> cmd_active c = false /\ c <> 94.
Proof.
  intros H. split.
  - destruct (cmd_active c) eqn:E; auto. unfold cmd_active in E. apply memN_In in E. simpl in E.
    repeat (destruct E as [<-|E]; [discriminate H|]). destruct E.
  - intros ->. discriminate H.
Qed.

(** The command interpreter removes exactly the circumflexes. *)
Lemma cmd_carets s : printable s -> forall q rest, 
  let (t, q') := add_carets q s in cmd_pass q (t ++ rest) = option_map (app s) (cmd_pass q' rest).
Proof.
  intros F. induction F as [|c s Hc F IH]; intros q rest.
  - cbn. destruct (cmd_pass q rest); reflexivity.
  - cbn [add_carets]. destruct (N.eqb_spec c 34) as [->|E].
    + specialize (IH (negb q) rest). destruct (add_carets (negb q) s) as [t q'].
      cbn [app cmd_pass]. simpl. rewrite IH. destruct (cmd_pass q' rest); reflexivity.
    + specialize (IH q rest). destruct (add_carets q s) as [t q']. destruct q; cbn [negb andb].
      * cbn [app cmd_pass]. rewrite Hc, (proj2 (N.eqb_neq c 34) E), IH. destruct (cmd_pass q' rest); reflexivity.
      * destruct (is_special win_meta_chars c) eqn:M.
        -- cbn [app]. cbn [cmd_pass]. rewrite Hc. simpl. rewrite IH. destruct (cmd_pass q' rest); reflexivity.
        -- destruct (win_meta c M) as [A B]. cbn [app cmd_pass]. rewrite Hc, (proj2 (N.eqb_neq c 34) E), (proj2 (N.eqb_neq c 94) B), A, IH.
           destruct (cmd_pass q' rest); reflexivity.
Qed.

Lemma win_special c : is_special win_quoted_chars c = false ->
  cmd_active c = false /\ c <> 94 /\ c <> 34 /\ win_blank c = false.
Proof.
  intros H. split; [|split; [|split]].
  - destruct (cmd_active c) eqn:E; auto. unfold cmd_active in E. apply memN_In in E. simpl in E.
    repeat (destruct E as [<-|E]; [discriminate H|]). destruct E.
  - intros ->. discriminate H.
  - intros ->. discriminate H.
  - unfold win_blank. destruct (N.eqb_spec c 32) as [->|]; [discriminate H|]. destruct (N.eqb_spec c 9) as [->|]; [discriminate H|]. reflexivity.
Qed.
Lemma cmd_plain s : Forall (fun c => is_special win_quoted_chars c = false) s -> printable s ->
  forall rest, cmd_pass false (s ++ rest) = option_map (app s) (cmd_pass false rest).
Proof.
  intros F. induction F as [|c s Hc F IH]; intros P rest.
  - cbn. destruct (cmd_pass false rest); reflexivity.
  - destruct (win_special c Hc) as (A & B & C & _). cbn [app cmd_pass].
    rewrite (Forall_inv P), (proj2 (N.eqb_neq c 34) C), (proj2 (N.eqb_neq c 94) B), A, IH by (now apply Forall_inv_tail in P).
    destruct (cmd_pass false rest); reflexivity.
Qed.

(** What the program gets for one argument. *)
Definition seen (a : str) : str :=
  match a with
  | [] => [34; 34]
  | _ => if has_special win_quoted_chars a then 34 :: escaped 0 a ++ [34] else a
  end.
Lemma cmd_quoted a rest : printable a -> cmd_pass false (quote_win a ++ rest) = option_map (app (seen a)) (cmd_pass false rest).
Proof.
  intros P. unfold quote_win, seen. destruct a as [|c a].
  { cbn. destruct (cmd_pass false rest); reflexivity. }
  remember (c :: a) as s. destruct (has_special win_quoted_chars s) eqn:H.
  - rewrite doubled_is_escaped by (now apply printable_no_newline).
    pose proof (cmd_carets (escaped 0 s) (escaped_printable s P 0) true) as K.
    destruct (add_carets true (escaped 0 s)) as [t q].
    specialize (K ((if q then [] else [94]) ++ [34] ++ rest)).
    cbn [app]. cbn [cmd_pass]. simpl cmd_never. simpl N.eqb. cbv iota. cbn [negb].
    rewrite <- !app_assoc. rewrite K.
    assert (E : cmd_pass q ((if q then [] else [94]) ++ [34] ++ rest) = option_map (cons 34) (cmd_pass false rest)).
    { destruct q; cbn; reflexivity. }
    rewrite E. destruct (cmd_pass false rest) as [x|]; [|reflexivity]. cbn. rewrite <- app_assoc. reflexivity.
  - apply cmd_plain; auto using no_special.
Qed.

(** The runtime undoes the escaping. *)
Lemma odd_double n : Nat.odd (n + n) = false.
Proof. replace (n + n)%nat with (2 * n)%nat by lia. now rewrite Nat.odd_mul. Qed.
Lemma div2_double' n : Nat.div2 (n + n) = n.
Proof. replace (n + n)%nat with (2 * n)%nat by lia. apply Nat.div2_double. Qed.
Lemma argv_backslashes inq n : forall bs cur rest, argv inq bs cur (backslashes n ++ rest) = argv inq (n + bs) cur rest.
Proof.
  induction n as [|n IH]; intros bs cur rest; [reflexivity|].
  change (backslashes (S n) ++ rest) with (92 :: backslashes n ++ rest). cbn [argv]. simpl N.eqb. cbv iota.
  rewrite IH. f_equal. lia.
Qed.

(** After the closing quote comes a blank or the end. *)
Definition ends (rest : str) : Prop := match rest with [] => True | c :: _ => c = 32 end.

Lemma argv_escaped s rest : ends rest -> forall n w,
  argv true 0 (Some w) (escaped n s ++ 34 :: rest) = argv false 0 (Some (w ++ backslashes n ++ s)) rest.
Proof.
  intros E. induction s as [|c s IH]; intros n w.
  - cbn [escaped]. rewrite argv_backslashes, Nat.add_0_r. cbn [argv]. simpl N.eqb. cbv iota. rewrite odd_double, div2_double'.
    rewrite app_nil_r. cbn [add]. destruct rest as [|x r]; [reflexivity|]. cbn in E. subst x. reflexivity.
  - cbn [escaped]. destruct (N.eqb_spec c 92) as [->|E1].
    + rewrite IH. f_equal. f_equal. f_equal. change (92 :: s) with (backslashes 1 ++ s). rewrite app_assoc, backslashes_app.
      now rewrite Nat.add_1_r.
    + destruct (N.eqb_spec c 34) as [->|E2].
      * rewrite <- !app_assoc, argv_backslashes, Nat.add_0_r.
        change ([92; 34] ++ escaped 0 s ++ 34 :: rest) with (92 :: 34 :: escaped 0 s ++ 34 :: rest).
        cbn [argv]. simpl N.eqb. cbv iota.
        assert (O : Nat.odd (S (n + n)) = true) by (rewrite Nat.odd_succ, <- Nat.negb_odd, odd_double; reflexivity).
        rewrite O. replace (Nat.div2 (S (n + n))) with n by (replace (S (n + n)) with (S (2 * n)) by lia; symmetry; apply Nat.div2_succ_double).
        rewrite IH. cbn [add]. cbn [backslashes repeat app]. rewrite <- !app_assoc. reflexivity.
      * rewrite <- app_assoc, argv_backslashes, Nat.add_0_r. cbn [app]. cbn [argv].
        rewrite (proj2 (N.eqb_neq c 92) E1), (proj2 (N.eqb_neq c 34) E2). cbn [negb]. rewrite andb_false_r. rewrite IH. cbn [add].
        cbn [backslashes repeat app]. rewrite <- !app_assoc. reflexivity.
Qed.

Lemma argv_plain s rest : Forall (fun c => is_special win_quoted_chars c = false) s -> ends rest -> forall n cur,
  (s <> [] \/ n <> O \/ cur <> None) ->
  argv false n cur (s ++ rest) = argv false 0 (Some (add cur (backslashes n ++ s))) rest.
Proof.
  intros F E. induction F as [|c s Hc F IH]; intros n cur N.
  - rewrite app_nil_r. destruct rest as [|x r].
    + cbn. destruct n as [|n]; [|cbn; now rewrite app_nil_r]. destruct cur; [cbn; now rewrite !app_nil_r|]. destruct N as [|[|]]; congruence.
    + cbn in E. subst x. cbn. destruct n as [|n]; [|cbn; now rewrite app_nil_r]. destruct cur; [cbn; now rewrite !app_nil_r|]. destruct N as [|[|]]; congruence.
  - destruct (win_special c Hc) as (_ & _ & C & W). cbn [app argv]. destruct (N.eqb_spec c 92) as [->|E1].
    + rewrite IH by (right; left; discriminate). f_equal. f_equal. unfold add.
      assert (X : backslashes (S n) ++ s = backslashes n ++ 92 :: s).
      { change (92 :: s) with (backslashes 1 ++ s). rewrite app_assoc, backslashes_app, Nat.add_1_r. reflexivity. }
      now rewrite X.
    + rewrite (proj2 (N.eqb_neq c 34) C), W. cbn [andb]. rewrite IH by (right; right; discriminate). f_equal. f_equal.
      unfold add. cbn [backslashes repeat app]. destruct cur; now rewrite <- ?app_assoc.
Qed.

Lemma argv_seen a rest : ends rest -> argv false 0 None (seen a ++ rest) = argv false 0 (Some a) rest.
Proof.
  intros E. unfold seen. destruct a as [|c a].
  { cbn. destruct rest as [|x r]; [reflexivity|]. cbn in E. subst x. reflexivity. }
  remember (c :: a) as s. assert (N : s <> []) by (subst; discriminate). destruct (has_special win_quoted_chars s) eqn:H.
  - cbn [app]. cbn [argv]. simpl N.eqb. cbv iota. rewrite <- app_assoc. cbn [Nat.odd Nat.even negb Nat.div2 backslashes repeat add app].
    rewrite (argv_escaped s rest E 0 []). reflexivity.
  - rewrite argv_plain; auto using no_special.
Qed.

Lemma win_rest rest : Forall printable rest -> forall w,
  exists t, cmd_pass false (concat (map (fun b => 32 :: quote Windows b) rest)) = Some t /\ ends t
            /\ argv false 0 (Some w) t = w :: rest.
Proof.
  intros F. induction F as [|b rest Hb F IH]; intros w; [exists []; cbn; rewrite app_nil_r; auto|].
  destruct (IH b) as (t & A & B & C). exists (32 :: seen b ++ t). cbn [map concat app]. cbn [cmd_pass quote]. simpl. rewrite cmd_quoted by auto.
  cbn [quote] in A. rewrite A. cbn. repeat split; auto. rewrite app_nil_r. rewrite argv_seen by auto. now rewrite C.
Qed.

(** ** Theorems: Windows *)

(** C33.  Arguments without percent signs and line breaks come out unchanged. *)
Theorem win_list_exact args : Forall printable args -> win_split (quote_list Windows args) = Some args.
Proof.
  intros F. destruct F as [|a rest Ha F]; [reflexivity|]. unfold win_split, quote_list. rewrite fold_quote. cbn [quote].
  rewrite cmd_quoted by auto. destruct (win_rest rest F a) as (t & A & B & C). cbn [quote] in A. rewrite A. cbn [option_map].
  rewrite argv_seen by auto. now rewrite C.
Qed.

Theorem win_command_exact program args : printable program -> Forall printable args ->
  win_split (quote_command Windows program args) = Some (program :: args).
Proof.
  intros P F. replace (quote_command Windows program args) with (quote_list Windows (program :: args)); [apply win_list_exact; auto|].
  unfold quote_command, quote_list. rewrite fold_quote. destruct args as [|a rest]; cbn [map concat]; [now rewrite app_nil_r|].
  rewrite fold_quote. reflexivity.
Qed.

(** Percent signs are not protected from the command interpreter. *)
Theorem win_percent_refuted : exists args, win_split (quote_list Windows args) <> Some args.
Proof. exists [[37; 80; 65; 84; 72; 37]]. vm_compute. discriminate. Qed.

(** Even where no command interpreter is involved, a backslash before a newline at the end of an argument is doubled. *)
Theorem win_newline_refuted : exists a, argv false 0 None (quote_win a) <> [a].
Proof. exists [92; 10]. vm_compute. discriminate. Qed.

(** ** Examples *)
Module Demo.
  (** Quotes, a variable, a separator, an empty argument, a newline. *)
  Definition hard : list str := [[105; 116; 39; 115; 32; 36; 72; 79; 77; 69; 59]; []; [97; 98]; [10; 92]].
  Example unix : sh_split (quote_list Unix hard) = Some hard. Proof. vm_compute. reflexivity. Qed.
  (** Unquoted, it would not work. *)
  Example unix_unquoted : sh_split [36; 72] = None. Proof. reflexivity. Qed.
  (** A quoted quote and an ampersand, a trailing backslash with a blank, an empty argument, one quote. *)
  Definition win_hard : list str := [[97; 92; 34; 98; 32; 38; 32; 99]; [99; 58; 92; 32; 92]; []; [34]; [92; 92; 120]; [94]].
  Example win_ok : Forall printable win_hard. Proof. repeat constructor. Qed.
  Example win : win_split (quote_list Windows win_hard) = Some win_hard. Proof. vm_compute. reflexivity. Qed.
  Example args_ok : Forall (fun a => a_quote a = true)
    [{| a_value := [32]; a_is_path := true; a_quote := true |}; {| a_value := [39]; a_is_path := false; a_quote := true |}].
  Proof. repeat constructor. Qed.
  Example program_ok : ~ In 61 [47; 98; 105; 110; 47; 108; 115]. Proof. simpl. intuition discriminate. Qed.
End Demo.

Print Assumptions unix_list_exact.
Print Assumptions unix_command_exact.
Print Assumptions unix_command_line_exact.
Print Assumptions unix_command_run_partial.
Print Assumptions unix_command_run_refuted.
Print Assumptions win_list_exact.
Print Assumptions win_command_exact.
Print Assumptions win_percent_refuted.
Print Assumptions win_newline_refuted.
