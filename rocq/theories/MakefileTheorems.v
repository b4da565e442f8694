(** What make and the shell do with the generated makefile. *)
From Coq Require Import String Ascii.
From Coq Require Import List Bool Arith NArith Lia.
From Verif Require Import Str ShellModel ShellTheorems MultiplexModel MakefileModel.
Import ListNotations.
Local Open Scope N_scope.

(** ** Specification: how make reads a makefile (POSIX make, GNU make manual 4.1, 4.2, 5.1, 6.1).

    As for the shell (ShellTheorems), a character that starts something that is not meant here makes the result
    [None]. *)
Definition txt (s : String.string) : str := List.map N_of_ascii (list_ascii_of_string s).
Arguments txt s%string.

Fixpoint mk_lines (cur s : str) : list str :=
  match s with
  | [] => match cur with [] => [] | _ => [cur] end
  | c :: r => if c =? 10 then cur :: mk_lines [] r else mk_lines (cur ++ [c]) r
  end.
Definition last_is (c : N) (s : str) : bool := match rev s with d :: _ => d =? c | [] => false end.
(** The value of a variable: a dollar sign would be expanded again, a number sign begins a comment, a backslash at the
    end continues the line. *)
Definition mk_value (v : str) : option str := if memN 36 v || memN 35 v || last_is 92 v then None else Some v.
(** A definition: name, space, equals sign, space, value. *)
Definition mk_definition (l : str) : option (str * str) :=
  match span (fun c => negb (c =? 32)) l with
  | (n, 32 :: 61 :: 32 :: v) => option_map (pair n) (mk_value v)
  | _ => None
  end.
Fixpoint mk_definitions (ls : list str) : option (list (str * str)) :=
  match ls with
  | [] => Some []
  | l :: r => match mk_definition l, mk_definitions r with Some d, Some e => Some (d :: e) | _, _ => None end
  end.
Definition mk_env (s : str) : option (list (str * str)) := mk_definitions (mk_lines [] s).
(** The last definition of a variable counts; undefined ones are empty. *)
Definition mk_var (env : list (str * str)) (n : str) : str :=
  match find (fun e => str_eqb (fst e) n) (rev env) with Some (_, v) => v | None => [] end.
(** Expansion; [name] is the name of the variable being read, if any. *)
Fixpoint mk_expand (env : list (str * str)) (name : option str) (s : str) : option str :=
  match s with
  | [] => match name with None => Some [] | Some _ => None end
  | c :: r =>
      match name with
      | Some n => if c =? 41 then option_map (app (mk_var env n)) (mk_expand env None r)
                  else if c =? 36 then None else mk_expand env (Some (n ++ [c])) r
      | None =>
          if c =? 36 then
            match r with
            | d :: r' => if d =? 36 then option_map (cons 36) (mk_expand env None r')
                         else if d =? 40 then mk_expand env (Some []) r' else None
            | [] => None
            end
          else option_map (cons c) (mk_expand env None r)
      end
  end.
(** The flags in front of a command: at sign, minus, plus, and blanks. *)
Fixpoint mk_flags (s : str) : str :=
  match s with c :: r => if memN c [64; 45; 43; 32; 9] then mk_flags r else s | [] => [] end.
(** What is run for a line of a recipe. *)
Definition mk_recipe (env : list (str * str)) (s : str) : option (str * list str) :=
  match s with
  | 9 :: r =>
      let (l, e) := span (fun c => negb (c =? 10)) r in
      if str_eqb e [10] && negb (last_is 92 l) then
        match mk_expand env None l with Some x => sh_runs (mk_flags x) | None => None end
      else None
  | _ => None
  end.
(** The names in a list of targets or prerequisites: a backslash keeps a space, other characters with a meaning to
    make are not meant. *)
Definition mk_active (c : N) : bool := memN c [10; 35; 36; 37; 38; 40; 41; 42; 58; 59; 61; 63; 91; 93; 124; 126].
Fixpoint mk_names (cur : str) (s : str) : option (list str) :=
  let flush l := match cur with [] => l | _ => option_map (cons cur) l end in
  match s with
  | [] => flush (Some [])
  | c :: r =>
      if c =? 92 then match r with d :: r' => if d =? 32 then mk_names (cur ++ [32]) r' else None | [] => None end
      else if (c =? 32) || (c =? 9) then flush (mk_names [] r)
      else if mk_active c then None
      else mk_names (cur ++ [c]) r
  end.
(** A rule: the target and its prerequisites.  A line with an equals sign before the first colon is a definition. *)
Definition mk_rule (env : list (str * str)) (s : str) : option (str * list str) :=
  let (l, e) := span (fun c => negb (c =? 10)) s in
  if str_eqb e [10] && negb (last_is 92 l) then
    match mk_expand env None l with
    | Some x =>
        match span (fun c => negb (c =? 58)) x with
        | (t, 58 :: p) => match mk_names [] t, mk_names [] p with Some [t], Some p => Some (t, p) | _, _ => None end
        | _ => None
        end
    | None => None
    end
  else None.
Definition mk_is_definition (s : str) : bool :=
  match span (fun c => negb (memN c [58; 61])) s with (_, 61 :: _) => true | _ => false end.

(** Directories that can be given in a makefile: absolute, without characters with a meaning in definitions and in
    quotes. *)
Definition plain_dir (s : str) : Prop :=
  (exists r, s = 47 :: r) /\ Forall (fun c => memN c [36; 35; 10; 39; 32] = false) s /\ last_is 92 s = false.
Definition plain_dirs (d : dirs) : Prop :=
  plain_dir (src_dir d) /\ plain_dir (build_dir d) /\ (install_root d = [] \/ plain_dir (install_root d)).
(** A text that does not look like it had references to the variables. *)
Definition refs : list str := List.map txt ["$(SRCDIR)"; "$(BUILD_ROOT)"; "$(INSTALL_ROOT)"]%string.
Definition holds (p s : str) : Prop := exists a b, s = a ++ p ++ b.
Definition no_refs (s : str) : Prop := forall p, In p refs -> ~ holds p s.

(** ** Replacing *)
Lemma from_skip p f s : forall r, replace_from (length s) p f (s ++ r) = replace p f r.
Proof. induction s as [|c s IH]; intros r; [reflexivity|]. cbn [length app replace_from]. apply IH. Qed.
Lemma replace_match p f r : p <> [] -> replace p f (p ++ r) = f ++ replace p f r.
Proof.
  intros Np. destruct p as [|c p]; [congruence|]. unfold replace at 1. cbn [app replace_from].
  replace (starts_with (c :: p) (c :: p ++ r)) with true.
  - f_equal. cbn [length]. rewrite Nat.sub_succ, Nat.sub_0_r. apply from_skip.
  - symmetry. apply starts_with_spec. now exists r.
Qed.
Lemma replace_char p f c r : starts_with p (c :: r) = false -> replace p f (c :: r) = c :: replace p f r.
Proof. intros H. unfold replace. cbn [replace_from]. now rewrite H. Qed.
Lemma replace_ind (p : str) (P : str -> Prop) : p <> [] -> P [] -> (forall r, P r -> P (p ++ r)) ->
  (forall c r, starts_with p (c :: r) = false -> P r -> P (c :: r)) -> forall s, P s.
Proof.
  intros Np P0 P1 P2. assert (G : forall n s, (length s <= n)%nat -> P s).
  { induction n as [|n IH]; intros s L.
    - destruct s; [exact P0|cbn in L; lia].
    - destruct s as [|c r]; [exact P0|]. destruct (starts_with p (c :: r)) eqn:E.
      + destruct (proj1 (starts_with_spec _ _) E) as [t Et]. rewrite Et. apply P1. apply IH.
        apply (f_equal (@length N)) in Et. rewrite app_length in Et. cbn in *.
        destruct p; [congruence|]. cbn in Et. lia.
      + apply P2; [exact E|]. apply IH. cbn in L. lia. }
  intros s. exact (G _ s (le_n _)).
Qed.
Lemma replace_in p f s c : p <> [] -> In c (replace p f s) -> In c s \/ In c f.
Proof.
  intros Np. revert s. apply (replace_ind p (fun s => In c (replace p f s) -> In c s \/ In c f)); [exact Np|intros []| |].
  - intros r IH. rewrite replace_match by exact Np. rewrite !in_app_iff. tauto.
  - intros x r E IH. rewrite (replace_char _ _ _ _ E). cbn. tauto.
Qed.

(** ** References in a text *)
Definition names : list str := [n_src; n_build; n_install].
Definition okname (n : str) : Prop := Forall (fun c => memN c [36; 40; 41; 47; 39; 92; 32; 10; 9] = false) n.
Lemma names_ok : Forall okname names.
Proof. repeat constructor. Qed.

Lemma starts_app p q s : starts_with p s = true -> starts_with p (s ++ q) = true.
Proof. rewrite !starts_with_spec. intros [t ->]. exists (t ++ q). now rewrite app_assoc. Qed.

Section Scan.
  Variables (L : list str) (f : str -> str) (g : N -> str).
  Hypothesis ok : Forall okname L.

  Fixpoint scan_from (skip : nat) (s : str) : str :=
    match s with
    | [] => []
    | c :: r =>
        match skip with
        | S k => scan_from k r
        | O => match find (fun n => starts_with (reference n) s) L with
               | Some n => f n ++ scan_from (length (reference n) - 1) r
               | None => g c ++ scan_from O r
               end
        end
    end.
  Definition scan := scan_from O.

  Lemma scan_skip s : forall r, scan_from (length s) (s ++ r) = scan r.
  Proof. induction s as [|c s IH]; intros r; [reflexivity|]. cbn [length app scan_from]. apply IH. Qed.
  Lemma ok_in n : In n L -> okname n.
  Proof. intros H. exact (proj1 (Forall_forall _ _) ok n H). Qed.
  Lemma name_app n m r t : okname n -> okname m -> n ++ 41 :: r = m ++ 41 :: t -> n = m.
  Proof.
    revert m. induction n as [|c n IH]; intros [|e m] On Om E; cbn in E; [reflexivity| | |].
    - injection E as <- _. pose proof (Forall_inv Om) as K. discriminate K.
    - injection E as -> _. pose proof (Forall_inv On) as K. discriminate K.
    - injection E as -> E. f_equal. apply (IH m (Forall_inv_tail On) (Forall_inv_tail Om) E).
  Qed.
  Lemma ref_unique n m r : In n L -> okname m -> starts_with (reference n) (reference m ++ r) = true -> n = m.
  Proof.
    intros Hn Om H. apply starts_with_spec in H. destruct H as [t E]. unfold reference in E. cbn in E.
    injection E as E. rewrite <- !app_assoc in E. symmetry. apply (name_app m n r t); [assumption|now apply ok_in|exact E].
  Qed.
  Lemma scan_ref n r : In n L -> scan (reference n ++ r) = f n ++ scan r.
  Proof.
    intros H. unfold scan at 1. unfold reference at 1. cbn [app scan_from].
    change (36 :: 40 :: (n ++ [41]) ++ r) with (reference n ++ r).
    destruct (find (fun m => starts_with (reference m) (reference n ++ r)) L) as [m|] eqn:E.
    - apply find_some in E. destruct E as [Hm E]. apply ref_unique in E; [|assumption|now apply ok_in]. subst m.
      f_equal. change (reference n ++ r) with (36 :: (40 :: n ++ [41]) ++ r).
      replace (length (reference n) - 1)%nat with (length (40 :: n ++ [41])) by (unfold reference; cbn; lia).
      apply scan_skip.
    - exfalso. pose proof (find_none _ _ E n H) as K. cbv beta in K.
      assert (T : starts_with (reference n) (reference n ++ r) = true) by (apply starts_with_spec; now exists r). congruence.
  Qed.
  Lemma scan_char c r : (forall n, In n L -> starts_with (reference n) (c :: r) = false) -> scan (c :: r) = g c ++ scan r.
  Proof.
    intros H. unfold scan. cbn [scan_from]. destruct (find _ L) as [n|] eqn:E; [|reflexivity].
    apply find_some in E. destruct E as [Hn E]. rewrite (H n Hn) in E. discriminate.
  Qed.
  Lemma no_ref_char c r n : c <> 36 -> starts_with (reference n) (c :: r) = false.
  Proof. intros H. unfold reference. cbn [app starts_with]. rewrite (proj2 (N.eqb_neq 36 c)); [reflexivity|congruence]. Qed.
  Lemma scan_other c r : c <> 36 -> scan (c :: r) = g c ++ scan r.
  Proof. intros H. apply scan_char. intros. now apply no_ref_char. Qed.
  Lemma scan_plain t r : ~ In 36 t -> scan (t ++ r) = flat_map g t ++ scan r.
  Proof.
    induction t as [|c t IH]; intros H; [reflexivity|]. cbn [app flat_map].
    rewrite scan_other by (intros ->; apply H; now left). rewrite IH by (intros K; apply H; now right). now rewrite app_assoc.
  Qed.
  Lemma scan_ind (P : str -> Prop) : P [] -> (forall n r, In n L -> P r -> P (reference n ++ r)) ->
    (forall c r, (forall n, In n L -> starts_with (reference n) (c :: r) = false) -> P r -> P (c :: r)) -> forall s, P s.
  Proof.
    intros P0 P1 P2. assert (G : forall k s, (length s <= k)%nat -> P s).
    { induction k as [|k IH]; intros s K.
      - destruct s; [exact P0|cbn in K; lia].
      - destruct s as [|c r]; [exact P0|].
        destruct (find (fun n => starts_with (reference n) (c :: r)) L) as [n|] eqn:E.
        + apply find_some in E. destruct E as [Hn E]. destruct (proj1 (starts_with_spec _ _) E) as [t Et]. rewrite Et.
          apply P1; [exact Hn|]. apply IH. apply (f_equal (@length N)) in Et. rewrite app_length in Et.
          unfold reference in Et. cbn in Et, K. lia.
        + apply P2; [|apply IH; cbn in K; lia]. intros n Hn. exact (find_none _ _ E n Hn). }
    intros s. exact (G _ s (le_n _)).
  Qed.
  Lemma scan_none s : (forall n, In n L -> ~ holds (reference n) s) -> scan s = flat_map g s.
  Proof.
    induction s as [|c s IH]; intros H; [reflexivity|]. cbn [flat_map]. rewrite scan_char, IH; [reflexivity| |].
    - intros n Hn (a & b & E). apply (H n Hn). exists (c :: a), b. now rewrite E.
    - intros n Hn. destruct (starts_with (reference n) (c :: s)) eqn:E; [exfalso|reflexivity].
      apply starts_with_spec in E. destruct E as [t E]. apply (H n Hn). exists [], t. exact E.
  Qed.
End Scan.

Lemma ref_chars n c : okname n -> In c (reference n) -> memN c [47; 39; 92; 32; 10; 9] = false.
Proof.
  intros O H. unfold reference in H. rewrite !in_app_iff in H. destruct H as [[<-|[<-|[]]]|[H|[<-|[]]]]; try reflexivity.
  pose proof (proj1 (Forall_forall _ _) O c H) as K. cbv beta in K.
  revert K. unfold memN. cbn [existsb]. destruct (c =? 36), (c =? 40), (c =? 41); cbn; congruence || auto.
Qed.
Lemma ref_tail n : okname n -> ~ In 36 (40 :: n ++ [41]).
Proof.
  intros O [H|H]; [discriminate|]. rewrite in_app_iff in H. destruct H as [H|[H|[]]]; [|discriminate].
  pose proof (proj1 (Forall_forall _ _) O 36 H) as K. discriminate K.
Qed.
Lemma flat_id (s : str) : flat_map (fun c => [c]) s = s.
Proof. induction s as [|c s IH]; [reflexivity|]. cbn. now rewrite IH. Qed.

(** A text at the beginning of the result, without what is put in, is at the beginning of the text. *)
Lemma replace_prefix_back d h t p : d <> [] -> ~ In h p -> forall s, starts_with p (replace d (h :: t) s) = true -> starts_with p s = true.
Proof.
  intros Nd. induction p as [|x p IH]; intros Nh s H; [reflexivity|].
  destruct s as [|c s]; [exact H|]. destruct (starts_with d (c :: s)) eqn:E.
  - destruct (proj1 (starts_with_spec _ _) E) as [u Eu]. rewrite Eu, replace_match in H by exact Nd. cbn in H.
    apply andb_prop in H. destruct H as [H _]. apply N.eqb_eq in H. exfalso. apply Nh. now left.
  - rewrite (replace_char _ _ _ _ E) in H. cbn in H |- *. apply andb_prop in H. destruct H as [H1 H2]. rewrite H1. cbn.
    apply IH; [|exact H2]. intros K. apply Nh. now right.
Qed.

Section Subst.
  Variable val : str -> str.
  Notation subst := (scan names val (fun c => [c])).

  (** Putting a reference for its value. *)
  Lemma replace_no_start d f u r : (exists d', d = 47 :: d') -> ~ In 47 u -> replace d f (u ++ r) = u ++ replace d f r.
  Proof.
    intros [d' ->]. induction u as [|c u IH]; intros H; [reflexivity|]. cbn [app]. rewrite replace_char.
    - f_equal. apply IH. intros K. apply H. now right.
    - cbn [starts_with]. rewrite (proj2 (N.eqb_neq 47 c)); [reflexivity|]. intros <-. apply H. now left.
  Qed.
  Lemma subst_replace m : In m names -> (exists d', val m = 47 :: d') -> ~ In 36 (val m) ->
    forall s, subst (replace (val m) (reference m) s) = subst s.
  Proof.
    intros Hm Hd H36. assert (Nd : val m <> []) by (destruct Hd as [d' ->]; discriminate).
    assert (G : forall k s, (length s <= k)%nat -> subst (replace (val m) (reference m) s) = subst s).
    { induction k as [|k IH]; intros s K; [destruct s; [reflexivity|cbn in K; lia]|].
      destruct s as [|c r]; [reflexivity|]. destruct (starts_with (val m) (c :: r)) eqn:E.
      - destruct (proj1 (starts_with_spec _ _) E) as [t Et]. rewrite Et, replace_match by exact Nd.
        rewrite (scan_ref _ _ _ names_ok) by exact Hm. rewrite scan_plain, flat_id by exact H36. f_equal. apply IH.
        apply (f_equal (@length N)) in Et. rewrite app_length in Et. destruct (val m); [congruence|]. cbn in *. lia.
      - destruct (find (fun n => starts_with (reference n) (c :: r)) names) as [n|] eqn:F.
        + apply find_some in F. destruct F as [Hn F]. destruct (proj1 (starts_with_spec _ _) F) as [t Et]. rewrite Et.
          assert (On := proj1 (Forall_forall _ _) names_ok n Hn).
          rewrite (replace_no_start (val m) (reference m) (reference n) t Hd).
          2:{ intros Q. pose proof (ref_chars n 47 On Q) as W. discriminate W. }
          rewrite !(scan_ref _ _ _ names_ok) by exact Hn. f_equal. apply IH.
          apply (f_equal (@length N)) in Et. rewrite app_length in Et. unfold reference in Et. cbn in *. lia.
        + rewrite (replace_char _ _ _ _ E). rewrite !scan_char; [|intros n Hn; exact (find_none _ _ F n Hn)|].
          { f_equal. apply IH. cbn in K. lia. }
          intros n Hn. pose proof (find_none _ _ F n Hn) as W. cbv beta in W.
          destruct (starts_with (reference n) (c :: replace (val m) (reference m) r)) eqn:Q; [exfalso|reflexivity].
          unfold reference in Q at 1. cbn [app starts_with] in Q. apply andb_prop in Q. destruct Q as [Q1 Q2].
          unfold reference in Q2 at 1. cbn [app] in Q2.
          apply (replace_prefix_back (val m) 36 (40 :: m ++ [41]) (40 :: n ++ [41])) in Q2;
            [|exact Nd|apply ref_tail; exact (proj1 (Forall_forall _ _) names_ok n Hn)].
          assert (starts_with (reference n) (c :: r) = true); [|congruence].
          unfold reference. cbn [app starts_with]. rewrite Q1. exact Q2. }
    intros s. exact (G _ s (le_n _)).
  Qed.

  (** Quotes. *)
  Lemma starts_snoc p s c : ~ In c p -> starts_with p (s ++ [c]) = true -> starts_with p s = true.
  Proof.
    revert s. induction p as [|x p IH]; intros s H E; [reflexivity|]. destruct s as [|y s]; cbn in E |- *.
    - apply andb_prop in E. destruct E as [E _]. apply N.eqb_eq in E. exfalso. apply H. now left.
    - apply andb_prop in E. destruct E as [E1 E2]. rewrite E1. cbn. apply IH; [|exact E2]. intros K. apply H. now right.
  Qed.
  Lemma scan_snoc f g s : scan names f g (s ++ [39]) = scan names f g s ++ g 39.
  Proof.
    revert s. apply (scan_ind names).
    - cbn [app]. rewrite scan_other by discriminate. change (scan names f g []) with (@nil N). now rewrite app_nil_r.
    - intros n r Hn IH. rewrite <- app_assoc, !(scan_ref _ _ _ names_ok), IH by exact Hn. now rewrite app_assoc.
    - intros c r H IH. cbn [app]. rewrite !scan_char, IH; [now rewrite app_assoc|exact H|].
      intros n Hn. destruct (starts_with (reference n) (c :: r ++ [39])) eqn:E; [|reflexivity].
      apply (starts_snoc (reference n) (c :: r) 39) in E; [rewrite H in E by exact Hn; discriminate|].
      intros K. pose proof (ref_chars n 39 (proj1 (Forall_forall _ _) names_ok n Hn) K) as W. discriminate W.
  Qed.
  Lemma escape_app a b : escape_single (a ++ b) = escape_single a ++ escape_single b.
  Proof. apply flat_map_app. Qed.
  Lemma escape_plain a : ~ In 39 a -> escape_single a = a.
  Proof.
    induction a as [|c a IH]; intros H; [reflexivity|]. unfold escape_single. cbn [flat_map].
    rewrite (proj2 (N.eqb_neq c 39)) by (intros ->; apply H; now left). cbn [app]. f_equal. apply IH. intros K. apply H. now right.
  Qed.
  Lemma escape_back p : ~ In 39 p -> forall s, starts_with p (escape_single s) = true -> starts_with p s = true.
  Proof.
    induction p as [|x p IH]; intros H s E; [reflexivity|]. destruct s as [|c s]; [exact E|].
    unfold escape_single in E. cbn [flat_map] in E. fold (escape_single s) in E. destruct (N.eqb_spec c 39) as [->|Hc].
    - cbn in E. apply andb_prop in E. destruct E as [E _]. apply N.eqb_eq in E. exfalso. apply H. now left.
    - cbn [app starts_with] in E |- *. apply andb_prop in E. destruct E as [E1 E2]. rewrite E1. cbn. apply IH; [|exact E2].
      intros K. apply H. now right.
  Qed.
  Lemma subst_escape : (forall n, In n names -> ~ In 39 (val n)) ->
    forall s, subst (escape_single s) = escape_single (subst s).
  Proof.
    intros V. apply (scan_ind names).
    - reflexivity.
    - intros n r Hn IH. rewrite escape_app, (escape_plain (reference n)).
      + rewrite !(scan_ref _ _ _ names_ok), escape_app, IH by exact Hn. now rewrite (escape_plain (val n) (V n Hn)).
      + intros K. pose proof (ref_chars n 39 (proj1 (Forall_forall _ _) names_ok n Hn) K) as W. discriminate W.
    - intros c r H IH. rewrite (scan_char _ _ _ c r H). unfold escape_single at 1. cbn [flat_map]. fold (escape_single r).
      destruct (N.eqb_spec c 39) as [->|Hc].
      + rewrite (scan_plain _ _ _ [39; 92; 39; 39]), flat_id, IH by (cbn; intuition discriminate). reflexivity.
      + cbn [app]. rewrite scan_char.
        * cbn [app]. rewrite IH. unfold escape_single at 2. cbn [flat_map]. rewrite (proj2 (N.eqb_neq c 39) Hc). reflexivity.
        * intros n Hn. destruct (starts_with (reference n) (c :: escape_single r)) eqn:E; [|reflexivity].
          rewrite <- (H n Hn). symmetry. apply (escape_back (reference n)).
          -- intros K. pose proof (ref_chars n 39 (proj1 (Forall_forall _ _) names_ok n Hn) K) as W. discriminate W.
          -- unfold escape_single. cbn [flat_map]. rewrite (proj2 (N.eqb_neq c 39) Hc). exact E.
  Qed.
End Subst.

(** ** Dollar signs *)
Definition dbl (c : N) : str := if c =? 36 then [36; 36] else [c].
Lemma double_dollars s : replace [36] [36; 36] s = scan [] reference dbl s.
Proof.
  induction s as [|c s IH]; [reflexivity|]. rewrite scan_char by (intros n []). unfold dbl at 1. destruct (N.eqb_spec c 36) as [->|H].
  - change (36 :: s) with ([36] ++ s). rewrite (replace_match [36] [36; 36] s) by discriminate. now rewrite IH.
  - rewrite replace_char by (cbn [starts_with]; rewrite (proj2 (N.eqb_neq 36 c)); [reflexivity|congruence]). now rewrite IH.
Qed.
Lemma flat_dbl s : ~ In 36 s -> flat_map dbl s = s.
Proof.
  induction s as [|c s IH]; intros H; [reflexivity|]. cbn [flat_map]. unfold dbl at 1. rewrite (proj2 (N.eqb_neq c 36)) by (intros ->; apply H; now left).
  cbn. f_equal. apply IH. intros K. apply H. now right.
Qed.
Section Undouble.
  Variables (A : list str) (m : str).
  Hypotheses (okA : Forall okname A) (okm : okname m) (newm : ~ In m A).
  Notation q := (scan A reference dbl).
  Lemma okmA : Forall okname (m :: A).
  Proof. now constructor. Qed.
  Lemma replace_plain p f t r : (exists p', p = 36 :: p') -> ~ In 36 t -> replace p f (t ++ r) = t ++ replace p f r.
  Proof.
    intros [p' ->]. induction t as [|c t IH]; intros H; [reflexivity|]. cbn [app]. rewrite replace_char.
    - f_equal. apply IH. intros K. apply H. now right.
    - cbn [starts_with]. rewrite (proj2 (N.eqb_neq 36 c)); [reflexivity|]. intros <-. apply H. now left.
  Qed.
  (** A text without dollars at the beginning of the result was there before. *)
  Lemma scan_back p : ~ In 36 p -> forall s, starts_with p (q s) = true -> starts_with p s = true.
  Proof.
    induction p as [|x p IH]; intros H s E; [reflexivity|]. assert (Hx : x <> 36) by (intros ->; apply H; now left).
    destruct s as [|c s]; [exact E|].
    destruct (find (fun n => starts_with (reference n) (c :: s)) A) as [n|] eqn:F.
    - apply find_some in F. destruct F as [Hn F]. destruct (proj1 (starts_with_spec _ _) F) as [t Et]. rewrite Et in E.
      rewrite (scan_ref _ _ _ okA) in E by exact Hn. cbn in E. apply andb_prop in E. destruct E as [E _]. apply N.eqb_eq in E. congruence.
    - rewrite scan_char in E by (intros n Hn; exact (find_none _ _ F n Hn)). unfold dbl in E. destruct (N.eqb_spec c 36) as [->|Hc].
      + cbn in E. apply andb_prop in E. destruct E as [E _]. apply N.eqb_eq in E. congruence.
      + cbn [app starts_with] in E |- *. apply andb_prop in E. destruct E as [E1 E2]. rewrite E1. cbn. apply IH; [|exact E2].
        intros K. apply H. now right.
  Qed.
  Lemma scan_back_ref : forall s, starts_with (reference m) (q s) = false.
  Proof.
    intros s. destruct (starts_with (reference m) (q s)) eqn:E; [exfalso|reflexivity]. destruct s as [|c s]; [discriminate|].
    destruct (find (fun n => starts_with (reference n) (c :: s)) A) as [n|] eqn:F.
    - apply find_some in F. destruct F as [Hn F]. destruct (proj1 (starts_with_spec _ _) F) as [t Et]. rewrite Et in E.
      rewrite (scan_ref _ _ _ okA) in E by exact Hn.
      apply (ref_unique [m] ltac:(now constructor) m n) in E; [|now left|exact (proj1 (Forall_forall _ _) okA n Hn)]. now subst n.
    - rewrite scan_char in E by (intros n Hn; exact (find_none _ _ F n Hn)). unfold dbl in E. destruct (N.eqb_spec c 36) as [->|Hc].
      + cbn in E. discriminate.
      + cbn [app] in E. rewrite (no_ref_char c _ m Hc) in E. discriminate.
  Qed.
  Lemma undouble s : replace (36 :: reference m) (reference m) (q s) = scan (m :: A) reference dbl s.
  Proof.
    assert (N36 : ~ In 36 (40 :: m ++ [41])) by now apply ref_tail.
    revert s. apply (scan_ind (m :: A)).
    - reflexivity.
    - intros n r Hn IH. rewrite (scan_ref _ _ _ okmA) by exact Hn. destruct (in_dec str_dec n A) as [HA|HA].
      + rewrite (scan_ref _ _ _ okA) by exact HA. assert (On := proj1 (Forall_forall _ _) okA n HA).
        unfold reference at 3. cbn [app]. rewrite replace_char by reflexivity.
        change (40 :: (n ++ [41]) ++ q r) with ((40 :: n ++ [41]) ++ q r).
        rewrite (replace_plain _ _ (40 :: n ++ [41])) by (eauto; now apply ref_tail). rewrite IH. reflexivity.
      + destruct Hn as [<-|Hn]; [|contradiction]. change (q (reference m ++ r)) with (q (36 :: 40 :: (m ++ [41]) ++ r)). rewrite scan_char.
        2:{ intros n Hn. destruct (starts_with (reference n) (36 :: 40 :: (m ++ [41]) ++ r)) eqn:E; [exfalso|reflexivity].
            apply (ref_unique A okA n m r Hn okm) in E. now subst n. }
        change (dbl 36) with [36; 36]. change (40 :: (m ++ [41]) ++ r) with ((40 :: m ++ [41]) ++ r).
        rewrite (scan_plain _ _ _ (40 :: m ++ [41])) by exact N36. rewrite flat_dbl by exact N36.
        cbn [app]. change (36 :: 36 :: 40 :: (m ++ [41]) ++ q r) with ((36 :: reference m) ++ q r).
        rewrite replace_match, IH by discriminate. reflexivity.
    - intros c r H IH. rewrite (scan_char _ _ _ c r H). rewrite scan_char by (intros n Hn; apply H; now right).
      unfold dbl at 1 3. destruct (N.eqb_spec c 36) as [->|Hc].
      + cbn [app]. rewrite replace_char.
        2:{ destruct (starts_with (36 :: reference m) (36 :: 36 :: q r)) eqn:E; [exfalso|reflexivity].
            cbn [starts_with] in E. rewrite N.eqb_refl in E. cbn [andb] in E. unfold reference in E. cbn [app starts_with] in E.
            rewrite N.eqb_refl in E. cbn [andb] in E.
            apply (scan_back (40 :: m ++ [41]) N36 r) in E.
            assert (W : starts_with (reference m) (36 :: r) = true) by exact E. rewrite H in W by now left. discriminate. }
        rewrite replace_char, IH; [reflexivity|]. cbn [starts_with]. rewrite N.eqb_refl. apply scan_back_ref.
      + cbn [app]. rewrite replace_char, IH; [reflexivity|]. cbn [starts_with]. rewrite (proj2 (N.eqb_neq 36 c)); [reflexivity|congruence].
  Qed.
End Undouble.

Lemma scan_perm L1 L2 f g : Forall okname L1 -> Forall okname L2 -> (forall n, In n L1 <-> In n L2) -> forall s, scan L1 f g s = scan L2 f g s.
Proof.
  intros O1 O2 E. apply (scan_ind L1).
  - reflexivity.
  - intros n r Hn IH. rewrite (scan_ref _ _ _ O1), (scan_ref _ _ _ O2) by (exact Hn || exact (proj1 (E n) Hn)). now rewrite IH.
  - intros c r H IH. rewrite !scan_char; [now rewrite IH| |exact H]. intros n Hn. apply H. now apply E.
Qed.
Lemma quote_make_scan s : quote_make s = scan names reference dbl (quote_unix s).
Proof.
  pose proof names_ok as O. inversion O as [|? ? O1 O']; subst. inversion O' as [|? ? O2 O'']; subst. inversion O'' as [|? ? O3 _]; subst.
  unfold quote_make. rewrite double_dollars.
  rewrite (undouble [] n_src) by (auto; intros []).
  rewrite (undouble [n_src] n_build) by (auto; cbn; intuition discriminate).
  rewrite (undouble [n_build; n_src] n_install) by (auto; cbn; intuition discriminate).
  apply scan_perm; [auto|exact names_ok|]. intros n. cbn. tauto.
Qed.

(** ** Expansion *)
Lemma option_map_app (a b : str) o : option_map (app a) (option_map (app b) o) = option_map (app (a ++ b)) o.
Proof. destruct o; cbn; [|reflexivity]. now rewrite app_assoc. Qed.
Lemma expand_plain env t : ~ In 36 t -> forall r, mk_expand env None (t ++ r) = option_map (app t) (mk_expand env None r).
Proof.
  induction t as [|c t IH]; intros H r; [cbn [app]; destruct (mk_expand env None r); reflexivity|]. cbn [app mk_expand].
  rewrite (proj2 (N.eqb_neq c 36)) by (intros ->; apply H; now left). rewrite IH by (intros K; apply H; now right).
  destruct (mk_expand env None r); reflexivity.
Qed.
Lemma expand_name env n : okname n -> forall w r, mk_expand env (Some w) (n ++ 41 :: r) = option_map (app (mk_var env (w ++ n))) (mk_expand env None r).
Proof.
  intros O. induction n as [|c n IH]; intros w r.
  - cbn. now rewrite app_nil_r.
  - cbn [app mk_expand]. pose proof (Forall_inv O) as K. cbv beta in K.
    assert (c <> 41) by (intros ->; discriminate K). assert (c <> 36) by (intros ->; discriminate K).
    rewrite (proj2 (N.eqb_neq c 41)), (proj2 (N.eqb_neq c 36)) by assumption.
    rewrite (IH (Forall_inv_tail O)). now rewrite <- app_assoc.
Qed.
Lemma expand_ref env n r : okname n -> mk_expand env None (reference n ++ r) = option_map (app (mk_var env n)) (mk_expand env None r).
Proof.
  intros O. unfold reference. cbn [app mk_expand]. rewrite <- app_assoc. cbn [app].
  change (36 =? 36) with true. change (40 =? 36) with false. change (40 =? 40) with true. cbv iota.
  exact (expand_name env n O [] r).
Qed.
Lemma expand_scan env s r :
  mk_expand env None (scan names reference dbl s ++ r) = option_map (app (scan names (mk_var env) (fun c => [c]) s)) (mk_expand env None r).
Proof.
  revert s. apply (scan_ind names).
  - change (scan names reference dbl []) with (@nil N). change (scan names (mk_var env) (fun c => [c]) []) with (@nil N). cbn [app]. destruct (mk_expand env None r); reflexivity.
  - intros n t Hn IH. rewrite !(scan_ref _ _ _ names_ok) by exact Hn. rewrite <- app_assoc, expand_ref, IH.
    + apply option_map_app.
    + exact (proj1 (Forall_forall _ _) names_ok n Hn).
  - intros c t H IH. rewrite !(scan_char _ _ _ c t H). unfold dbl at 1. destruct (N.eqb_spec c 36) as [->|Hc].
    + cbn [app mk_expand]. change (36 =? 36) with true. cbv iota. rewrite IH. destruct (mk_expand env None r); reflexivity.
    + rewrite <- app_assoc. rewrite (expand_plain env [c]) by (intros [K|[]]; congruence). rewrite IH. apply option_map_app.
Qed.

(** ** The definitions *)
Lemma lines_line l : ~ In 10 l -> forall cur r, mk_lines cur (l ++ 10 :: r) = (cur ++ l) :: mk_lines [] r.
Proof.
  induction l as [|c l IH]; intros H cur r; [cbn; now rewrite app_nil_r|]. cbn [app mk_lines].
  rewrite (proj2 (N.eqb_neq c 10)) by (intros ->; apply H; now left). rewrite IH by (intros K; apply H; now right).
  now rewrite <- app_assoc.
Qed.
Lemma span_stop p l c r : Forall (fun x => p x = true) l -> p c = false -> span p (l ++ c :: r) = (l, c :: r).
Proof. intros F H. induction F as [|x l Hx F IH]; cbn; [now rewrite H|]. rewrite Hx, IH. reflexivity. Qed.
Lemma read_definition n v r : ~ In 10 n -> ~ In 32 n -> ~ In 10 v -> mk_value v = Some v ->
  mk_definitions (mk_lines [] (definition n v ++ r)) = option_map (cons (n, v)) (mk_definitions (mk_lines [] r)).
Proof.
  intros Hn Hs Hv V. unfold definition. replace ((n ++ [32; 61; 32] ++ v ++ [10]) ++ r) with ((n ++ [32; 61; 32] ++ v) ++ 10 :: r) by (cbn; now rewrite <- !app_assoc; cbn; rewrite <- !app_assoc).
  rewrite lines_line.
  - cbn [app mk_definitions]. unfold mk_definition. rewrite span_stop; [|apply Forall_forall; intros x Hx; apply Bool.negb_true_iff, N.eqb_neq; intros ->; contradiction|reflexivity].
    rewrite V. cbn. destruct (mk_definitions (mk_lines [] r)); reflexivity.
  - rewrite !in_app_iff. cbn. intuition discriminate.
Qed.
Lemma plain_not c s : Forall (fun c => memN c [36; 35; 10; 39; 32] = false) s -> memN c [36; 35; 10; 39; 32] = true -> ~ In c s.
Proof. intros F H K. pose proof (proj1 (Forall_forall _ _) F c K) as W. cbv beta in W. congruence. Qed.
Lemma plain_value s : plain_dir s -> mk_value s = Some s.
Proof.
  intros (_ & F & B). unfold mk_value. rewrite (proj2 (memN_notIn 36 s)), (proj2 (memN_notIn 35 s)), B; [reflexivity| |];
    now apply plain_not.
Qed.

(** The directories are what make knows. *)
Theorem definitions_read d : plain_dirs d -> exists t env, definitions d = Some t /\ mk_env t = Some env
  /\ mk_var env (txt "SRCDIR") = src_dir d /\ mk_var env (txt "BUILD_ROOT") = build_dir d
  /\ mk_var env (txt "INSTALL_ROOT") = install_root d /\ mk_var env (txt "RM") = txt "rm -f"
  /\ mk_var env (txt "INSTALL_FILE") = txt "install -m 644 -p" /\ mk_var env (txt "INSTALL_PROGRAM") = txt "install -m 755 -p".
Proof.
  intros (Ps & Pb & Pi). unfold definitions.
  assert (Is : ~ In 32 (src_dir d)) by (apply plain_not; [apply Ps|reflexivity]).
  assert (Ib : ~ In 32 (build_dir d)) by (apply plain_not; [apply Pb|reflexivity]).
  assert (Ii : ~ In 32 (install_root d)) by (destruct Pi as [->|Pi]; [intros []|apply plain_not; [apply Pi|reflexivity]]).
  rewrite !(proj2 (memN_notIn _ _)) by assumption. cbn [orb].
  set (tail := match install_root d with [] => [] | _ :: _ => definition n_install (install_root d) end).
  assert (T : mk_definitions (mk_lines [] tail) = Some match install_root d with [] => [] | _ :: _ => [(n_install, install_root d)] end).
  { unfold tail. destruct Pi as [->|Pi]; [reflexivity|].
    destruct (install_root d) as [|c r] eqn:E; [destruct Pi as [[x Pi] _]; discriminate|].
    rewrite <- (app_nil_r (definition n_install (c :: r))).
    rewrite read_definition; [reflexivity|cbn; intuition discriminate|cbn; intuition discriminate|apply plain_not; [apply Pi|reflexivity]|now apply plain_value]. }
  do 2 eexists. split; [reflexivity|]. split.
  - unfold mk_env. rewrite !read_definition; try reflexivity; try (cbn; intuition discriminate); try (now apply plain_value);
      try (apply plain_not; [apply Ps || apply Pb|reflexivity]).
    rewrite T. reflexivity.
  - destruct (install_root d); repeat split; reflexivity.
Qed.

(** ** Commands *)
Section Words.
  Variable val : str -> str.
  Hypothesis vals : forall n, In n names -> ~ In 39 (val n).
  Notation subst := (scan names val (fun c => [c])).

  Lemma subst_plain s : ~ In 36 s -> subst s = s.
  Proof. intros H. rewrite <- (app_nil_r s) at 1. rewrite scan_plain, flat_id by exact H. apply app_nil_r. Qed.
  Lemma special_dollar s : has_special unix_quoted_chars s = false -> ~ In 36 s /\ ~ In 92 s /\ ~ In 32 s /\ ~ In 9 s.
  Proof.
    intros H. apply no_special in H. rewrite Forall_forall in H.
    repeat split; intros K; specialize (H _ K); vm_compute in H; discriminate H.
  Qed.
  Lemma quoted_cases b : (b <> [] /\ quote_unix b = b /\ has_special unix_quoted_chars b = false)
    \/ quote_unix b = 39 :: escape_single b ++ [39].
  Proof. unfold quote_unix. destruct b; [now right|]. destruct (has_special _ _) eqn:E; [now right|left]. split; [discriminate|auto]. Qed.
  Lemma words_subst b cur rest : sh_words false cur (subst (quote_unix b) ++ rest) = sh_words false (cur_app cur (subst b)) rest.
  Proof.
    destruct (quoted_cases b) as [(Nb & E & S)|E]; rewrite E.
    - destruct (special_dollar b S) as [H _]. rewrite subst_plain by exact H. apply words_plain; [now apply no_special|exact Nb].
    - rewrite scan_other, scan_snoc, subst_escape by (discriminate || exact vals). cbn [app]. cbn [sh_words]. simpl N.eqb. cbv iota.
      rewrite <- app_assoc. cbn [app]. rewrite words_single. unfold cur_app. destruct cur; reflexivity.
  Qed.
  Lemma words_many args : forall w, sh_words false (Some w) (flat_map (fun b => 32 :: subst (quote_unix b)) args) = Some (w :: map (fun b => subst b) args).
  Proof.
    induction args as [|b args IH]; intros w; [reflexivity|]. cbn [flat_map app map]. cbn [sh_words].
    change (32 =? 39) with false. change (32 =? 92) with false. change (sh_blank 32) with true. cbv iota.
    rewrite words_subst. unfold cur_app. rewrite IH. reflexivity.
  Qed.
  Lemma quote_last pre b : last_is 92 (pre ++ quote_make b) = false.
  Proof.
    rewrite quote_make_scan. destruct (quoted_cases b) as [(Nb & E & S)|E]; rewrite E.
    - destruct (special_dollar b S) as (H & H' & _). rewrite <- (app_nil_r b), scan_plain, flat_dbl by exact H.
      change (scan names reference dbl []) with (@nil N). rewrite app_nil_r.
      destruct (exists_last Nb) as (u & c & ->). unfold last_is. rewrite app_assoc, rev_unit.
      apply N.eqb_neq. intros ->. apply H'. apply in_or_app. right. now left.
    - rewrite app_comm_cons, scan_snoc. change (dbl 39) with [39]. unfold last_is. rewrite app_assoc, rev_unit. reflexivity.
  Qed.
  Lemma quote_in c b : c <> 36 -> In c (quote_make b) -> memN c [39; 92] = false -> memN c (concat (map reference names)) = false -> In c b.
  Proof.
    intros Hc H Q R. apply memN_notIn in R. cbn [map concat names] in R. rewrite !in_app_iff in R.
    unfold quote_make in H.
    do 3 (apply replace_in in H; [|discriminate]; destruct H as [H|H]; [|exfalso; apply R; tauto]).
    apply replace_in in H; [|discriminate]. destruct H as [H|[H|[H|[]]]]; [|congruence|congruence].
    destruct (quoted_cases b) as [(_ & E & _)|E]; rewrite E in H; [exact H|].
    assert (N39 : c <> 39) by (intros ->; discriminate Q). assert (N92 : c <> 92) by (intros ->; discriminate Q).
    cbn in H. rewrite in_app_iff in H. destruct H as [H|[H|[H|[]]]]; [congruence| |congruence].
    unfold escape_single in H. apply in_flat_map in H. destruct H as (x & Hx & H). destruct (x =? 39); cbn in H; intuition congruence.
  Qed.
End Words.

Lemma brute_in d v c : In c (brute_force d v) -> memN c (concat (map reference names)) = false -> build_dir d <> [] -> src_dir d <> [] -> In c v.
Proof.
  intros H R Nb Ns. apply memN_notIn in R. cbn [map concat names] in R. rewrite !in_app_iff in R. unfold brute_force in H.
  apply replace_in in H; [|exact Ns]. destruct H as [H|H]; [|exfalso; tauto].
  apply replace_in in H; [|exact Nb]. destruct H as [H|H]; [|exfalso; tauto].
  destruct (install_root d) eqn:E; [exact H|]. apply replace_in in H; [|discriminate]. destruct H as [H|H]; [exact H|exfalso; tauto].
Qed.
Lemma not_assignment x t : (exists u, x = 39 :: u) \/ ~ In 61 x -> t = [] \/ (exists t', t = 32 :: t') -> sh_assignment (x ++ t) = false.
Proof.
  intros Hx Ht. unfold sh_assignment. destruct (span name_char (x ++ t)) as [n r] eqn:E.
  destruct n as [|n0 n]; [reflexivity|]. destruct r as [|e r]; [reflexivity|].
  destruct (N.eq_dec e 61) as [->|Ne]; [exfalso|repeat (match goal with |- context [match ?x with _ => _ end] => is_var x; destruct x end; try reflexivity); congruence].
  pose proof (span_spec name_char (x ++ t)) as S. rewrite E in S. destruct S as (S & F & _). clear E.
  destruct Hx as [[u ->]|Hx].
  - cbn in S. injection S as <- _. pose proof (Forall_inv F) as K. discriminate K.
  - revert S F. generalize (n0 :: n). induction x as [|p0 p IH]; intros l S F.
    + cbn in S. destruct Ht as [->|[t' ->]].
      * symmetry in S. destruct l; discriminate.
      * destruct l as [|x l]; cbn in S; injection S as S1 S2; [discriminate|]. subst x. pose proof (Forall_inv F) as K. discriminate K.
    + destruct l as [|x l]; cbn in S.
      * injection S as -> _. apply Hx. now left.
      * injection S as -> S. apply (IH (fun K => Hx (or_intror K)) l S). now apply Forall_inv_tail in F.
Qed.
Lemma recipe_line env l : ~ In 10 l -> last_is 92 l = false ->
  mk_recipe env (9 :: l ++ [10]) = match mk_expand env None l with Some x => sh_runs (mk_flags x) | None => None end.
Proof.
  intros H B. unfold mk_recipe. rewrite span_stop; [|apply Forall_forall; intros x Hx; apply Bool.negb_true_iff, N.eqb_neq; intros ->; contradiction|reflexivity].
  rewrite str_eqb_refl, B. reflexivity.
Qed.
Lemma expand_args env (h : str -> str) args :
  mk_expand env None (flat_map (fun a => 32 :: quote_make (h a)) args) = Some (flat_map (fun a => 32 :: scan names (mk_var env) (fun c => [c]) (quote_unix (h a))) args).
Proof.
  induction args as [|a args IH]; [reflexivity|]. cbn [flat_map app].
  change (32 :: quote_make (h a) ++ flat_map (fun a => 32 :: quote_make (h a)) args) with ([32] ++ quote_make (h a) ++ flat_map (fun a => 32 :: quote_make (h a)) args).
  rewrite expand_plain by (intros [K|[]]; discriminate). rewrite quote_make_scan, expand_scan, IH. reflexivity.
Qed.
(** Whatever the values are: if the texts with references give [program] and [args], this is what is run. *)
Lemma line_runs env (h : str -> str) program args : (forall n, In n names -> ~ In 39 (mk_var env n)) ->
  Forall (fun a => ~ In 10 (h a) /\ scan names (mk_var env) (fun c => [c]) (h a) = a) (program :: args) ->
  ~ In 61 program -> (forall c r, program = c :: r -> ~ In c [64; 45; 43]) ->
  mk_recipe env (9 :: quote_make (h program) ++ flat_map (fun a => 32 :: quote_make (h a)) args ++ [10]) = Some (program, args).
Proof.
  intros V F Ha Hf. pose proof (Forall_inv F) as [Np Sp]. pose proof (Forall_inv_tail F) as Fa.
  rewrite app_assoc, recipe_line.
  - rewrite quote_make_scan, expand_scan, expand_args. cbn [option_map].
    set (sub := scan names (mk_var env) (fun c => [c])) in *.
    set (rest := flat_map (fun a => 32 :: sub (quote_unix (h a))) args).
    assert (P : sub (quote_unix (h program)) = program /\ ~ In 32 program /\ ~ In 9 program /\ program <> [] \/ exists u, sub (quote_unix (h program)) = 39 :: u).
    { destruct (quoted_cases (h program)) as [(Nb & E & S)|E]; rewrite E.
      - left. destruct (special_dollar _ S) as (H & _ & H32 & H9). assert (Q : sub (h program) = h program) by now apply subst_plain.
        rewrite Q in Sp. rewrite Q, Sp. rewrite Sp in H32, H9, Nb. auto.
      - right. unfold sub. rewrite scan_other by discriminate. eexists. reflexivity. }
    assert (Fl : mk_flags (sub (quote_unix (h program)) ++ rest) = sub (quote_unix (h program)) ++ rest).
    { destruct P as [(-> & H32 & H9 & Ne)|[u ->]]; [|reflexivity]. destruct program as [|c r]; [congruence|]. cbn [app mk_flags].
      replace (memN c [64; 45; 43; 32; 9]) with false; [reflexivity|]. symmetry. apply memN_notIn. specialize (Hf c r eq_refl).
      cbn in Hf, H32, H9 |- *. intuition congruence. }
    rewrite Fl. unfold sh_runs. rewrite not_assignment.
    + unfold sh_split. unfold sub at 1. rewrite words_subst by exact V. fold sub. rewrite Sp. change (cur_app None program) with (Some program).
      unfold rest. rewrite flat_map_concat_map. rewrite <- (map_map h (fun b => 32 :: sub (quote_unix b))). rewrite <- flat_map_concat_map.
      unfold sub. rewrite words_many by exact V. rewrite map_map. do 2 f_equal.
      rewrite <- (map_id args) at 2. apply map_ext_in. intros a Hin. exact (proj2 (proj1 (Forall_forall _ _) Fa a Hin)).
    + destruct P as [(-> & _)|[u ->]]; [right; exact Ha|left; eauto].
    + unfold rest. destruct args; [now left|right]. eexists. reflexivity.
  - intros K. apply in_app_or in K. destruct K as [K|K].
    + apply Np. apply quote_in in K; auto; discriminate.
    + apply in_flat_map in K. destruct K as (a & Hin & [K|K]); [discriminate|].
      apply (proj1 (proj1 (Forall_forall _ _) Fa a Hin)). apply quote_in in K; auto; discriminate.
  - destruct args as [|a0 args0]; [cbn [flat_map]; rewrite app_nil_r; exact (quote_last [] (h program))|].
    destruct (exists_last (l := a0 :: args0)) as (u & a & E); [discriminate|]. rewrite E, flat_map_app. cbn [flat_map]. rewrite app_nil_r.
    change (32 :: quote_make (h a)) with ([32] ++ quote_make (h a)). rewrite !app_assoc. apply quote_last.
Qed.

Lemma env_facts d t env : plain_dirs d -> definitions d = Some t -> mk_env t = Some env ->
  mk_var env n_src = src_dir d /\ mk_var env n_build = build_dir d /\ mk_var env n_install = install_root d
  /\ mk_var env n_rm = remove_command /\ mk_var env n_install_file = install_file_command /\ mk_var env n_install_program = install_program_command.
Proof.
  intros P D E. destruct (definitions_read d P) as (t' & env' & D' & E' & H). rewrite D in D'. injection D' as <-. rewrite E in E'. injection E' as <-.
  exact H.
Qed.
Lemma env_vals d t env : plain_dirs d -> definitions d = Some t -> mk_env t = Some env -> forall n, In n names -> ~ In 39 (mk_var env n).
Proof.
  intros P D E n Hn. destruct (env_facts d t env P D E) as (S & B & J & _). destruct P as (Ps & Pb & Pi).
  destruct Hn as [<-|[<-|[<-|[]]]]; [rewrite S|rewrite B|rewrite J]; try (apply plain_not; [apply Ps || apply Pb|reflexivity]).
  destruct Pi as [->|Pi]; [intros []|]. apply plain_not; [apply Pi|reflexivity].
Qed.
Lemma subst_none val s : no_refs s -> scan names val (fun c => [c]) s = s.
Proof.
  intros H. rewrite scan_none; [apply flat_id|]. intros n Hn. apply H. destruct Hn as [<-|[<-|[<-|[]]]]; cbn; auto.
Qed.
Lemma subst_brute d t env v : plain_dirs d -> definitions d = Some t -> mk_env t = Some env -> no_refs v ->
  scan names (mk_var env) (fun c => [c]) (brute_force d v) = v.
Proof.
  intros P D E H. destruct (env_facts d t env P D E) as (S & B & J & _). destruct P as (Ps & Pb & Pi).
  unfold brute_force. rewrite <- S at 1. rewrite subst_replace; [|now left|rewrite S; apply Ps|rewrite S; apply plain_not; [apply Ps|reflexivity]].
  rewrite <- B. rewrite subst_replace; [|right; now left|rewrite B; apply Pb|rewrite B; apply plain_not; [apply Pb|reflexivity]].
  destruct Pi as [Q|Pi].
  - rewrite Q. now apply subst_none.
  - destruct (install_root d) as [|c r] eqn:Q; [now apply subst_none|]. rewrite <- J.
    rewrite subst_replace; [now apply subst_none|right; right; now left|rewrite J; apply Pi|rewrite J; apply plain_not; [apply Pi|reflexivity]].
Qed.

(** *** C119 *)
Theorem make_runs_command_partial d t env program args : plain_dirs d -> definitions d = Some t -> mk_env t = Some env ->
  Forall (fun a => ~ In 10 a /\ no_refs a) (program :: args) ->
  ~ In 61 program -> (forall c r, program = c :: r -> ~ In c [64; 45; 43]) ->
  mk_recipe env (command_line d program args) = Some (program, args).
Proof.
  intros P D E F Ha Hf. unfold command_line. apply (line_runs env (brute_force d)); [exact (env_vals d t env P D E)| |exact Ha|exact Hf].
  apply Forall_forall. intros a Hin. destruct (proj1 (Forall_forall _ _) F a Hin) as [N10 R]. split.
  - intros K. apply N10. apply brute_in in K; [exact K|reflexivity| |]; destruct P as (((x & Ps) & _) & ((y & Pb) & _) & _); congruence.
  - now apply (subst_brute d t env).
Qed.

Lemma replace_none p f s : p <> [] -> ~ holds p s -> replace p f s = s.
Proof.
  intros Np. induction s as [|c s IH]; intros H; [reflexivity|]. rewrite replace_char.
  - f_equal. apply IH. intros (a & b & E). apply H. exists (c :: a), b. now rewrite E.
  - destruct (starts_with p (c :: s)) eqn:E; [exfalso|reflexivity]. apply starts_with_spec in E. destruct E as [t E].
    apply H. exists [], t. exact E.
Qed.
(** Commands that have nothing to do with the directories do not depend on the variables. *)
Theorem unrelated_commands_same d env program args : src_dir d <> [] -> build_dir d <> [] ->
  (forall n, In n (List.map txt ["SRCDIR"; "BUILD_ROOT"; "INSTALL_ROOT"]%string) -> ~ In 39 (mk_var env n)) ->
  Forall (fun a => ~ In 10 a /\ no_refs a /\ ~ holds (src_dir d) a /\ ~ holds (build_dir d) a
                   /\ (install_root d <> [] -> ~ holds (install_root d) a)) (program :: args) ->
  ~ In 61 program -> (forall c r, program = c :: r -> ~ In c [64; 45; 43]) ->
  mk_recipe env (command_line d program args) = Some (program, args).
Proof.
  intros Ns Nb V F Ha Hf. unfold command_line. apply (line_runs env (brute_force d)); [exact V| |exact Ha|exact Hf].
  apply Forall_forall. intros a Hin. destruct (proj1 (Forall_forall _ _) F a Hin) as (N10 & R & Hs & Hb & Hi).
  assert (E : brute_force d a = a).
  { unfold brute_force. destruct (install_root d) as [|c r] eqn:Q.
    - rewrite (replace_none (build_dir d)), (replace_none (src_dir d)) by assumption. reflexivity.
    - rewrite (replace_none (c :: r)); [|discriminate|apply Hi; discriminate].
      rewrite (replace_none (build_dir d)), (replace_none (src_dir d)) by assumption. reflexivity. }
  rewrite E. split; [exact N10|]. now apply subst_none.
Qed.

Definition dirs1 := {| src_dir := txt "/src"; build_dir := txt "/b"; install_root := [] |}.
(** A text that looks like a reference is expanded, *)
Theorem make_runs_references_refuted : exists d t env program args, plain_dirs d /\ definitions d = Some t /\ mk_env t = Some env
  /\ mk_recipe env (command_line d program args) <> Some (program, args)
  /\ mk_recipe env (command_line d program args) = Some (txt "echo", [txt "/src"]).
Proof.
  exists dirs1. do 2 eexists. exists (txt "echo"), [txt "$(SRCDIR)"]. split.
  { repeat split; try (eexists; reflexivity); try (repeat constructor); now left. }
  split; [reflexivity|]. split; [reflexivity|]. split; [vm_compute; discriminate|vm_compute; reflexivity].
Qed.
(** a quote in the name of the project directory ends the quoting, a dollar sign in it is expanded, *)
Theorem make_runs_quote_refuted : exists d t env program args, definitions d = Some t /\ mk_env t = Some env
  /\ mk_recipe env (command_line d program args) = Some (txt "touch", [txt "/its"; txt "b /its/a c"])
  /\ (program, args) = (txt "touch", [txt "/it's b"; txt "/it's/a c"]).
Proof.
  exists {| src_dir := txt "/it's"; build_dir := txt "/b"; install_root := [] |}. do 2 eexists. exists (txt "touch"), [txt "/it's b"; txt "/it's/a c"].
  split; [reflexivity|]. split; [reflexivity|]. split; [vm_compute; reflexivity|reflexivity].
Qed.
Theorem make_runs_dollar_refuted : exists d t, (exists r, src_dir d = 47 :: r) /\ definitions d = Some t /\ mk_env t = None.
Proof.
  exists {| src_dir := txt "/a$b"; build_dir := txt "/b"; install_root := [] |}. eexists. split; [eexists; reflexivity|].
  split; [reflexivity|vm_compute; reflexivity].
Qed.
(** some first characters of programs are flags for make, line breaks end the command. *)
Theorem make_runs_flags_refuted : exists d t env program args, plain_dirs d /\ definitions d = Some t /\ mk_env t = Some env
  /\ mk_recipe env (command_line d program args) = Some (txt "tool", args) /\ program = txt "@tool".
Proof.
  exists dirs1. do 2 eexists. exists (txt "@tool"), [txt "x"]. split.
  { repeat split; try (eexists; reflexivity); try (repeat constructor); now left. }
  split; [reflexivity|]. split; [reflexivity|]. split; [vm_compute; reflexivity|reflexivity].
Qed.
Theorem make_runs_newline_refuted : exists d t env program args, plain_dirs d /\ definitions d = Some t /\ mk_env t = Some env
  /\ mk_recipe env (command_line d program args) = None.
Proof.
  exists dirs1. do 2 eexists. exists (txt "echo"), [[97; 10; 98]]. split.
  { repeat split; try (eexists; reflexivity); try (repeat constructor); now left. }
  split; [reflexivity|]. split; [reflexivity|]. vm_compute; reflexivity.
Qed.
(** Giving another source directory to make changes files that are not in the source directory. *)
Theorem moved_sources_refuted : exists d t env program args, plain_dirs d /\ definitions d = Some t /\ mk_env t = Some env
  /\ args = [txt "/src-extra/a.c"]
  /\ mk_recipe (env ++ [(txt "SRCDIR", txt "/new")]) (command_line d program args) = Some (program, [txt "/new-extra/a.c"]).
Proof.
  exists dirs1. do 2 eexists. exists (txt "cc"), [txt "/src-extra/a.c"]. split.
  { repeat split; try (eexists; reflexivity); try (repeat constructor); now left. }
  split; [reflexivity|]. split; [reflexivity|]. split; [reflexivity|vm_compute; reflexivity].
Qed.

(** ** Products *)
Definition good_char (c : N) : Prop := (48 <= c <= 57 \/ 65 <= c <= 90 \/ 97 <= c <= 122 \/ c = 95 \/ c = 46)%N.
Lemma kept_spec c : name_kept c = true <-> good_char c.
Proof. unfold name_kept, good_char. rewrite !orb_true_iff, !andb_true_iff, !N.leb_le, !N.eqb_eq. lia. Qed.
Lemma kept_name n : Forall good_char n -> map (fun c => if name_kept c then c else 95) n = n.
Proof. intros F. induction F as [|c n H F IH]; [reflexivity|]. cbn. rewrite (proj2 (kept_spec c) H), IH. reflexivity. Qed.

Lemma good_all n : forallb name_kept n = true -> Forall good_char n.
Proof. intros H. apply Forall_forall. intros c Hc. apply kept_spec. exact (proj1 (forallb_forall _ _) H c Hc). Qed.

(** *** C120 *)
Theorem product_targets_partial a b i : Forall good_char a -> Forall good_char b -> a <> b -> product_target a i <> product_target b i.
Proof.
  intros Fa Fb H E. unfold product_target in E. rewrite !kept_name in E by assumption. destruct i; [contradiction|].
  apply app_inv_tail in E. contradiction.
Qed.
Theorem product_variants_exact a i j : i <> j -> product_target a i <> product_target a j.
Proof.
  intros H E. unfold product_target in E. destruct i as [|c i], j as [|e j].
  - congruence.
  - rewrite <- (app_nil_r (map _ a)) in E at 1. apply app_inv_head in E. discriminate.
  - symmetry in E. rewrite <- (app_nil_r (map _ a)) in E at 1. apply app_inv_head in E. discriminate.
  - apply app_inv_head in E. congruence.
Qed.
(** Such names are kept, and all names become acceptable ones. *)
Theorem product_target_kept a : Forall good_char a -> product_target a [] = a.
Proof. intros F. unfold product_target. now apply kept_name. Qed.
Theorem product_target_good a : Forall good_char (product_target a []) /\ length (product_target a []) = length a.
Proof.
  unfold product_target. split; [|apply map_length]. apply Forall_forall. intros x H. apply in_map_iff in H. destruct H as (c & <- & _).
  destruct (name_kept c) eqn:E; [now apply kept_spec|]. unfold good_char. lia.
Qed.
Theorem product_targets_refuted : exists a b, a <> b /\ product_target a [] = product_target b [].
Proof. exists (txt "my-app"), (txt "my_app"). split; [discriminate|reflexivity]. Qed.
Theorem product_variants_refuted : exists a b i, a <> b /\ Forall good_char a /\ Forall good_char b /\ i <> [] /\ product_target a i = product_target b [].
Proof.
  exists (txt "app"), (txt "app_eyJ9"), (txt "eyJ9"). split; [discriminate|]. split; [apply good_all; reflexivity|].
  split; [apply good_all; reflexivity|]. split; [discriminate|reflexivity].
Qed.
(** A product may have the name of the target for everything: the makefile then has circular dependencies. *)
Theorem product_named_all_refuted : exists a, product_target a [] = txt "all" /\ all_line [product_target a []] = txt "all: all" ++ [10].
Proof. exists (txt "all"). split; reflexivity. Qed.
(** The ids of multiplexed products end with equals signs most of the time, which makes the line a definition. *)
Theorem product_line_refuted : exists d name c artifacts, plain_dirs d /\ mk_is_definition (product_line d name (id_of c) artifacts) = true.
Proof.
  exists dirs1, (txt "app"), [(txt "qbs.architecture", JStr (txt "x86"))], [txt "/b/app"].
  split; [repeat split; try (eexists; reflexivity); try (repeat constructor); now left|]. vm_compute. reflexivity.
Qed.

(** ** Files in rules *)
Definition path_plain (p : str) : Prop :=
  (exists r, p = 47 :: r) /\ Forall (fun c => memN c [10; 35; 36; 37; 38; 40; 41; 42; 58; 59; 61; 63; 91; 93; 124; 126; 92; 9] = false) p.

Definition esc (c : N) : str := if c =? 32 then [92; 32] else [c].
Lemma target_flat p : path_target p = flat_map esc p.
Proof.
  unfold path_target. induction p as [|c p IH]; [reflexivity|]. cbn [flat_map]. unfold esc at 1. destruct (N.eqb_spec c 32) as [->|H].
  - change (32 :: p) with ([32] ++ p). rewrite replace_match, IH by discriminate. reflexivity.
  - rewrite replace_char, IH; [reflexivity|]. cbn [starts_with]. rewrite (proj2 (N.eqb_neq 32 c)); [reflexivity|congruence].
Qed.
Lemma target_app a b : path_target (a ++ b) = path_target a ++ path_target b.
Proof. rewrite !target_flat. apply flat_map_app. Qed.
Lemma target_nospace a : ~ In 32 a -> path_target a = a.
Proof.
  rewrite target_flat. induction a as [|c a IH]; intros H; [reflexivity|]. cbn [flat_map]. unfold esc at 1.
  rewrite (proj2 (N.eqb_neq c 32)) by (intros ->; apply H; now left). cbn [app]. f_equal. apply IH. intros K. apply H. now right.
Qed.
Lemma target_in c p : In c (path_target p) -> c = 92 \/ In c p.
Proof.
  rewrite target_flat, in_flat_map. intros (x & Hx & K). unfold esc in K. destruct (N.eqb_spec x 32) as [->|E]; cbn in K; intuition (subst; auto).
Qed.
Lemma target_head p r : path_target p <> 32 :: r.
Proof.
  rewrite target_flat. destruct p as [|c p]; [discriminate|]. cbn [flat_map]. unfold esc at 1. destruct (N.eqb_spec c 32) as [->|E]; cbn; congruence.
Qed.
Lemma target_inj p q : path_target p = path_target q -> p = q.
Proof.
  revert q. induction p as [|c p IH]; intros [|e q] E.
  - reflexivity.
  - exfalso. rewrite !target_flat in E. cbn [flat_map] in E. unfold esc at 1 in E. destruct (e =? 32); discriminate.
  - exfalso. rewrite !target_flat in E. cbn [flat_map] in E. unfold esc at 1 in E. destruct (c =? 32); discriminate.
  - rewrite (target_flat (c :: p)), (target_flat (e :: q)) in E. cbn [flat_map] in E. rewrite <- !target_flat in E. unfold esc in E.
    destruct (N.eqb_spec c 32) as [->|Hc], (N.eqb_spec e 32) as [->|He]; cbn in E.
    + injection E as E. f_equal. now apply IH.
    + injection E as _ E. symmetry in E. now apply target_head in E.
    + injection E as _ E. now apply target_head in E.
    + injection E as -> E. f_equal. now apply IH.
Qed.
Lemma prefix_cases p dir n : (exists r, replace_prefix p [(dir, n)] = reference n ++ r /\ p = dir ++ r) \/ replace_prefix p [(dir, n)] = p.
Proof.
  cbn [replace_prefix]. destruct (starts_with dir p && _) eqn:E; [left|now right]. apply andb_prop in E. destruct E as [E _].
  apply starts_with_spec in E. destruct E as [r ->]. exists r. split; [|reflexivity]. f_equal. rewrite skipn_app, skipn_all, Nat.sub_diag. reflexivity.
Qed.

(** *** C121: different files have different names in the rules; for one file it is always the same. *)
Theorem rule_names_exact d g h p q : (exists r, p = 47 :: r) -> (exists r, q = 47 :: r) ->
  artifact_text d g p = artifact_text d h q -> p = q.
Proof.
  intros [x ->] [y ->] E.
  assert (G : forall g p, artifact_text d g p = path_target (replace_prefix p [if g then (build_dir d, n_build) else (src_dir d, n_src)])) by (intros [] ?; reflexivity).
  rewrite !G in E. clear G. apply target_inj in E.
  destruct g, h;
    match type of E with replace_prefix ?a [(?d1, ?n1)] = replace_prefix ?b [(?d2, ?n2)] =>
      destruct (prefix_cases a d1 n1) as [(r1 & Q1 & P1)|Q1], (prefix_cases b d2 n2) as [(r2 & Q2 & P2)|Q2]; rewrite Q1, Q2 in E
    end; try discriminate E; try (injection E as E; congruence); try congruence.
Qed.

(** make reads the files. *)
Lemma expand_file env dir n p : okname n -> mk_var env n = dir -> ~ In 32 dir -> ~ In 36 p ->
  forall r, mk_expand env None (path_target (replace_prefix p [(dir, n)]) ++ r) = option_map (app (path_target p)) (mk_expand env None r).
Proof.
  intros O V Hs Hp r. assert (H36 : forall s, ~ In 36 s -> ~ In 36 (path_target s)) by (intros s K W; apply target_in in W; destruct W; [discriminate|contradiction]).
  destruct (prefix_cases p dir n) as [(t & Q & P)|Q]; rewrite Q.
  - rewrite target_app, target_nospace.
    + rewrite <- app_assoc, expand_ref, V by exact O. rewrite expand_plain.
      * rewrite option_map_app. rewrite P, target_app, (target_nospace dir Hs). reflexivity.
      * apply H36. rewrite P in Hp. intros K. apply Hp. apply in_or_app. now right.
    + intros K. pose proof (ref_chars n 32 O K) as W. discriminate W.
  - apply expand_plain. now apply H36.
Qed.
Lemma names_file p : Forall (fun c => memN c [10; 35; 36; 37; 38; 40; 41; 42; 58; 59; 61; 63; 91; 93; 124; 126; 92; 9] = false) p ->
  forall cur r, mk_names cur (path_target p ++ r) = mk_names (cur ++ p) r.
Proof.
  intros F. rewrite target_flat. induction F as [|c p H F IH]; intros cur r; [cbn [flat_map app]; now rewrite app_nil_r|].
  cbn [flat_map]. rewrite <- app_assoc. unfold esc at 1. destruct (N.eqb_spec c 32) as [->|Hc].
  - cbn [app mk_names]. change (92 =? 92) with true. change (32 =? 32) with true. cbv iota. rewrite IH, <- app_assoc. reflexivity.
  - cbn [app mk_names]. apply memN_notIn in H.
    rewrite (proj2 (N.eqb_neq c 92)) by (intros ->; apply H; cbn; tauto). rewrite (proj2 (N.eqb_neq c 32) Hc).
    rewrite (proj2 (N.eqb_neq c 9)) by (intros ->; apply H; cbn; tauto). cbn [orb].
    replace (mk_active c) with false.
    + rewrite IH, <- app_assoc. reflexivity.
    + symmetry. apply memN_notIn. cbn in H |- *. tauto.
Qed.
Lemma names_files ps : Forall path_plain ps -> forall cur, cur <> [] ->
  mk_names cur (flat_map (fun p => 32 :: path_target p) ps) = Some (cur :: ps).
Proof.
  intros F. induction F as [|p ps H F IH]; intros cur Nc.
  - cbn. destruct cur; [congruence|reflexivity].
  - cbn [flat_map]. cbn [app mk_names]. change (32 =? 92) with false. change ((32 =? 32) || (32 =? 9)) with true. cbv iota.
    rewrite names_file by apply H. cbn [app]. rewrite IH by (destruct H as [[x ->] _]; discriminate). destruct cur; [congruence|reflexivity].
Qed.
Lemma names_prereqs ps : Forall path_plain ps -> mk_names [] (flat_map (fun p => 32 :: path_target p) ps) = Some ps.
Proof.
  intros F. destruct F as [|p ps H F]; [reflexivity|]. cbn [flat_map]. cbn [app mk_names]. change (32 =? 92) with false. change ((32 =? 32) || (32 =? 9)) with true. cbv iota.
  rewrite names_file by apply H. cbn [app]. apply names_files; [exact F|]. destruct H as [[x ->] _]. discriminate.
Qed.
Lemma plain_no c p : path_plain p -> memN c [10; 35; 36; 37; 38; 40; 41; 42; 58; 59; 61; 63; 91; 93; 124; 126; 92; 9] = true -> ~ In c p.
Proof. intros [_ F] H K. pose proof (proj1 (Forall_forall _ _) F c K) as W. cbv beta in W. congruence. Qed.
Lemma artifact_in d g p c : In c (artifact_text d g p) -> memN c (92 :: concat (map reference names)) = false -> In c p.
Proof.
  intros H R. apply memN_notIn in R. cbn [map concat names In] in R. rewrite !in_app_iff in R.
  assert (G : artifact_text d g p = path_target (replace_prefix p [if g then (build_dir d, n_build) else (src_dir d, n_src)])) by (destruct g; reflexivity).
  rewrite G in H. apply target_in in H. destruct H as [->|H]; [exfalso; tauto|].
  destruct g;
  match type of H with In _ (replace_prefix _ [(?d1, ?n1)]) => destruct (prefix_cases p d1 n1) as [(r & Q & P)|Q] end; rewrite Q in H; auto;
    (apply in_app_or in H; destruct H as [H|H]; [exfalso; tauto|]; rewrite P; apply in_or_app; now right).
Qed.
Lemma last_app pre s : s <> [] -> ~ In 92 s -> last_is 92 (pre ++ path_target s) = false.
Proof.
  intros Ns H. destruct (exists_last Ns) as (u & c & ->). rewrite target_app, app_assoc. unfold last_is. rewrite (target_flat [c]). cbn [flat_map]. rewrite app_nil_r.
  unfold esc. destruct (N.eqb_spec c 32) as [->|E].
  - change [92; 32] with ([92] ++ [32]). rewrite app_assoc, rev_unit. reflexivity.
  - rewrite rev_unit. apply N.eqb_neq. intros ->. apply H. apply in_or_app. right. now left.
Qed.
Lemma artifact_last pre d g p : path_plain p -> last_is 92 (pre ++ artifact_text d g p) = false.
Proof.
  intros Hp. assert (G : exists s, artifact_text d g p = path_target s /\ s <> [] /\ ~ In 92 s).
  { exists (replace_prefix p [if g then (build_dir d, n_build) else (src_dir d, n_src)]). split; [destruct g; reflexivity|].
    assert (N92 : ~ In 92 p) by now apply plain_no.
    destruct g; match goal with |- context [replace_prefix p [(?d1, ?n1)]] => destruct (prefix_cases p d1 n1) as [(r & Q & P)|Q] end; rewrite Q;
      (split; [discriminate || (destruct Hp as [[x ->] _]; discriminate)|]); try exact N92;
      intros K; apply in_app_or in K; destruct K as [K|K]; try (cbn in K; intuition discriminate); apply N92; rewrite P; apply in_or_app; now right. }
  destruct G as (s & -> & Ns & H). now apply last_app.
Qed.

Lemma rule_line_read env l x tgt ps : ~ In 10 l -> last_is 92 l = false -> mk_expand env None l = Some x ->
  x = path_target tgt ++ 58 :: flat_map (fun p => 32 :: path_target p) ps -> path_plain tgt \/ (Forall good_char tgt /\ tgt <> []) -> Forall path_plain ps ->
  mk_rule env (l ++ [10]) = Some (tgt, ps).
Proof.
  intros H10 B E -> T F. unfold mk_rule. rewrite span_stop; [|apply Forall_forall; intros y Hy; apply Bool.negb_true_iff, N.eqb_neq; intros ->; contradiction|reflexivity].
  rewrite str_eqb_refl, B, E. cbn [andb negb].
  assert (W : Forall (fun c => memN c [10; 35; 36; 37; 38; 40; 41; 42; 58; 59; 61; 63; 91; 93; 124; 126; 92; 9] = false) tgt /\ tgt <> []).
  { destruct T as [T|[T Nt]]; [split; [apply T|destruct T as [[y ->] _]; discriminate]|split; [|exact Nt]].
    eapply Forall_impl; [|exact T]. intros c Hc. unfold good_char in Hc. apply memN_notIn. cbn. lia. }
  destruct W as [W Nt]. rewrite span_stop; [| |reflexivity].
  - rewrite <- (app_nil_r (path_target tgt)), names_file by exact W. cbn [app]. rewrite names_prereqs by exact F.
    cbn. destruct tgt; [congruence|reflexivity].
  - apply Forall_forall. intros y Hy. apply Bool.negb_true_iff, N.eqb_neq. intros ->. apply target_in in Hy. destruct Hy as [Hy|Hy]; [discriminate|].
    pose proof (proj1 (Forall_forall _ _) W 58 Hy) as K. discriminate K.
Qed.
Lemma expand_artifact d t env g p r : plain_dirs d -> definitions d = Some t -> mk_env t = Some env -> path_plain p ->
  mk_expand env None (artifact_text d g p ++ r) = option_map (app (path_target p)) (mk_expand env None r).
Proof.
  intros P D E Hp. destruct (env_facts d t env P D E) as (S & B & _). destruct P as (Ps & Pb & _).
  assert (N36 : ~ In 36 p) by now apply plain_no.
  destruct g.
  - apply (expand_file env (build_dir d) n_build); [repeat constructor|exact B|apply plain_not; [apply Pb|reflexivity]|exact N36].
  - apply (expand_file env (src_dir d) n_src); [repeat constructor|exact S|apply plain_not; [apply Ps|reflexivity]|exact N36].
Qed.
Lemma expand_artifacts d t env ins : plain_dirs d -> definitions d = Some t -> mk_env t = Some env -> Forall (fun i => path_plain (snd i)) ins ->
  mk_expand env None (flat_map (fun i => 32 :: artifact_text d (fst i) (snd i)) ins) = Some (flat_map (fun p => 32 :: path_target p) (map snd ins)).
Proof.
  intros P D E F. induction F as [|i ins H F IH]; [reflexivity|]. cbn [flat_map map app].
  match goal with |- mk_expand env None (32 :: ?z) = _ => change (32 :: z) with ([32] ++ z) end.
  rewrite expand_plain by (intros [K|[]]; discriminate). rewrite (expand_artifact d t env _ _ _ P D E H), IH. reflexivity.
Qed.
Theorem rule_read_partial d t env out ins : plain_dirs d -> definitions d = Some t -> mk_env t = Some env ->
  path_plain out -> Forall (fun i => path_plain (snd i)) ins -> mk_rule env (rule_line d out ins) = Some (out, map snd ins).
Proof.
  intros P D E Ho F. unfold rule_line. change (output_text d out) with (artifact_text d true out).
  replace (artifact_text d true out ++ [58] ++ flat_map (fun i => 32 :: artifact_text d (fst i) (snd i)) ins ++ [10])
    with ((artifact_text d true out ++ 58 :: flat_map (fun i => 32 :: artifact_text d (fst i) (snd i)) ins) ++ [10]) by (now rewrite <- app_assoc).
  eapply rule_line_read; [| | |reflexivity|now left|].
  - intros K. apply in_app_or in K. destruct K as [K|[K|K]]; [|discriminate|].
    + apply artifact_in in K; [|reflexivity]. revert K. now apply plain_no.
    + apply in_flat_map in K. destruct K as (i & Hi & [K|K]); [discriminate|]. apply artifact_in in K; [|reflexivity]. revert K.
      apply plain_no; [|reflexivity]. exact (proj1 (Forall_forall _ _) F i Hi).
  - destruct ins as [|i0 ins0]; [unfold last_is; cbn [flat_map]; rewrite rev_unit; reflexivity|].
    destruct (exists_last (l := i0 :: ins0)) as (u & i & Q); [discriminate|]. rewrite Q in F |- *. rewrite flat_map_app. cbn [flat_map]. rewrite app_nil_r.
    change (32 :: artifact_text d (fst i) (snd i)) with ([32] ++ artifact_text d (fst i) (snd i)).
    match goal with |- last_is 92 (?a ++ 58 :: ?b ++ [32] ++ ?c) = _ => replace (a ++ 58 :: b ++ [32] ++ c) with ((a ++ 58 :: b ++ [32]) ++ c) by (rewrite <- app_assoc; cbn; now rewrite <- app_assoc) end.
    apply artifact_last. apply Forall_app in F. exact (Forall_inv (proj2 F)).
  - rewrite (expand_artifact d t env _ _ _ P D E Ho).
    match goal with |- context [mk_expand env None (58 :: ?z)] => change (58 :: z) with ([58] ++ z) end.
    rewrite expand_plain by (intros [K|[]]; discriminate). rewrite (expand_artifacts d t env _ P D E F). reflexivity.
  - apply Forall_forall. intros p Hp. apply in_map_iff in Hp. destruct Hp as (i & <- & Hi). exact (proj1 (Forall_forall _ _) F i Hi).
Qed.
(** With other values of the variables exactly the files below the directory are moved. *)
Definition below (dir p r : str) : Prop := p = dir ++ r /\ (r = [] \/ exists r', r = 47 :: r').
Lemma prefix_below p dir n r : below dir p r -> replace_prefix p [(dir, n)] = reference n ++ r.
Proof.
  intros [-> H]. cbn [replace_prefix]. rewrite (proj2 (starts_with_spec _ _)) by now exists r.
  rewrite skipn_app, skipn_all, Nat.sub_diag, app_length. cbn [app skipn andb].
  destruct H as [->|[r' ->]]; [cbn [length]; rewrite Nat.add_0_r, Nat.eqb_refl; reflexivity|]. rewrite orb_true_r. reflexivity.
Qed.
Lemma prefix_not_below p dir n : (forall r, ~ below dir p r) -> replace_prefix p [(dir, n)] = p.
Proof.
  intros H. cbn [replace_prefix]. destruct (starts_with dir p && _) eqn:E; [exfalso|reflexivity]. apply andb_prop in E. destruct E as [E B].
  apply starts_with_spec in E. destruct E as [r ->]. apply (H r). split; [reflexivity|].
  rewrite skipn_app, skipn_all, Nat.sub_diag, app_length in B. cbn [app skipn] in B. apply orb_prop in B. destruct B as [B|B].
  - apply Nat.eqb_eq in B. left. destruct r; [reflexivity|cbn in B; lia].
  - destruct r as [|c r]; [discriminate|]. apply N.eqb_eq in B. subst c. right. eauto.
Qed.
Theorem rule_files_moved d env (g : bool) p new : path_plain p ->
  mk_var env (if g then txt "BUILD_ROOT" else txt "SRCDIR") = new -> path_plain new -> ~ In 32 new -> exists x,
  mk_expand env None (artifact_text d g p) = Some x /\
  (forall r, below (if g then build_dir d else src_dir d) p r -> mk_names [] x = Some [new ++ r]) /\
  ((forall r, ~ below (if g then build_dir d else src_dir d) p r) -> mk_names [] x = Some [p]).
Proof.
  intros Hp V Hn Hs. set (dir := if g then build_dir d else src_dir d). set (n := if g then n_build else n_src).
  assert (O : okname n) by (destruct g; repeat constructor).
  assert (V' : mk_var env n = new) by (destruct g; exact V).
  assert (G : artifact_text d g p = path_target (replace_prefix p [(dir, n)])) by (unfold dir, n; destruct g; reflexivity).
  assert (R : path_target (reference n) = reference n) by (apply target_nospace; intros K; pose proof (ref_chars n 32 O K) as W; discriminate W).
  assert (N36 : ~ In 36 p) by now apply plain_no.
  assert (H36 : forall s : str, ~ In 36 s -> ~ In 36 (path_target s)) by (intros s K W; apply target_in in W; destruct W; [discriminate|contradiction]).
  assert (Nm : forall s, path_plain s -> mk_names [] (path_target s) = Some [s]).
  { intros s Q. rewrite <- (app_nil_r (path_target s)), names_file by apply Q. destruct Q as [[y ->] _]. reflexivity. }
  rewrite G. destruct (prefix_cases p dir n) as [(r & Q & Pr)|Q]; rewrite Q.
  - assert (B : below dir p r).
    { destruct (list_eq_dec N.eq_dec (replace_prefix p [(dir, n)]) p) as [W|W].
      - exfalso. rewrite W in Q. destruct Hp as [[y Hp] _]. rewrite Hp in Q. discriminate.
      - assert (X : ~ forall r, ~ below dir p r) by (intros K; apply W; now apply prefix_not_below).
        split; [exact Pr|]. destruct r as [|c r]; [now left|right]. destruct (N.eq_dec c 47) as [->|Nc]; [eauto|exfalso].
        apply X. intros r1 [E1 [->|[r2 ->]]]; rewrite Pr in E1; [rewrite app_nil_r in E1; apply (f_equal (@length N)) in E1; rewrite app_length in E1; cbn in E1; lia|].
        apply app_inv_head in E1. congruence. }
    assert (Fr : path_plain (new ++ r)).
    { destruct Hn as [[y ->] Fn]. split; [eexists; reflexivity|]. apply Forall_app. split; [exact Fn|]. destruct Hp as [_ Fp]. rewrite Pr in Fp. now apply Forall_app in Fp. }
    rewrite target_app, R, expand_ref, V' by exact O. rewrite <- (app_nil_r (path_target r)), expand_plain.
    + cbn [mk_expand option_map]. eexists. split; [reflexivity|]. rewrite app_nil_r.
      assert (Nw : new ++ path_target r = path_target (new ++ r)) by (rewrite target_app, (target_nospace new Hs); reflexivity). rewrite Nw. split.
      * intros r1 [E1 _]. rewrite Pr in E1. apply app_inv_head in E1. subst r1. now apply Nm.
      * intros K. exfalso. exact (K r B).
    + apply H36. rewrite Pr in N36. intros K. apply N36. apply in_or_app. now right.
  - rewrite <- (app_nil_r (path_target p)), expand_plain by (now apply H36). cbn [mk_expand option_map]. eexists. split; [reflexivity|]. rewrite app_nil_r. split.
    + intros r B. exfalso. rewrite (prefix_below p dir n r B) in Q. destruct Hp as [[y Hp] _]. rewrite Hp in Q. discriminate.
    + intros _. now apply Nm.
Qed.
(** The line of a product that is not multiplexed. *)
Theorem product_read_partial d t env name artifacts : plain_dirs d -> definitions d = Some t -> mk_env t = Some env ->
  name <> [] -> Forall path_plain artifacts -> mk_rule env (product_line d name [] artifacts) = Some (product_target name [], artifacts).
Proof.
  intros P D E Nn F. destruct (product_target_good name) as [G L]. set (tg := product_target name []) in *.
  assert (Nt : tg <> []) by (destruct tg; [destruct name; [congruence|discriminate]|discriminate]).
  assert (Gn : forall c, In c tg -> good_char c) by (now apply Forall_forall).
  unfold product_line. fold tg.
  assert (Q : flat_map (fun p => 32 :: output_text d p) artifacts = flat_map (fun i => 32 :: artifact_text d (fst i) (snd i)) (map (pair true) artifacts)).
  { clear. induction artifacts as [|p l IH]; [reflexivity|]. cbn [flat_map map fst snd artifact_text]. now rewrite IH. }
  rewrite Q. assert (Fi : Forall (fun i : bool * str => path_plain (snd i)) (map (pair true) artifacts)) by (apply Forall_map; exact F).
  assert (Mi : map snd (map (pair true) artifacts) = artifacts) by (rewrite map_map; apply map_id).
  replace (tg ++ [58] ++ flat_map (fun i => 32 :: artifact_text d (fst i) (snd i)) (map (pair true) artifacts) ++ [10])
    with ((tg ++ 58 :: flat_map (fun i => 32 :: artifact_text d (fst i) (snd i)) (map (pair true) artifacts)) ++ [10]) by (now rewrite <- app_assoc).
  eapply rule_line_read; [| | |reflexivity|right; split; assumption|exact F].
  - intros K. apply in_app_or in K. destruct K as [K|[K|K]]; [apply Gn in K; unfold good_char in K; lia|discriminate|].
    apply in_flat_map in K. destruct K as (i & Hi & [K|K]); [discriminate|]. apply artifact_in in K; [|reflexivity]. revert K.
    apply plain_no; [|reflexivity]. exact (proj1 (Forall_forall _ _) Fi i Hi).
  - revert Fi. clear. generalize (map (pair true) artifacts). intros ins F.
    destruct ins as [|i0 ins0]; [unfold last_is; cbn [flat_map]; rewrite rev_unit; reflexivity|].
    destruct (exists_last (l := i0 :: ins0)) as (u & i & Q); [discriminate|]. rewrite Q in F |- *. rewrite flat_map_app. cbn [flat_map]. rewrite app_nil_r.
    change (32 :: artifact_text d (fst i) (snd i)) with ([32] ++ artifact_text d (fst i) (snd i)).
    match goal with |- last_is 92 (?a ++ 58 :: ?b ++ [32] ++ ?c) = _ => replace (a ++ 58 :: b ++ [32] ++ c) with ((a ++ 58 :: b ++ [32]) ++ c) by (rewrite <- app_assoc; cbn; now rewrite <- app_assoc) end.
    apply artifact_last. apply Forall_app in F. exact (Forall_inv (proj2 F)).
  - rewrite expand_plain by (intros K; apply Gn in K; unfold good_char in K; lia).
    match goal with |- context [mk_expand env None (58 :: ?z)] => change (58 :: z) with ([58] ++ z) end.
    rewrite expand_plain by (intros [K|[]]; discriminate). rewrite (expand_artifacts d t env _ P D E Fi), Mi. cbn [option_map].
    rewrite (target_nospace tg); [reflexivity|]. intros K. apply Gn in K. unfold good_char in K. lia.
Qed.
Theorem rule_read_refuted : exists d t env out ins, plain_dirs d /\ definitions d = Some t /\ mk_env t = Some env
  /\ (exists r, out = 47 :: r) /\ Forall (fun i => exists r, snd i = 47 :: r) ins /\ mk_rule env (rule_line d out ins) <> Some (out, map snd ins).
Proof.
  exists dirs1. do 2 eexists. exists (txt "/b/a.o"), [(false, txt "/src/a$b.c")]. split.
  { repeat split; try (eexists; reflexivity); try (repeat constructor); now left. }
  split; [reflexivity|]. split; [reflexivity|]. split; [eexists; reflexivity|]. split; [repeat constructor; eexists; reflexivity|vm_compute; discriminate].
Qed.

(** ** Installing and removing files, and creating directories *)
Definition sh_plain (s : str) : Prop := Forall (fun c => sh_active c || sh_blank c || (c =? 39) || (c =? 92) = false) s.
Lemma plain_words s : sh_plain s -> s <> [] -> forall cur r, sh_words false cur (s ++ r) = sh_words false (cur_app cur s) r.
Proof.
  intros F. induction F as [|c s Hc F IH]; intros Ns cur r; [congruence|]. apply orb_false_elim in Hc. destruct Hc as [Hc H92].
  apply orb_false_elim in Hc. destruct Hc as [Hc H39]. apply orb_false_elim in Hc. destruct Hc as [Hc Hb].
  cbn [app sh_words]. rewrite H39, H92, Hb, Hc.
  destruct s as [|d s].
  - cbn [app]. destruct cur; reflexivity.
  - rewrite IH by discriminate. unfold cur_app. destruct cur as [w|]; cbn; [|reflexivity]. now rewrite <- app_assoc.
Qed.
Lemma plain_word w r : sh_plain w -> w <> [] -> sh_words false None (w ++ 32 :: r) = option_map (cons w) (sh_words false None r).
Proof. intros F Nw. rewrite plain_words by assumption. reflexivity. Qed.
Lemma sh_plain_no c s : sh_plain s -> sh_active c || sh_blank c || (c =? 39) || (c =? 92) = true -> ~ In c s.
Proof. intros F H K. pose proof (proj1 (Forall_forall _ _) F c K) as W. cbv beta in W. congruence. Qed.
Lemma expand_dir env dir n p : okname n -> mk_var env n = dir -> ~ In 36 p ->
  forall r, mk_expand env None (replace_prefix p [(dir, n)] ++ r) = option_map (app p) (mk_expand env None r).
Proof.
  intros O V Hp r. destruct (prefix_cases p dir n) as [(t & Q & P)|Q]; rewrite Q.
  - rewrite <- app_assoc, expand_ref, V by exact O. rewrite expand_plain.
    + rewrite option_map_app, P. reflexivity.
    + intros K. apply Hp. rewrite P. apply in_or_app. now right.
  - now apply expand_plain.
Qed.
Lemma prefix_in p dir n c : In c (replace_prefix p [(dir, n)]) -> okname n -> c = 10 -> In c p.
Proof.
  intros H O ->. destruct (prefix_cases p dir n) as [(r & Q & P)|Q]; rewrite Q in H; [|exact H].
  apply in_app_or in H. destruct H as [H|H]; [pose proof (ref_chars n 10 O H) as W; discriminate W|]. rewrite P. apply in_or_app. now right.
Qed.
Lemma words_file env dir file r : (forall n, In n names -> ~ In 39 (mk_var env n)) -> sh_plain dir -> no_refs file ->
  sh_words false None (dir ++ 47 :: scan names (mk_var env) (fun c => [c]) (quote_unix file) ++ r) = sh_words false (Some (dir ++ 47 :: file)) r.
Proof.
  intros V F R. change (47 :: scan names (mk_var env) (fun c => [c]) (quote_unix file) ++ r) with ([47] ++ scan names (mk_var env) (fun c => [c]) (quote_unix file) ++ r).
  rewrite app_assoc, plain_words.
  - rewrite words_subst by exact V. rewrite subst_none by exact R. unfold cur_app. now rewrite <- app_assoc.
  - apply Forall_app. split; [exact F|]. repeat constructor.
  - intros K. apply app_eq_nil in K. destruct K. discriminate.
Qed.

(** *** C122 *)
Theorem clean_runs_partial d t env dir file : plain_dirs d -> definitions d = Some t -> mk_env t = Some env ->
  sh_plain dir -> ~ In 10 file -> no_refs file ->
  mk_recipe env (clean_line d dir file) = Some (txt "rm", [txt "-f"; dir ++ txt "/" ++ file]).
Proof.
  intros P D E F N10 R. destruct (env_facts d t env P D E) as (S & B & _ & M & _).
  assert (N36 : ~ In 36 dir) by now apply sh_plain_no.
  unfold clean_line.
  match goal with |- mk_recipe env (9 :: reference n_rm ++ 32 :: ?a ++ 47 :: ?q ++ [10]) = _ =>
    replace (reference n_rm ++ 32 :: a ++ 47 :: q ++ [10]) with ((reference n_rm ++ [32] ++ a ++ [47] ++ q) ++ [10]) by (rewrite <- !app_assoc; reflexivity) end.
  rewrite recipe_line.
  - rewrite expand_ref by repeat constructor. rewrite expand_plain by (intros [K|[]]; discriminate).
    rewrite (expand_dir env (build_dir d) n_build) by (repeat constructor || assumption).
    rewrite expand_plain by (intros [K|[]]; discriminate). rewrite <- (app_nil_r (quote_make file)), quote_make_scan, expand_scan.
    cbn [mk_expand option_map]. rewrite M, app_nil_r. set (q := scan names (mk_var env) (fun c => [c]) (quote_unix file)).
    change (mk_flags (remove_command ++ [32] ++ dir ++ [47] ++ q)) with (txt "rm" ++ 32 :: txt "-f" ++ 32 :: dir ++ 47 :: q).
    unfold sh_runs. rewrite not_assignment by (right; (cbn; intuition discriminate) || eauto).
    unfold sh_split. rewrite !plain_word by (repeat constructor || discriminate).
    rewrite <- (app_nil_r q). unfold q. rewrite words_file; [|exact (env_vals d t env P D E)|exact F|exact R]. reflexivity.
  - rewrite !in_app_iff. intros [K|[[K|[]]|[K|[[K|[]]|K]]]].
    + cbn in K. intuition discriminate.
    + discriminate.
    + apply prefix_in in K; [|repeat constructor|reflexivity]. revert K. now apply sh_plain_no.
    + discriminate.
    + apply quote_in in K; [contradiction|discriminate|reflexivity|reflexivity].
  - rewrite !app_assoc. apply quote_last.
Qed.
(** Where directories below the build directory have spaces, other files are removed. *)
Theorem clean_runs_refuted : exists d t env dir file, plain_dirs d /\ definitions d = Some t /\ mk_env t = Some env
  /\ dir = txt "/b/my files" /\ file = txt "x"
  /\ mk_recipe env (clean_line d dir file) = Some (txt "rm", [txt "-f"; txt "/b/my"; txt "files/x"]).
Proof.
  exists dirs1. do 2 eexists. exists (txt "/b/my files"), (txt "x"). split.
  { repeat split; try (eexists; reflexivity); try (repeat constructor); now left. }
  split; [reflexivity|]. split; [reflexivity|]. split; [reflexivity|]. split; [reflexivity|vm_compute; reflexivity].
Qed.
Theorem mkdir_runs_partial d t env dir : plain_dirs d -> definitions d = Some t -> mk_env t = Some env -> sh_plain dir -> dir <> [] ->
  mk_recipe env (mkdir_line d dir) = Some (txt "mkdir", [txt "-p"; dir]).
Proof.
  intros P D E F Nd. destruct (env_facts d t env P D E) as (S & B & _).
  assert (N36 : ~ In 36 dir) by now apply sh_plain_no. assert (N92 : ~ In 92 dir) by now apply sh_plain_no.
  unfold mkdir_line. rewrite app_assoc, recipe_line.
  - rewrite expand_plain by (cbn; intuition discriminate). rewrite <- (app_nil_r (replace_prefix _ _)).
    rewrite (expand_dir env (build_dir d) n_build) by (repeat constructor || assumption). cbn [mk_expand option_map]. rewrite app_nil_r.
    change (mk_flags ([109; 107; 100; 105; 114; 32; 45; 112; 32] ++ dir)) with (txt "mkdir" ++ 32 :: txt "-p" ++ 32 :: dir).
    unfold sh_runs. rewrite not_assignment by (right; (cbn; intuition discriminate) || eauto).
    unfold sh_split. rewrite !plain_word by (repeat constructor || discriminate).
    rewrite <- (app_nil_r dir) at 1. rewrite plain_words by assumption. reflexivity.
  - rewrite in_app_iff. intros [K|K]; [cbn in K; intuition discriminate|]. apply prefix_in in K; [|repeat constructor|reflexivity].
    revert K. now apply sh_plain_no.
  - destruct (prefix_cases dir (build_dir d) n_build) as [(r & Q & Pr)|Q]; rewrite Q.
    + destruct r as [|c0 r0] eqn:Er; [reflexivity|]. rewrite <- Er in *. assert (Nr : r <> []) by (subst r; discriminate). clear Er.
      destruct (exists_last Nr) as (u & c & ->). unfold last_is. rewrite !app_assoc, rev_unit. apply N.eqb_neq. intros ->.
      apply N92. rewrite Pr, app_assoc. apply in_or_app. right. now left.
    + destruct (exists_last Nd) as (u & c & Ed). unfold last_is. rewrite Ed, app_assoc, rev_unit. apply N.eqb_neq. intros ->.
      apply N92. rewrite Ed. apply in_or_app. right. now left.
Qed.
Theorem install_runs_partial d t env executable generated dir file target : plain_dirs d -> definitions d = Some t -> mk_env t = Some env ->
  sh_plain dir -> ~ In 10 file -> no_refs file -> sh_plain target -> target <> [] -> exists l,
  install_line d executable generated dir file target = Some l /\
  mk_recipe env l = Some (txt "install", [txt "-m"; if executable then txt "755" else txt "644"; txt "-p"; dir ++ txt "/" ++ file; target]).
Proof.
  intros P D E F N10 R Ft Nt. destruct (env_facts d t env P D E) as (S & B & J & _ & MF & MP).
  assert (N36 : ~ In 36 dir) by now apply sh_plain_no. assert (T36 : ~ In 36 target) by now apply sh_plain_no.
  assert (T92 : ~ In 92 target) by now apply sh_plain_no. assert (T10 : ~ In 10 target) by now apply sh_plain_no.
  unfold install_line. rewrite (proj2 (memN_notIn 32 target)) by now apply sh_plain_no. eexists. split; [reflexivity|].
  set (cmd := if executable then n_install_program else n_install_file). set (src := if generated then (build_dir d, n_build) else (src_dir d, n_src)).
  set (tg := match install_root d with [] => target | _ => replace_prefix target [(install_root d, n_install)] end).
  assert (Oc : okname cmd) by (destruct executable; repeat constructor).
  assert (Tg : (forall r, mk_expand env None (tg ++ r) = option_map (app target) (mk_expand env None r)) /\ ~ In 10 tg /\ exists u c, tg = u ++ [c] /\ c <> 92).
  { assert (Same : exists u c, target = u ++ [c] /\ c <> 92).
    { destruct (exists_last Nt) as (u & c & Ed). exists u, c. split; [exact Ed|]. intros ->. apply T92. rewrite Ed. apply in_or_app. right. now left. }
    unfold tg. destruct (install_root d) as [|c0 r0] eqn:Q0; [split; [now apply expand_plain|split; assumption]|].
    split; [apply expand_dir; [repeat constructor|exact J|exact T36]|]. split.
    - intros K. apply prefix_in in K; [contradiction|repeat constructor|reflexivity].
    - destruct (prefix_cases target (c0 :: r0) n_install) as [(r & Q & Pr)|Q]; rewrite Q; [|exact Same].
      destruct r as [|c1 r1] eqn:Er.
      + exists [36; 40; 73; 78; 83; 84; 65; 76; 76; 95; 82; 79; 79; 84], 41. split; [reflexivity|discriminate].
      + rewrite <- Er in *. assert (Nr : r <> []) by (subst r; discriminate). clear Er.
        destruct (exists_last Nr) as (u & c & ->). exists (reference n_install ++ u), c. split; [now rewrite app_assoc|]. intros ->.
        apply T92. rewrite Pr, app_assoc. apply in_or_app. right. now left. }
  destruct Tg as (Te & Tn & u & c & Tu & Tc).
  change (mk_recipe env (9 :: reference cmd ++ 32 :: replace_prefix dir [src] ++ 47 :: quote_make file ++ 32 :: tg ++ [10])
    = Some (txt "install", [txt "-m"; if executable then txt "755" else txt "644"; txt "-p"; dir ++ txt "/" ++ file; target])).
  replace (reference cmd ++ 32 :: replace_prefix dir [src] ++ 47 :: quote_make file ++ 32 :: tg ++ [10])
    with ((reference cmd ++ [32] ++ replace_prefix dir [src] ++ [47] ++ quote_make file ++ [32] ++ tg) ++ [10]) by (rewrite <- !app_assoc; reflexivity).
  rewrite recipe_line.
  - rewrite expand_ref by exact Oc. rewrite expand_plain by (intros [K|[]]; discriminate).
    assert (Ed : forall r, mk_expand env None (replace_prefix dir [src] ++ r) = option_map (app dir) (mk_expand env None r)).
    { unfold src. destruct generated; apply expand_dir; repeat constructor || assumption. }
    rewrite Ed. rewrite expand_plain by (intros [K|[]]; discriminate). rewrite quote_make_scan, expand_scan.
    rewrite expand_plain by (intros [K|[]]; discriminate). rewrite <- (app_nil_r tg), Te.
    cbn [mk_expand option_map]. rewrite app_nil_r. set (q := scan names (mk_var env) (fun c => [c]) (quote_unix file)).
    assert (C : mk_flags (mk_var env cmd ++ [32] ++ dir ++ [47] ++ q ++ [32] ++ target)
      = txt "install" ++ 32 :: txt "-m" ++ 32 :: (if executable then txt "755" else txt "644") ++ 32 :: txt "-p" ++ 32 :: dir ++ 47 :: q ++ 32 :: target).
    { unfold cmd. destruct executable; [rewrite MP|rewrite MF]; reflexivity. }
    rewrite C. unfold sh_runs. rewrite not_assignment by (right; (cbn; intuition discriminate) || eauto).
    unfold sh_split. rewrite !plain_word by (destruct executable; (repeat constructor) || discriminate).
    unfold q. rewrite words_file; [|exact (env_vals d t env P D E)|exact F|exact R].
    cbn [sh_words]. change (32 =? 39) with false. change (32 =? 92) with false. change (sh_blank 32) with true. cbv iota.
    rewrite <- (app_nil_r target) at 1. rewrite plain_words by assumption. reflexivity.
  - rewrite !in_app_iff. intros [K|[[K|[]]|[K|[[K|[]]|[K|[[K|[]]|K]]]]]]; try discriminate.
    + pose proof (ref_chars cmd 10 Oc K) as W. discriminate W.
    + assert (K' : In 10 dir) by (unfold src in K; destruct generated; apply prefix_in in K; (repeat constructor) || assumption || reflexivity).
      revert K'. now apply sh_plain_no.
    + apply quote_in in K; [contradiction|discriminate|reflexivity|reflexivity].
    + contradiction.
  - rewrite Tu, !app_assoc. unfold last_is. rewrite rev_unit. now apply N.eqb_neq.
Qed.
(** A source file in a directory with a space is not installed. *)
Theorem install_runs_refuted : exists d t env dir file target l, plain_dirs d /\ definitions d = Some t /\ mk_env t = Some env
  /\ dir = txt "/src/my files" /\ file = txt "x" /\ target = txt "/i/share"
  /\ install_line d false false dir file target = Some l
  /\ mk_recipe env l = Some (txt "install", List.map txt ["-m"; "644"; "-p"; "/src/my"; "files/x"; "/i/share"]%string).
Proof.
  exists {| src_dir := txt "/src"; build_dir := txt "/b"; install_root := txt "/i" |}. do 2 eexists.
  exists (txt "/src/my files"), (txt "x"), (txt "/i/share"). eexists. split.
  { split; [|split; [|right]]; (split; [eexists; reflexivity|split; [repeat constructor|reflexivity]]). }
  split; [reflexivity|]. split; [reflexivity|]. split; [reflexivity|]. split; [reflexivity|]. split; [reflexivity|].
  split; [reflexivity|vm_compute; reflexivity].
Qed.

(** ** Examples *)
Module MakefileDemo.
  Definition dd := {| src_dir := txt "/home/me/src"; build_dir := txt "/home/me/src/build"; install_root := txt "/home/me/src/build/root" |}.
  Example demo_plain : plain_dirs dd.
  Proof. split; [|split; [|right]]; (split; [eexists; reflexivity|split; [repeat constructor|reflexivity]]). Qed.
  Example demo_line : command_line dd (txt "/usr/bin/g++") (List.map txt ["-I/home/me/src/inc"; "-DX=it's $1"; "/home/me/src/build/a b.o"]%string)
    = 9 :: txt "/usr/bin/g++ '-I$(SRCDIR)/inc' '-DX=it'\''s $$1' '$(BUILD_ROOT)/a b.o'" ++ [10].
  Proof. vm_compute. reflexivity. Qed.
  Example demo_args : Forall (fun a => ~ In 10 a /\ no_refs a) (List.map txt ["/usr/bin/g++"; "-I/home/me/src/inc"; "-DX=it's $1"; "/home/me/src/build/a b.o"]%string).
  Proof.
    apply Forall_forall. intros a Ha. split.
    - apply memN_notIn. revert a Ha. apply Forall_forall. repeat constructor.
    - intros p Hp (x & y & E).
      assert (G : forall s, In s (List.map txt ["/usr/bin/g++"; "-I/home/me/src/inc"; "-DX=it's $1"; "/home/me/src/build/a b.o"]%string) -> ~ In 40 s).
      { intros s Hs. apply memN_notIn. revert s Hs. apply Forall_forall. repeat constructor. }
      apply (G a Ha). rewrite E. apply in_or_app. right. apply in_or_app. left.
      destruct Hp as [<-|[<-|[<-|[]]]]; cbn; tauto.
  Qed.
  Example demo_run : exists t env, definitions dd = Some t /\ mk_env t = Some env /\
    mk_recipe env (command_line dd (txt "/usr/bin/g++") (List.map txt ["-I/home/me/src/inc"; "-DX=it's $1"; "/home/me/src/build/a b.o"]%string))
    = Some (txt "/usr/bin/g++", List.map txt ["-I/home/me/src/inc"; "-DX=it's $1"; "/home/me/src/build/a b.o"]%string).
  Proof.
    destruct (definitions_read dd demo_plain) as (t & env & D & E & _). exists t, env. split; [exact D|]. split; [exact E|].
    apply (make_runs_command_partial dd t env _ _ demo_plain D E demo_args).
    - cbn. intuition discriminate.
    - intros c r Q. injection Q as <- _. cbn. intuition discriminate.
  Qed.
  Example demo_rule : rule_line dd (txt "/home/me/src/build/a b.o") [(false, txt "/home/me/src/a b.c"); (false, txt "/usr/x.h")]
    = txt "$(BUILD_ROOT)/a\ b.o: $(SRCDIR)/a\ b.c /usr/x.h" ++ [10].
  Proof. vm_compute. reflexivity. Qed.
  Example demo_rule_plain : path_plain (txt "/home/me/src/build/a b.o") /\ path_plain (txt "/home/me/src/a b.c").
  Proof. split; (split; [eexists; reflexivity|repeat constructor]). Qed.
  Example demo_clean : clean_line dd (txt "/home/me/src/build/x") (txt "a b.o") = 9 :: txt "$(RM) $(BUILD_ROOT)/x/'a b.o'" ++ [10] /\ sh_plain (txt "/home/me/src/build/x").
  Proof. split; [vm_compute; reflexivity|repeat constructor]. Qed.
  Example demo_product : product_target (txt "My app 2.0") [] = txt "My_app_2.0".
  Proof. reflexivity. Qed.
End MakefileDemo.

Print Assumptions definitions_read.
Print Assumptions make_runs_command_partial.
Print Assumptions unrelated_commands_same.
Print Assumptions make_runs_references_refuted.
Print Assumptions make_runs_quote_refuted.
Print Assumptions make_runs_dollar_refuted.
Print Assumptions make_runs_flags_refuted.
Print Assumptions make_runs_newline_refuted.
Print Assumptions moved_sources_refuted.
Print Assumptions product_targets_partial.
Print Assumptions product_variants_exact.
Print Assumptions product_target_kept.
Print Assumptions product_target_good.
Print Assumptions product_targets_refuted.
Print Assumptions product_variants_refuted.
Print Assumptions product_named_all_refuted.
Print Assumptions product_line_refuted.
Print Assumptions rule_names_exact.
Print Assumptions rule_files_moved.
Print Assumptions rule_read_partial.
Print Assumptions product_read_partial.
Print Assumptions rule_read_refuted.
Print Assumptions clean_runs_partial.
Print Assumptions clean_runs_refuted.
Print Assumptions mkdir_runs_partial.
Print Assumptions install_runs_partial.
Print Assumptions install_runs_refuted.
