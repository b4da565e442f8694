(** The environment, the program and the arguments a process command is run
    with (C94, C95, C96). *)

From Coq Require Import String Ascii.
From Coq Require Import List Bool Arith NArith ZArith Lia.
From Verif Require Import Str ShellModel ShellTheorems InvocationModel.
Import ListNotations.

Definition txt (s : String.string) : str := List.map Ascii.N_of_ascii (String.list_ascii_of_string s).
Arguments txt s%string.

(** * Specification *)

(** ** Environments *)

(** What is known for a variable: the documentation of Command says that the
    entries of the list are of the form name=value. *)
Fixpoint get (e : environment) (n : str) : option str :=
  match e with
  | [] => None
  | (m, v) :: r => if str_eqb m n then Some v else get r n
  end.

Definition entry (s n v : str) : Prop := s = n ++ txt "=" ++ v /\ ~ In 61%N n /\ n <> [].

(** The last entry for a variable counts. *)
Definition last_entry (l : list str) (n v : str) : Prop :=
  exists l1 s l2, l = l1 ++ s :: l2 /\ entry s n v /\ forall s' v', In s' l2 -> ~ entry s' n v'.

(** Search paths of a command are put in front of those of the product. *)
Definition search_path (n : str) : Prop :=
  In n [txt "PATH"; txt "LD_LIBRARY_PATH"; txt "DYLD_LIBRARY_PATH"; txt "DYLD_FRAMEWORK_PATH"].

Definition combined (base : environment) (n v w : str) : Prop :=
  (search_path n /\ exists old, get base n = Some old /\ old <> [] /\ w = v ++ txt ":" ++ old)
  \/ ((~ search_path n \/ get base n = None \/ get base n = Some []) /\ w = v).

(** ** The program *)

Fixpoint joined (sep : N) (dirs : list str) : str :=
  match dirs with
  | [] => []
  | [d] => d
  | d :: r => d ++ sep :: joined sep r
  end.

Definition place (wd d : str) : str := if str_eqb d (txt ".") then wd else d.

(** The file of a program in a directory. *)
Definition in_dir (d program f : str) : Prop :=
  (d = [] /\ f = program)
  \/ (exists d' c, d = d' ++ [c] /\ (c = 47%N \/ c = 92%N) /\ f = d ++ program)
  \/ (exists d' c, d = d' ++ [c] /\ c <> 47%N /\ c <> 92%N /\ f = d ++ txt "/" ++ program).

(** The first directory that has the program, if one has it. *)
Definition right_program (executable : str -> bool) (dirs : list str) (wd program f : str) : Prop :=
  (exists d1 d d2, dirs = d1 ++ d :: d2 /\ in_dir (place wd d) program f /\ executable f = true
     /\ forall d' f', In d' d1 -> in_dir (place wd d') program f' -> executable f' = false)
  \/ (f = program /\ forall d' f', In d' dirs -> in_dir (place wd d') program f' -> executable f' = false).

(** Looking for programs of one product, one after the other. *)
Fixpoint lookups (executable : str -> bool) (path : str) (cache : environment) (l : list (str * str)) : list str :=
  match l with
  | [] => []
  | (program, wd) :: r =>
      let '(f, cache') := find_in_path Unix executable path cache program wd in
      f :: lookups executable path cache' r
  end.

(** ** Arguments *)

(** How tools read a response file: words separated by white space, with single
    and double quotes and with backslashes. With [raw], a backslash between
    single quotes is an ordinary character, as in a shell (LLVM does not do this
    and neither does GCC). *)
Definition white (c : N) : bool :=
  N.eqb c 32 || (N.leb 9 c && N.leb c 13).

Definition more (cur : option str) (c : N) : option str :=
  match cur with Some w => Some (w ++ [c]) | None => Some [c] end.

Definition opened (cur : option str) : option str :=
  match cur with Some w => Some w | None => Some [] end.

Fixpoint words (raw : bool) (q : option N) (cur : option str) (s : str) : list str :=
  match s with
  | [] => match cur with Some w => [w] | None => [] end
  | c :: r =>
      if N.eqb c 92 && negb (raw && match q with Some k => N.eqb k 39 | None => false end)
      then match r with
           | [] => match cur with Some w => [w] | None => [] end
           | d :: r' => words raw q (more cur d) r'
           end
      else
        match q with
        | Some k => if N.eqb c k then words raw None cur r else words raw q (more cur c) r
        | None =>
            if N.eqb c 39 || N.eqb c 34 then words raw (Some c) (opened cur) r
            else if white c
            then match cur with Some w => w :: words raw None None r | None => words raw None None r end
            else words raw None (more cur c) r
        end
  end.

Definition read_words (raw : bool) (s : str) : list str := words raw None None s.

(** Expanding the response files among the arguments: what the tool sees. *)
Inductive expands (raw : bool) (files : str -> option str) (prefix : str) : list str -> list str -> Prop :=
| EndOfArgs : expands raw files prefix [] []
| Ordinary : forall a r out,
    (forall f t, a = prefix ++ f -> files f <> Some t) ->
    expands raw files prefix r out -> expands raw files prefix (a :: r) (a :: out)
| FromFile : forall f t r out,
    files f = Some t ->
    expands raw files prefix (read_words raw t ++ r) out ->
    expands raw files prefix ((prefix ++ f) :: r) out.

Definition with_file (files : str -> option str) (name content : str) : str -> option str :=
  fun f => if str_eqb f name then Some content else files f.

(** A response file that ends outside of quotes. *)
Definition complete (raw : bool) (t : str) : Prop :=
  forall c rest, white c = true -> read_words raw (t ++ c :: rest) = read_words raw t ++ read_words raw rest.

Definition blank (sep : str) : Prop := sep <> [] /\ forall c, In c sep -> white c = true.

(** * Environments *)

Lemma get_insert n v e m : get (insert n v e) m = if str_eqb n m then Some v else get e m.
Proof.
  induction e as [|[k w] e IH]; simpl; [reflexivity|].
  destruct (str_eqb k n) eqn:K; simpl.
  - apply str_eqb_eq in K. subst. destruct (str_eqb n m); reflexivity.
  - rewrite IH. destruct (str_eqb n m) eqn:NM; [|reflexivity].
    apply str_eqb_eq in NM. subst. rewrite K. reflexivity.
Qed.

Lemma value_get e n : value e n = match get e n with Some v => v | None => [] end.
Proof. induction e as [|[m v] e IH]; simpl; [reflexivity|]. destruct (str_eqb m n); auto. Qed.

Lemma keys_insert n v e m : In m (List.map fst (insert n v e)) -> m = n \/ In m (List.map fst e).
Proof.
  induction e as [|[k w] e IH]; simpl; [intuition|].
  destruct (str_eqb k n) eqn:K; simpl; intuition.
Qed.

Lemma nodup_insert n v e : NoDup (List.map fst e) -> NoDup (List.map fst (insert n v e)).
Proof.
  induction e as [|[k w] e IH]; simpl; intro H.
  - constructor; [auto|constructor].
  - inversion H as [|? ? H1 H2]; subst. destruct (str_eqb k n) eqn:K; simpl.
    + apply str_eqb_eq in K. subst. constructor; auto.
    + constructor; [|auto]. intro I1. destruct (keys_insert _ _ _ _ I1) as [->|I2]; [|auto].
      rewrite str_eqb_refl in K. discriminate.
Qed.

Lemma cut_equals_spec s :
  match cut_equals s with
  | Some (n, v) => s = n ++ 61%N :: v /\ ~ In 61%N n
  | None => ~ In 61%N s
  end.
Proof.
  induction s as [|c s IH]; simpl; [auto|].
  destruct (N.eqb_spec c 61) as [->|NE]; [simpl; auto|].
  destruct (cut_equals s) as [[n v]|].
  - destruct IH as [-> IH]. split; [reflexivity|]. intros [E|E]; auto.
  - intros [E|E]; auto.
Qed.

Lemma cut_unique (n v n' v' : str) :
  n ++ 61%N :: v = n' ++ 61%N :: v' -> ~ In 61%N n -> ~ In 61%N n' -> n = n' /\ v = v'.
Proof.
  revert n'. induction n as [|c n IH]; intros [|c' n']; simpl; intros E H1 H2.
  - inversion E. auto.
  - inversion E. subst. exfalso. auto.
  - inversion E. subst. exfalso. auto.
  - inversion E. subst. destruct (IH n') as [-> ->]; auto.
Qed.

(** An entry that the code takes. *)
Definition taken (s n v : str) : Prop := entry s n v /\ v <> [].

Definition add_entry (e : environment) (s : str) : environment :=
  match cut_equals s with
  | Some (n, v) => match n, v with [], _ | _, [] => e | _, _ => insert n v e end
  | None => e
  end.

Lemma from_list_snoc l s : from_list (l ++ [s]) = add_entry (from_list l) s.
Proof. unfold from_list. rewrite fold_left_app. reflexivity. Qed.

Lemma entry_unique s n v n' v' : entry s n v -> entry s n' v' -> n = n' /\ v = v'.
Proof.
  intros (E & H1 & _) (E' & H1' & _). apply cut_unique; auto. exact (eq_trans (eq_sym E) E').
Qed.

Lemma add_entry_spec e s :
  (exists n v, taken s n v /\ add_entry e s = insert n v e)
  \/ ((forall n v, ~ taken s n v) /\ add_entry e s = e).
Proof.
  unfold add_entry. pose proof (cut_equals_spec s) as C. destruct (cut_equals s) as [[n v]|].
  - destruct C as [-> C]. destruct n as [|c n].
    + right. split; [|reflexivity]. intros n' v' [(E & H1 & H2) _].
      destruct (cut_unique [] v n' v') as [<- _]; auto.
    + destruct v as [|d v].
      * right. split; [|reflexivity]. intros n' v' [(E & H1 & H2) H3].
        destruct (cut_unique (c :: n) [] n' v') as [_ <-]; auto.
      * left. exists (c :: n), (d :: v). split; [|reflexivity].
        split; [|discriminate]. split; [reflexivity|]. split; [exact C|discriminate].
  - right. split; [|reflexivity]. intros n v [(-> & _) _]. apply C.
    apply in_or_app. right. left. reflexivity.
Qed.

Lemma from_list_spec l n :
  match get (from_list l) n with
  | Some v => exists l1 s l2, l = l1 ++ s :: l2 /\ taken s n v /\ forall s' v', In s' l2 -> ~ taken s' n v'
  | None => forall s v, In s l -> ~ taken s n v
  end.
Proof.
  induction l as [|s l IH] using rev_ind; [simpl; auto|].
  rewrite from_list_snoc.
  destruct (add_entry_spec (from_list l) s) as [(m & w & T & ->)|[T ->]].
  - rewrite get_insert. destruct (str_eqb m n) eqn:E.
    + apply str_eqb_eq in E. subst m. exists l, s, []. split; [reflexivity|]. split; [exact T|].
      intros s' v' [].
    + assert (Q : forall v', ~ taken s n v').
      { intros v' [T' _]. destruct T as [T _]. destruct (entry_unique _ _ _ _ _ T T') as [-> _].
        rewrite str_eqb_refl in E. discriminate. }
      destruct (get (from_list l) n) as [v|].
      * destruct IH as (l1 & s1 & l2 & -> & T1 & N1). exists l1, s1, (l2 ++ [s]).
        split; [rewrite <- app_assoc; reflexivity|]. split; [exact T1|].
        intros s' v' I1. apply in_app_or in I1. destruct I1 as [I1|[<-|[]]]; [apply N1; auto|apply Q].
      * intros s' v' I1. apply in_app_or in I1. destruct I1 as [I1|[<-|[]]]; [apply IH; auto|apply Q].
  - destruct (get (from_list l) n) as [v|].
    + destruct IH as (l1 & s1 & l2 & -> & T1 & N1). exists l1, s1, (l2 ++ [s]).
      split; [rewrite <- app_assoc; reflexivity|]. split; [exact T1|].
      intros s' v' I1. apply in_app_or in I1. destruct I1 as [I1|[<-|[]]]; [apply N1; auto|apply T].
    + intros s' v' I1. apply in_app_or in I1. destruct I1 as [I1|[<-|[]]]; [apply IH; auto|apply T].
Qed.

Lemma from_list_nodup l : NoDup (List.map fst (from_list l)).
Proof.
  induction l as [|s l IH] using rev_ind; [constructor|]. rewrite from_list_snoc.
  destruct (add_entry_spec (from_list l) s) as [(m & w & T & ->)|[T ->]]; auto.
  apply nodup_insert. auto.
Qed.

Lemma get_in e n v : get e n = Some v -> In (n, v) e.
Proof.
  induction e as [|[m w] e IH]; simpl; [discriminate|].
  destruct (str_eqb m n) eqn:E; intro H.
  - apply str_eqb_eq in E. inversion H. subst. auto.
  - auto.
Qed.

Lemma in_get e n v : NoDup (List.map fst e) -> In (n, v) e -> get e n = Some v.
Proof.
  induction e as [|[m w] e IH]; simpl; [intros _ []|].
  intros H [E|H1].
  - inversion E. subst. rewrite str_eqb_refl. reflexivity.
  - inversion H as [|? ? A1 A2]; subst. destruct (str_eqb m n) eqn:E; [|auto].
    apply str_eqb_eq in E. subst. exfalso. apply A1. apply in_map_iff. exists (n, v). auto.
Qed.

Lemma get_none e n : get e n = None <-> ~ In n (List.map fst e).
Proof.
  induction e as [|[m w] e IH]; simpl; [tauto|].
  destruct (str_eqb m n) eqn:E.
  - apply str_eqb_eq in E. subst. split; [discriminate|]. intro H. exfalso. auto.
  - assert (m <> n) by (intros ->; rewrite str_eqb_refl in E; discriminate). tauto.
Qed.

Definition merged_value (base : environment) (n v : str) : str :=
  if existsb (str_eqb n) path_variables
  then match value base n with [] => v | old => v ++ 58%N :: old end else v.

Definition merge_into (base e added : environment) : environment :=
  fold_left (fun e entry => let '(n, v) := entry in
    let v := if existsb (str_eqb n) path_variables
             then match value base n with [] => v | old => v ++ 58%N :: old end
             else v in insert n v e) added e.

Lemma merge_into_get base added n : forall e, NoDup (List.map fst added) ->
  get (merge_into base e added) n =
  match get added n with Some v => Some (merged_value base n v) | None => get e n end.
Proof.
  induction added as [|[m w] added IH]; intros e H; [reflexivity|].
  inversion H as [|? ? A1 A2]; subst.
  change (merge_into base e ((m, w) :: added)) with (merge_into base (insert m (merged_value base m w) e) added).
  rewrite IH by exact A2. simpl get at 3. rewrite get_insert.
  destruct (str_eqb m n) eqn:E; [|reflexivity].
  apply str_eqb_eq in E. subst.
  assert (Q : get added n = None) by (apply get_none; exact A1). rewrite Q. reflexivity.
Qed.

Lemma merge_into_nodup base added : forall e,
  NoDup (List.map fst e) -> NoDup (List.map fst (merge_into base e added)).
Proof.
  induction added as [|[m w] added IH]; intros e H; [exact H|].
  apply IH. apply nodup_insert. exact H.
Qed.

Lemma path_variables_spec n : existsb (str_eqb n) path_variables = true <-> search_path n.
Proof.
  unfold search_path. rewrite existsb_exists. split.
  - intros (m & I1 & E). apply str_eqb_eq in E. subst m. exact I1.
  - intro I1. exists n. split; [exact I1|apply str_eqb_refl].
Qed.

Lemma merged_combined base n v : combined base n v (merged_value base n v).
Proof.
  unfold combined, merged_value. rewrite value_get.
  destruct (existsb (str_eqb n) path_variables) eqn:P.
  - apply path_variables_spec in P. destruct (get base n) as [[|c old]|].
    + right. auto.
    + left. split; [exact P|]. exists (c :: old). split; [reflexivity|]. split; [discriminate|reflexivity].
    + right. auto.
  - right. split; [|reflexivity]. left. intro H. apply path_variables_spec in H. congruence.
Qed.

Lemma two_places {A : Type} (l1 : list A) : forall x l2 k1 y k2,
  l1 ++ x :: l2 = k1 ++ y :: k2 -> x = y \/ In y l2 \/ In x k2.
Proof.
  induction l1 as [|a l1 IH]; intros x l2 [|b k1] y k2 E; simpl in E; inversion E; subst.
  - auto.
  - right. left. apply in_or_app. right. left. reflexivity.
  - right. right. apply in_or_app. right. left. reflexivity.
  - eapply IH. eassumption.
Qed.

(** C94. If every entry has a value, then a variable has the value of its last
    entry, search paths in front of those there are, and the other variables
    are as they were. *)
Theorem command_environment_partial base l :
  NoDup (List.map fst base) ->
  (forall s n, In s l -> ~ entry s n []) ->
  let e := merge base (from_list l) in
  NoDup (List.map fst e)
  /\ (forall n v, last_entry l n v -> exists w, get e n = Some w /\ combined base n v w)
  /\ (forall n, (forall s v, In s l -> ~ entry s n v) -> get e n = get base n).
Proof.
  intros B H e. subst e. change (merge base (from_list l)) with (merge_into base base (from_list l)).
  split; [apply merge_into_nodup; exact B|].
  assert (T : forall s n v, In s l -> entry s n v -> taken s n v).
  { intros s n v I1 E. split; [exact E|]. intros ->. exact (H s n I1 E). }
  pose proof (from_list_nodup l) as ND.
  split; intros n.
  - intros v (l1 & s & l2 & L & E & LAST). rewrite merge_into_get by exact ND.
    pose proof (from_list_spec l n) as S1. destruct (get (from_list l) n) as [v0|].
    + destruct S1 as (k1 & s0 & k2 & L' & [E0 _] & LAST').
      assert (v0 = v).
      { destruct (two_places _ _ _ _ _ _ (eq_trans (eq_sym L) L')) as [G|[G|G]].
        - subst s0. destruct (entry_unique _ _ _ _ _ E E0) as [_ ->]. reflexivity.
        - exfalso. exact (LAST _ _ G E0).
        - exfalso. apply (LAST' s v G). apply T; [|exact E].
          rewrite L. apply in_or_app. right. left. reflexivity. }
      subst v0. exists (merged_value base n v). split; [reflexivity|apply merged_combined].
    + exfalso. apply (S1 s v).
      * rewrite L. apply in_or_app. right. left. reflexivity.
      * apply T; [|exact E]. rewrite L. apply in_or_app. right. left. reflexivity.
  - intro NO. rewrite merge_into_get by exact ND.
    pose proof (from_list_spec l n) as S1. destruct (get (from_list l) n) as [v0|]; [|reflexivity].
    destruct S1 as (k1 & s0 & k2 & L' & [E0 _] & _). exfalso. apply (NO s0 v0); [|exact E0].
    rewrite L'. apply in_or_app. right. left. reflexivity.
Qed.

(** An entry with an empty value does not make the variable empty: it is not
    looked at. *)
Theorem command_environment_refuted :
  exists base l n v w, NoDup (List.map fst base) /\ last_entry l n v
    /\ get (merge base (from_list l)) n = Some w /\ ~ combined base n v w.
Proof.
  exists [(txt "CCACHE", txt "on")], [txt "CCACHE="], (txt "CCACHE"), [], (txt "on").
  split; [|split; [|split]].
  - simpl. constructor; [intros []|constructor].
  - exists [], (txt "CCACHE="), []. split; [reflexivity|]. split; [|intros ? ? []].
    split; [reflexivity|]. split; [|discriminate]. intro H. vm_compute in H. intuition discriminate.
  - vm_compute. reflexivity.
  - intros [(_ & old & G & _ & W)|[_ W]]; [|discriminate].
    vm_compute in G. inversion G. subst old. vm_compute in W. discriminate.
Qed.

(** * The program *)

Lemma ends_spec d : ends_in_slash d = true <-> exists d' c, d = d' ++ [c] /\ (c = 47%N \/ c = 92%N).
Proof.
  unfold ends_in_slash. split.
  - destruct (rev d) as [|c r] eqn:R; [discriminate|].
    intro H. apply orb_true_iff in H. rewrite !N.eqb_eq in H. exists (rev r), c. split; [|exact H].
    rewrite <- (rev_involutive d), R. reflexivity.
  - intros (d' & c & -> & H). rewrite rev_app_distr. simpl.
    destruct H as [->| ->]; reflexivity.
Qed.

Lemma in_dir_spec wd d program f : in_dir (place wd d) program f <-> f = directory wd d ++ program.
Proof.
  unfold directory. change (if str_eqb d [46%N] then wd else d) with (place wd d).
  set (p := place wd d). clearbody p. unfold in_dir. destruct p as [|c0 p0] eqn:P.
  - simpl. split.
    + intros [[_ ->]|[(d' & c & E & _)|(d' & c & E & _)]]; [reflexivity| |]; destruct d'; discriminate.
    + intros ->. auto.
  - rewrite <- P in *. assert (NE : p <> []) by (rewrite P; discriminate). clear P c0 p0.
    destruct (exists_last NE) as (d0 & c1 & Q).
    destruct (ends_in_slash p) eqn:E.
    + pose proof (proj1 (ends_spec p) E) as (d' & c & X & Y). split.
      * intros [[Z _]|[(d'' & c'' & X' & Y' & ->)|(d'' & c'' & X' & Y' & Y'' & _)]]; [congruence|reflexivity|].
        rewrite X in X'. apply app_inj_tail in X'. destruct X' as [_ <-]. destruct Y; contradiction.
      * intros ->. right. left. exists d', c. auto.
    + split.
      * intros [[Z _]|[(d'' & c'' & X' & Y' & ->)|(d'' & c'' & X' & Y' & Y'' & ->)]].
        -- congruence.
        -- assert (ends_in_slash p = true) by (apply ends_spec; eauto). congruence.
        -- rewrite <- app_assoc. reflexivity.
      * intros ->. right. right. exists d0, c1. split; [exact Q|].
        assert (Z : c1 = 47%N \/ c1 = 92%N -> False).
        { intro Z. assert (ends_in_slash p = true) by (apply ends_spec; eauto). congruence. }
        split; [auto|]. split; [auto|]. rewrite <- app_assoc. reflexivity.
Qed.

Lemma candidate_unix executable d program :
  candidate Unix executable d program = if executable (d ++ program) then Some (d ++ program) else None.
Proof. unfold candidate. simpl. rewrite app_nil_r. reflexivity. Qed.

Lemma search_right executable wd program : forall dirs,
  right_program executable dirs wd program (search Unix executable wd dirs program).
Proof.
  induction dirs as [|d dirs IH]; simpl.
  - right. split; [reflexivity|]. intros ? ? [].
  - rewrite candidate_unix. destruct (executable (directory wd d ++ program)) eqn:X.
    + left. exists [], d, dirs. split; [reflexivity|].
      split; [apply in_dir_spec; reflexivity|]. split; [exact X|]. intros ? ? [].
    + assert (Q : forall f', in_dir (place wd d) program f' -> executable f' = false).
      { intros f' I1. apply in_dir_spec in I1. subst. exact X. }
      destruct IH as [(d1 & d0 & d2 & -> & I1 & E1 & N1)|[E1 N1]].
      * left. exists (d :: d1), d0, d2. split; [reflexivity|]. split; [exact I1|]. split; [exact E1|].
        intros d' f' [<-|I2]; eauto.
      * right. split; [exact E1|]. intros d' f' [<-|I2]; eauto.
Qed.

Lemma split_word : forall d cur rest, ~ In 58%N d ->
  split_path 58 cur (d ++ rest) = split_path 58 (rev d ++ cur) rest.
Proof.
  induction d as [|c d IH]; intros cur rest H; [reflexivity|]. simpl.
  destruct (N.eqb_spec c 58) as [->|NE]; [exfalso; apply H; left; reflexivity|].
  rewrite IH; [|intro; apply H; right; auto]. f_equal. rewrite <- app_assoc. reflexivity.
Qed.

Lemma split_joined : forall dirs, (forall d, In d dirs -> d <> [] /\ ~ In 58%N d) ->
  split_path 58 [] (joined 58 dirs) = dirs.
Proof.
  induction dirs as [|d dirs IH]; intro H; [reflexivity|].
  assert (D : d <> [] /\ ~ In 58%N d) by (apply H; left; reflexivity).
  destruct D as [D1 D2].
  assert (R : forall (X : list str -> list str) (Y : list str), match rev d with [] => Y | _ => X [rev (rev d)] end = X [d]).
  { intros X Y. rewrite rev_involutive. destruct (rev d) as [|c r] eqn:R; [|reflexivity].
    exfalso. apply D1. rewrite <- (rev_involutive d), R. reflexivity. }
  destruct dirs as [|d2 dirs].
  - change (joined 58 [d]) with d. rewrite <- (app_nil_r d) at 1. rewrite split_word by exact D2.
    rewrite app_nil_r. simpl. apply (R (fun x => x)).
  - change (joined 58 (d :: d2 :: dirs)) with (d ++ 58%N :: joined 58 (d2 :: dirs)).
    rewrite split_word by exact D2. rewrite app_nil_r. cbn [split_path].
    rewrite N.eqb_refl. rewrite IH by (intros; apply H; right; auto).
    apply (R (fun x => x ++ d2 :: dirs)).
Qed.

Lemma find_in_path_spec executable path cache program wd f cache' :
  find_in_path Unix executable path cache program wd = (f, cache') ->
  (get cache program = Some f /\ f <> [] /\ cache' = cache)
  \/ ((get cache program = None \/ get cache program = Some [])
      /\ f = search Unix executable wd (path_dirs Unix path) program /\ cache' = insert program f cache).
Proof.
  unfold find_in_path. rewrite value_get.
  destruct (get cache program) as [[|c g]|]; intro H; inversion H; subst; auto.
  left. split; [reflexivity|]. split; [discriminate|reflexivity].
Qed.

(** C95. If the files stay as they are, and a program is always looked for in
    the same working directory, or the working directory is not in PATH, then
    every command gets the right program. *)
Theorem right_programs_partial executable dirs l :
  (forall d, In d dirs -> d <> [] /\ ~ In 58%N d) ->
  (In (txt ".") dirs -> forall program wd wd', In (program, wd) l -> In (program, wd') l -> wd = wd') ->
  Forall2 (fun q f => right_program executable dirs (snd q) (fst q) f)
          l (lookups executable (joined 58 dirs) [] l).
Proof.
  intros D SAME.
  assert (PLACE : forall program wd wd', In (program, wd) l -> In (program, wd') l ->
            forall d, In d dirs -> place wd d = place wd' d).
  { intros program wd wd' I1 I2 d I3. unfold place. destruct (str_eqb d (txt ".")) eqn:E; [|reflexivity].
    apply str_eqb_eq in E. subst. eauto. }
  assert (RIGHT : forall program wd wd' f, In (program, wd) l -> In (program, wd') l ->
            right_program executable dirs wd program f -> right_program executable dirs wd' program f).
  { intros program wd wd' f I1 I2 [(d1 & d & d2 & E & J & X & N1)|[E N1]].
    - left. exists d1, d, d2. split; [exact E|].
      assert (I3 : In d dirs) by (rewrite E; apply in_or_app; right; left; reflexivity).
      rewrite <- (PLACE _ _ _ I1 I2 d I3). split; [exact J|]. split; [exact X|].
      intros d' f' I4. rewrite <- (PLACE _ _ _ I1 I2 d'); [apply N1; exact I4|].
      rewrite E. apply in_or_app. left. exact I4.
    - right. split; [exact E|]. intros d' f' I3. rewrite <- (PLACE _ _ _ I1 I2 d' I3). apply N1. exact I3. }
  assert (G : forall k cache, incl k l ->
    (forall program f, get cache program = Some f -> exists wd, In (program, wd) l /\ right_program executable dirs wd program f) ->
    Forall2 (fun q f => right_program executable dirs (snd q) (fst q) f) k (lookups executable (joined 58 dirs) cache k)).
  { induction k as [|[program wd] k IH]; intros cache INC C; [constructor|].
    cbn [lookups]. destruct (find_in_path Unix executable (joined 58 dirs) cache program wd) as [f cache'] eqn:F.
    assert (I0 : In (program, wd) l) by (apply INC; left; reflexivity).
    assert (INC' : incl k l) by (intros x H; apply INC; right; exact H).
    destruct (find_in_path_spec _ _ _ _ _ _ _ F) as [(G1 & _ & ->)|(_ & -> & ->)].
    - constructor; [|apply IH; auto]. simpl. destruct (C _ _ G1) as (wd' & I1 & R). eauto.
    - assert (R : right_program executable dirs wd program (search Unix executable wd (path_dirs Unix (joined 58 dirs)) program)).
      { unfold path_dirs. rewrite split_joined by exact D. apply search_right. }
      constructor; [exact R|]. apply IH; [exact INC'|].
      intros p g. rewrite get_insert. destruct (str_eqb program p) eqn:E; [|apply C].
      apply str_eqb_eq in E. subst p. intro H. inversion H. subst g. exists wd. auto. }
  apply G; [apply incl_refl|]. intros ? ? H. discriminate.
Qed.

(** The cache does not look at the working directory: with it in PATH, a second
    command gets the program of the first one. *)
Theorem other_working_directory_refuted :
  exists executable dirs l, (forall d, In d dirs -> d <> [] /\ ~ In 58%N d) /\
    ~ Forall2 (fun q f => right_program executable dirs (snd q) (fst q) f)
          l (lookups executable (joined 58 dirs) [] l).
Proof.
  exists (fun f => str_eqb f (txt "/a/gen") || str_eqb f (txt "/b/gen")), [txt "."],
    [(txt "gen", txt "/a"); (txt "gen", txt "/b")].
  split.
  - intros d [<-|[]]. split; [discriminate|]. intro H. vm_compute in H. intuition discriminate.
  - intro H. vm_compute in H. inversion H as [|? ? ? ? _ H1]; subst. inversion H1 as [|? ? ? ? H2 _]; subst.
    cbn [fst snd] in H2.
    destruct H2 as [(d1 & d & d2 & E & J & _ & _)|[E _]]; [|vm_compute in E; discriminate].
    destruct d1 as [|x d1]; [|destruct d1; discriminate]. inversion E. subst.
    apply (proj1 (in_dir_spec (txt "/b") (txt ".") (txt "gen") _)) in J. vm_compute in J. discriminate.
Qed.

(** A program that was not there and is installed while the session lives is
    not found: what was looked for and not found is remembered too. *)
Theorem installed_later_refuted :
  exists before after dirs program wd,
    let '(_, cache) := find_in_path Unix before (joined 58 dirs) [] program wd in
    let '(f, _) := find_in_path Unix after (joined 58 dirs) cache program wd in
    ~ right_program after dirs wd program f.
Proof.
  exists (fun _ => false), (fun f => str_eqb f (txt "/bin/gen")), [txt "/bin"], (txt "gen"), (txt "/a").
  vm_compute find_in_path. intros [(d1 & d & d2 & E & J & X & _)|[_ N1]].
  - vm_compute in X. discriminate.
  - specialize (N1 (txt "/bin") (txt "/bin/gen") (or_introl eq_refl)).
    assert (J : in_dir (place (txt "/a") (txt "/bin")) (txt "gen") (txt "/bin/gen")) by (apply in_dir_spec; reflexivity).
    specialize (N1 J). vm_compute in N1. discriminate.
Qed.

(** * Arguments *)

Lemma white_values c : white c = true -> N.eqb c 92 = false /\ N.eqb c 39 = false /\ N.eqb c 34 = false.
Proof.
  unfold white. intro H. apply orb_true_iff in H. rewrite andb_true_iff, N.eqb_eq, !N.leb_le in H.
  rewrite !N.eqb_neq. lia.
Qed.

Lemma ordinary_char c : is_special unix_quoted_chars c = false ->
  N.eqb c 92 = false /\ N.eqb c 39 = false /\ N.eqb c 34 = false /\ white c = false.
Proof.
  intro H.
  assert (forall k, is_special unix_quoted_chars k = true -> c <> k) as K by (intros k E ->; congruence).
  rewrite !N.eqb_neq. split; [|split; [|split]].
  - apply K. reflexivity.
  - apply K. reflexivity.
  - apply K. reflexivity.
  - unfold white. apply not_true_is_false. intro W. apply orb_true_iff in W.
    rewrite andb_true_iff, N.eqb_eq, !N.leb_le in W.
    assert (c = 32 \/ c = 9 \/ c = 10 \/ c = 11 \/ c = 12 \/ c = 13)%N as [E|[E|[E|[E|[E|E]]]]] by lia;
      revert E; apply K; reflexivity.
Qed.

Definition app_cur (cur : option str) (s : str) : option str :=
  match cur with Some w => Some (w ++ s) | None => match s with [] => None | _ => Some s end end.

Lemma words_ordinary raw : forall a cur rest, (forall c, In c a -> is_special unix_quoted_chars c = false) ->
  words raw None cur (a ++ rest) = words raw None (app_cur cur a) rest.
Proof.
  induction a as [|c a IH]; intros cur rest H.
  - destruct cur as [w|]; simpl; [rewrite app_nil_r|]; reflexivity.
  - destruct (ordinary_char c (H c (or_introl eq_refl))) as (E1 & E2 & E3 & E4).
    cbn [List.app words]. rewrite E1, E2, E3, E4. cbn [andb orb].
    rewrite IH by (intros; apply H; right; auto). f_equal.
    destruct cur as [w|]; simpl; [rewrite <- app_assoc|]; reflexivity.
Qed.

Lemma words_quoted_part raw : forall a w rest, (raw = true \/ ~ In 92%N a) ->
  words raw (Some 39%N) (Some w) (escape_single a ++ rest) = words raw (Some 39%N) (Some (w ++ a)) rest.
Proof.
  induction a as [|c a IH]; intros w rest H.
  - simpl. rewrite app_nil_r. reflexivity.
  - assert (H' : raw = true \/ ~ In 92%N a) by (destruct H as [H|H]; [auto|right; intro; apply H; right; auto]).
    assert (NB : N.eqb c 92 && negb (raw && true) = false).
    { destruct H as [->|H]; [apply andb_false_r|].
      destruct (N.eqb_spec c 92) as [->|_]; [exfalso; apply H; left; reflexivity|reflexivity]. }
    change (escape_single (c :: a)) with ((if N.eqb c 39 then [39; 92; 39; 39]%N else [c]) ++ escape_single a).
    rewrite <- app_assoc. destruct (N.eqb c 39) eqn:Q.
    + apply N.eqb_eq in Q. subst c.
      assert (STEP : words raw (Some 39%N) (Some w) ([39; 92; 39; 39]%N ++ escape_single a ++ rest)
                     = words raw (Some 39%N) (Some (w ++ [39%N])) (escape_single a ++ rest)).
      { destruct raw; reflexivity. }
      rewrite STEP, IH by exact H'. rewrite <- app_assoc. reflexivity.
    + assert (STEP : words raw (Some 39%N) (Some w) ([c] ++ escape_single a ++ rest)
                     = words raw (Some 39%N) (Some (w ++ [c])) (escape_single a ++ rest)).
      { cbn [List.app words]. change (N.eqb 39 39) with true. rewrite NB, Q. reflexivity. }
      rewrite STEP, IH by exact H'. rewrite <- app_assoc. reflexivity.
Qed.

Lemma words_quote raw a rest : (raw = true \/ ~ In 92%N a) ->
  words raw None None (quote_unix a ++ rest) = words raw None (Some a) rest.
Proof.
  intro H. unfold quote_unix. destruct a as [|c a].
  - destruct raw; reflexivity.
  - destruct (has_special unix_quoted_chars (c :: a)) eqn:HS.
    + change ((39%N :: escape_single (c :: a) ++ [39%N]) ++ rest)
        with (39%N :: (escape_single (c :: a) ++ [39%N]) ++ rest).
      rewrite <- app_assoc.
      change (words raw None None (39%N :: escape_single (c :: a) ++ [39%N] ++ rest))
        with (words raw (Some 39%N) (Some []) (escape_single (c :: a) ++ [39%N] ++ rest)).
      rewrite words_quoted_part by exact H. destruct raw; reflexivity.
    + rewrite words_ordinary; [reflexivity|].
      intros d I1. apply not_true_is_false. intro T. apply not_true_iff_false in HS. apply HS.
      unfold has_special. apply existsb_exists. exists d. split; [apply -> in_rev; exact I1|exact T].
Qed.

Lemma words_blank raw sep rest : (forall c, In c sep -> white c = true) ->
  words raw None None (sep ++ rest) = words raw None None rest.
Proof.
  induction sep as [|c sep IH]; intro H; [reflexivity|].
  assert (W : white c = true) by (apply H; left; reflexivity).
  destruct (white_values c W) as (E1 & E2 & E3).
  cbn [List.app words]. rewrite E1, E2, E3, W. cbn [andb orb].
  apply IH. intros; apply H; right; auto.
Qed.

Lemma words_end raw sep a rest : blank sep ->
  words raw None (Some a) (sep ++ rest) = a :: words raw None None rest.
Proof.
  intros [NE H]. destruct sep as [|c sep]; [contradiction|].
  assert (W : white c = true) by (apply H; left; reflexivity).
  destruct (white_values c W) as (E1 & E2 & E3).
  cbn [List.app words]. rewrite E1, E2, E3, W. cbn [andb orb]. f_equal.
  apply words_blank. intros; apply H; right; auto.
Qed.

Lemma starts_skip prefix a : starts_with prefix a = true -> a = prefix ++ skipn (length prefix) a.
Proof.
  revert a. induction prefix as [|c prefix IH]; intros [|d a]; simpl; intro H; try discriminate; auto.
  apply andb_true_iff in H. destruct H as [E H]. apply N.eqb_eq in E. subst. f_equal. auto.
Qed.

Lemma starts_app prefix s : starts_with prefix (prefix ++ s) = true.
Proof. induction prefix as [|c p IH]; simpl; [reflexivity|]. rewrite N.eqb_refl. exact IH. Qed.

Lemma skip_app (prefix s : str) : skipn (length prefix) (prefix ++ s) = s.
Proof. induction prefix as [|c p IH]; simpl; auto. Qed.

Lemma expands_app raw files prefix l1 o1 l2 o2 :
  expands raw files prefix l1 o1 -> expands raw files prefix l2 o2 ->
  expands raw files prefix (l1 ++ l2) (o1 ++ o2).
Proof.
  induction 1 as [|a r out NF E IH|f t r out F E IH]; intro H2; simpl; auto.
  - apply Ordinary; auto.
  - eapply FromFile; [exact F|]. rewrite app_assoc. auto.
Qed.

Lemma expands_split raw files prefix l out :
  expands raw files prefix l out -> forall l1 l2, l = l1 ++ l2 ->
  exists o1 o2, out = o1 ++ o2 /\ expands raw files prefix l1 o1 /\ expands raw files prefix l2 o2.
Proof.
  induction 1 as [|a r out NF E IH|f t r out F E IH]; intros l1 l2 L.
  - destruct l1; [|discriminate]. simpl in L. subst. exists [], []. split; [reflexivity|]. split; constructor.
  - destruct l1 as [|b l1]; simpl in L.
    + subst. exists [], (a :: out). split; [reflexivity|]. split; [constructor|]. apply Ordinary; auto.
    + inversion L. subst. destruct (IH l1 l2 eq_refl) as (o1 & o2 & -> & E1 & E2).
      exists (b :: o1), o2. split; [reflexivity|]. split; [apply Ordinary; auto|exact E2].
  - destruct l1 as [|b l1]; simpl in L.
    + subst. exists [], out. split; [reflexivity|]. split; [constructor|]. eapply FromFile; eauto.
    + inversion L. subst. destruct (IH (read_words raw t ++ l1) l2 (app_assoc _ _ _)) as (o1 & o2 & -> & E1 & E2).
      exists o1, o2. split; [reflexivity|]. split; [eapply FromFile; eauto|exact E2].
Qed.

Lemma expands_more raw files prefix temp content l out :
  expands raw files prefix l out -> files temp = None -> ~ In (prefix ++ temp) out ->
  expands raw (with_file files temp content) prefix l out.
Proof.
  intros H NT. induction H as [|a r out NF E IH|f t r out F E IH]; intro NI.
  - constructor.
  - apply Ordinary; [|apply IH; intro; apply NI; right; auto].
    intros f t -> W. unfold with_file in W. destruct (str_eqb f temp) eqn:Q.
    + apply str_eqb_eq in Q. subst. apply NI. left. reflexivity.
    + exact (NF f t eq_refl W).
  - apply FromFile with (t := t); [|auto]. unfold with_file.
    destruct (str_eqb f temp) eqn:Q; [|exact F]. apply str_eqb_eq in Q. subst. congruence.
Qed.

Lemma content_expands raw files prefix sep : blank sep -> forall args content,
  (forall a, In a args -> starts_with prefix a = false -> raw = true \/ ~ In 92%N a) ->
  (forall f t, In (prefix ++ f) args -> files f = Some t -> complete raw t) ->
  content_of Unix files prefix sep args = inl content ->
  forall out, expands raw files prefix args out -> expands raw files prefix (read_words raw content) out.
Proof.
  intros B. induction args as [|a args IH]; intros content NB CL H out EX.
  - simpl in H. inversion H. subst. exact EX.
  - cbn [content_of] in H.
    assert (IH' : forall rest, content_of Unix files prefix sep args = inl rest ->
              forall out, expands raw files prefix args out -> expands raw files prefix (read_words raw rest) out).
    { intros rest R out'. apply IH; [intros; apply NB; [right; auto|auto]|intros; eapply CL; [right; eauto|eauto]|exact R]. }
    destruct (starts_with prefix a) eqn:ST.
    + pose proof (starts_skip _ _ ST) as A0. set (f := skipn (length prefix) a) in *. clearbody f. subst a.
      destruct (files f) as [t|] eqn:F; [|discriminate].
      destruct (content_of Unix files prefix sep args) as [rest|] eqn:C; [|discriminate].
      inversion H. subst content. clear H.
      destruct B as [NE W]. destruct sep as [|c sep]; [contradiction|].
      change (t ++ (c :: sep) ++ rest) with (t ++ c :: (sep ++ rest)).
      rewrite (CL f t (or_introl eq_refl) F c (sep ++ rest) (W c (or_introl eq_refl))).
      unfold read_words at 2. rewrite words_blank by (intros; apply W; right; auto).
      inversion EX as [|? ? ? NF E|f' t' ? ? F' E]; subst.
      * exfalso. exact (NF f t eq_refl F).
      * match goal with Q : prefix ++ _ = prefix ++ _ |- _ => apply app_inv_head in Q; subst end.
        rewrite F in F'. inversion F'. subst t'.
        destruct (expands_split _ _ _ _ _ E _ _ eq_refl) as (o1 & o2 & -> & E1 & E2).
        apply expands_app; [exact E1|]. apply IH'; auto.
    + destruct (content_of Unix files prefix sep args) as [rest|] eqn:C; [|discriminate].
      inversion H. subst content. clear H. unfold read_words. cbn [quote].
      rewrite words_quote by (apply NB; [left; reflexivity|exact ST]).
      rewrite words_end by exact B.
      inversion EX as [|? ? ? NF E|f' t' ? ? F' E]; subst.
      * apply Ordinary; [exact NF|]. apply (IH' rest eq_refl). exact E.
      * rewrite starts_app in ST. discriminate.
Qed.

(** C96. On Unix, with white space between the arguments, and no backslashes in
    them unless the tool reads single quotes like a shell: a tool sees the same
    arguments with the response file of qbs and with the full command line. *)
Theorem response_file_partial raw files temp c args content out :
  blank (c_separator c) ->
  (forall a, In a (c_args c) -> raw = true \/ ~ In 92%N a) ->
  (forall f t, files f = Some t -> complete raw t) ->
  files temp = None -> ~ In (c_prefix c ++ temp) out ->
  start_of Unix files temp c = Response args content ->
  expands raw files (c_prefix c) (c_args c) out ->
  expands raw (with_file files temp content) (c_prefix c) args out.
Proof.
  intros B NB CL NT NI ST EX. unfold start_of in ST.
  destruct (c_prefix c) as [|p0 p] eqn:P; [discriminate|]. rewrite <- P in *.
  destruct ((0 <=? c_threshold c)%Z && _); [|discriminate].
  destruct (content_of Unix files (c_prefix c) (c_separator c) (skipn (c_index c) (c_args c))) as [k|] eqn:C; [|discriminate].
  inversion ST. subst args content. cbn [native].
  apply expands_more with (temp := temp) (content := k) in EX; [|exact NT|exact NI].
  destruct (expands_split _ _ _ _ _ EX (firstn (c_index c) (c_args c)) (skipn (c_index c) (c_args c))) as (o1 & o2 & -> & E1 & E2);
    [symmetry; apply firstn_skipn|].
  apply expands_app; [exact E1|].
  apply FromFile with (t := k); [unfold with_file; rewrite str_eqb_refl; reflexivity|].
  rewrite app_nil_r.
  (* the file that was written is not among those that were read *)
  assert (SUB : forall a, In a (skipn (c_index c) (c_args c)) -> In a (c_args c)).
  { intros a I1. rewrite <- (firstn_skipn (c_index c) (c_args c)). apply in_or_app. right. exact I1. }
  assert (EQ : forall l k', content_of Unix files (c_prefix c) (c_separator c) l = inl k' ->
               content_of Unix (with_file files temp k) (c_prefix c) (c_separator c) l = inl k').
  { induction l as [|a l IH]; intros k' H; [exact H|]. cbn [content_of] in *.
    destruct (starts_with (c_prefix c) a).
    - unfold with_file at 1. destruct (str_eqb (skipn (length (c_prefix c)) a) temp) eqn:Q.
      + apply str_eqb_eq in Q. rewrite Q, NT in H. discriminate.
      + destruct (files (skipn (length (c_prefix c)) a)); [|discriminate].
        destruct (content_of Unix files (c_prefix c) (c_separator c) l) as [r|] eqn:R; [|discriminate].
        rewrite (IH r eq_refl). exact H.
    - destruct (content_of Unix files (c_prefix c) (c_separator c) l) as [r|] eqn:R; [|discriminate].
      rewrite (IH r eq_refl). exact H. }
  apply content_expands with (sep := c_separator c) (args := skipn (c_index c) (c_args c)); auto.
  intros f t I1 F. unfold with_file in F. destruct (str_eqb f temp) eqn:Q; [|eauto].
  exfalso. apply str_eqb_eq in Q. subst f.
  clear - C I1 NT. revert k C. induction (skipn (c_index c) (c_args c)) as [|a l IH]; intros k C; [destruct I1|].
  cbn [content_of] in C. destruct I1 as [->|I1].
  - rewrite starts_app, skip_app, NT in C. discriminate.
  - destruct (if starts_with (c_prefix c) a then _ else _); [|discriminate].
    destruct (content_of Unix files (c_prefix c) (c_separator c) l) as [r|]; [|discriminate].
    exact (IH I1 r eq_refl).
Qed.

(** The rest of C96: without a response file the arguments are those of the
    command, and it is used just for long command lines. *)
Theorem response_file_used o read temp c :
  (forall args, start_of o read temp c = Plain args -> args = c_args c)
  /\ ((exists args, start_of o read temp c = Plain args) <->
      (c_prefix c = [] \/ c_threshold c < 0
       \/ Z.of_nat (length (quote_command o (native o (c_program c)) (c_args c))) <= c_threshold c)%Z).
Proof.
  unfold start_of. destruct (c_prefix c) as [|p0 p] eqn:P.
  - split; [intros args H; inversion H; reflexivity|]. split; [auto|eauto].
  - rewrite <- P. destruct ((0 <=? c_threshold c)%Z && _) eqn:T.
    + apply andb_true_iff in T. rewrite Z.leb_le, Z.ltb_lt in T.
      destruct (content_of _ _ _ _ _) as [k|f].
      * split; [discriminate|]. split; [intros (? & H); discriminate|].
        rewrite P. intros [H|H]; [discriminate|lia].
      * split; [discriminate|]. split; [intros (? & H); discriminate|].
        rewrite P. intros [H|H]; [discriminate|lia].
    + apply andb_false_iff in T. rewrite Z.leb_gt, Z.ltb_ge in T.
      split; [intros args H; inversion H; reflexivity|]. split; [intros _; right; lia|eauto].
Qed.

(** With a tool that reads quotes like GCC, a backslash of an argument is lost. *)
Theorem response_file_backslash_refuted :
  exists files temp c args content out,
    blank (c_separator c) /\ (forall f t, files f = Some t -> complete false t)
    /\ files temp = None /\ ~ In (c_prefix c ++ temp) out
    /\ start_of Unix files temp c = Response args content
    /\ expands false files (c_prefix c) (c_args c) out
    /\ ~ expands false (with_file files temp content) (c_prefix c) args out.
Proof.
  pose (c := Command (txt "gcc") [txt "-DNL=\n"] (txt "@") 0 0 (txt " ")).
  exists (fun _ => None), (txt "/tmp/r"), c, [txt "@/tmp/r"], (txt "'-DNL=\n' "), [txt "-DNL=\n"].
  split; [|split; [|split; [|split; [|split; [|split]]]]].
  - split; [discriminate|]. intros d [<-|[]]. reflexivity.
  - discriminate.
  - reflexivity.
  - intros [H|[]]. vm_compute in H. discriminate.
  - vm_compute. reflexivity.
  - apply Ordinary; [discriminate|constructor].
  - intro H. inversion H as [|a r out NF E|f t r out F E]; subst.
    vm_compute in F. inversion F. subst t. vm_compute in E.
    inversion E as [|a r out NF E'|f t r out F' E']; subst.
Qed.

(** Windows: the lines of the file are read with the rules of the C runtime. *)
Fixpoint lines (cur : str) (s : str) : list str :=
  match s with
  | [] => [cur]
  | c :: r => if N.eqb c 10 then cur :: lines [] r else lines (cur ++ [c]) r
  end.

Definition read_windows (s : str) : list str := flat_map (argv false 0 None) (lines [] s).

Lemma lines_app : forall a cur rest, ~ In 10%N a -> lines cur (a ++ 10%N :: rest) = (cur ++ a) :: lines [] rest.
Proof.
  induction a as [|c a IH]; intros cur rest H; simpl.
  - rewrite app_nil_r. reflexivity.
  - destruct (N.eqb_spec c 10) as [->|NE]; [exfalso; apply H; left; reflexivity|].
    rewrite IH by (intro; apply H; right; auto). rewrite <- app_assoc. reflexivity.
Qed.

Lemma carets_inside : forall s, ~ In 34%N s -> add_carets true s = (s, true).
Proof.
  induction s as [|c s IH]; intro H; [reflexivity|]. simpl.
  destruct (N.eqb_spec c 34) as [->|NE]; [exfalso; apply H; left; reflexivity|].
  rewrite IH by (intro; apply H; right; auto). reflexivity.
Qed.

Lemma in_backslashes c n : In c (backslashes n) -> c = 92%N.
Proof. intro H. apply repeat_spec in H. exact H. Qed.

Lemma escaped_no (k : N) : k <> 92%N -> forall s n, ~ In 34%N s -> ~ In k s -> ~ In k (escaped n s).
Proof.
  intro K. induction s as [|c s IH]; intros n H Hk I1; cbn [escaped] in I1.
  - apply in_backslashes in I1. contradiction.
  - assert (H' : ~ In 34%N s) by (intro; apply H; right; auto).
    assert (Hk' : ~ In k s) by (intro; apply Hk; right; auto).
    destruct (N.eqb_spec c 92) as [->|_]; [exact (IH _ H' Hk' I1)|].
    destruct (N.eqb_spec c 34) as [->|NE]; [exfalso; apply H; left; reflexivity|].
    apply in_app_or in I1. destruct I1 as [I1|[<-|I1]].
    + apply in_backslashes in I1. contradiction.
    + apply Hk. left. reflexivity.
    + exact (IH _ H' Hk' I1).
Qed.

Lemma quote_seen a : ~ In 34%N a -> ~ In 10%N a -> quote_win a = seen a /\ ~ In 10%N (quote_win a).
Proof.
  intros Q NL. unfold quote_win, seen. destruct a as [|c a].
  - split; [reflexivity|]. intro H. vm_compute in H. intuition discriminate.
  - destruct (has_special win_quoted_chars (c :: a)); [|split; [reflexivity|exact NL]].
    rewrite doubled_is_escaped by exact NL.
    rewrite carets_inside by (apply escaped_no; [discriminate|exact Q|exact Q]).
    split; [reflexivity|]. intros [H|H]; [discriminate|].
    apply in_app_or in H. destruct H as [H|[H|[]]]; [|discriminate].
    revert H. apply escaped_no; [discriminate|exact Q|exact NL].
Qed.

(** C96 for Windows, with one argument in a line, none of them with a double
    quote or a line break, and none that begins with the prefix. *)
Theorem response_file_windows_partial read temp c args content :
  c_separator c = [10%N] ->
  (forall a, In a (c_args c) -> ~ In 34%N a /\ ~ In 10%N a /\ forall f, a <> c_prefix c ++ f) ->
  start_of Windows read temp c = Response args content ->
  exists first, args = first ++ [native Windows (c_prefix c ++ temp)]
    /\ first ++ read_windows content = c_args c.
Proof.
  intros SEP OK ST. unfold start_of in ST.
  destruct (c_prefix c) as [|p0 p] eqn:P; [discriminate|]. rewrite <- P in *.
  destruct ((0 <=? c_threshold c)%Z && _); [|discriminate].
  destruct (content_of Windows read (c_prefix c) (c_separator c) (skipn (c_index c) (c_args c))) as [k|] eqn:C; [|discriminate].
  inversion ST. subst args content. exists (firstn (c_index c) (c_args c)). split; [reflexivity|].
  rewrite <- (firstn_skipn (c_index c) (c_args c)) at 2. f_equal.
  assert (SUB : forall a, In a (skipn (c_index c) (c_args c)) -> In a (c_args c)).
  { intros a I1. rewrite <- (firstn_skipn (c_index c) (c_args c)). apply in_or_app. right. exact I1. }
  rewrite SEP in C. clear ST. revert k C. 
  induction (skipn (c_index c) (c_args c)) as [|a l IH]; intros k C.
  - inversion C. reflexivity.
  - cbn [content_of] in C.
    destruct (OK a (SUB a (or_introl eq_refl))) as (Q & NL & NP).
    destruct (starts_with (c_prefix c) a) eqn:S1.
    { exfalso. apply (NP _ (starts_skip _ _ S1)). }
    destruct (content_of Windows read (c_prefix c) [10%N] l) as [r|]; [|discriminate].
    inversion C. subst k. cbn [quote].
    destruct (quote_seen a Q NL) as [E NL'].
    unfold read_windows. change (quote_win a ++ [10%N] ++ r) with (quote_win a ++ 10%N :: r).
    rewrite lines_app by exact NL'. cbn [flat_map List.app]. rewrite E.
    pose proof (argv_seen a [] Logic.I) as V. rewrite app_nil_r in V. rewrite V. cbn [argv add backslashes repeat].
    rewrite app_nil_r. cbn [List.app]. f_equal. apply IH; [intros; apply SUB; right; auto|reflexivity].
Qed.

(** There is no shell that takes away the circumflexes from a file: an argument
    with a double quote is damaged. *)
Theorem response_file_caret_refuted :
  exists read temp c args content,
    c_separator c = [10%N] /\ c_index c = 0
    /\ (forall a, In a (c_args c) -> ~ In 10%N a /\ forall f, a <> c_prefix c ++ f)
    /\ start_of Windows read temp c = Response args content
    /\ read_windows content <> c_args c.
Proof.
  exists (fun _ => None), (txt "C:\r"), (Command (txt "cl") [txt "-DH=""<x>"""] (txt "@") 0 0 [10%N]).
  eexists. eexists. split; [reflexivity|]. split; [reflexivity|]. split; [|split; [vm_compute; reflexivity|]].
  - intros a [<-|[]]. split; [|discriminate]. intro H. vm_compute in H. intuition discriminate.
  - vm_compute. discriminate.
Qed.

(** An argument that only begins with the prefix: the command works with a
    short command line and fails with a long one. *)
Theorem response_file_prefix_refuted :
  exists files temp c out,
    expands true files (c_prefix c) (c_args c) out
    /\ exists f, start_of Unix files temp c = CannotOpen f.
Proof.
  exists (fun _ => None), (txt "/tmp/r"),
    (Command (txt "ld") [txt "-install_name"; txt "@rpath/liba.dylib"] (txt "@") 0 0 (txt " ")),
    [txt "-install_name"; txt "@rpath/liba.dylib"].
  split.
  - apply Ordinary; [discriminate|]. apply Ordinary; [discriminate|constructor].
  - exists (txt "rpath/liba.dylib"). vm_compute. reflexivity.
Qed.

(** * Examples *)

Module Demo.

(** Two entries for a variable, a search path, an entry without a value. *)
Example environment_case :
  let base := [(txt "PATH", txt "/bin"); (txt "LANG", txt "de")] in
  let l := [txt "PATH=/opt/bin"; txt "A=1"; txt "A=2=3"] in
  merge base (from_list l) = [(txt "PATH", txt "/opt/bin:/bin"); (txt "LANG", txt "de"); (txt "A", txt "2=3")]
  /\ last_entry l (txt "A") (txt "2=3") /\ (forall s n, In s l -> ~ entry s n []).
Proof.
  split; [vm_compute; reflexivity|]. split.
  - exists [txt "PATH=/opt/bin"; txt "A=1"], (txt "A=2=3"), []. split; [reflexivity|]. split; [|intros ? ? []].
    split; [reflexivity|]. split; [|discriminate]. intro H. vm_compute in H. intuition discriminate.
  - intros s n I1 (E & N1 & _). pose proof (cut_equals_spec s) as C.
    destruct I1 as [<-|[<-|[<-|[]]]];
      vm_compute cut_equals in C; destruct C as [C1 C2];
      [pose proof (cut_unique _ _ _ _ (eq_trans (eq_sym E) C1) N1 C2) as [_ X]; discriminate..].
Qed.

(** Three lookups, one from the cache; PATH without the working directory. *)
Example lookups_case :
  lookups (fun f => str_eqb f (txt "/opt/bin/moc") || str_eqb f (txt "/bin/sh") || str_eqb f (txt "/bin/moc"))
    (joined 58 [txt "/opt/bin/"; txt "/bin"]) []
    [(txt "moc", txt "/a"); (txt "sh", txt "/a"); (txt "moc", txt "/b"); (txt "ar", txt "/b")]
  = [txt "/opt/bin/moc"; txt "/bin/sh"; txt "/opt/bin/moc"; txt "ar"].
Proof. vm_compute. reflexivity. Qed.

Definition files (f : str) : option str := if str_eqb f (txt "objects") then Some (txt "a.o ""b c.o""") else None.
Definition link : command :=
  Command (txt "ld") [txt "-o"; txt "x y"; txt "@objects"; txt "it's"] (txt "@") 3 1 [10%N].
Definition content : str := txt "'x y'" ++ [10%N] ++ txt "a.o ""b c.o""" ++ [10%N] ++ txt "'it'\''s'" ++ [10%N].

Example response_case :
  start_of Unix files (txt "/tmp/r") link = Response [txt "-o"; txt "@/tmp/r"] content
  /\ read_words false content = [txt "x y"; txt "a.o"; txt "b c.o"; txt "it's"].
Proof. split; vm_compute; reflexivity. Qed.

(** The files there are end outside of quotes, and the command has an expansion. *)
Example response_hypotheses :
  blank (c_separator link) /\ (forall f t, files f = Some t -> complete false t)
  /\ (forall a, In a (c_args link) -> ~ In 92%N a)
  /\ expands false files (c_prefix link) (c_args link) [txt "-o"; txt "x y"; txt "a.o"; txt "b c.o"; txt "it's"].
Proof.
  split; [split; [discriminate|intros c [<-|[]]; reflexivity]|].
  split; [|split].
  - intros f t F. unfold files in F. destruct (str_eqb f (txt "objects")); [|discriminate].
    inversion F. intros c rest W. unfold read_words. destruct (white_values c W) as (E1 & E2 & E3).
    simpl. rewrite E1, E2, E3, W. reflexivity.
  - intros a I1. destruct I1 as [<-|[<-|[<-|[<-|[]]]]]; intro H; vm_compute in H; intuition discriminate.
  - apply Ordinary; [intros f t E; discriminate|]. apply Ordinary; [intros f t E; discriminate|].
    change (txt "@objects") with (c_prefix link ++ txt "objects").
    apply FromFile with (t := txt "a.o ""b c.o"""); [reflexivity|].
    change (read_words false (txt "a.o ""b c.o""")) with [txt "a.o"; txt "b c.o"]. cbn [List.app].
    repeat (apply Ordinary; [intros f t E; discriminate|]). constructor.
Qed.

Example windows_case :
  exists args content,
    start_of Windows (fun _ => None) (txt "C:/r") (Command (txt "cl") [txt "/c"; txt "a & b\"; []] (txt "@") 3 1 [10%N])
      = Response args content
    /\ read_windows content = [txt "a & b\"; []].
Proof. eexists. eexists. split; vm_compute; reflexivity. Qed.

End Demo.

Print Assumptions command_environment_partial.
Print Assumptions command_environment_refuted.
Print Assumptions right_programs_partial.
Print Assumptions other_working_directory_refuted.
Print Assumptions installed_later_refuted.
Print Assumptions response_file_partial.
Print Assumptions response_file_used.
Print Assumptions response_file_windows_partial.
Print Assumptions response_file_backslash_refuted.
Print Assumptions response_file_caret_refuted.
Print Assumptions response_file_prefix_refuted.
