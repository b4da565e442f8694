(** Sub-projects of a project have different names (C129). *)
From Coq Require Import List Bool Arith NArith Lia Permutation.
From Verif Require Import Str SubNamesModel.
Import ListNotations.

(** ** Specification *)
Definition underscores (k : nat) : str := repeat 95%N k.
(** A name that has not been used by an earlier one is kept, others get underscores. *)
Definition renamed (names names' : list str) : Prop :=
  length names' = length names /\
  forall i n, nth_error names i = Some n ->
    (~ In n (firstn i names) /\ nth_error names' i = Some n) \/
    (In n (firstn i names) /\ exists k, 0 < k /\ nth_error names' i = Some (n ++ underscores k) /\ ~ In (n ++ underscores k) names).

(** ** One level *)
Lemma has_name_in n l : has_name n l = true <-> In n l.
Proof. induction l as [|x l IH]; cbn; [split; [discriminate|intros []]|]. rewrite orb_true_iff, str_eqb_eq, IH. intuition. Qed.
Lemma has_name_not n l : has_name n l = false <-> ~ In n l.
Proof. rewrite <- has_name_in. destruct (has_name n l); split; congruence. Qed.
(** What is known of a list of projects to be renamed, with [k] underscores added. *)
Definition waiting (names : list str) (k : nat) (taken : list str) (pending : list (nat * str)) : Prop :=
  NoDup (map fst pending) /\
  forall i n, In (i, n) pending -> exists b, nth_error names i = Some b /\ n = b ++ underscores k /\ In b (firstn i names) /\
    forall j, j <= k -> In (b ++ underscores j) taken.
Lemma first_pass_spec rest : forall seen taken t p, first_pass taken (length seen) rest = (t, p) -> NoDup taken -> (forall x, In x taken <-> In x seen) ->
  NoDup t /\ (forall x, In x t <-> In x (seen ++ rest)) /\ length t + length p = length taken + length rest /\
  NoDup (map fst p) /\ (forall i n, In (i, n) p <-> length seen <= i /\ nth_error (seen ++ rest) i = Some n /\ In n (firstn i (seen ++ rest))).
Proof.
  induction rest as [|n rest IH]; intros seen taken t p H D T; cbn [first_pass] in H.
  - injection H as <- <-. rewrite app_nil_r. repeat split; auto; try (constructor); try apply T.
    + destruct H.
    + destruct H.
    + destruct H.
    + intros (L & H & _). apply nth_error_None in L. congruence.
  - assert (E : (seen ++ [n]) ++ rest = seen ++ n :: rest) by (now rewrite <- app_assoc).
    assert (L : length (seen ++ [n]) = S (length seen)) by (rewrite app_length; cbn; lia).
    assert (Fn : firstn (length seen) (seen ++ n :: rest) = seen) by (rewrite firstn_app, Nat.sub_diag, firstn_all; cbn; apply app_nil_r).
    assert (Nn : nth_error (seen ++ n :: rest) (length seen) = Some n) by (rewrite nth_error_app2, Nat.sub_diag by lia; reflexivity).
    destruct (has_name n taken) eqn:X.
    + apply has_name_in in X. destruct (first_pass taken (S (length seen)) rest) as [t1 p1] eqn:F. injection H as <- <-.
      rewrite <- L in F. destruct (IH (seen ++ [n]) taken t1 p1 F D) as (A & B & C & G & K).
      { intros x. rewrite T, in_app_iff. split; [auto|]. intros [Y|[<-|[]]]; [exact Y|now apply T]. }
      rewrite E in *. split; [exact A|]. split; [exact B|]. split; [cbn [length]; lia|]. split.
      * cbn [map fst]. constructor; [|exact G]. intros Y. apply in_map_iff in Y. destruct Y as ([i m] & Y & Z). cbn in Y. subst i. apply K in Z. lia.
      * intros i m. cbn [In]. rewrite K. split.
        -- intros [[= <- <-]|(Y & Z)]; [|split; [lia|exact Z]]. split; [lia|]. split; [exact Nn|]. rewrite Fn. now apply T.
        -- intros (Y & Z & W). destruct (Nat.eq_dec i (length seen)) as [->|Q]; [left; congruence|right]. split; [lia|auto].
    + apply has_name_not in X. rewrite <- L in H. destruct (IH (seen ++ [n]) (n :: taken) t p H) as (A & B & C & G & K).
      { constructor; assumption. }
      { intros x. cbn [In]. rewrite T, in_app_iff. cbn. intuition. }
      rewrite E in *. split; [exact A|]. split; [exact B|]. split; [cbn [length] in *; lia|]. split; [exact G|].
      intros i m. rewrite K. split; [intros (Y & Z); split; [lia|exact Z]|]. intros (Y & Z & W). split; [|auto].
      destruct (Nat.eq_dec i (length seen)) as [->|Q]; [|lia]. exfalso. rewrite Fn in W. assert (m = n) by congruence. subst m. apply X. now apply T.
Qed.

Lemma under_S b k : b ++ underscores (S k) = (b ++ underscores k) ++ [95%N].
Proof. rewrite <- app_assoc. f_equal. unfold underscores. clear. induction k; [reflexivity|]. cbn [repeat app] in *. now rewrite <- IHk. Qed.

Lemma round_spec pending : forall taken t p d, round taken pending = (t, p, d) -> NoDup taken ->
  NoDup t /\ (forall x, In x t <-> In x taken \/ In x (map snd d)) /\ length t + length p = length taken + length pending /\
  NoDup (map snd d) /\ (forall x, In x (map snd d) -> ~ In x taken) /\
  Permutation (map fst pending) (map fst p ++ map fst d) /\
  (forall i n, In (i, n) (p ++ d) -> exists m, In (i, m) pending /\ n = m ++ [95%N]) /\ (forall i n, In (i, n) p -> In n t).
Proof.
  induction pending as [|[i n] pending IH]; intros taken t p d H D; cbn [round] in H.
  - injection H as <- <- <-. cbn [map app]. split; [exact D|]. split; [intros x; split; [now left|intros [Y|[]]; exact Y]|].
    split; [reflexivity|]. split; [constructor|]. split; [intros x []|]. split; [constructor|]. split; intros i n [].
  - destruct (has_name (n ++ [95%N]) taken) eqn:X.
    + apply has_name_in in X. destruct (round taken pending) as [[t1 p1] d1] eqn:R. injection H as <- <- <-. destruct (IH _ _ _ _ R D) as (A & B & C & E & F & G & K & L).
      split; [exact A|]. split; [exact B|]. split; [cbn [length]; lia|]. split; [exact E|]. split; [exact F|]. split; [|split].
      * cbn [map fst app]. now constructor.
      * intros j m [[= <- <-]|Y]; [exists n; split; [now left|reflexivity]|]. destruct (K j m Y) as (m' & Z & W). exists m'. split; [now right|exact W].
      * intros j m [[= <- <-]|Y]; [apply B; now left|exact (L j m Y)].
    + apply has_name_not in X. destruct (round ((n ++ [95%N]) :: taken) pending) as [[t1 p1] d1] eqn:R. injection H as <- <- <-.
      destruct (IH _ _ _ _ R ltac:(now constructor)) as (A & B & C & E & F & G & K & L).
      split; [exact A|]. split; [intros x; rewrite B; cbn [In map snd]; intuition|]. split; [cbn [length] in *; lia|]. split.
      * cbn [map snd]. constructor; [|exact E]. intros Y. apply (F _ Y). now left.
      * split; [intros x [<-|Y]; [exact X|]; intros Z; apply (F _ Y); now right|]. split; [|split].
        -- cbn [map fst]. apply Permutation_cons_app. exact G.
        -- intros j m Y. apply in_app_or in Y. destruct Y as [Y|[[= <- <-]|Y]].
           ++ destruct (K j m (in_or_app _ _ _ (or_introl Y))) as (m' & Z & W). exists m'. split; [now right|exact W].
           ++ exists n. split; [now left|reflexivity].
           ++ destruct (K j m (in_or_app _ _ _ (or_intror Y))) as (m' & Z & W). exists m'. split; [now right|exact W].
        -- exact L.
Qed.
Definition finished_names (names : list str) (d : list (nat * str)) : Prop :=
  forall i n, In (i, n) d -> exists b k, nth_error names i = Some b /\ 0 < k /\ n = b ++ underscores k /\ In b (firstn i names).

Lemma round_waiting names k taken pending t p d : round taken pending = (t, p, d) -> NoDup taken -> waiting names k taken pending ->
  waiting names (S k) t p /\ finished_names names d.
Proof.
  intros R D [W1 W2]. destruct (round_spec _ _ _ _ _ R D) as (A & B & C & E & F & G & K & L). split.
  - split.
    + apply (Permutation_NoDup G) in W1. clear - W1. induction (map fst p) as [|x l IH]; [constructor|]. inversion W1; subst. constructor; [intros X; apply H1, in_or_app; now left|now apply IH].
    + intros i n H. destruct (K i n (in_or_app _ _ _ (or_introl H))) as (m & M & ->). destruct (W2 i m M) as (b & B1 & -> & B3 & B4).
      exists b. split; [exact B1|]. split; [now rewrite under_S|]. split; [exact B3|]. intros j J. destruct (Nat.eq_dec j (S k)) as [->|Q]; [rewrite under_S; exact (L i _ H)|].
      apply B. left. apply B4. lia.
  - intros i n H. destruct (K i n (in_or_app _ _ _ (or_intror H))) as (m & M & ->). destruct (W2 i m M) as (b & B1 & -> & B3 & B4).
    exists b, (S k). split; [exact B1|]. split; [lia|]. split; [now rewrite under_S|exact B3].
Qed.
Lemma waiting_bound names k taken pending : waiting names k taken pending -> NoDup taken -> pending <> [] -> S k <= length taken.
Proof.
  intros [_ W] D Nn. destruct pending as [|[i n] r]; [congruence|]. destruct (W i n (or_introl eq_refl)) as (b & _ & _ & _ & H).
  set (l := map (fun j => b ++ underscores j) (seq 0 (S k))). assert (Dl : NoDup l).
  { apply FinFun.Injective_map_NoDup; [|apply seq_NoDup]. intros x y E. apply app_inv_head in E. apply (f_equal (@length N)) in E. unfold underscores in E. now rewrite !repeat_length in E. }
  assert (I1 : incl l taken). { intros x X. apply in_map_iff in X. destruct X as (j & <- & J). apply in_seq in J. apply H. lia. }
  apply (NoDup_incl_length Dl) in I1. unfold l in I1. rewrite map_length, seq_length in I1. exact I1.
Qed.
Lemma nodup_app (a b : list str) : NoDup a -> NoDup b -> (forall x, In x a -> ~ In x b) -> NoDup (a ++ b).
Proof.
  intros A B H. induction A as [|x a Hx A IH]; [exact B|]. cbn [app]. constructor.
  - intros X. apply in_app_or in X. destruct X as [X|X]; [auto|]. apply (H x); [now left|exact X].
  - apply IH. intros y Y. apply H. now right.
Qed.
Lemma rounds_spec names fuel : forall k taken pending, NoDup taken -> waiting names k taken pending -> length taken + length pending <= fuel + k ->
  exists d, rounds fuel taken pending = Some d /\ finished_names names d /\ Permutation (map fst pending) (map fst d) /\
    NoDup (map snd d) /\ forall x, In x (map snd d) -> ~ In x taken.
Proof.
  assert (Nil : forall fuel taken, exists d, rounds fuel taken [] = Some d /\ finished_names names d /\ Permutation (map fst (@nil (nat * str))) (map fst d) /\
    NoDup (map snd d) /\ forall x, In x (map snd d) -> ~ In x taken).
  { intros f t. exists []. split; [destruct f; reflexivity|]. split; [intros ? ? []|]. split; [constructor|]. split; [constructor|intros ? []]. }
  induction fuel as [|fuel IH]; intros k taken pending D W L.
  - destruct pending as [|c pending]; [apply Nil|]. exfalso. pose proof (waiting_bound _ _ _ _ W D ltac:(discriminate)). cbn [length] in *. lia.
  - destruct pending as [|c pending]; [apply Nil|]. cbn [rounds].
    destruct (round taken (c :: pending)) as [[t p] d0] eqn:R. destruct (round_spec _ _ _ _ _ R D) as (A & B & C & E & F & G & K & _).
    destruct (round_waiting _ _ _ _ _ _ _ R D W) as [W' Fd]. destruct (IH (S k) t p A W' ltac:(lia)) as (d1 & -> & D1 & D2 & D3 & D4).
    exists (d0 ++ d1). split; [reflexivity|]. split; [intros i n H; apply in_app_or in H; destruct H; auto|]. split; [|split].
    + rewrite map_app. rewrite G, D2. apply Permutation_app_comm.
    + rewrite map_app. apply nodup_app; [exact E|exact D3|]. intros x X Y. apply (D4 x Y). apply B. now right.
    + intros x. rewrite map_app, in_app_iff. intros [X|X]; [exact (F x X)|]. intros Y. apply (D4 x X). apply B. now left.
Qed.
Lemma at_index_in i d n : at_index i d = Some n -> In (i, n) d.
Proof. induction d as [|[j m] d IH]; cbn; [discriminate|]. destruct (Nat.eqb_spec i j) as [->|Q]; [intros [= ->]; now left|intros H; right; auto]. Qed.
Lemma at_index_none i d : at_index i d = None -> ~ In i (map fst d).
Proof. induction d as [|[j m] d IH]; cbn; [auto|]. destruct (Nat.eqb_spec i j) as [->|Q]; [discriminate|]. intros H [X|X]; [congruence|now apply IH]. Qed.
Lemma rename_nth d names : forall s i n, nth_error names i = Some n -> nth_error (rename s names d) i = Some (match at_index (s + i) d with Some n' => n' | None => n end).
Proof.
  induction names as [|m names IH]; intros s [|i] n H; cbn in *; try discriminate; [injection H as ->; now rewrite Nat.add_0_r|]. rewrite (IH (S s) i n H). now rewrite <- Nat.add_succ_comm.
Qed.
Lemma rename_length d names : forall s, length (rename s names d) = length names.
Proof. induction names; intros s; cbn; [reflexivity|now rewrite IHnames]. Qed.
Lemma firstn_nth {A} (l : list A) : forall i j n, nth_error l i = Some n -> i < j -> In n (firstn j l).
Proof. induction l as [|x l IH]; intros [|i] [|j] n H L; cbn in *; try discriminate; try lia; [injection H as ->; now left|right; apply (IH i); [exact H|lia]]. Qed.

(** ** C129 *)
(** Renaming ends, for every order of the projects; all names are different then; only names used before are changed,
    and they only get underscores. *)
Theorem sub_names_unique order names : (forall l, Permutation l (order l)) ->
  exists names', unique_names order names = Some names' /\ NoDup names' /\ renamed names names'.
Proof.
  intros O. unfold unique_names. destruct (first_pass [] 0 names) as [t p] eqn:F.
  destruct (first_pass_spec names [] [] t p F (NoDup_nil _)) as (A & B & C & D & E); [intros x; split; intros []|]. cbn [app length] in *.
  assert (W : waiting names 0 t (order p)).
  { split; [apply (Permutation_NoDup (Permutation_map fst (O p))); exact D|]. intros i n H. apply (Permutation_in _ (Permutation_sym (O p))) in H. apply E in H. destruct H as (_ & H1 & H2).
    exists n. split; [exact H1|]. split; [symmetry; apply app_nil_r|]. split; [exact H2|]. intros j J. replace j with 0 by lia. cbn [underscores repeat]. rewrite app_nil_r. apply B.
    exact (nth_error_In _ _ H1). }
  destruct (rounds_spec names (length names) 0 t (order p) A W) as (d & -> & D1 & D2 & D3 & D4).
  { rewrite <- (Permutation_length (O p)). lia. }
  cbn [option_map]. exists (rename 0 names d). split; [reflexivity|].
  assert (Pd : Permutation (map fst p) (map fst d)) by (rewrite (Permutation_map fst (O p)); exact D2).
  assert (InD : forall i n, nth_error names i = Some n -> In n (firstn i names) -> at_index i d <> None).
  { intros i n H1 H2 X. apply at_index_none in X. apply X. apply (Permutation_in _ Pd). apply in_map_iff. exists (i, n). split; [reflexivity|]. apply E. split; [lia|auto]. }
  assert (Nth : forall i n', nth_error (rename 0 names d) i = Some n' -> exists n, nth_error names i = Some n /\ n' = match at_index i d with Some x => x | None => n end).
  { intros i n' H. destruct (nth_error names i) as [n|] eqn:X.
    - exists n. split; [reflexivity|]. rewrite (rename_nth d names 0 i n X) in H. now injection H as <-.
    - exfalso. apply nth_error_None in X. assert (Y : nth_error (rename 0 names d) i <> None) by congruence. apply nth_error_Some in Y. rewrite rename_length in Y. lia. }
  split.
  - apply NoDup_nth_error. intros i j Hi H. destruct (nth_error (rename 0 names d) i) as [n'|] eqn:X; [|apply nth_error_Some in Hi; congruence].
    symmetry in H. destruct (Nth _ _ X) as (n & N1 & N2), (Nth _ _ H) as (m & M1 & M2).
    destruct (at_index i d) as [a|] eqn:Ai, (at_index j d) as [b|] eqn:Aj; subst n'.
    + subst b. apply at_index_in in Ai, Aj. clear - Ai Aj D3. induction d as [|[k x] d IH]; [destruct Ai|]. inversion D3; subst. destruct Ai as [Ai|Ai], Aj as [Aj|Aj].
      * congruence.
      * injection Ai as -> ->. exfalso. apply H1. apply in_map_iff. now exists (j, a).
      * injection Aj as -> ->. exfalso. apply H1. apply in_map_iff. now exists (i, a).
      * auto.
    + subst a. exfalso. apply at_index_in in Ai. apply (D4 m); [apply in_map_iff; now exists (i, m)|]. apply B. exact (nth_error_In _ _ M1).
    + subst n. exfalso. apply at_index_in in Aj. apply (D4 b); [apply in_map_iff; now exists (j, b)|]. apply B. exact (nth_error_In _ _ N1).
    + subst m. destruct (Nat.lt_trichotomy i j) as [L|[L|L]]; [exfalso|exact L|exfalso].
      * apply (InD j n M1); [exact (firstn_nth _ i j n N1 L)|exact Aj].
      * apply (InD i n N1); [exact (firstn_nth _ j i n M1 L)|exact Ai].
  - split; [apply rename_length|]. intros i n H. rewrite (rename_nth d names 0 i n H). cbn [plus]. destruct (at_index i d) as [a|] eqn:Ai.
    + right. apply at_index_in in Ai. pose proof Ai as Aj. apply D1 in Ai. destruct Ai as (b & k & B1 & B2 & -> & B4). assert (b = n) by congruence. subst b. split; [exact B4|].
      exists k. split; [exact B2|]. split; [reflexivity|]. intros X. apply (D4 (n ++ underscores k)); [apply in_map_iff; now exists (i, n ++ underscores k)|now apply B].
    + left. split; [|reflexivity]. intros X. exact (InD i n H X Ai).
Qed.
(** All levels: every project has sub-projects with different names. *)
Fixpoint all_levels (p : project) : Prop :=
  match p with
  | Project _ subs => NoDup (map (fun q => match q with Project m _ => m end) subs) /\
      (fix go (l : list project) : Prop := match l with [] => True | q :: r => all_levels q /\ go r end) subs
  end.
Theorem all_sub_names_unique order (O : forall l, Permutation l (order l)) : forall p, exists p', unique_tree order p = Some p' /\ all_levels p' /\
  match p, p' with Project n s, Project n' s' => n' = n /\ renamed (map (fun q => match q with Project m _ => m end) s) (map (fun q => match q with Project m _ => m end) s') end.
Proof.
  fix IH 1. intros [n subs]. cbn [unique_tree].
  set (name := fun q => match q with Project m _ => m end). set (go := fix go (l : list project) : option (list project) := _).
  assert (G : exists ss, go subs = Some ss /\ length ss = length subs /\ Forall all_levels ss).
  { clear n. induction subs as [|q subs IHs]; [exists []; repeat split; constructor|]. cbn [go]. destruct (IH q) as (q' & -> & Q & _). destruct IHs as (ss & E & L & F). fold go. rewrite E.
    exists (q' :: ss). split; [reflexivity|]. split; [cbn; now rewrite L|now constructor]. }
  destruct G as (ss & -> & L & F). destruct (sub_names_unique order (map name subs) O) as (ns & -> & D & R). eexists. split; [reflexivity|].
  assert (Ln : length ns = length ss) by (destruct R as [R _]; rewrite R, map_length; now symmetry).
  set (out := map _ (combine ns ss)). assert (E : map name out = ns).
  { unfold out. clear - Ln. revert ss Ln. induction ns as [|m ns IHn]; intros [|[a b] ss] Ln; try discriminate; [reflexivity|]. cbn [combine map snd fst name]. f_equal. apply IHn. now injection Ln. }
  split; [|split; [reflexivity|fold name; now rewrite E]]. cbn [all_levels]. fold name. rewrite E. split; [exact D|].
  unfold out. clear - F. revert ns. induction F as [|[a b] ss Q F IHf]; intros [|m ns]; cbn [combine map snd fst]; try exact Logic.I. split; [exact Q|apply IHf].
Qed.
(** Which of three projects of one name gets which name depends on where they are in memory, and may differ from one
    run to the next. *)
Theorem sub_names_order_refuted : exists names order1 order2, (forall l, Permutation l (order1 l)) /\ (forall l, Permutation l (order2 l)) /\
  unique_names order1 names <> unique_names order2 names.
Proof.
  exists [[97]; [97]; [97]]%N, (fun l => l), (@rev (nat * str)). split; [intros l; apply Permutation_refl|]. split; [intros l; apply Permutation_rev|]. vm_compute. discriminate.
Qed.

Module Demo.
  Example names5 : unique_names (fun l => l) [[97]; [97; 95]; [97]; [98]; [97]]%N = Some [[97]; [97; 95]; [97; 95; 95]; [98]; [97; 95; 95; 95]]%N.
  Proof. reflexivity. Qed.
  Example nested : unique_tree (fun l => l) (Project [] [Project [97%N] []; Project [97%N] [Project [98%N] []; Project [98%N] []]]) =
    Some (Project [] [Project [97%N] []; Project [97; 95]%N [Project [98%N] []; Project [98; 95]%N []]]).
  Proof. reflexivity. Qed.
End Demo.

Print Assumptions sub_names_unique.
Print Assumptions all_sub_names_unique.
Print Assumptions sub_names_order_refuted.
