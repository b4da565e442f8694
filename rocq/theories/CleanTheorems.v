(** C30, C31: what cleaning and the removal of empty directories remove. *)
From Coq Require Import List Bool Arith NArith Lia.
From Verif Require Import Str CleanModel.
Import ListNotations.

(** * Specification *)

(** [p] is [a] or below it; [p] is really below it. *)
Definition below (a p : path) : Prop := exists l, p = l ++ a.
Definition inside (a p : path) : Prop := exists c l, p = l ++ c :: a.

(** Nothing appears, and nothing turns into something else. *)
Definition shrinks (f f' : fs) : Prop := forall p, get f' p = get f p \/ get f' p = None.

(** * Basics *)

Lemma path_eqb_eq a b : path_eqb a b = true <-> a = b.
Proof. unfold path_eqb. destruct (path_dec a b); split; congruence. Qed.
Lemma path_eqb_neq a b : path_eqb a b = false <-> a <> b.
Proof. unfold path_eqb. destruct (path_dec a b); split; congruence. Qed.
Lemma path_eqb_refl a : path_eqb a a = true.
Proof. now apply path_eqb_eq. Qed.
Lemma in_paths_spec p l : in_paths p l = true <-> In p l.
Proof.
  unfold in_paths. rewrite existsb_exists. split; [intros (x & H & E); apply path_eqb_eq in E; now subst|]. intros H. exists p. split; [exact H|apply path_eqb_refl].
Qed.

Lemma get_drop f p q : get (drop f p) q = if path_eqb q p then None else get f q.
Proof.
  unfold get, drop. induction f as [|[r e] f IH]; cbn; [now destruct (path_eqb q p)|].
  destruct (path_eqb r p) eqn:E; cbn.
  - rewrite IH. destruct (path_eqb q p) eqn:Q; [reflexivity|]. apply path_eqb_eq in E as ->. apply path_eqb_neq in Q.
    destruct (path_eqb p q) eqn:X; [apply path_eqb_eq in X; congruence|reflexivity].
  - destruct (path_eqb r q) eqn:X; [|exact IH]. apply path_eqb_eq in X as ->. now rewrite E.
Qed.
Lemma drop_nodup f p : NoDup (map fst f) -> NoDup (map fst (drop f p)).
Proof.
  unfold drop. induction f as [|[r e] f IH]; cbn; intros D; [constructor|]. inversion D as [|x l H1 H2]; subst.
  destruct (path_eqb r p); cbn; [auto|]. constructor; [|auto]. intros H. apply H1. apply in_map_iff in H as (y & <- & Hy).
  apply filter_In in Hy as [Hy _]. now apply in_map.
Qed.
Lemma get_in f p e : get f p = Some e -> In (p, e) f.
Proof.
  unfold get. destruct (find _ f) as [[q d]|] eqn:F; [|discriminate]. intros E. injection E as <-.
  apply find_some in F as [F1 F2]. cbn in F2. apply path_eqb_eq in F2 as ->. exact F1.
Qed.
Lemma in_get f p e : NoDup (map fst f) -> In (p, e) f -> get f p = Some e.
Proof.
  unfold get. induction f as [|[q d] f IH]; cbn; intros D H; [destruct H|]. inversion D as [|x l H1 H2]; subst. destruct (path_eqb q p) eqn:E.
  - apply path_eqb_eq in E as ->. destruct H as [H|H]; [injection H as ->; reflexivity|]. exfalso. apply H1. apply in_map_iff. now exists (p, e).
  - destruct H as [H|H]; [injection H as -> ->; rewrite path_eqb_refl in E; discriminate|now apply IH].
Qed.
Lemma children_spec f p q e : NoDup (map fst f) -> (In (q, e) (children f p) <-> get f q = Some e /\ exists c, q = c :: p).
Proof.
  intros D. unfold children. rewrite filter_In. cbn. split.
  - intros [H C]. split; [now apply in_get|]. destruct q as [|c q]; [discriminate|]. cbn in C. apply path_eqb_eq in C as ->. now exists c.
  - intros [H (c & ->)]. split; [now apply get_in|]. cbn. apply path_eqb_refl.
Qed.
Lemma no_children f p : NoDup (map fst f) -> children f p = [] -> forall c, get f (c :: p) = None.
Proof.
  intros D E c. destruct (get f (c :: p)) as [e|] eqn:G; [|reflexivity]. assert (H : In (c :: p, e) (children f p)) by (apply children_spec; eauto).
  rewrite E in H. destruct H.
Qed.
Lemma children_none f p : NoDup (map fst f) -> (forall c, get f (c :: p) = None) -> children f p = [].
Proof.
  intros D H. destruct (children f p) as [|[q e] l] eqn:E; [reflexivity|]. assert (X : In (q, e) (children f p)) by (rewrite E; now left).
  apply children_spec in X as [X (c & ->)]; [|exact D]. rewrite H in X. discriminate.
Qed.

Lemma text_app l p : exists t, text (l ++ p) = text p ++ t.
Proof.
  induction l as [|c l (t & IH)]; [exists []; now rewrite app_nil_r|]. exists (t ++ 47%N :: c). cbn. rewrite IH. now rewrite <- app_assoc.
Qed.
Lemma starts_below b p : b <> [] -> below b p -> starts_with (path_text b) (path_text p) = true.
Proof.
  intros Hb (l & ->). apply starts_with_spec. destruct (text_app l b) as (t & T).
  unfold path_text. destruct b as [|c b]; [contradiction|]. destruct (l ++ c :: b) as [|d m] eqn:E; [destruct l; discriminate|].
  exists t. exact T.
Qed.

Lemma rmdir_spec permitted f p f' : NoDup (map fst f) -> rmdir permitted f p = Some f' <->
  f' = drop f p /\ get f p = Some Directory /\ permitted p = true /\ forall c, get f (c :: p) = None.
Proof.
  intros D. unfold rmdir. split.
  - destruct (get f p) as [[]|] eqn:G; try discriminate. destruct (children f p) eqn:C; [|discriminate]. destruct (permitted p) eqn:P; [|discriminate].
    intros E. injection E as <-. do 3 (split; [auto|]). now apply no_children.
  - intros (-> & -> & -> & H). now rewrite (children_none f p D H).
Qed.

Lemma inside_below a p : inside a p -> below a p.
Proof. intros (c & l & ->). exists (l ++ [c]). now rewrite <- app_assoc. Qed.
Lemma below_inside a p : below a p -> p <> a -> inside a p.
Proof.
  intros (l & ->) H. destruct l as [|x l] using rev_ind; [contradiction|]. exists x, l. now rewrite <- app_assoc.
Qed.
Lemma inside_tl a p : inside a p -> below a (tl p).
Proof. intros (c & [|d l] & ->); [exists []; reflexivity|]. exists (l ++ [c]). cbn. now rewrite <- app_assoc. Qed.
Lemma below_length a p : below a p -> length a <= length p.
Proof. intros (l & ->). rewrite app_length. lia. Qed.
Lemma inside_length a p : inside a p -> length a < length p.
Proof. intros (c & l & ->). rewrite app_length. cbn. lia. Qed.

(** * Directories that became empty *)

Section Empty.
  Variable permitted : path -> bool.
  Variable build : path.
  Hypothesis build_not_root : build <> [].
  Variable files : list path.
  Hypothesis files_inside : forall p, In p files -> inside build p.
  Variable f0 : fs.
  Hypothesis f0_nodup : NoDup (map fst f0).

  (** The directories that have to go: those below the build directory that contained one of the files, or a directory that
      goes, and that contain nothing else. *)
  Inductive goes : path -> Prop :=
  | goes_dir d : inside build d -> get f0 d = Some Directory -> permitted d = true ->
      ((exists p, In p files /\ tl p = d) \/ (exists c, goes (c :: d))) ->
      (forall c, get f0 (c :: d) <> None -> goes (c :: d)) -> goes d.

  Definition deepest_first (l : list path) : Prop := forall l1 a l2 b, l = l1 ++ a :: l2 -> In b l2 -> slashes b <= slashes a.

  Lemma deepest_cons a l : deepest_first (a :: l) <-> (forall b, In b l -> slashes b <= slashes a) /\ deepest_first l.
  Proof.
    split.
    - intros H. split; [intros b; now apply (H [] a l)|]. intros l1 x l2 b -> Hb. now apply (H (a :: l1) x l2 b).
    - intros [H1 H2] [|y l1] x l2 b E Hb; injection E as -> ->; [now apply H1|now apply (H2 l1 x l2 b)].
  Qed.
  Lemma in_insert_sorted d l x : In x (insert_sorted d l) <-> x = d \/ In x l.
  Proof.
    induction l as [|c l IH]; cbn [insert_sorted In]; [intuition|]. destruct (path_eqb d c) eqn:E; [apply path_eqb_eq in E as ->; cbn [In]; intuition|].
    destruct (slashes c <? slashes d); cbn [In]; [intuition|]. rewrite IH. intuition.
  Qed.
  Lemma insert_deepest d l : deepest_first l -> deepest_first (insert_sorted d l).
  Proof.
    induction l as [|c l IH]; cbn [insert_sorted]; intros H; [apply deepest_cons; split; [intros b []|exact H]|].
    destruct (path_eqb d c); [exact H|]. apply deepest_cons in H as [H1 H2]. destruct (Nat.ltb_spec (slashes c) (slashes d)).
    - apply deepest_cons. split; [|apply deepest_cons; auto]. intros b [<-|Hb]; [lia|]. apply H1 in Hb. lia.
    - apply deepest_cons. split; [|auto]. intros b Hb. apply in_insert_sorted in Hb as [-> |Hb]; [lia|auto].
  Qed.
  Lemma insert_sorted_nodup d l : deepest_first l -> NoDup l -> NoDup (insert_sorted d l).
  Proof.
    induction l as [|c l IH]; cbn [insert_sorted]; intros H D; [repeat constructor; intros []|].
    destruct (path_eqb d c) eqn:E; [exact D|]. apply path_eqb_neq in E. apply deepest_cons in H as [H1 H2]. inversion D as [|x m D1 D2]; subst.
    destruct (Nat.ltb_spec (slashes c) (slashes d)).
    - constructor; [|exact D]. intros [X|X]; [congruence|]. apply H1 in X. lia.
    - constructor; [|auto]. rewrite in_insert_sorted. intuition.
  Qed.

  Record einv (f : fs) (handled todo : list path) : Prop := {
    e_nodup : NoDup (map fst f);
    e_fs : forall p, get f p = get f0 p \/ (get f p = None /\ goes p);
    e_todo : forall d, In d todo -> below build d /\ ((exists p, In p files /\ tl p = d) \/ exists c, goes (c :: d) /\ get f (c :: d) = None);
    e_pending : forall d, goes d -> get f d <> None -> In d todo \/ exists c, goes (c :: d) /\ get f (c :: d) <> None;
    e_sorted : deepest_first todo;
    e_unique : NoDup todo;
    e_handled : forall d, In d handled -> ~ In d todo /\ (goes d -> get f d = None);
    e_depth : forall d e, In d handled -> In e todo -> slashes e <= slashes d;
  }.

  Lemma goes_dir_entry d : goes d -> get f0 d = Some Directory.
  Proof. now intros []. Qed.
  Lemma goes_inside d : goes d -> inside build d.
  Proof. now intros []. Qed.
  Lemma slashes_cons c d : d <> [] -> slashes (c :: d) = S (slashes d).
  Proof. destruct d; [contradiction|reflexivity]. Qed.
  Lemma below_not_root d : below build d -> d <> [].
  Proof. intros H. apply below_length in H. destruct build; [contradiction|]. destruct d; cbn in *; [lia|discriminate]. Qed.

  Lemma depth_bound : exists D, forall p e, get f0 p = Some e -> length p <= D.
  Proof.
    exists (list_max (map (fun x => length (fst x)) f0)). intros p e H. apply get_in in H.
    assert (X := proj1 (list_max_le (map (fun x => length (fst x)) f0) _) (le_n _)). rewrite Forall_forall in X. apply X.
    apply in_map_iff. now exists (p, e).
  Qed.

  (** Something that has to go and is still there is in the list, or something below it is. *)
  Lemma pending_below f handled todo d : einv f handled todo -> goes d -> get f d <> None -> exists q, In q todo /\ below d q.
  Proof.
    intros V. destruct depth_bound as (D & B). remember (D - length d) as m eqn:M. revert d M.
    induction m as [m IH] using lt_wf_ind. intros d M G H. destruct (e_pending _ _ _ V d G H) as [T|(c & G1 & H1)].
    - exists d. split; [exact T|exists []; reflexivity].
    - pose proof (B _ _ (goes_dir_entry _ G1)) as L. cbn in L. destruct (IH (D - length (c :: d)) ltac:(cbn; lia) (c :: d) eq_refl G1 H1) as (q & Q1 & l & ->).
      exists (l ++ c :: d). split; [exact Q1|]. exists (l ++ [c]). now rewrite <- app_assoc.
  Qed.
  Lemma slashes_below d q : d <> [] -> below d q -> slashes d <= slashes q /\ (slashes d = slashes q -> q = d).
  Proof.
    intros Hd (l & ->). destruct d as [|x d]; [contradiction|]. unfold slashes. destruct (l ++ x :: d) as [|y r] eqn:E; [destruct l; discriminate|].
    rewrite <- E, app_length. split; [lia|]. intros H. destruct l; [reflexivity|cbn in H; lia].
  Qed.

  Lemma step_keep f handled d todo : einv f handled (d :: todo) -> (goes d -> get f d = None) -> einv f (d :: handled) todo.
  Proof.
    intros V H. pose proof (e_sorted _ _ _ V) as S0. apply deepest_cons in S0 as [S1 S2]. pose proof (e_unique _ _ _ V) as U. inversion U as [|x l U1 U2]; subst.
    split.
    - exact (e_nodup _ _ _ V).
    - exact (e_fs _ _ _ V).
    - intros e He. apply (e_todo _ _ _ V). now right.
    - intros e Ge He. destruct (e_pending _ _ _ V e Ge He) as [[<-|T]|P]; [|now left|now right]. destruct He. auto.
    - exact S2.
    - exact U2.
    - intros e [<-|He]; [split; [exact U1|exact H]|]. destruct (e_handled _ _ _ V e He) as [X1 X2]. split; [|exact X2]. intros X. apply X1. now right.
    - intros e x [<-|He] Hx; [now apply S1|]. apply (e_depth _ _ _ V e x He). now right.
  Qed.

  Lemma removed_children f handled d todo : einv f handled (d :: todo) -> goes d -> forall c, get f (c :: d) = None.
  Proof.
    intros V G c. destruct (get f (c :: d)) as [e|] eqn:E; [|reflexivity]. exfalso.
    assert (Gc : goes (c :: d)).
    { inversion G; subst. match goal with X : forall c, _ -> goes _ |- _ => apply X end. destruct (e_fs _ _ _ V (c :: d)) as [X|[X _]]; congruence. }
    destruct (pending_below _ _ _ (c :: d) V Gc) as (q & Q1 & Q2); [congruence|].
    pose proof (e_sorted _ _ _ V) as S0. apply deepest_cons in S0 as [S1 _].
    assert (Nd : d <> []) by (apply below_not_root, inside_below, goes_inside, G).
    destruct (slashes_below (c :: d) q ltac:(discriminate) Q2) as [L _]. rewrite slashes_cons in L by exact Nd.
    destruct Q1 as [<-|Q1]; [lia|]. apply S1 in Q1. lia.
  Qed.

  Lemma step f handled d todo : einv f handled (d :: todo) ->
    match remove_if_empty permitted build f d with
    | (f', Some p) => einv f' (d :: handled) (if in_paths p (d :: handled) then todo else insert_sorted p todo)
    | (f', None) => einv f' (d :: handled) todo
    end.
  Proof.
    intros V. assert (T := e_todo _ _ _ V d (or_introl eq_refl)). destruct T as [Tb Tr].
    assert (Nd : d <> []) by (now apply below_not_root).
    assert (G0 : forall e, get f d = Some e -> e <> Directory -> goes d -> get f d = None).
    { intros e E He G. exfalso. apply goes_dir_entry in G. destruct (e_fs _ _ _ V d) as [X|[X _]]; congruence. }
    unfold remove_if_empty. rewrite (starts_below build d build_not_root Tb). cbn [negb orb].
    destruct (path_eqb d build) eqn:Eb.
    { apply path_eqb_eq in Eb. assert (K : einv f (d :: handled) todo).
      { apply step_keep; [exact V|]. intros G. apply goes_inside, inside_length in G. subst. lia. }
      destruct (get f d) as [[]|]; exact K. }
    apply path_eqb_neq in Eb.
    assert (Keep : (goes d -> get f d = None) -> einv f (d :: handled) todo) by (now apply step_keep).
    assert (R : match rmdir permitted f d with
                | Some f' => einv f' (d :: handled) (if in_paths (tl d) (d :: handled) then todo else insert_sorted (tl d) todo)
                | None => einv f (d :: handled) todo
                end).
    { pose proof (e_nodup _ _ _ V) as D. destruct (rmdir permitted f d) as [f'|] eqn:E.
      - apply rmdir_spec in E as (-> & E1 & E2 & E3); [|exact D].
        assert (Gd : goes d).
        { assert (E0 : get f0 d = Some Directory) by (destruct (e_fs _ _ _ V d) as [X|[X _]]; congruence).
          apply goes_dir; auto.
          - now apply below_inside.
          - destruct Tr as [X|(c & X & _)]; [now left|right; eauto].
          - intros c Hc. destruct (e_fs _ _ _ V (c :: d)) as [X|[_ X]]; [|exact X]. rewrite E3 in X. congruence. }
        pose proof (e_sorted _ _ _ V) as S0. apply deepest_cons in S0 as [S1 S2]. pose proof (e_unique _ _ _ V) as U. inversion U as [|x l U1 U2]; subst.
        assert (Ht : in_paths (tl d) (d :: handled) = false).
        { apply not_true_iff_false. intros H. apply in_paths_spec in H. destruct d as [|c p]; [contradiction|]. cbn [tl] in H.
          assert (Np : p <> []).
          { apply goes_inside, inside_tl in Gd. now apply below_not_root. }
          destruct H as [H|H]; [apply (f_equal (@length _)) in H; cbn in H; lia|].
          pose proof (e_depth _ _ _ V p (c :: p) H (or_introl eq_refl)) as L. rewrite slashes_cons in L by exact Np. lia. }
        rewrite Ht.
        assert (Gf : forall q, get (drop f d) q = if path_eqb q d then None else get f q) by (intros q; apply get_drop).
        split.
        + now apply drop_nodup.
        + intros q. rewrite Gf. destruct (path_eqb q d) eqn:Q; [apply path_eqb_eq in Q as ->; now right|]. exact (e_fs _ _ _ V q).
        + assert (None_mono : forall q, get f q = None -> get (drop f d) q = None) by (intros q Hq; rewrite Gf, Hq; now destruct (path_eqb q d)).
          intros e He. apply in_insert_sorted in He as [-> |He].
          * split; [now apply inside_tl, goes_inside|]. right. destruct d as [|c p]; [contradiction|]. exists c. split; [exact Gd|].
            cbn [tl]. rewrite Gf, path_eqb_refl. reflexivity.
          * destruct (e_todo _ _ _ V e (or_intror He)) as [X1 X2]. split; [exact X1|]. destruct X2 as [X2|(c & X2 & X3)]; [now left|]. right. exists c. auto.
        + intros e Ge He. rewrite Gf in He. destruct (path_eqb e d) eqn:Q; [congruence|]. apply path_eqb_neq in Q.
          destruct (e_pending _ _ _ V e Ge He) as [[X|X]|(c & X1 & X2)]; [congruence|left; apply in_insert_sorted; now right|].
          destruct (path_dec (c :: e) d) as [<-|Hn].
          * left. apply in_insert_sorted. now left.
          * right. exists c. split; [exact X1|]. rewrite Gf. apply path_eqb_neq in Hn. now rewrite Hn.
        + now apply insert_deepest.
        + now apply insert_sorted_nodup.
        + intros e He. rewrite in_insert_sorted. assert (He' := He). destruct He as [<-|He].
          * split.
            -- intros [X|X]; [apply (f_equal (@length _)) in X; destruct d; [contradiction|cbn in X; lia]|contradiction].
            -- intros _. rewrite Gf, path_eqb_refl. reflexivity.
          * destruct (e_handled _ _ _ V e He) as [X1 X2]. split.
            -- intros [X|X]; [|apply X1; now right]. subst e. apply in_paths_spec in He'. congruence.
            -- intros Ge. rewrite Gf. rewrite (X2 Ge). now destruct (path_eqb e d).
        + assert (Lt : slashes (tl d) <= slashes d).
          { destruct d as [|c p]; [contradiction|]. cbn [tl]. destruct p; cbn; lia. }
          intros e x [<-|He] Hx; apply in_insert_sorted in Hx as [-> |Hx]; auto.
          * pose proof (e_depth _ _ _ V e d He (or_introl eq_refl)). lia.
          * apply (e_depth _ _ _ V e x He). now right.
      - apply Keep. intros Gd. destruct (get f d) as [e|] eqn:E1; [exfalso|reflexivity].
        pose proof (removed_children _ _ _ _ V Gd) as C.
          assert (X : rmdir permitted f d = Some (drop f d)).
          { apply rmdir_spec; [exact D|]. split; [reflexivity|]. destruct (e_fs _ _ _ V d) as [X|[X _]]; [|congruence].
            split; [now rewrite X, (goes_dir_entry _ Gd)|]. split; [|exact C]. now inversion Gd. }
          congruence. }
    assert (Cn : match filter counted (children f d) with _ :: _ => goes d -> get f d = None | [] => True end).
    { destruct (filter counted (children f d)) as [|[q e] l] eqn:Fc; [exact I|]. intros Gd. exfalso.
      assert (X : In (q, e) (filter counted (children f d))) by (rewrite Fc; now left). apply filter_In in X as [X _].
      apply children_spec in X as [X (c & ->)]; [|exact (e_nodup _ _ _ V)]. rewrite (removed_children _ _ _ _ V Gd c) in X. discriminate. }
    destruct (get f d) as [[]|] eqn:E; try (apply Keep; intros G; first [reflexivity | exact (G0 _ eq_refl ltac:(discriminate) G)]).
    - destruct (filter counted (children f d)); [|now apply Keep]. now destruct (rmdir permitted f d).
    - destruct (filter counted (children f d)); [|now apply Keep]. now destruct (rmdir permitted f d).
    - destruct (filter counted (children f d)); [|now apply Keep]. now destruct (rmdir permitted f d).
  Qed.

  Lemma init_inv : einv f0 [] (fold_left (fun l p => insert_sorted (tl p) l) files []).
  Proof.
    assert (G : forall fl l, deepest_first l -> NoDup l -> let r := fold_left (fun l p => insert_sorted (tl p) l) fl l in
      (forall x, In x r <-> In x l \/ exists p, In p fl /\ tl p = x) /\ deepest_first r /\ NoDup r).
    { induction fl as [|p fl IH]; intros l H1 H2; cbn zeta; cbn [fold_left].
      - split; [|auto]. intros x. split; [auto|]. intros [H|(p & [] & _)]; exact H.
      - destruct (IH (insert_sorted (tl p) l) (insert_deepest _ _ H1) (insert_sorted_nodup _ _ H1 H2)) as (A & B). split; [|exact B].
        intros x. rewrite A, in_insert_sorted. split.
        + intros [[-> |H]|(q & H & <-)]; [right; exists p; split; [now left|reflexivity]|now left|right; exists q; split; [now right|reflexivity]].
        + intros [H|(q & [<-|H] & <-)]; [left; now right|left; now left|right; eauto]. }
    destruct (G files [] ltac:(intros [|] ? ? ? E; discriminate) (NoDup_nil _)) as (A & B & C). cbn zeta in *. split; auto.
    - intros d Hd. apply A in Hd as [[]|(p & Hp & <-)]. split; [apply inside_tl, files_inside, Hp|left; eauto].
    - intros d Gd Hd. inversion Gd as [? G1 G2 G3 [G4|(c & G4)] G5]; subst; [left; apply A; now right|]. right. exists c. split; [exact G4|].
      rewrite (goes_dir_entry _ G4). discriminate.
    - intros d [].
    - intros d e [].
  Qed.

  Lemma loop_spec k : forall f handled todo, einv f handled todo ->
    match remove_loop permitted k build f handled todo with
    | Some f' => exists handled, einv f' handled []
    | None => True
    end.
  Proof.
    induction k as [|k IH]; intros f handled todo V; [exact I|]. cbn [remove_loop]. destruct todo as [|d todo]; [eauto|].
    pose proof (step f handled d todo V) as X. destruct (remove_if_empty permitted build f d) as [f' [p|]]; exact (IH _ _ _ X).
  Qed.

  (** Exactly the directories that have to go are removed, and nothing else changes. *)
  Theorem empty_directories_exact k f' : remove_empty_parents permitted k build files f0 = Some f' ->
    forall p, (goes p -> get f' p = None) /\ (~ goes p -> get f' p = get f0 p).
  Proof.
    intros H p. pose proof (loop_spec k f0 [] _ init_inv) as X. unfold remove_empty_parents in H. rewrite H in X. destruct X as (handled & V).
    split.
    - intros G. destruct (get f' p) as [e|] eqn:E; [|reflexivity]. exfalso. destruct (pending_below _ _ _ p V G) as (q & [] & _). congruence.
    - intros G. destruct (e_fs _ _ _ V p) as [X|[_ X]]; [exact X|contradiction].
  Qed.

  (** The search comes to an end: no directory is looked at twice. *)
  Fixpoint suffixes (p : path) : list path := p :: match p with [] => [] | _ :: p => suffixes p end.
  Lemma suffixes_self p : In p (suffixes p).
  Proof. destruct p; now left. Qed.
  Lemma suffixes_tl p : forall q, In q (suffixes p) -> In (tl q) (suffixes p).
  Proof.
    induction p as [|c p IH]; intros q; cbn [suffixes]; [intros [<-|[]]; now left|]. intros [<-|H]; right; [apply suffixes_self|auto].
  Qed.
  Definition steps : nat := S (list_sum (map (fun p => length p + 1) files)).

  Theorem empty_directories_terminates k : steps <= k -> exists f', remove_empty_parents permitted k build files f0 = Some f'.
  Proof.
    set (U := flat_map (fun p => suffixes (tl p)) files).
    assert (LU : length U < steps).
    { assert (L : forall q, length (suffixes q) = length q + 1) by (induction q as [|c q IHq]; cbn; [reflexivity|rewrite IHq; lia]).
      assert (X : forall l, length (flat_map (fun p => suffixes (tl p)) l) <= list_sum (map (fun p : path => length p + 1) l)).
      { induction l as [|p l IH]; [apply le_n|]. change (list_sum (map (fun p : path => length p + 1) (p :: l)))
          with (length p + 1 + list_sum (map (fun p : path => length p + 1) l)). cbn [flat_map]. rewrite app_length, L. destruct p; cbn [tl length]; lia. }
      unfold steps. apply Nat.lt_succ_r. exact (X files). }
    assert (G : forall k f handled todo, einv f handled todo -> NoDup handled -> incl handled U -> incl todo U -> length U < k + length handled ->
              exists f', remove_loop permitted k build f handled todo = Some f').
    { clear k. induction k as [|k IH]; intros f handled todo V D I1 I2 L.
      - pose proof (NoDup_incl_length D I1). lia.
      - cbn [remove_loop]. destruct todo as [|d todo]; [eauto|].
        assert (Dd : NoDup (d :: handled)).
        { constructor; [|exact D]. intros H. apply (e_handled _ _ _ V d H). now left. }
        assert (Id : incl (d :: handled) U) by (intros x [<-|H]; [apply I2; now left|auto]).
        assert (It : incl todo U) by (intros x H; apply I2; now right).
        pose proof (step f handled d todo V) as X. unfold remove_if_empty in *.
        assert (Ip : In (tl d) U).
        { assert (Hd : In d U) by (apply I2; now left). unfold U in *. apply in_flat_map in Hd as (p & H1 & H2). apply in_flat_map. exists p. split; [exact H1|now apply suffixes_tl]. }
        assert (Fin : forall f' p, (p = None \/ p = Some (tl d)) ->
           match p with
           | Some p => einv f' (d :: handled) (if in_paths p (d :: handled) then todo else insert_sorted p todo)
           | None => einv f' (d :: handled) todo
           end -> exists f2, match p with
           | Some p => remove_loop permitted k build f' (d :: handled) (if in_paths p (d :: handled) then todo else insert_sorted p todo)
           | None => remove_loop permitted k build f' (d :: handled) todo
           end = Some f2).
        { intros f' p [-> | ->] Y; apply IH; auto; try (cbn; lia). destruct (in_paths (tl d) (d :: handled)); [exact It|].
          intros x Hx. apply in_insert_sorted in Hx as [-> |Hx]; auto. }
        match goal with |- exists f', match ?r with _ => _ end = _ => assert (R : snd r = None \/ snd r = Some (tl d)) end.
        { destruct (get f d) as [[]|]; cbn; auto;
            destruct (negb (starts_with (path_text build) (path_text d)) || path_eqb d build); cbn; auto;
            destruct (filter counted (children f d)); cbn; auto; destruct (rmdir permitted f d); cbn; auto. }
        match goal with |- exists f', match ?r with _ => _ end = _ => destruct r as [f' p] end.
        cbn [snd] in R. specialize (Fin f' p R X). destruct p; exact Fin. }
    intros Hk. apply G; [exact init_inv|constructor|intros x []| |cbn; lia].
    intros x Hx. destruct (e_todo _ _ _ init_inv x Hx) as [_ [(p & H1 & H2)|(c & H1 & H2)]].
    - unfold U. apply in_flat_map. exists p. split; [exact H1|]. rewrite H2. apply suffixes_self.
    - rewrite (goes_dir_entry _ H1) in H2. discriminate.
  Qed.
End Empty.

(** * Cleaning *)

Section Clean.
  Variable permitted : path -> bool.

  (** What removal may do: entries below [a] disappear. *)
  Definition only_below (a : path) (f f' : fs) : Prop := forall q, get f' q = get f q \/ (get f' q = None /\ below a q).

  Lemma below_refl p : below p p.
  Proof. exists []; reflexivity. Qed.
  Lemma below_cons c p q : below (c :: p) q -> below p q.
  Proof. intros (l & ->). exists (l ++ [c]). now rewrite <- app_assoc. Qed.
  Lemma below_trans a b c : below a b -> below b c -> below a c.
  Proof. intros (l & ->) (m & ->). exists (m ++ l). now rewrite app_assoc. Qed.

  Lemma remove_rec_unfold n f p : remove_rec permitted (S n) f p =
        match get f p with
        | None => Some (f, true)
        | Some Directory =>
            let r := (fix loop (f : fs) (l : list path) : option fs :=
                        match l with
                        | [] => Some f
                        | q :: l => match remove_rec permitted n f q with Some (f, _) => loop f l | None => None end
                        end) f (map fst (children f p)) in
            match r with
            | None => None
            | Some f => match rmdir permitted f p with Some f => Some (f, true) | None => Some (f, false) end
            end
        | Some _ => Some (if permitted p then (drop f p, true) else (f, false))
        end.
  Proof. reflexivity. Qed.

  Lemma drop_below p a f : below a p -> only_below a f (drop f p).
  Proof.
    intros H q. rewrite get_drop. destruct (path_eqb q p) eqn:E; [|now left]. apply path_eqb_eq in E as ->. now right.
  Qed.
  Lemma only_below_trans a f1 f2 f3 : only_below a f1 f2 -> only_below a f2 f3 -> only_below a f1 f3.
  Proof.
    intros H1 H2 q. destruct (H2 q) as [E2|[E2 B2]]; [|right; auto]. rewrite E2. apply H1.
  Qed.
  Lemma only_below_weaken a b f f' : below a b -> only_below b f f' -> only_below a f f'.
  Proof. intros H X q. destruct (X q) as [E|[E B]]; [now left|right]. split; [exact E|exact (below_trans _ _ _ H B)]. Qed.

  (** Removing a file or a directory with all that is in it. *)
  Lemma remove_rec_spec n : forall f p f' ok, NoDup (map fst f) -> remove_rec permitted n f p = Some (f', ok) ->
    NoDup (map fst f') /\ only_below p f f' /\ (ok = true -> get f' p = None)
    /\ ((forall q, below p q -> permitted q = true) -> ok = true).
  Proof.
    induction n as [|n IH]; intros f p f' ok D H; [discriminate|]. rewrite remove_rec_unfold in H.
    destruct (get f p) as [e|] eqn:G; [|injection H as <- <-; repeat split; auto; intros q; now left].
    assert (Leaf : Some (if permitted p then (drop f p, true) else (f, false)) = Some (f', ok) ->
      NoDup (map fst f') /\ only_below p f f' /\ (ok = true -> get f' p = None) /\ ((forall q, below p q -> permitted q = true) -> ok = true)).
    { destruct (permitted p) eqn:P; intros E; injection E as <- <-.
      - split; [now apply drop_nodup|]. split; [apply drop_below, below_refl|]. split; [|auto]. intros _. now rewrite get_drop, path_eqb_refl.
      - split; [exact D|]. split; [intros q; now left|]. split; [discriminate|]. intros X. rewrite (X p (below_refl p)) in P. discriminate. }
    destruct e; try exact (Leaf H). clear Leaf. cbn zeta in H.
    match type of H with match ?r with _ => _ end = _ => destruct r as [f1|] eqn:L; [|discriminate] end.
    assert (X : forall l f f1, (forall q, In q l -> exists c, q = c :: p) -> NoDup (map fst f) ->
      (fix loop (f : fs) (l : list path) : option fs :=
         match l with
         | [] => Some f
         | q :: l => match remove_rec permitted n f q with Some (f, _) => loop f l | None => None end
         end) f l = Some f1 ->
      NoDup (map fst f1) /\ only_below p f f1 /\ (forall q, get f1 q = get f q \/ q <> p)
      /\ ((forall q, below p q -> permitted q = true) -> forall q, In q l -> get f1 q = None)).
    { clear f f' f1 G D L H. induction l as [|q l IHl]; intros f f1 C D E.
      - injection E as <-. split; [exact D|]. split; [intros q; now left|]. split; [intros q; now left|]. intros _ q [].
      - destruct (remove_rec permitted n f q) as [[f2 ok2]|] eqn:R; [|discriminate].
        destruct (IH f q f2 ok2 D R) as (A1 & A2 & A3 & A4). destruct (C q (or_introl eq_refl)) as (c & Eq). subst q.
        destruct (IHl f2 f1 (fun x Hx => C x (or_intror Hx)) A1 E) as (B1 & B2 & B3 & B4).
        assert (A2' : only_below p f f2) by (eapply only_below_weaken; [exists [c]; reflexivity|exact A2]).
        split; [exact B1|]. split; [exact (only_below_trans _ _ _ _ A2' B2)|]. split.
        + intros x. destruct (path_dec x p) as [->|Hx]; [|now right]. left. destruct (B3 p) as [->|]; [|contradiction].
          destruct (A2 p) as [->|[_ Bp]]; [reflexivity|]. apply below_length in Bp. cbn in Bp. lia.
        + intros P x [<-|Hx]; [|exact (B4 P x Hx)]. assert (K : get f2 (c :: p) = None).
          { apply A3, A4. intros q Hq. apply P. exact (below_cons _ _ _ Hq). }
          destruct (B2 (c :: p)) as [->|[-> _]]; auto. }
    destruct (X (map fst (children f p)) f f1) as (B1 & B2 & B3 & B4); [|exact D|exact L|].
    { intros q Hq. apply in_map_iff in Hq as ([q' e] & E & Hq). cbn in E. subst q'. apply children_spec in Hq as [_ Hq]; [exact Hq|exact D]. }
    destruct (rmdir permitted f1 p) as [f2|] eqn:R; injection H as <- <-.
    - apply rmdir_spec in R as (-> & R); [|exact B1]. split; [now apply drop_nodup|]. split; [exact (only_below_trans _ _ _ _ B2 (drop_below p p f1 (below_refl p)))|].
      split; [|auto]. intros _. now rewrite get_drop, path_eqb_refl.
    - split; [exact B1|]. split; [exact B2|]. split; [discriminate|]. intros P. exfalso.
      assert (R' : rmdir permitted f1 p = Some (drop f1 p)).
      { apply rmdir_spec; [exact B1|]. split; [reflexivity|]. split; [destruct (B3 p) as [->|]; [exact G|contradiction]|]. split; [apply P, below_refl|].
        intros c. destruct (B2 (c :: p)) as [E|[E _]]; [|exact E]. destruct (get f (c :: p)) as [e|] eqn:Ec; [|exact E].
        apply (B4 P). apply in_map_iff. exists (c :: p, e). split; [reflexivity|]. apply children_spec; eauto. }
      congruence.
  Qed.

  Lemma remove_rec_terminates D n : forall f p, NoDup (map fst f) -> (forall q e, get f q = Some e -> length q <= D) -> D < n + length p ->
    n <> 0 -> remove_rec permitted n f p <> None.
  Proof.
    induction n as [|n IH]; intros f p Nf B L Hn; [congruence|]. rewrite remove_rec_unfold. destruct (get f p) as [e|] eqn:G; [|discriminate].
    destruct e; try discriminate. cbn zeta.
    assert (X : forall l f, (forall q, In q l -> exists c, q = c :: p) -> NoDup (map fst f) -> (forall q e, get f q = Some e -> length q <= D) ->
      (l = [] \/ n <> 0) ->
      (fix loop (f : fs) (l : list path) : option fs :=
         match l with
         | [] => Some f
         | q :: l => match remove_rec permitted n f q with Some (f, _) => loop f l | None => None end
         end) f l <> None).
    { clear f Nf B G. induction l as [|q l IHl]; intros f C Nf B N0; [discriminate|]. destruct (C q (or_introl eq_refl)) as (c & ->).
      destruct N0 as [N0|N0]; [discriminate|].
      destruct (remove_rec permitted n f (c :: p)) as [[f2 ok]|] eqn:R.
      - apply IHl; auto.
        + intros x Hx. apply C. now right.
        + now destruct (remove_rec_spec n f _ f2 ok Nf R).
        + intros x e Hx. destruct (remove_rec_spec n f _ f2 ok Nf R) as (_ & A & _). destruct (A x) as [E|[E _]]; [|congruence]. apply (B x e). congruence.
      - exfalso. exact (IH f (c :: p) Nf B ltac:(cbn; lia) N0 R). }
    specialize (X (map fst (children f p)) f).
    match goal with |- match ?r with _ => _ end <> None => destruct r as [f1|] eqn:L1 end.
    - destruct (rmdir permitted f1 p); discriminate.
    - exfalso. apply X; auto.
      + intros q Hq. apply in_map_iff in Hq as ([q' e] & E & Hq). cbn in E. subst q'. apply children_spec in Hq as [_ Hq]; [exact Hq|exact Nf].
      + destruct (children f p) as [|[q e] l] eqn:C; [now left|right]. assert (Hq : In (q, e) (children f p)) by (rewrite C; now left).
        apply children_spec in Hq as [Hq (c & ->)]; [|exact Nf]. apply B in Hq. cbn in Hq. lia.
  Qed.

  (** ** Empty directories *)

  Variable opts : options.
  Variable canceled : nat -> bool.

  (** Only directories disappear, when nothing is in them (any more). *)
  Definition only_dirs (a : path) (f f' : fs) : Prop :=
    forall q, get f' q = get f q \/ (get f' q = None /\ get f q = Some Directory /\ below a q /\ forall c, get f' (c :: q) = None).
  Definition holds_file (f : fs) (p : path) : Prop := exists q e, inside p q /\ get f q = Some e /\ e <> Directory.

  Lemma only_dirs_refl a f : only_dirs a f f.
  Proof. intros q. now left. Qed.
  Lemma only_dirs_none a f f' q : only_dirs a f f' -> get f q = None -> get f' q = None.
  Proof. intros H E. destruct (H q) as [->|(_ & X & _)]; [exact E|congruence]. Qed.
  Lemma only_dirs_trans a f1 f2 f3 : only_dirs a f1 f2 -> only_dirs a f2 f3 -> only_dirs a f1 f3.
  Proof.
    intros H1 H2 q. destruct (H2 q) as [E2|(E2 & D2 & B2 & C2)].
    - rewrite E2. destruct (H1 q) as [E1|(E1 & D1 & B1 & C1)]; [now left|right]. split; [exact E1|]. split; [exact D1|]. split; [exact B1|].
      intros c. apply (only_dirs_none a f2 f3 _ H2 (C1 c)).
    - right. split; [exact E2|]. split; [|auto]. destruct (H1 q) as [E1|(E1 & _)]; congruence.
  Qed.
  Lemma only_dirs_weaken a b f f' : below a b -> only_dirs b f f' -> only_dirs a f f'.
  Proof. intros H X q. destruct (X q) as [E|(E & D & B & C)]; [now left|right]. split; [exact E|]. split; [exact D|]. split; [exact (below_trans _ _ _ H B)|exact C]. Qed.
  Lemma only_dirs_keeps a f f' q e : only_dirs a f f' -> get f q = Some e -> e <> Directory -> get f' q = Some e.
  Proof. intros H E N. destruct (H q) as [->|(_ & X & _)]; [exact E|congruence]. Qed.
  Lemma only_dirs_holds a f f' p : only_dirs a f f' -> holds_file f p -> holds_file f' p.
  Proof. intros H (q & e & I1 & I2 & I3). exists q, e. split; [exact I1|]. split; [exact (only_dirs_keeps a f f' q e H I2 I3)|exact I3]. Qed.

  (** The result of a step in which only [s_fs] and [s_error] change. *)
  Record stepped (a : path) (st st' : cstate) : Prop := {
    sp_nodup : NoDup (map fst (s_fs st'));
    sp_fs : only_dirs a (s_fs st) (s_fs st');
    sp_cleared : s_cleared st' = s_cleared st;
    sp_rescuable : s_rescuable st' = s_rescuable st;
    sp_dirs : s_dirs st' = s_dirs st;
    sp_error : s_error st = true -> s_error st' = true;
  }.
  Lemma stepped_refl a st : NoDup (map fst (s_fs st)) -> stepped a st st.
  Proof. intros D. split; auto using only_dirs_refl. Qed.
  Lemma stepped_trans a st1 st2 st3 : stepped a st1 st2 -> stepped a st2 st3 -> stepped a st1 st3.
  Proof.
    intros [A1 A2 A3 A4 A5 A6] [B1 B2 B3 B4 B5 B6]. split; auto; try congruence. exact (only_dirs_trans _ _ _ _ A2 B2).
  Qed.
  Lemma stepped_weaken a b st st' : below a b -> stepped b st st' -> stepped a st st'.
  Proof. intros H [A1 A2 A3 A4 A5 A6]. split; auto. exact (only_dirs_weaken _ _ _ _ H A2). Qed.

  Definition dir_loop (n : nat) : cstate -> bool -> fs -> cres * bool :=
    fix loop (st : cstate) (sub : bool) (l : fs) : cres * bool :=
      match l with
      | [] => (Done st, sub)
      | (q, e) :: l =>
          if is_dir e then
            match empty_dirs permitted opts n st q with
            | (Done st, gone) => loop st (sub && gone) l
            | r => r
            end
          else loop st false l
      end.
  Lemma empty_dirs_unfold n st p : empty_dirs permitted opts (S n) st p =
        match dir_loop n st true (filter (fun e => shown (snd e)) (children (s_fs st) p)) with
        | (Done st, true) =>
            match rmdir permitted (s_fs st) p with
            | Some f => (Done (set_fs st f), true)
            | None => if keep_going opts then (Done (set_error st), false) else (Thrown st, false)
            end
        | r => r
        end.
  Proof.
    change (empty_dirs permitted opts (S n) st p) with
      (let r := dir_loop n st true (filter (fun e => shown (snd e)) (children (s_fs st) p)) in
        match r with
        | (Done st, true) =>
            match rmdir permitted (s_fs st) p with
            | Some f => (Done (set_fs st f), true)
            | None => if keep_going opts then (Done (set_error st), false) else (Thrown st, false)
            end
        | r => r
        end).
    cbn zeta. destruct (dir_loop n st true _) as [[] []]; reflexivity.
  Qed.

  Lemma empty_dirs_spec n : forall st p, NoDup (map fst (s_fs st)) ->
    match empty_dirs permitted opts n st p with
    | (Done st', true) => stepped p st st' /\ get (s_fs st') p = None
    | (Done st', false) => stepped p st st' /\ (s_error st' = false -> holds_file (s_fs st') p)
    | (Thrown st', _) => stepped p st st'
    | (Exhausted, _) => True
    end.
  Proof.
    induction n as [|n IH]; intros st p D; [exact I|]. rewrite empty_dirs_unfold.
    assert (X : forall l st sub, NoDup (map fst (s_fs st)) -> (forall q e, In (q, e) l -> (exists c, q = c :: p) /\ (is_dir e = false -> get (s_fs st) q = Some e)) ->
      match dir_loop n st sub l with
      | (Done st', sub') => stepped p st st' /\ get (s_fs st') p = get (s_fs st) p
           /\ (sub' = false -> sub = false \/ (s_error st' = false -> holds_file (s_fs st') p))
      | (Thrown st', _) => stepped p st st'
      | (Exhausted, _) => True
      end).
    { clear st D. induction l as [|[q e] l IHl]; intros st sub D C; cbn [dir_loop].
      - split; [now apply stepped_refl|]. split; [reflexivity|]. now left.
      - destruct (C q e (or_introl eq_refl)) as ((c & ->) & Ce). destruct (is_dir e) eqn:De.
        + pose proof (IH st (c :: p) D) as Y. destruct (empty_dirs permitted opts n st (c :: p)) as [[st1|st1|] gone]; [| |exact I].
          2:{ apply (stepped_weaken p (c :: p)); [exists [c]; reflexivity|exact Y]. }
          assert (S1 : stepped (c :: p) st st1) by (destruct gone; apply Y).
          assert (S1' : stepped p st st1) by (apply (stepped_weaken p (c :: p)); [exists [c]; reflexivity|exact S1]).
          specialize (IHl st1 (sub && gone) (sp_nodup _ _ _ S1')).
          assert (C1 : forall q e, In (q, e) l -> (exists c, q = c :: p) /\ (is_dir e = false -> get (s_fs st1) q = Some e)).
          { intros x d Hx. destruct (C x d (or_intror Hx)) as [C1 C2]. split; [exact C1|]. intros Dd.
            apply (only_dirs_keeps p (s_fs st)); [exact (sp_fs _ _ _ S1')|auto|]. now destruct d. }
          specialize (IHl C1). destruct (dir_loop n st1 (sub && gone) l) as [[st2|st2|] sub'].
          * destruct IHl as (S2 & G2 & N2). split; [exact (stepped_trans _ _ _ _ S1' S2)|]. split.
            { rewrite G2. destruct (sp_fs _ _ _ S1 p) as [->|(_ & _ & B & _)]; [reflexivity|]. apply below_length in B. cbn in B. lia. }
            intros Hs. destruct (N2 Hs) as [H|H]; [|now right]. apply andb_false_iff in H as [H| ->]; [now left|]. right. intros E2.
            apply (only_dirs_holds p (s_fs st1)); [exact (sp_fs _ _ _ S2)|]. destruct Y as [_ Y].
            assert (E1 : s_error st1 = false) by (destruct (s_error st1) eqn:E1; [rewrite (sp_error _ _ _ S2 E1) in E2; discriminate|reflexivity]).
            destruct (Y E1) as (x & d & (c' & l' & ->) & Q2 & Q3). exists (l' ++ c' :: c :: p), d. split; [|auto]. exists c, (l' ++ [c']). now rewrite <- app_assoc.
          * exact (stepped_trans _ _ _ _ S1' IHl).
          * exact I.
        + assert (Ce' := Ce eq_refl). specialize (IHl st false D (fun x d Hx => C x d (or_intror Hx))).
          destruct (dir_loop n st false l) as [[st2|st2|] sub']; auto. destruct IHl as (S2 & G2 & N2). split; [exact S2|]. split; [exact G2|].
          intros _. right. intros _. exists (c :: p), e. split; [exists c, []; reflexivity|]. split; [|now destruct e].
          apply (only_dirs_keeps p (s_fs st)); [exact (sp_fs _ _ _ S2)|exact Ce'|now destruct e]. }
    specialize (X (filter (fun e => shown (snd e)) (children (s_fs st) p)) st true D).
    assert (C : forall q e, In (q, e) (filter (fun e => shown (snd e)) (children (s_fs st) p)) -> (exists c, q = c :: p) /\ (is_dir e = false -> get (s_fs st) q = Some e)).
    { intros q e H. apply filter_In in H as [H _]. apply children_spec in H as [H1 H2]; auto. }
    specialize (X C). destruct (dir_loop n st true _) as [[st1|st1|] [|]]; auto.
    - destruct X as (S1 & G1 & _). destruct (rmdir permitted (s_fs st1) p) as [f|] eqn:R.
      + apply rmdir_spec in R as (-> & R1 & R2 & R3); [|exact (sp_nodup _ _ _ S1)]. cbn [set_fs s_fs]. split; [|now rewrite get_drop, path_eqb_refl].
        apply (stepped_trans p st st1 _ S1). split; cbn; auto.
        * apply drop_nodup. exact (sp_nodup _ _ _ S1).
        * intros q. rewrite get_drop. destruct (path_eqb q p) eqn:E; [|now left]. apply path_eqb_eq in E as ->. right. do 2 (split; [auto|]).
          split; [apply below_refl|]. intros c. rewrite get_drop. destruct (path_eqb (c :: p) p); auto.
      + destruct (keep_going opts); [|exact S1]. split; [|discriminate]. destruct S1. split; auto.
    - destruct X as (S1 & G1 & N1). split; [exact S1|]. destruct (N1 eq_refl) as [H|H]; [discriminate|exact H].
  Qed.

  Lemma empty_dirs_terminates D n : forall st p, NoDup (map fst (s_fs st)) -> (forall q e, get (s_fs st) q = Some e -> length q <= D) -> D < n + length p ->
    n <> 0 -> fst (empty_dirs permitted opts n st p) <> Exhausted.
  Proof.
    induction n as [|n IH]; intros st p Nf B L Hn; [congruence|]. rewrite empty_dirs_unfold.
    assert (X : forall l st sub, NoDup (map fst (s_fs st)) -> (forall q e, get (s_fs st) q = Some e -> length q <= D) ->
      (forall q e, In (q, e) l -> exists c, q = c :: p) -> (l = [] \/ n <> 0) -> fst (dir_loop n st sub l) <> Exhausted).
    { clear st Nf B. induction l as [|[q e] l IHl]; intros st sub Nf B C N0; cbn [dir_loop]; [discriminate|]. destruct N0 as [N0|N0]; [discriminate|].
      destruct (C q e (or_introl eq_refl)) as (c & ->). assert (C' : forall q e, In (q, e) l -> exists c, q = c :: p) by (intros x d Hx; apply (C x d); now right).
      destruct (is_dir e); [|now apply IHl; auto].
      pose proof (IH st (c :: p) Nf B ltac:(cbn; lia) N0) as Y. pose proof (empty_dirs_spec n st (c :: p) Nf) as Z.
      destruct (empty_dirs permitted opts n st (c :: p)) as [[st1|st1|] gone]; [|discriminate|contradiction].
      assert (S1 : stepped (c :: p) st st1) by (destruct gone; apply Z). apply IHl; auto; [exact (sp_nodup _ _ _ S1)|].
      intros x d Hx. destruct (sp_fs _ _ _ S1 x) as [E|(E & _)]; [|congruence]. apply (B x d). congruence. }
    specialize (X (filter (fun e => shown (snd e)) (children (s_fs st) p)) st true Nf B).
    assert (C : forall q e, In (q, e) (filter (fun e => shown (snd e)) (children (s_fs st) p)) -> exists c, q = c :: p).
    { intros q e H. apply filter_In in H as [H _]. apply children_spec in H as [_ H]; auto. }
    specialize (X C).
    assert (N0 : filter (fun e => shown (snd e)) (children (s_fs st) p) = [] \/ n <> 0).
    { destruct (filter (fun e => shown (snd e)) (children (s_fs st) p)) as [|[q e] l] eqn:F; [now left|right].
      assert (Hq : In (q, e) (filter (fun e => shown (snd e)) (children (s_fs st) p))) by (rewrite F; now left). apply filter_In in Hq as [Hq _].
      apply children_spec in Hq as [Hq (c & ->)]; [|exact Nf]. apply B in Hq. cbn in Hq. lia. }
    specialize (X N0). destruct (dir_loop n st true _) as [[st1|st1|] [|]]; cbn [fst] in *; try discriminate; try contradiction.
    destruct (rmdir permitted (s_fs st1) p); [discriminate|]. destruct (keep_going opts); discriminate.
  Qed.

  (** ** All products *)

  Variable build : path.
  Hypothesis build_not_root : build <> [].
  Variable products : list product.

  (** The artifacts that cleaning is about, and the files that it removes. *)
  Definition to_clean (x : artifact) : Prop := exists pr, In pr products /\ In x (pr_artifacts pr) /\ a_generated x = true /\ a_product x = pr_id pr.
  Definition doomed (a : path) : Prop := (exists x, to_clean x /\ a = a_path x) \/ exists pr, In pr products /\ In a (pr_rescuable pr).
  Hypothesis artifacts_inside : forall x, to_clean x -> inside build (a_path x).

  Record visited (st st' : cstate) : Prop := {
    vs_nodup : NoDup (map fst (s_fs st'));
    vs_fs : forall q, get (s_fs st') q = get (s_fs st) q \/ (get (s_fs st') q = None /\ dry opts = false /\ exists a, doomed a /\ below a q);
    vs_cleared : forall i, In i (s_cleared st) -> In i (s_cleared st');
    vs_cleared_only : forall i, In i (s_cleared st') -> In i (s_cleared st) \/ (dry opts = false /\ exists x, to_clean x /\ i = a_id x);
    vs_error : s_error st = true -> s_error st' = true;
  }.
  Lemma visited_refl st : NoDup (map fst (s_fs st)) -> visited st st.
  Proof. intros D. split; auto. Qed.
  Lemma visited_trans st1 st2 st3 : visited st1 st2 -> visited st2 st3 -> visited st1 st3.
  Proof.
    intros [A1 A2 A3 A4 A5] [B1 B2 B3 B4 B5]. split; auto.
    - intros q. destruct (B2 q) as [E|E]; [|now right]. rewrite E. apply A2.
    - intros i Hi. destruct (B4 i Hi) as [X|X]; [auto|now right].
  Qed.

  Definition result (r : cres) : option cstate := match r with Done st | Thrown st => Some st | Exhausted => None end.

  (** All entries are at most [D] levels deep. *)
  Section Deep.
  Variable D : nat.
  Definition flat (st : cstate) : Prop := NoDup (map fst (s_fs st)) /\ forall q e, get (s_fs st) q = Some e -> length q <= D.

  Lemma visited_flat st st' : flat st -> visited st st' -> flat st'.
  Proof.
    intros [F1 F2] V. split; [exact (vs_nodup _ _ V)|]. intros q e H. destruct (vs_fs _ _ V q) as [E|[E _]]; [|congruence]. apply (F2 q e). congruence.
  Qed.

  Lemma remove_from_disk_spec n st id p : flat st -> doomed p -> match id with Some i => exists x, to_clean x /\ i = a_id x | None => True end ->
    match remove_from_disk permitted opts n st id p with
    | Done st' => visited st st' /\ (s_dirs st' = s_dirs st /\ s_error st' = s_error st)
        /\ (dry opts = false -> get (s_fs st') p = None /\ match id with Some i => In i (s_cleared st') | None => True end)
    | Thrown st' => visited st st' /\ (s_dirs st' = s_dirs st /\ s_error st' = s_error st) /\ dry opts = false /\ ~ (forall q, below p q -> permitted q = true)
    | Exhausted => n <= D
    end.
  Proof.
    intros Fl Dp Hid. pose proof (proj1 Fl) as Nd. unfold remove_from_disk.
    assert (Cl : dry opts = false -> visited st (clear st id) /\ s_fs (clear st id) = s_fs st /\ (s_dirs (clear st id) = s_dirs st /\ s_error (clear st id) = s_error st)
                 /\ match id with Some i => In i (s_cleared (clear st id)) | None => True end).
    { intros E. destruct id as [i|]; cbn.
      - split; [|split; [reflexivity|split; [split; reflexivity|now left]]]. split; cbn; auto. intros j [<-|H]; auto.
      - split; [now apply visited_refl|]. auto. }
    destruct (dry opts) eqn:Dr.
    - assert (V := visited_refl st Nd). destruct (get (s_fs st) p); (split; [exact V|split; [split; reflexivity|discriminate]]).
    - destruct (Cl eq_refl) as (C1 & C2 & C3 & C4). destruct (get (s_fs st) p) eqn:G.
      + cbn zeta. rewrite C2. destruct (remove_rec permitted n (s_fs st) p) as [[f ok]|] eqn:R.
        2:{ destruct (le_lt_dec n D) as [L|L]; [exact L|]. exfalso. apply (remove_rec_terminates D n (s_fs st) p Nd (proj2 Fl)) in R; lia. }
        destruct (remove_rec_spec n (s_fs st) p f ok Nd R) as (R1 & R2 & R3 & R4).
        assert (V : visited st (set_fs (clear st id) f)).
        { apply (visited_trans _ (clear st id)); [exact C1|]. split; cbn; auto. intros q. rewrite C2. destruct (R2 q) as [E|[E B]]; [now left|right]. eauto. }
        destruct ok; cbn [set_fs s_fs s_dirs s_cleared s_error].
        * split; [exact V|]. split; [exact C3|]. intros _. split; [now apply R3|exact C4].
        * split; [exact V|]. split; [exact C3|]. split; [reflexivity|].
          intros X. apply R4 in X. discriminate.
      + split; [exact C1|]. split; [exact C3|]. intros _. rewrite C2. auto.
  Qed.

  Lemma in_insert_dir d l x : In x (insert_dir d l) <-> x = d \/ In x l.
  Proof.
    induction l as [|c l IH]; cbn [insert_dir In]; [intuition|]. destruct (path_eqb d c) eqn:E; [apply path_eqb_eq in E as ->; cbn [In]; intuition|].
    destruct (str_ltb _ _); cbn [In]; [intuition|]. rewrite IH. intuition.
  Qed.
  Lemma in_unite (l dirs : list path) x : In x (fold_left (fun l d => insert_dir d l) l dirs) <-> In x l \/ In x dirs.
  Proof.
    revert dirs. induction l as [|d l IH]; intros dirs; cbn [fold_left In]; [intuition|]. rewrite IH, in_insert_dir. intuition.
  Qed.

  (** Done for an artifact, unless there was an error. *)
  Definition cleaned (st : cstate) (x : artifact) : Prop :=
    In (tl (a_path x)) (s_dirs st) /\ (s_error st = false -> dry opts = false -> get (s_fs st) (a_path x) = None /\ In (a_id x) (s_cleared st)).
  Definition forced (p : path) : Prop := forall q, below p q -> permitted q = true.


  (** What holds between the states of the first part. *)
  Record going (st st' : cstate) : Prop := {
    go_visited : visited st st';
    go_dirs : incl (s_dirs st) (s_dirs st');
    go_dirs_only : forall d, In d (s_dirs st') -> In d (s_dirs st) \/ exists x, to_clean x /\ d = tl (a_path x);
    go_error : s_error st' = true -> s_error st = true \/ exists x, to_clean x /\ ~ forced (a_path x);
  }.
  Definition failure : Prop := exists a, doomed a /\ ~ forced a.
  Definition stopped : Prop := (exists x, a_generated x = true /\ canceled (a_id x) = true) \/ failure.

  Lemma going_refl st : flat st -> going st st.
  Proof. intros [F _]. split; auto using incl_refl. now apply visited_refl. Qed.
  Lemma going_trans st1 st2 st3 : going st1 st2 -> going st2 st3 -> going st1 st3.
  Proof.
    intros [A1 A2 A3 A4] [B1 B2 B3 B4]. split.
    - exact (visited_trans _ _ _ A1 B1).
    - exact (incl_tran A2 B2).
    - intros d Hd. destruct (B3 d Hd) as [X|X]; auto.
    - intros E. destruct (B4 E) as [X|X]; auto.
  Qed.
  Lemma cleaned_going st st' x : going st st' -> cleaned st x -> cleaned st' x.
  Proof.
    intros [V I1 _ _] [C1 C2]. split; [now apply I1|]. intros E Dr.
    assert (E0 : s_error st = false) by (destruct (s_error st) eqn:E0; [rewrite (vs_error _ _ V E0) in E; discriminate|reflexivity]).
    destruct (C2 E0 Dr) as [X1 X2]. split; [|now apply (vs_cleared _ _ V)]. destruct (vs_fs _ _ V (a_path x)) as [-> |[-> _]]; auto.
  Qed.

  Lemma each_spec {A} (f : cstate -> A -> cres) (Q : A -> cstate -> Prop) (E : Prop) (T : Prop) l : 
    (forall st st' x, going st st' -> Q x st -> Q x st') ->
    (forall st x, In x l -> flat st -> match f st x with Done st' => going st st' /\ Q x st' | Thrown st' => going st st' /\ T | Exhausted => E end) ->
    forall st, flat st -> match each f l st with Done st' => going st st' /\ (forall x, In x l -> Q x st') | Thrown st' => going st st' /\ T | Exhausted => E end.
  Proof.
    intros St. induction l as [|x l IH]; intros Step st F; cbn [each].
    - split; [now apply going_refl|intros x []].
    - pose proof (Step st x (or_introl eq_refl) F) as X. destruct (f st x) as [st1|st1|]; cbn [bind]; auto. destruct X as [G1 Q1].
      assert (F1 : flat st1) by (exact (visited_flat _ _ F (go_visited _ _ G1))).
      specialize (IH (fun st x Hx => Step st x (or_intror Hx)) st1 F1). destruct (each f l st1) as [st2|st2|]; auto.
      + destruct IH as [G2 Q2]. split; [exact (going_trans _ _ _ G1 G2)|]. intros y [<-|Hy]; [exact (St _ _ _ G2 Q1)|auto].
      + destruct IH as [G2 Q2]. split; [exact (going_trans _ _ _ G1 G2)|exact Q2].
  Qed.

  Lemma visit_artifact_spec n pr st x : flat st -> In pr products -> In x (pr_artifacts pr) ->
    match visit_artifact permitted opts canceled n pr st x with
    | Done st' => going st st' /\ (a_generated x = true -> a_product x = pr_id pr -> cleaned st' x)
    | Thrown st' => going st st' /\ stopped
    | Exhausted => n <= D
    end.
  Proof.
    intros Fl Hpr Hx. unfold visit_artifact. destruct (a_generated x) eqn:G; cbn [negb].
    2:{ split; [now apply going_refl|discriminate]. }
    destruct (canceled (a_id x)) eqn:C; [split; [now apply going_refl|left; eauto]|].
    destruct (Nat.eqb_spec (a_product x) (pr_id pr)) as [P|P]; cbn [negb].
    2:{ split; [now apply going_refl|contradiction]. }
    assert (T : to_clean x) by (exists pr; auto). assert (Dx : doomed (a_path x)) by (left; eauto).
    pose proof (remove_from_disk_spec n st (Some (a_id x)) (a_path x) Fl Dx (ex_intro _ x (conj T eq_refl))) as X.
    cbn zeta. destruct (remove_from_disk permitted opts n st (Some (a_id x)) (a_path x)) as [st'|st'|]; [| |exact X].
    - destruct X as (V & (Ds & Es) & X). split.
      + split; cbn [s_dirs s_error].
        * destruct V; split; auto.
        * intros d Hd. apply in_insert_dir. right. now rewrite Ds.
        * intros d Hd. apply in_insert_dir in Hd as [-> |Hd]; [right; eauto|left; now rewrite <- Ds].
        * rewrite Es. now left.
      + intros _ _. split; cbn [s_dirs s_fs s_cleared]; [apply in_insert_dir; now left|]. intros _ Dr. exact (X Dr).
    - destruct X as (V & (Ds & Es) & Dr & F). assert (Fa : failure) by (exists (a_path x); auto).
      destruct (keep_going opts).
      + split.
        * split; cbn [s_dirs s_error set_error].
          -- destruct V; split; auto.
          -- intros d Hd. apply in_insert_dir. right. now rewrite Ds.
          -- intros d Hd. apply in_insert_dir in Hd as [-> |Hd]; [right; eauto|left; now rewrite <- Ds].
          -- intros _. right. eauto.
        * intros _ _. split; cbn [s_dirs s_fs s_cleared s_error set_error]; [apply in_insert_dir; now left|discriminate].
      + split; [|right; exact Fa]. split; auto.
        * rewrite Ds. apply incl_refl.
        * intros d. rewrite Ds. now left.
        * rewrite Es. now left.
  Qed.

  Lemma visit_rescuable_spec n pr st p : flat st -> In pr products -> In p (pr_rescuable pr) ->
    match visit_rescuable permitted opts n st p with
    | Done st' => going st st' /\ (dry opts = false -> get (s_fs st') p = None)
    | Thrown st' => going st st' /\ stopped
    | Exhausted => n <= D
    end.
  Proof.
    intros Fl Hpr Hp. unfold visit_rescuable. assert (Dp : doomed p) by (right; eauto).
    pose proof (remove_from_disk_spec n st None p Fl Dp I) as X. destruct (remove_from_disk permitted opts n st None p) as [st'|st'|]; cbn [bind]; [| |exact X].
    - destruct X as (V & (Ds & Es) & X). split; [|cbn [s_fs]; intros Dr; now apply X]. split; cbn [s_dirs s_error].
      + destruct V; split; auto.
      + rewrite Ds. apply incl_refl.
      + intros d. rewrite Ds. now left.
      + rewrite Es. now left.
    - destruct X as (V & (Ds & Es) & Dr & F). split; [|right; exists p; auto]. split; auto.
      + rewrite Ds. apply incl_refl.
      + intros d. rewrite Ds. now left.
      + rewrite Es. now left.
  Qed.

  Definition product_done (pr : product) (st : cstate) : Prop :=
    (forall x, In x (pr_artifacts pr) -> a_generated x = true -> a_product x = pr_id pr -> cleaned st x)
    /\ (forall p, In p (pr_rescuable pr) -> dry opts = false -> get (s_fs st) p = None).

  Lemma going_none st st' p : going st st' -> get (s_fs st) p = None -> get (s_fs st') p = None.
  Proof. intros G H. destruct (vs_fs _ _ (go_visited _ _ G) p) as [-> |[-> _]]; auto. Qed.

  Lemma visit_product_spec n pr st : flat st -> In pr products ->
    match visit_product permitted opts canceled n st pr with
    | Done st' => going st st' /\ product_done pr st'
    | Thrown st' => going st st' /\ stopped
    | Exhausted => n <= D
    end.
  Proof.
    intros Fl Hpr. unfold visit_product.
    pose proof (each_spec (visit_artifact permitted opts canceled n pr)
      (fun x st => a_generated x = true -> a_product x = pr_id pr -> cleaned st x) (n <= D) stopped (pr_artifacts pr)) as X.
    specialize (X (fun s s' x Hg Hq H1 H2 => cleaned_going s s' x Hg (Hq H1 H2))
                  (fun s x Hx Hs => visit_artifact_spec n pr s x Hs Hpr Hx) st Fl).
    destruct (each (visit_artifact permitted opts canceled n pr) (pr_artifacts pr) st) as [st1|st1|]; cbn [bind]; auto. destruct X as [G1 Q1].
    assert (F1 : flat st1) by (exact (visited_flat _ _ Fl (go_visited _ _ G1))).
    pose proof (each_spec (visit_rescuable permitted opts n) (fun p st => dry opts = false -> get (s_fs st) p = None) (n <= D) stopped (pr_rescuable pr)) as Y.
    specialize (Y (fun s s' p Hg Hq H1 => going_none s s' p Hg (Hq H1)) (fun s p Hp Hs => visit_rescuable_spec n pr s p Hs Hpr Hp) st1 F1).
    destruct (each (visit_rescuable permitted opts n) (pr_rescuable pr) st1) as [st2|st2|]; auto.
    - destruct Y as [G2 Q2]. split; [exact (going_trans _ _ _ G1 G2)|]. split; [|exact Q2]. intros x H1 H2 H3. exact (cleaned_going _ _ _ G2 (Q1 x H1 H2 H3)).
    - destruct Y as [G2 Q2]. split; [exact (going_trans _ _ _ G1 G2)|exact Q2].
  Qed.

  Lemma clean_product_spec n pr st : flat st -> In pr products ->
    match clean_product permitted opts canceled n st pr with
    | Done st' => going st st' /\ product_done pr st'
    | Thrown st' => visited st st' /\ stopped
    | Exhausted => n <= D
    end.
  Proof.
    intros Fl Hpr. unfold clean_product. cbn zeta. set (st0 := mkS (s_fs st) (s_cleared st) (s_rescuable st) [] (s_error st)).
    pose proof (visit_product_spec n pr st0 Fl Hpr) as X. destruct (visit_product permitted opts canceled n st0 pr) as [st1|st1|]; cbn [bind]; auto.
    - destruct X as [[V _ O E] [Q1 Q2]]. assert (In1 : incl (s_dirs st1) (s_dirs (unite st1 (s_dirs st)))) by (intros d Hd; cbn; apply in_unite; now left).
      split.
      + split.
        * destruct V; split; auto.
        * intros d Hd. cbn. apply in_unite. now right.
        * cbn. intros d Hd. apply in_unite in Hd as [Hd|Hd]; [|now left]. destruct (O d Hd) as [[]|Y]. now right.
        * exact E.
      + split; [|exact Q2]. intros x H1 H2 H3. destruct (Q1 x H1 H2 H3) as [C1 C2]. split; [apply In1, C1|exact C2].
    - destruct X as [[V _ _ _] S1]. split; [destruct V; split; auto|exact S1].
  Qed.
  End Deep.

  Lemma depth_exists (f : fs) : exists D, forall q e, get f q = Some e -> length q <= D.
  Proof.
    exists (fold_right (fun x m => Nat.max (length (fst x)) m) 0 f). intros q e H. apply get_in in H. induction f as [|y f IH]; [destruct H|]. cbn.
    destruct H as [-> |H]; [cbn; lia|]. specialize (IH H). lia.
  Qed.

  (** *** The directories *)

  (** A directory that is still there contains something that is no directory. *)
  Definition tidy (f : fs) (d : path) : Prop := get f d = Some Directory -> holds_file f d.
  Lemma tidy_stable a f f' d : only_dirs a f f' -> tidy f d -> tidy f' d.
  Proof. intros O T G. apply (only_dirs_holds a f f' d O), T. destruct (O d) as [<-|(X & _)]; congruence. Qed.

  Lemma clean_dirs_spec k n : forall st seen todo, NoDup (map fst (s_fs st)) ->
    (forall d, In d (seen ++ todo) -> below build d) ->
    match clean_dirs permitted opts k n build st seen todo with
    | Done st' => stepped build st st' /\
        ((s_error st = false -> forall d, In d seen -> tidy (s_fs st) d) ->
         (forall d, In d seen -> d <> build -> tl d <> build -> In (tl d) (seen ++ todo)) ->
         exists all, incl (seen ++ todo) all /\ (forall d, In d all -> d <> build -> tl d <> build -> In (tl d) all)
                     /\ (s_error st' = false -> forall d, In d all -> tidy (s_fs st') d))
    | Thrown st' => stepped build st st'
    | Exhausted => True
    end.
  Proof.
    induction k as [|k IH]; intros st seen todo Nd B; cbn [clean_dirs]; [exact I|]. destruct todo as [|d todo].
    - split; [now apply stepped_refl|]. rewrite app_nil_r. intros T C. exists seen. split; [apply incl_refl|]. split; [exact C|]. intros E. apply T. exact E.
    - assert (Bd : below build d) by (apply B, in_app_iff; right; now left).
      rewrite (starts_below build d build_not_root Bd). cbn [negb]. cbn zeta.
      assert (X : match (if stat_exists (get (s_fs st) d) then fst (empty_dirs permitted opts n st d) else Done st) with
                  | Done st' => stepped build st st' /\ (s_error st' = false -> tidy (s_fs st') d)
                  | Thrown st' => stepped build st st' | Exhausted => True end).
      { destruct (stat_exists (get (s_fs st) d)) eqn:Se.
        - pose proof (empty_dirs_spec n st d Nd) as Y. destruct (empty_dirs permitted opts n st d) as [[st1|st1|] [|]]; cbn [fst]; auto;
            try (split; [exact (stepped_weaken _ _ _ _ Bd (proj1 Y))|]); try exact (stepped_weaken _ _ _ _ Bd Y).
          + intros _ G. destruct Y as [_ Y]. congruence.
          + intros E _. now apply Y.
        - split; [now apply stepped_refl|]. intros _ G. rewrite G in Se. discriminate. }
      destruct (if stat_exists (get (s_fs st) d) then fst (empty_dirs permitted opts n st d) else Done st) as [st1|st1|]; cbn [bind]; auto.
      destruct X as [S1 T1].
      set (add := negb (path_eqb d build) && negb (path_eqb (tl d) build) && negb (in_paths (tl d) (seen ++ d :: todo))).
      set (todo' := if add then todo ++ [tl d] else todo).
      assert (Inc : incl (seen ++ d :: todo) ((d :: seen) ++ todo')).
      { intros x Hx. apply in_app_iff in Hx as [Hx|[-> |Hx]]; [right; apply in_app_iff; now left|now left|]. right. apply in_app_iff. right.
        unfold todo'. destruct add; [apply in_app_iff; now left|exact Hx]. }
      assert (B' : forall x, In x ((d :: seen) ++ todo') -> below build x).
      { intros x [<-|Hx]; [exact Bd|]. apply in_app_iff in Hx as [Hx|Hx]; [apply B, in_app_iff; now left|]. unfold todo' in Hx. destruct add eqn:A.
        - apply in_app_iff in Hx as [Hx|[<-|[]]]; [apply B, in_app_iff; right; now right|]. unfold add in A.
          apply andb_true_iff in A as [A _]. apply andb_true_iff in A as [A _]. apply negb_true_iff, path_eqb_neq in A. apply inside_tl, below_inside; auto.
        - apply B, in_app_iff; right; now right. }
      specialize (IH st1 (d :: seen) todo' (sp_nodup _ _ _ S1) B').
      destruct (clean_dirs permitted opts k n build st1 (d :: seen) todo') as [st2|st2|]; auto.
      + destruct IH as [S2 Y]. split; [exact (stepped_trans _ _ _ _ S1 S2)|]. intros T C.
        destruct Y as (all & Y1 & Y2 & Y3).
        * intros E1 x [<-|Hx]; [now apply T1|]. apply (tidy_stable build (s_fs st)); [exact (sp_fs _ _ _ S1)|]. apply T; auto.
          destruct (s_error st) eqn:E; [rewrite (sp_error _ _ _ S1 E) in E1; discriminate|reflexivity].
        * intros x [<-|Hx] N1 N2; [|apply Inc; auto]. apply path_eqb_neq in N1, N2. destruct (in_paths (tl d) (seen ++ d :: todo)) eqn:P.
          -- apply Inc, in_paths_spec. exact P.
          -- assert (A : add = true) by (unfold add; now rewrite N1, N2). right. unfold todo'. rewrite A. apply in_app_iff. right. apply in_app_iff. right. now left.
        * exists all. split; [exact (incl_tran Inc Y1)|]. auto.
      + exact (stepped_trans _ _ _ _ S1 IH).
  Qed.

  Lemma clean_dirs_terminates n D : D < n -> forall (U : list path), (forall u, In u U -> In (tl u) U) ->
    forall k st seen todo, flat D st -> incl (seen ++ todo) U -> (forall d, In d (seen ++ todo) -> below build d) ->
    length todo + length (filter (fun u => negb (in_paths u (seen ++ todo))) U) < k ->
    clean_dirs permitted opts k n build st seen todo <> Exhausted.
  Proof.
    intros Ln U Cl. induction k as [|k IH]; intros st seen todo Fl In1 B Lk; [lia|]. cbn [clean_dirs]. destruct todo as [|d todo]; [discriminate|].
    assert (Bd : below build d) by (apply B, in_app_iff; right; now left).
    rewrite (starts_below build d build_not_root Bd). cbn [negb]. cbn zeta.
    assert (X : match (if stat_exists (get (s_fs st) d) then fst (empty_dirs permitted opts n st d) else Done st) with
                | Done st' => stepped build st st' | Thrown _ => True | Exhausted => False end).
    { destruct (stat_exists (get (s_fs st) d)) eqn:Se.
      - pose proof (empty_dirs_spec n st d (proj1 Fl)) as Y. pose proof (empty_dirs_terminates D n st d (proj1 Fl) (proj2 Fl) ltac:(lia) ltac:(lia)) as Z.
        destruct (empty_dirs permitted opts n st d) as [[st1|st1|] [|]]; cbn [fst] in *; auto; exact (stepped_weaken _ _ _ _ Bd (proj1 Y)).
      - apply stepped_refl. exact (proj1 Fl). }
    destruct (if stat_exists (get (s_fs st) d) then fst (empty_dirs permitted opts n st d) else Done st) as [st1|st1|]; cbn [bind]; [|discriminate|contradiction].
    assert (Fl1 : flat D st1).
    { split; [exact (sp_nodup _ _ _ X)|]. intros q e G. destruct (sp_fs _ _ _ X q) as [E|(E & _)]; [|congruence]. apply (proj2 Fl q e). congruence. }
    destruct (negb (path_eqb d build) && negb (path_eqb (tl d) build) && negb (in_paths (tl d) (seen ++ d :: todo))) eqn:A.
    - apply andb_true_iff in A as [A A3]. apply andb_true_iff in A as [A1 A2]. apply negb_true_iff in A1, A2, A3. apply path_eqb_neq in A1.
      assert (Ud : In (tl d) U) by (apply Cl, In1, in_app_iff; right; now left).
      assert (Inc : forall x, In x ((d :: seen) ++ todo ++ [tl d]) <-> In x (seen ++ d :: todo) \/ x = tl d).
      { intros x. cbn [app In]. rewrite !in_app_iff. cbn [In]. intuition. }
      apply IH; auto.
      + intros x Hx. apply Inc in Hx as [Hx| ->]; auto.
      + intros x Hx. apply Inc in Hx as [Hx| ->]; [auto|]. apply inside_tl, below_inside; auto.
      + cbn [length] in Lk. rewrite app_length. cbn [length].
        assert (Le : length (filter (fun u => negb (in_paths u ((d :: seen) ++ todo ++ [tl d]))) U) < length (filter (fun u => negb (in_paths u (seen ++ d :: todo))) U)); [|lia].
        assert (W : forall V, length (filter (fun u => negb (in_paths u ((d :: seen) ++ todo ++ [tl d]))) V) <= length (filter (fun u => negb (in_paths u (seen ++ d :: todo))) V)
          /\ (In (tl d) V -> length (filter (fun u => negb (in_paths u ((d :: seen) ++ todo ++ [tl d]))) V) < length (filter (fun u => negb (in_paths u (seen ++ d :: todo))) V))).
        { induction V as [|u V [IV1 IV2]]; [split; [auto|intros []]|]. cbn [filter].
          destruct (in_paths u (seen ++ d :: todo)) eqn:P1.
          - assert (P2 : in_paths u ((d :: seen) ++ todo ++ [tl d]) = true) by (apply in_paths_spec, Inc; left; now apply in_paths_spec).
            rewrite P2. cbn [negb]. split; [exact IV1|]. intros [-> |H]; [congruence|auto].
          - cbn [negb length]. destruct (in_paths u ((d :: seen) ++ todo ++ [tl d])) eqn:P2; cbn [negb length]; [split; [lia|intros _; lia]|].
            split; [lia|]. intros [-> |H]; [|specialize (IV2 H); lia]. exfalso. assert (P3 : in_paths (tl d) ((d :: seen) ++ todo ++ [tl d]) = true) by (apply in_paths_spec, Inc; now right). congruence. }
        exact (proj2 (W U) Ud).
    - assert (Inc : forall x, In x ((d :: seen) ++ todo) <-> In x (seen ++ d :: todo)) by (intros x; cbn [app In]; rewrite !in_app_iff; cbn [In]; intuition).
      apply IH; auto.
      + intros x Hx. apply In1, Inc, Hx.
      + intros x Hx. apply B, Inc, Hx.
      + cbn [length] in Lk. rewrite (filter_ext _ (fun u => negb (in_paths u (seen ++ d :: todo)))); [lia|]. intros u. f_equal.
        destruct (in_paths u (seen ++ d :: todo)) eqn:P1.
        * apply in_paths_spec, Inc, in_paths_spec, P1.
        * destruct (in_paths u ((d :: seen) ++ todo)) eqn:P2; [|reflexivity]. apply in_paths_spec, Inc, in_paths_spec in P2. congruence.
  Qed.

  (** When everything may be removed and there are neither special files nor broken links, no error arises. *)
  Definition plain (f : fs) : Prop := forall q e, below build q -> get f q = Some e -> e = File \/ e = Directory \/ e = Link.
  Lemma empty_dirs_succeeds n : forced build -> forall st p, NoDup (map fst (s_fs st)) -> plain (s_fs st) -> below build p -> get (s_fs st) p = Some Directory ->
    match empty_dirs permitted opts n st p with
    | (Done st', gone) => s_error st' = s_error st
    | (Thrown st', _) => False
    | (Exhausted, _) => True
    end.
  Proof.
    intros Fo. induction n as [|n IH]; intros st p Nd Pl Bp Gp; [exact I|]. pose proof (empty_dirs_spec (S n) st p Nd) as Spec. clear Spec. rewrite empty_dirs_unfold.
    assert (X : forall l st sub, NoDup (map fst (s_fs st)) -> plain (s_fs st) -> NoDup (map fst l) ->
      (forall q e, In (q, e) l -> (exists c, q = c :: p) /\ get (s_fs st) q = Some e) ->
      match dir_loop n st sub l with
      | (Done st', sub') => s_error st' = s_error st /\ stepped p st st' /\ get (s_fs st') p = get (s_fs st) p
           /\ (sub' = true -> sub = true /\ forall q e, In (q, e) l -> get (s_fs st') q = None)
      | (Thrown st', _) => False
      | (Exhausted, _) => True
      end).
    { clear st Nd Pl Gp. induction l as [|[q e] l IHl]; intros st sub Nd Pl Nl C; cbn [dir_loop].
      - split; [reflexivity|]. split; [now apply stepped_refl|]. split; [reflexivity|]. intros ->. split; [reflexivity|intros q e []].
      - inversion Nl as [|x y N1 N2]; subst. destruct (C q e (or_introl eq_refl)) as ((c & ->) & Ce). destruct (is_dir e) eqn:De.
        + assert (Ge : get (s_fs st) (c :: p) = Some Directory) by (destruct e; try discriminate; exact Ce).
          assert (Bc : below build (c :: p)) by (apply (below_trans _ p); [exact Bp|exists [c]; reflexivity]).
          specialize (IH st (c :: p) Nd Pl Bc Ge). pose proof (empty_dirs_spec n st (c :: p) Nd) as Y.
          destruct (empty_dirs permitted opts n st (c :: p)) as [[st1|st1|] gone]; auto.
          assert (S1 : stepped (c :: p) st st1) by (destruct gone; apply Y).
          assert (S1' : stepped p st st1) by (apply (stepped_weaken p (c :: p)); [exists [c]; reflexivity|exact S1]).
          assert (Pl1 : plain (s_fs st1)) by (intros x d Bx Gx; apply (Pl x d Bx); destruct (sp_fs _ _ _ S1 x) as [<-|(E & _)]; [exact Gx|congruence]).
          specialize (IHl st1 (sub && gone) (sp_nodup _ _ _ S1) Pl1 N2).
          assert (C1 : forall q e, In (q, e) l -> (exists c, q = c :: p) /\ get (s_fs st1) q = Some e).
          { intros x d Hx. destruct (C x d (or_intror Hx)) as [(c' & ->) C2]. split; [eauto|].
            destruct (sp_fs _ _ _ S1 (c' :: p)) as [-> |(_ & _ & Bx & _)]; [exact C2|]. destruct Bx as (m & Em).
            assert (Lm : length m = 0) by (apply (f_equal (@length _)) in Em; rewrite app_length in Em; cbn in Em; lia).
            destruct m; [|discriminate]. injection Em as ->. exfalso. apply N1. apply in_map_iff. exists (c :: p, d). auto. }
          specialize (IHl C1). destruct (dir_loop n st1 (sub && gone) l) as [[st2|st2|] sub']; auto.
          destruct IHl as (E2 & S2 & G2 & N3). split; [congruence|]. split; [exact (stepped_trans _ _ _ _ S1' S2)|]. split.
          { rewrite G2. destruct (sp_fs _ _ _ S1 p) as [-> |(_ & _ & B & _)]; [reflexivity|]. apply below_length in B. cbn in B. lia. }
          intros Hs. destruct (N3 Hs) as [H1 H2]. apply andb_true_iff in H1 as [H1 ->]. split; [exact H1|]. intros x d [Hx|Hx]; [|exact (H2 x d Hx)].
          injection Hx as <- <-. apply (only_dirs_none p (s_fs st1)); [exact (sp_fs _ _ _ S2)|apply Y].
        + specialize (IHl st false Nd Pl N2 (fun x d Hx => C x d (or_intror Hx))).
          destruct (dir_loop n st false l) as [[st2|st2|] sub']; auto. destruct IHl as (E2 & S2 & G2 & N3). do 3 (split; [auto|]).
          intros Hs. destruct (N3 Hs) as [H1 _]. discriminate. }
    set (l := filter (fun e => shown (snd e)) (children (s_fs st) p)) in *.
    assert (Nl : NoDup (map fst l)).
    { unfold l, children. assert (W : forall (g : path * entry -> bool) (m : fs), NoDup (map fst m) -> NoDup (map fst (filter g m))).
      { intros g m. induction m as [|y m IHm]; cbn; intros H; [constructor|]. inversion H as [|a b H1 H2]; subst. destruct (g y); cbn; [|auto].
        constructor; [|auto]. intros Z. apply H1. apply in_map_iff in Z as (z & <- & Hz). apply filter_In in Hz as [Hz _]. now apply in_map. }
      now apply W, W. }
    specialize (X l st true Nd Pl Nl).
    assert (C : forall q e, In (q, e) l -> (exists c, q = c :: p) /\ get (s_fs st) q = Some e).
    { intros q e H. apply filter_In in H as [H _]. apply children_spec in H as [H1 H2]; auto. }
    specialize (X C). destruct (dir_loop n st true l) as [[st1|st1|] [|]]; auto; [|now destruct X].
    destruct X as (E1 & S1 & G1 & N1). destruct (N1 eq_refl) as [_ N2].
    assert (R : rmdir permitted (s_fs st1) p = Some (drop (s_fs st1) p)).
    { apply rmdir_spec; [exact (sp_nodup _ _ _ S1)|]. split; [reflexivity|]. split; [congruence|]. split; [apply Fo, Bp|]. intros c.
      destruct (get (s_fs st) (c :: p)) as [e|] eqn:G.
      - apply (N2 (c :: p) e). unfold l. apply filter_In. split; [apply children_spec; eauto|]. cbn.
        assert (Bc : below build (c :: p)) by (apply (below_trans _ p); [exact Bp|exists [c]; reflexivity]).
        destruct (Pl (c :: p) e Bc G) as [-> |[-> | ->]]; reflexivity.
      - exact (only_dirs_none _ _ _ _ (sp_fs _ _ _ S1) G). }
    rewrite R. exact E1.
  Qed.

  Lemma clean_dirs_succeeds k n : forced build -> forall st seen todo, NoDup (map fst (s_fs st)) -> plain (s_fs st) ->
    (forall d, In d (seen ++ todo) -> below build d) ->
    (forall d r, In d (seen ++ todo) -> below build r -> below r d -> get (s_fs st) r = None \/ get (s_fs st) r = Some Directory) ->
    match clean_dirs permitted opts k n build st seen todo with
    | Done st' => s_error st' = s_error st
    | Thrown st' => False
    | Exhausted => True
    end.
  Proof.
    intros Fo. induction k as [|k IH]; intros st seen todo Nd Pl B W; cbn [clean_dirs]; [exact I|]. destruct todo as [|d todo]; [reflexivity|].
    assert (Hd : In d (seen ++ d :: todo)) by (apply in_app_iff; right; now left). assert (Bd := B d Hd).
    rewrite (starts_below build d build_not_root Bd). cbn [negb]. cbn zeta.
    assert (X : match (if stat_exists (get (s_fs st) d) then fst (empty_dirs permitted opts n st d) else Done st) with
                | Done st' => stepped build st st' /\ s_error st' = s_error st | Thrown st' => False | Exhausted => True end).
    { destruct (W d d Hd Bd (below_refl d)) as [G|G]; rewrite G; cbn [stat_exists].
      - split; [now apply stepped_refl|reflexivity].
      - pose proof (empty_dirs_spec n st d Nd) as Y. pose proof (empty_dirs_succeeds n Fo st d Nd Pl Bd G) as Z.
        destruct (empty_dirs permitted opts n st d) as [[st1|st1|] [|]]; cbn [fst]; auto; (split; [exact (stepped_weaken _ _ _ _ Bd (proj1 Y))|exact Z]). }
    destruct (if stat_exists (get (s_fs st) d) then fst (empty_dirs permitted opts n st d) else Done st) as [st1|st1|]; cbn [bind]; auto.
    destruct X as [S1 E1]. rewrite <- E1.
    assert (Sh : forall r, get (s_fs st1) r = get (s_fs st) r \/ get (s_fs st1) r = None) by (intros r; destruct (sp_fs _ _ _ S1 r) as [E|(E & _)]; auto).
    match goal with |- context [if ?add then todo ++ [tl d] else todo] => destruct add eqn:A end.
    - assert (Inc : forall x, In x ((d :: seen) ++ todo ++ [tl d]) <-> In x (seen ++ d :: todo) \/ x = tl d) by (intros x; cbn [app In]; rewrite !in_app_iff; cbn [In]; intuition).
      apply andb_true_iff in A as [A _]. apply andb_true_iff in A as [A _]. apply negb_true_iff, path_eqb_neq in A.
      apply IH; auto.
      + exact (sp_nodup _ _ _ S1).
      + intros q e Bq G. apply (Pl q e Bq). destruct (Sh q) as [<-|E]; [exact G|congruence].
      + intros x Hx. apply Inc in Hx as [Hx| ->]; [auto|]. apply inside_tl, below_inside; auto.
      + intros x r Hx Br Bx. destruct (Sh r) as [-> |E]; [|now left]. apply Inc in Hx as [Hx| ->]; [exact (W x r Hx Br Bx)|].
        apply (W d r Hd Br). apply (below_trans _ (tl d)); [exact Bx|]. destruct d as [|c d]; [apply below_refl|exists [c]; reflexivity].
    - assert (Inc : forall x, In x ((d :: seen) ++ todo) <-> In x (seen ++ d :: todo)) by (intros x; cbn [app In]; rewrite !in_app_iff; cbn [In]; intuition).
      apply IH; auto.
      + exact (sp_nodup _ _ _ S1).
      + intros q e Bq G. apply (Pl q e Bq). destruct (Sh q) as [<-|E]; [exact G|congruence].
      + intros x Hx. apply B, Inc, Hx.
      + intros x r Hx Br Bx. destruct (Sh r) as [-> |E]; [|now left]. apply Inc in Hx. exact (W x r Hx Br Bx).
  Qed.

  (** *** Everything *)

  Definition start (f : fs) : cstate := mkS f [] [] [] false.

  Lemma products_spec n D f : flat D (start f) ->
    match each (clean_product permitted opts canceled n) products (start f) with
    | Done st' => going (start f) st' /\ forall pr, In pr products -> product_done pr st'
    | Thrown st' => visited (start f) st' /\ stopped
    | Exhausted => n <= D
    end.
  Proof.
    intros Fl.
    assert (X : forall l st, incl l products -> flat D st -> going (start f) st ->
      match each (clean_product permitted opts canceled n) l st with
      | Done st' => going st st' /\ forall pr, In pr l -> product_done pr st'
      | Thrown st' => visited st st' /\ stopped
      | Exhausted => n <= D
      end).
    { clear Fl. induction l as [|pr l IH]; intros st Il Fl G; cbn [each].
      - split; [now apply (going_refl D)|intros pr []].
      - pose proof (clean_product_spec D n pr st Fl (Il pr (or_introl eq_refl))) as X.
        destruct (clean_product permitted opts canceled n st pr) as [st1|st1|]; cbn [bind]; auto. destruct X as [G1 Q1].
        specialize (IH st1 (fun x Hx => Il x (or_intror Hx)) (visited_flat D _ _ Fl (go_visited _ _ G1)) (going_trans _ _ _ G G1)).
        destruct (each (clean_product permitted opts canceled n) l st1) as [st2|st2|]; auto.
        + destruct IH as [G2 Q2]. split; [exact (going_trans _ _ _ G1 G2)|]. intros p [<-|Hp]; [|auto]. destruct Q1 as [Q1 Q3]. split.
          * intros x H1 H2 H3. exact (cleaned_going _ _ _ G2 (Q1 x H1 H2 H3)).
          * intros q H1 H2. exact (going_none _ _ _ G2 (Q3 q H1 H2)).
        + destruct IH as [V2 Q2]. split; [exact (visited_trans _ _ _ (go_visited _ _ G1) V2)|exact Q2]. }
    apply X; auto using incl_refl. now apply (going_refl D).
  Qed.

  Lemma dirs_below st f : going (start f) st -> forall d, In d (s_dirs st) -> below build d /\ exists x, to_clean x /\ d = tl (a_path x).
  Proof.
    intros G d Hd. destruct (go_dirs_only _ _ G d Hd) as [[]|(x & T & ->)]. split; [apply inside_tl; auto|eauto].
  Qed.

  (** C30: nothing but the products' artifacts, what was left of earlier ones, and directories with nothing in them disappears. *)
  Theorem clean_removes_only k n f st' : NoDup (map fst f) -> result (cleanup permitted opts canceled k n build products f) = Some st' ->
    (forall q, get (s_fs st') q = get f q
      \/ (get (s_fs st') q = None /\ dry opts = false /\ exists a, doomed a /\ below a q)
      \/ (get (s_fs st') q = None /\ get f q = Some Directory /\ below build q /\ forall c, get (s_fs st') (c :: q) = None))
    /\ (forall i, In i (s_cleared st') -> dry opts = false /\ exists x, to_clean x /\ i = a_id x).
  Proof.
    intros Nd. destruct (depth_exists f) as (D & HD). assert (Fl : flat D (start f)) by (split; auto).
    pose proof (products_spec n D f Fl) as P. unfold cleanup. change (mkS f [] [] [] false) with (start f).
    assert (Y : forall st, visited (start f) st -> forall st', stepped build st st' \/ st' = st ->
      (forall q, get (s_fs st') q = get f q
        \/ (get (s_fs st') q = None /\ dry opts = false /\ exists a, doomed a /\ below a q)
        \/ (get (s_fs st') q = None /\ get f q = Some Directory /\ below build q /\ forall c, get (s_fs st') (c :: q) = None))
      /\ (forall i, In i (s_cleared st') -> dry opts = false /\ exists x, to_clean x /\ i = a_id x)).
    { clear st'. intros st V st' S0. assert (S1 : stepped build st st') by (destruct S0 as [S0| ->]; [exact S0|apply stepped_refl; exact (vs_nodup _ _ V)]). split.
      - intros q. destruct (sp_fs _ _ _ S1 q) as [E|(E1 & E2 & E3 & E4)].
        + rewrite E. destruct (vs_fs _ _ V q) as [X|X]; [now left|right; now left].
        + destruct (vs_fs _ _ V q) as [X|(X & _)]; [|congruence]. right. right. split; [exact E1|]. split; [|auto]. cbn in X. congruence.
      - intros i Hi. rewrite (sp_cleared _ _ _ S1) in Hi. destruct (vs_cleared_only _ _ V i Hi) as [[]|X]; auto. }
    destruct (each (clean_product permitted opts canceled n) products (start f)) as [st1|st1|]; cbn [bind result].
    - destruct P as [G1 _]. pose proof (go_visited _ _ G1) as V1.
      pose proof (clean_dirs_spec k n st1 [] (s_dirs st1) (vs_nodup _ _ V1) (fun d Hd => proj1 (dirs_below st1 f G1 d Hd))) as Z.
      destruct (clean_dirs permitted opts k n build st1 [] (s_dirs st1)) as [st2|st2|]; cbn [bind]; [| |discriminate].
      + destruct Z as [S2 _]. destruct (s_error st2); cbn [result]; intros E; injection E as <-; apply (Y st1 V1); now left.
      + intros E; injection E as <-. apply (Y st1 V1). now left.
    - intros E; injection E as <-. destruct P as [V1 _]. apply (Y st1 V1). now right.
    - discriminate.
  Qed.

  (** C30: when cleaning reports success, the artifacts and what was left of earlier ones are gone and known to be gone, and
      between the build directory and the artifacts there are no directories left that contain no file. *)
  Theorem clean_complete k n f st' : NoDup (map fst f) -> dry opts = false -> cleanup permitted opts canceled k n build products f = Done st' ->
    (forall a, doomed a -> get (s_fs st') a = None)
    /\ (forall x, to_clean x -> In (a_id x) (s_cleared st'))
    /\ (forall x d, to_clean x -> inside build d -> below d (tl (a_path x)) -> get (s_fs st') d = Some Directory -> holds_file (s_fs st') d)
    /\ (forall x, to_clean x -> tl (a_path x) = build -> get (s_fs st') build = Some Directory -> holds_file (s_fs st') build).
  Proof.
    intros Nd Dr. destruct (depth_exists f) as (D & HD). assert (Fl : flat D (start f)) by (split; auto).
    pose proof (products_spec n D f Fl) as P. unfold cleanup. change (mkS f [] [] [] false) with (start f).
    destruct (each (clean_product permitted opts canceled n) products (start f)) as [st1|st1|]; cbn [bind]; try discriminate.
    destruct P as [G1 Q1]. pose proof (go_visited _ _ G1) as V1.
    pose proof (clean_dirs_spec k n st1 [] (s_dirs st1) (vs_nodup _ _ V1) (fun d Hd => proj1 (dirs_below st1 f G1 d Hd))) as Z.
    destruct (clean_dirs permitted opts k n build st1 [] (s_dirs st1)) as [st2|st2|]; cbn [bind]; try discriminate.
    destruct (s_error st2) eqn:E2; [discriminate|]. intros E. injection E as <-. destruct Z as [S2 Z].
    assert (E1 : s_error st1 = false) by (destruct (s_error st1) eqn:E1; [rewrite (sp_error _ _ _ S2 E1) in E2; discriminate|reflexivity]).
    assert (Cd : forall x, to_clean x -> cleaned st1 x) by (intros x (pr & H1 & H2 & H3 & H4); exact (proj1 (Q1 pr H1) x H2 H3 H4)).
    destruct Z as (all & I1 & C1 & T1); [intros _ d []|intros d []|]. cbn [app] in I1. specialize (T1 eq_refl).
    split; [|split; [|split]].
    - intros a Ha. apply (only_dirs_none build (s_fs st1)); [exact (sp_fs _ _ _ S2)|]. destruct Ha as [(x & T & ->)|(pr & H1 & H2)].
      + apply (Cd x T); auto.
      + exact (proj2 (Q1 pr H1) a H2 Dr).
    - intros x T. rewrite (sp_cleared _ _ _ S2). apply (Cd x T); auto.
    - intros x d T Id (l & El). apply T1. assert (Hl : In (l ++ d) all) by (rewrite <- El; apply I1, (Cd x T)). clear El.
      induction l as [|c l IH]; [exact Hl|]. apply IH. apply (C1 _) in Hl; [exact Hl| |].
      + intros E. apply inside_length in Id. apply (f_equal (@length _)) in E. cbn in E. rewrite app_length in E. lia.
      + intros E. cbn in E. apply inside_length in Id. apply (f_equal (@length _)) in E. rewrite app_length in E. lia.
    - intros x T Ex. apply T1. rewrite <- Ex. apply I1, (Cd x T).
  Qed.

  (** Cleaning comes to an end. *)
  Theorem clean_terminates n f : NoDup (map fst f) -> (forall q e, get f q = Some e -> length q < n) -> 0 < n ->
    exists K, forall k, K <= k -> cleanup permitted opts canceled k n build products f <> Exhausted.
  Proof.
    intros Nd HD Hn. assert (Fl : flat (n - 1) (start f)) by (split; [exact Nd|intros q e H; apply HD in H; lia]).
    pose proof (products_spec n (n - 1) f Fl) as P. unfold cleanup. change (mkS f [] [] [] false) with (start f).
    destruct (each (clean_product permitted opts canceled n) products (start f)) as [st1|st1|]; cbn [bind].
    - destruct P as [G1 _]. pose proof (visited_flat _ _ _ Fl (go_visited _ _ G1)) as F1.
      set (U := flat_map suffixes (s_dirs st1)).
      exists (S (length (s_dirs st1) + length U)). intros k Hk.
      assert (X : clean_dirs permitted opts k n build st1 [] (s_dirs st1) <> Exhausted).
      { apply (clean_dirs_terminates n (n - 1) ltac:(lia) U); auto.
        - intros u Hu. apply in_flat_map in Hu as (p & H1 & H2). apply in_flat_map. exists p. split; [exact H1|now apply suffixes_tl].
        - intros d Hd. apply in_flat_map. exists d. split; [exact Hd|apply suffixes_self].
        - intros d Hd. exact (proj1 (dirs_below st1 f G1 d Hd)).
        - assert (L : forall g (m : list path), length (filter g m) <= length m) by (intros g m; induction m as [|y m IHm]; cbn; [lia|destruct (g y); cbn; lia]).
          specialize (L (fun u => negb (in_paths u ([] ++ s_dirs st1))) U). lia. }
      destruct (clean_dirs permitted opts k n build st1 [] (s_dirs st1)) as [st2|st2|]; cbn [bind]; [destruct (s_error st2); discriminate|discriminate|contradiction].
    - exists 0. discriminate.
    - lia.
  Qed.

  (** C30: when nobody cancels, everything may be removed, no special files are in the build directory and no file sits where
      an artifact's directory should be, then cleaning succeeds. *)
  Theorem clean_succeeds k n f st' : NoDup (map fst f) ->
    (forall x, a_generated x = true -> canceled (a_id x) = false) ->
    forced build -> (forall a, doomed a -> forced a) -> plain f ->
    (forall x d, to_clean x -> below build d -> below d (tl (a_path x)) -> get f d = None \/ get f d = Some Directory) ->
    cleanup permitted opts canceled k n build products f <> Thrown st'.
  Proof.
    intros Nd Ca Fo Fd Pl W. destruct (depth_exists f) as (D & HD). assert (Fl : flat D (start f)) by (split; auto).
    assert (NS : ~ stopped). { intros [(x & H1 & H2)|(a & H1 & H2)]; [rewrite Ca in H2; [discriminate|exact H1]|exact (H2 (Fd a H1))]. }
    pose proof (products_spec n D f Fl) as P. unfold cleanup. change (mkS f [] [] [] false) with (start f).
    destruct (each (clean_product permitted opts canceled n) products (start f)) as [st1|st1|]; cbn [bind]; [|now destruct P|discriminate].
    destruct P as [G1 Q1]. pose proof (go_visited _ _ G1) as V1.
    assert (E1 : s_error st1 = false).
    { destruct (s_error st1) eqn:E1; [|reflexivity]. destruct (go_error _ _ G1 E1) as [X|(x & X1 & X2)]; [discriminate|]. exfalso. apply X2, Fd. left; eauto. }
    assert (Sh : forall r, get (s_fs st1) r = get f r \/ get (s_fs st1) r = None) by (intros r; destruct (vs_fs _ _ V1 r) as [E|(E & _)]; auto).
    pose proof (clean_dirs_succeeds k n Fo st1 [] (s_dirs st1) (vs_nodup _ _ V1)) as Z.
    assert (Z1 : plain (s_fs st1)) by (intros q e Bq G; apply (Pl q e Bq); destruct (Sh q) as [<-|E]; [exact G|congruence]).
    specialize (Z Z1 (fun d Hd => proj1 (dirs_below st1 f G1 d Hd))).
    assert (Z2 : forall d r, In d ([] ++ s_dirs st1) -> below build r -> below r d -> get (s_fs st1) r = None \/ get (s_fs st1) r = Some Directory).
    { intros d r Hd Br Bd. destruct (dirs_below st1 f G1 d Hd) as [_ (x & T & ->)]. destruct (Sh r) as [-> |E]; [eauto|now left]. }
    specialize (Z Z2). destruct (clean_dirs permitted opts k n build st1 [] (s_dirs st1)) as [st2|st2|]; cbn [bind]; [|contradiction|discriminate].
    rewrite Z, E1. discriminate.
  Qed.

  (** Everything is in a directory. *)
  Definition tree (f : fs) : Prop := forall c q e, get f (c :: q) = Some e -> get f q = Some Directory.

  (** C51, as far as it holds: with the dry-run option only directories disappear, those that contain nothing, and no artifact
      is taken to be gone. *)
  Theorem clean_dry_run_partial k n f st' : NoDup (map fst f) -> tree f -> dry opts = true -> result (cleanup permitted opts canceled k n build products f) = Some st' ->
    (forall q, get (s_fs st') q = get f q \/ (get (s_fs st') q = None /\ get f q = Some Directory /\ below build q /\ ~ holds_file f q))
    /\ s_cleared st' = [].
  Proof.
    intros Nd Tr Dr R. destruct (clean_removes_only k n f st' Nd R) as [X Y]. split.
    - assert (Z : forall q, get (s_fs st') q = get f q \/ (get (s_fs st') q = None /\ get f q = Some Directory /\ below build q /\ forall c, get (s_fs st') (c :: q) = None)).
      { intros q. destruct (X q) as [E|[(_ & E & _)|E]]; [now left|congruence|now right]. }
      intros q. destruct (Z q) as [E|(E1 & E2 & E3 & E4)]; [now left|right]. do 3 (split; [auto|]).
      intros (r & e & (c & l & ->) & H2 & H3).
      assert (Kept : get (s_fs st') (l ++ c :: q) = Some e) by (destruct (Z (l ++ c :: q)) as [E|(_ & E & _)]; congruence).
      assert (Gone : forall m, get (s_fs st') (m ++ q) = None).
      { induction m as [|d m IHm]; [exact E1|]. cbn. destruct (Z (m ++ q)) as [E|(_ & _ & _ & E)]; [|apply E].
        rewrite IHm in E. assert (G : get f (d :: m ++ q) = None) by (destruct (get f (d :: m ++ q)) as [x|] eqn:G; [apply Tr in G; congruence|reflexivity]).
        destruct (Z (d :: m ++ q)) as [-> |(-> & _)]; auto. }
      specialize (Gone (l ++ [c])). rewrite <- app_assoc in Gone. cbn in Gone. congruence.
    - destruct (s_cleared st') as [|i l]; [reflexivity|]. destruct (Y i (or_introl eq_refl)) as [E _]. congruence.
  Qed.
End Clean.

(** * Examples *)

Module Demo.
  Definition nm (n : N) : str := [n].
  (** The build directory is /98; the products' output goes to /98/112/111. *)
  Definition build : path := [nm 98].
  Definition prod : path := [nm 112; nm 98].
  Definition obj : path := [nm 111; nm 112; nm 98].
  Definition o1 : path := nm 49 :: obj.
  Definition o2 : path := nm 50 :: obj.
  Definition exe : path := nm 51 :: prod.
  Definition user : path := nm 52 :: prod.
  Definition old : path := nm 53 :: prod.
  Definition f : fs := [([], Directory); (build, Directory); (prod, Directory); (obj, Directory); (o1, File); (o2, File); (exe, File); (user, File); (old, File);
    ([nm 115], File)].
  Definition art i p := {| a_id := i; a_path := p; a_product := 0; a_generated := true |}.
  Definition pr : product := {| pr_id := 0;
    pr_artifacts := [art 1 o1; art 2 o2; art 3 exe; {| a_id := 4; a_path := [nm 115]; a_product := 0; a_generated := false |}];
    pr_rescuable := [old] |}.
  Definition all : path -> bool := fun _ => true.
  Definition never : nat -> bool := fun _ => false.
  Definition normal := {| dry := false; keep_going := false |}.
  Definition dry_run := {| dry := true; keep_going := false |}.
  Definition patient := {| dry := false; keep_going := true |}.

  Lemma inside_build : forall x, to_clean [pr] x -> inside build (a_path x).
  Proof.
    intros x (p & [<-|[]] & H & G & _). cbn in H. destruct H as [<-|[<-|[<-|[<-|[]]]]]; [| | |discriminate].
    - now exists (nm 112), [nm 49; nm 111].
    - now exists (nm 112), [nm 50; nm 111].
    - now exists (nm 112), [nm 51].
  Qed.

  (** The files go, as does the directory of the object files; the user's file and therefore the product's directory stay. *)
  Example clean_example : exists st', cleanup all normal never 10 10 build [pr] f = Done st' /\ map fst (s_fs st') = [[]; build; prod; user; [nm 115]]
    /\ s_cleared st' = [3; 2; 1] /\ s_rescuable st' = [old].
  Proof. eexists. split; [vm_compute; reflexivity|]. vm_compute. auto. Qed.
  (** Without the user's file the product's directory goes as well, but not the build directory. *)
  Example clean_example_2 : exists st', cleanup all normal never 10 10 build [pr] (drop f user) = Done st' /\ map fst (s_fs st') = [[]; build; [nm 115]].
  Proof. eexists. split; [vm_compute; reflexivity|]. vm_compute. auto. Qed.
  Lemma f_nodup : NoDup (map fst f).
  Proof. repeat constructor; cbn; intuition discriminate. Qed.
  Example hypotheses : build <> [] /\ (forall x, to_clean [pr] x -> inside build (a_path x)) /\ NoDup (map fst f)
    /\ (forall a, doomed [pr] a -> forced all a) /\ plain build f /\ tree f.
  Proof.
    split; [discriminate|]. split; [exact inside_build|]. split; [exact f_nodup|]. split; [intros a _ q _; reflexivity|]. split.
    - intros q e _ H. apply get_in in H. cbn in H. decompose [or] H; try contradiction; match goal with E : (_, _) = (_, _) |- _ => injection E as <- <- end; auto.
    - intros c q e H. apply get_in in H. cbn in H. decompose [or] H; try contradiction; match goal with E : (_, _) = (_, _) |- _ => try discriminate E; injection E as <- <- <- end; reflexivity.
  Qed.

  (** Cancelled after the first artifact; keep-going with a file that cannot be removed. *)
  Example cancel_example : exists st', cleanup all normal (Nat.eqb 2) 10 10 build [pr] f = Thrown st' /\ get (s_fs st') o1 = None /\ get (s_fs st') o2 = Some File.
  Proof. eexists. split; [vm_compute; reflexivity|]. vm_compute. auto. Qed.
  Example keep_going_example : exists st', cleanup (fun p => negb (path_eqb p o1)) patient never 10 10 build [pr] f = Thrown st'
    /\ get (s_fs st') o1 = Some File /\ get (s_fs st') o2 = None /\ get (s_fs st') exe = None.
  Proof. eexists. split; [vm_compute; reflexivity|]. vm_compute. auto. Qed.

  (** After a build: the user removed a source file, its object file went, and so does its directory. *)
  Example empty_example : option_map (map fst) (remove_empty_parents all 10 build [o1; o2] (drop (drop f o1) o2)) = Some [[]; build; prod; exe; user; old; [nm 115]].
  Proof. vm_compute. reflexivity. Qed.

  (** A directory in the build directory that is empty. *)
  Definition empty : path := nm 54 :: obj.
  Definition one : product := {| pr_id := 0; pr_artifacts := [art 1 o1]; pr_rescuable := [] |}.
  Definition f_empty : fs := [([], Directory); (build, Directory); (prod, Directory); (obj, Directory); (o1, File); (empty, Directory)].
End Demo.

(** C51 in full: [forall q, get (s_fs st') q = get f q].  It does not hold: a dry run removes directories that are empty already. *)
Theorem clean_dry_run_refuted : exists permitted canceled k n build products f st' q,
  NoDup (map fst f) /\ tree f /\ (forall x, to_clean products x -> inside build (a_path x))
  /\ cleanup permitted {| dry := true; keep_going := false |} canceled k n build products f = Done st' /\ get f q = Some Directory /\ get (s_fs st') q = None.
Proof.
  exists Demo.all, Demo.never, 10, 10, Demo.build, [Demo.one], Demo.f_empty. eexists. exists Demo.empty.
  split; [repeat constructor; cbn; intuition discriminate|]. split.
  { intros c q e H. apply get_in in H. cbn in H. decompose [or] H; try contradiction; match goal with E : (_, _) = (_, _) |- _ => try discriminate E; injection E as <- <- <- end; reflexivity. }
  split.
  { intros x (p & [<-|[]] & H & G & _). cbn in H. destruct H as [<-|[]]. now exists (Demo.nm 112), [Demo.nm 49; Demo.nm 111]. }
  split; [vm_compute; reflexivity|]. vm_compute. auto.
Qed.
(** It also drops the data for files that could have been rescued. *)
Theorem clean_dry_run_rescuable_refuted : exists permitted canceled k n build products f st',
  cleanup permitted {| dry := true; keep_going := false |} canceled k n build products f = Done st' /\ s_rescuable st' <> [].
Proof. exists Demo.all, Demo.never, 10, 10, Demo.build, [Demo.pr], Demo.f. eexists. split; [vm_compute; reflexivity|]. discriminate. Qed.

(** A broken link next to the artifacts is not seen, and the attempt to remove the directory fails, although the user may remove everything. *)
Theorem clean_broken_link_refuted : exists canceled k n build products f st',
  NoDup (map fst f) /\ tree f /\ (forall x, to_clean products x -> inside build (a_path x)) /\ (forall i, canceled i = false)
  /\ cleanup (fun _ => true) {| dry := false; keep_going := false |} canceled k n build products f = Thrown st'.
Proof.
  exists Demo.never, 10, 10, Demo.build, [Demo.one], [([], Directory); (Demo.build, Directory); (Demo.prod, Directory); (Demo.obj, Directory); (Demo.o1, File); (Demo.o2, BrokenLink)].
  eexists. split; [repeat constructor; cbn; intuition discriminate|]. split.
  { intros c q e H. apply get_in in H. cbn in H. decompose [or] H; try contradiction; match goal with E : (_, _) = (_, _) |- _ => try discriminate E; injection E as <- <- <- end; reflexivity. }
  split.
  { intros x (p & [<-|[]] & H & G & _). cbn in H. destruct H as [<-|[]]. now exists (Demo.nm 112), [Demo.nm 49; Demo.nm 111]. }
  split; [reflexivity|]. vm_compute. reflexivity.
Qed.

(** Despite keep-going, a file with rescuable data that cannot be removed ends the cleaning: a later product keeps its files. *)
Theorem clean_keep_going_refuted : exists permitted canceled k n build products f st' x,
  NoDup (map fst f) /\ (forall i, canceled i = false) /\ to_clean products x /\ forced permitted (a_path x)
  /\ cleanup permitted {| dry := false; keep_going := true |} canceled k n build products f = Thrown st' /\ get (s_fs st') (a_path x) = Some File.
Proof.
  exists (fun p => negb (path_eqb p Demo.old)), Demo.never, 10, 10, Demo.build,
    [{| pr_id := 1; pr_artifacts := []; pr_rescuable := [Demo.old] |}; Demo.one], Demo.f. eexists. exists (Demo.art 1 Demo.o1).
  split; [exact Demo.f_nodup|]. split; [reflexivity|]. split; [exists Demo.one; cbn; auto|]. split.
  { intros q (l & ->). apply negb_true_iff, path_eqb_neq. intros E. apply (f_equal (@rev str)) in E. unfold Demo.old, Demo.o1, Demo.obj in E. cbn in E.
    rewrite !rev_app_distr in E. discriminate. }
  split; [vm_compute; reflexivity|]. vm_compute. reflexivity.
Qed.

Print Assumptions empty_directories_exact.
Print Assumptions empty_directories_terminates.
Print Assumptions clean_removes_only.
Print Assumptions clean_complete.
Print Assumptions clean_terminates.
Print Assumptions clean_succeeds.
Print Assumptions clean_dry_run_partial.
Print Assumptions clean_dry_run_refuted.
Print Assumptions clean_dry_run_rescuable_refuted.
Print Assumptions clean_broken_link_refuted.
Print Assumptions clean_keep_going_refuted.
