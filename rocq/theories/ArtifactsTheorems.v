(** C17, C18: artifacts are found by path and by tag exactly as they are registered. *)
From Coq Require Import List Bool Arith Lia.
From Verif Require Import GraphModel GraphTheorems ArtifactsModel.
Import ListNotations.

(** * Specification *)

(** The files registered after a history: those inserted and not removed since.  An insertion is refused if the file is a
    generated artifact and an artifact with its path is registered. *)
Definition refused (info : nat -> finfo) (reg : nat -> Prop) (x : nat) : Prop :=
  is_generated (f_kind (info x)) = true
  /\ exists y, reg y /\ f_path (info y) = f_path (info x) /\ is_artifact (f_kind (info y)) = true.

Inductive registered (info : nat -> finfo) : list top -> (nat -> Prop) -> Prop :=
| g_nil reg : (forall x, ~ reg x) -> registered info [] reg
| g_insert os x reg reg' : registered info os reg -> ~ refused info reg x -> (forall y, reg' y <-> reg y \/ y = x) ->
    registered info (os ++ [TInsert x]) reg'
| g_refused os x reg : registered info os reg -> refused info reg x -> registered info (os ++ [TInsert x]) reg
| g_remove os x reg reg' : registered info os reg -> (forall y, reg' y <-> reg y /\ y <> x) ->
    registered info (os ++ [TRemove x]) reg'.

(** Tags are only changed for artifacts that are not yet part of the product or still are. *)
Fixpoint disciplined (ptags : list nat) (st : pstate) (os : list pop) : Prop :=
  match os with
  | [] => True
  | o :: os =>
      match o with
      | PAttach _ => True
      | PDetach a => In a (p_nodes st)
      | PAdd a _ | PRemove a _ | PSet a _ => p_in st a = true -> In a (p_nodes st)
      end /\ match p_op ptags st o with Some st' => disciplined ptags st' os | None => True end
  end.
(** Artifacts get the tags of the product type only after they were made part of the product, as for the outputs of rules. *)
Fixpoint tagged_later (ptags : list nat) (st : pstate) (os : list pop) : Prop :=
  match os with
  | [] => True
  | o :: os =>
      match o with PAttach a => forall t, In t (p_tags st a) -> ~ In t ptags | _ => True end
      /\ match p_op ptags st o with Some st' => tagged_later ptags st' os | None => True end
  end.

(** * The lookup table *)

Section Table.
  Variable info : nat -> finfo.

  Lemma in_remove_one x l y : NoDup l -> (In y (remove_one x l) <-> In y l /\ y <> x).
  Proof.
    induction 1 as [|z l Hz D IH]; cbn; [intuition|]. destruct (Nat.eqb_spec z x) as [->|Hn].
    - split; [|intuition; subst; contradiction]. intros Hy. split; [now right|]. intros ->. contradiction.
    - cbn. rewrite IH. intuition. subst. contradiction.
  Qed.
  Lemma remove_one_nodup x l : NoDup l -> NoDup (remove_one x l).
  Proof.
    induction 1 as [|z l Hz D IH]; cbn; [constructor|]. destruct (z =? x); [exact D|]. constructor; [|exact IH].
    rewrite in_remove_one by exact D. tauto.
  Qed.
  Lemma nodup_snoc (x : nat) l : NoDup l -> ~ In x l -> NoDup (l ++ [x]).
  Proof.
    induction 1 as [|z l Hz D IH]; cbn; intros Hx; [repeat constructor; intros []|]. constructor.
    - rewrite in_app_iff. cbn. intuition.
    - apply IH. tauto.
  Qed.

  (** What is found under a path is exactly what is registered for it. *)
  Lemma table_registered os reg : registered info os reg ->
    forall path x, (In x (table_ops info os path) <-> reg x /\ f_path (info x) = path) /\ NoDup (table_ops info os path).
  Proof.
    induction 1 as [reg H|os x reg reg' Hos IH Hr Hreg|os x reg Hos IH Hr|os x reg reg' Hos IH Hreg]; intros path z.
    - cbn. split; [split; [intros []|intros [Hx _]; exact (H z Hx)]|constructor].
    - unfold table_ops in *. rewrite fold_left_app. cbn [fold_left table_op]. set (t := fold_left (table_op info) os (fun _ => [])) in *.
      unfold insert_file. destruct (is_generated (f_kind (info x)) && existsb (fun y => is_artifact (f_kind (info y))) (t (f_path (info x)))) eqn:C.
      + exfalso. apply Hr. apply andb_true_iff in C as [C1 C2]. split; [exact C1|]. apply existsb_exists in C2 as (y & Hy & Ay).
        exists y. apply (IH (f_path (info x)) y) in Hy as [H1 H2]. auto.
      + destruct (mem x (t (f_path (info x)))) eqn:Mx.
        * apply mem_in in Mx. apply (IH (f_path (info x)) x) in Mx as [Mx _]. split; [|apply IH; exact 0].
          rewrite (proj1 (IH path z)), Hreg. intuition. subst. auto.
        * apply mem_not_in in Mx. unfold upd. destruct (Nat.eqb_spec path (f_path (info x))) as [->|Hp].
          -- split; [|apply nodup_snoc; [apply IH; exact 0|exact Mx]]. rewrite in_app_iff, (proj1 (IH _ z)), Hreg. cbn. intuition; subst; auto.
          -- split; [|apply IH; exact 0]. rewrite (proj1 (IH path z)), Hreg. intuition. subst. congruence.
    - unfold table_ops in *. rewrite fold_left_app. cbn [fold_left table_op]. set (t := fold_left (table_op info) os (fun _ => [])) in *.
      unfold insert_file. destruct Hr as (G & y & Hy & Py & Ay).
      assert (C : existsb (fun y => is_artifact (f_kind (info y))) (t (f_path (info x))) = true).
      { apply existsb_exists. exists y. split; [|exact Ay]. apply (IH (f_path (info x)) y). auto. }
      rewrite G, C. cbn. apply IH.
    - unfold table_ops in *. rewrite fold_left_app. cbn [fold_left table_op]. set (t := fold_left (table_op info) os (fun _ => [])) in *.
      unfold remove_file, upd. destruct (Nat.eqb_spec path (f_path (info x))) as [->|Hp].
      + split; [|apply remove_one_nodup; apply IH; exact 0]. rewrite in_remove_one by (apply IH; exact 0). rewrite (proj1 (IH _ z)), Hreg. intuition.
      + split; [|apply IH; exact 0]. rewrite (proj1 (IH path z)), Hreg. intuition. subst. congruence.
  Qed.

  Theorem table_exact os reg path x : registered info os reg -> (In x (table_ops info os path) <-> reg x /\ f_path (info x) = path).
  Proof. intros H. apply (table_registered os reg H path x). Qed.

  (** Every history has such a set. *)
  Theorem registered_exists os : exists reg, registered info os reg.
  Proof.
    induction os as [|o os (reg & IH)] using rev_ind; [exists (fun _ => False); constructor; auto|].
    destruct o as [x|x].
    - destruct (is_generated (f_kind (info x)) && existsb (fun y => is_artifact (f_kind (info y))) (table_ops info os (f_path (info x)))) eqn:C.
      + exists reg. apply g_refused; [exact IH|]. apply andb_true_iff in C as [C1 C2]. split; [exact C1|].
        apply existsb_exists in C2 as (y & Hy & Ay). exists y. apply (table_exact _ _ _ _ IH) in Hy as [H1 H2]. auto.
      + exists (fun y => reg y \/ y = x). eapply g_insert; [exact IH| |tauto]. intros (G & y & Hy & Py & Ay).
        rewrite G in C. cbn in C. assert (C' : existsb (fun y => is_artifact (f_kind (info y))) (table_ops info os (f_path (info x))) = true).
        { apply existsb_exists. exists y. split; [|exact Ay]. apply (table_exact _ _ _ _ IH). auto. }
        congruence.
    - exists (fun y => reg y /\ y <> x). eapply g_remove; [exact IH|tauto].
  Qed.

  (** At most one generated artifact has a given path, whatever happens. *)
  Theorem one_generated os reg x y : registered info os reg -> reg x -> reg y -> f_path (info x) = f_path (info y) ->
    is_generated (f_kind (info x)) = true -> is_generated (f_kind (info y)) = true -> x = y.
  Proof.
    intros H. revert x y. induction H as [reg H|os z reg reg' Hos IH Hr Hreg|os z reg Hos IH Hr|os z reg reg' Hos IH Hreg]; intros x y Hx Hy P Gx Gy.
    - destruct (H x Hx).
    - assert (Ga : forall w, is_generated (f_kind (info w)) = true -> is_artifact (f_kind (info w)) = true).
      { intros w. destruct (f_kind (info w)) as [|[|] q]; cbn; auto. }
      apply Hreg in Hx. apply Hreg in Hy. destruct Hx as [Hx| ->], Hy as [Hy| ->]; auto.
      + exfalso. apply Hr. split; [exact Gy|]. exists x. auto.
      + exfalso. apply Hr. split; [exact Gx|]. exists y. auto.
    - now apply IH.
    - apply Hreg in Hx as [Hx _]. apply Hreg in Hy as [Hy _]. now apply IH.
  Qed.

  (** A generated artifact is refused exactly if its path is taken by an artifact; source files and dependencies never are, even
      if several products list the same file. *)
  Theorem insertion_outcome os reg x : registered info os reg -> ~ reg x ->
    (insert_file info (table_ops info os) x = Conflict <-> refused info reg x)
    /\ insert_file info (table_ops info os) x <> CheckFails.
  Proof.
    intros H Hx. unfold insert_file.
    destruct (is_generated (f_kind (info x)) && existsb (fun y => is_artifact (f_kind (info y))) (table_ops info os (f_path (info x)))) eqn:C.
    - split; [|discriminate]. split; [|reflexivity]. intros _. apply andb_true_iff in C as [C1 C2]. split; [exact C1|].
      apply existsb_exists in C2 as (y & Hy & Ay). exists y. apply (table_exact _ _ _ _ H) in Hy as [H1 H2]. auto.
    - assert (N : ~ refused info reg x).
      { intros (G & y & Hy & Py & Ay). rewrite G in C. cbn in C.
        assert (C' : existsb (fun y => is_artifact (f_kind (info y))) (table_ops info os (f_path (info x))) = true).
        { apply existsb_exists. exists y. split; [|exact Ay]. apply (table_exact _ _ _ _ H). auto. }
        congruence. }
      destruct (mem x (table_ops info os (f_path (info x)))) eqn:Mx.
      + apply mem_in, (table_exact _ _ _ _ H) in Mx. tauto.
      + split; [|discriminate]. split; [discriminate|contradiction].
  Qed.

  (** Looking up a path in a product finds an artifact exactly if one is registered. *)
  Theorem lookup_exact os reg product path : registered info os reg ->
    match lookup_artifact info (table_ops info os) product path with
    | Some x => reg x /\ f_path (info x) = path /\ exists ty, f_kind (info x) = ArtifactFile ty product
    | None => forall x ty, reg x -> f_path (info x) = path -> f_kind (info x) <> ArtifactFile ty product
    end.
  Proof.
    intros H. unfold lookup_artifact. destruct (find _ (table_ops info os path)) as [x|] eqn:F.
    - apply find_some in F as [F1 F2]. apply (table_exact _ _ _ _ H) in F1 as [F1 F3]. split; [exact F1|]. split; [exact F3|].
      destruct (f_kind (info x)) as [|ty q]; [discriminate|]. apply Nat.eqb_eq in F2. subst. now exists ty.
    - intros x ty Hx Px Kx. pose proof (find_none _ _ F x) as G. cbn in G. rewrite Kx, Nat.eqb_refl in G.
      discriminate G. apply (table_exact _ _ _ _ H). auto.
  Qed.

  (** Restoring the table from the stored artifacts, in any order: it fails exactly if some generated artifact comes after another
      artifact with the same path, and otherwise what is found under a path is what was stored for it. *)
  Lemma reload_spec xs : forall pre t, NoDup (pre ++ xs) -> (forall p x, In x (t p) <-> In x pre /\ f_path (info x) = p) ->
    match reload info t xs with
    | Inserted t' => (forall p x, In x (t' p) <-> In x (pre ++ xs) /\ f_path (info x) = p)
        /\ forall l1 x l2, xs = l1 ++ x :: l2 -> is_generated (f_kind (info x)) = true ->
             forall y, In y (pre ++ l1) -> is_artifact (f_kind (info y)) = true -> f_path (info y) <> f_path (info x)
    | Conflict => exists l1 x l2 y, xs = l1 ++ x :: l2 /\ In y (pre ++ l1) /\ is_generated (f_kind (info x)) = true
        /\ is_artifact (f_kind (info y)) = true /\ f_path (info y) = f_path (info x)
    | CheckFails => False
    end.
  Proof.
    induction xs as [|z xs IH]; intros pre t D T; cbn [reload].
    - split; [intros p x; rewrite app_nil_r; apply T|]. intros l1 x l2 E. destruct l1; discriminate.
    - unfold insert_file.
      destruct (is_generated (f_kind (info z)) && existsb (fun y => is_artifact (f_kind (info y))) (t (f_path (info z)))) eqn:C.
      + apply andb_true_iff in C as [C1 C2]. apply existsb_exists in C2 as (y & Hy & Ay). apply T in Hy as [Hy Py].
        exists [], z, xs, y. rewrite app_nil_r. auto.
      + destruct (mem z (t (f_path (info z)))) eqn:Mz.
        * apply mem_in, T in Mz as [Mz _]. exfalso. apply NoDup_remove_2 in D. apply D. apply in_or_app. now left.
        * set (t1 := upd t (f_path (info z)) (t (f_path (info z)) ++ [z])).
          assert (T1 : forall p x, In x (t1 p) <-> In x (pre ++ [z]) /\ f_path (info x) = p).
          { intros p x. rewrite in_app_iff. cbn. unfold t1, upd. destruct (Nat.eqb_spec p (f_path (info z))) as [->|Hp].
            - rewrite in_app_iff, T. cbn. intuition; subst; auto.
            - rewrite T. intuition. subst. congruence. }
          specialize (IH (pre ++ [z]) t1). rewrite <- app_assoc in IH. specialize (IH D T1).
          destruct (reload info t1 xs) as [t'| |]; [| |exact IH].
          -- destruct IH as [IH1 IH2]. split; [exact IH1|]. intros [|w l1] x l2 E Gx y Hy Ay Py.
             ++ injection E as -> ->. rewrite app_nil_r in Hy. rewrite Gx in C. cbn in C.
                assert (C' : existsb (fun y => is_artifact (f_kind (info y))) (t (f_path (info x))) = true).
                { apply existsb_exists. exists y. split; [apply T; auto|exact Ay]. }
                congruence.
             ++ injection E as -> ->. apply (IH2 l1 x l2 eq_refl Gx y); auto. rewrite <- app_assoc. exact Hy.
          -- destruct IH as (l1 & x & l2 & y & E & Hy & R). exists (z :: l1), x, l2, y. rewrite <- app_assoc in Hy. cbn. rewrite E. auto.
  Qed.

  Theorem reload_outcome xs : NoDup xs ->
    match reload info (fun _ => []) xs with
    | Inserted t => (forall p x, In x (t p) <-> In x xs /\ f_path (info x) = p)
        /\ forall l1 x l2, xs = l1 ++ x :: l2 -> is_generated (f_kind (info x)) = true ->
             forall y, In y l1 -> is_artifact (f_kind (info y)) = true -> f_path (info y) <> f_path (info x)
    | Conflict => exists l1 x l2 y, xs = l1 ++ x :: l2 /\ In y l1 /\ is_generated (f_kind (info x)) = true
        /\ is_artifact (f_kind (info y)) = true /\ f_path (info y) = f_path (info x)
    | CheckFails => False
    end.
  Proof. intros D. apply (reload_spec xs [] (fun _ => [])); [exact D|]. intros p x. cbn. tauto. Qed.
End Table.

(** The check is made for generated artifacts only: a source file may join a generated artifact with the same path ... *)
Theorem source_after_generated_refuted :
  exists info os reg x y, registered info os reg /\ reg x /\ reg y /\ x <> y /\ f_path (info x) = f_path (info y)
    /\ is_generated (f_kind (info x)) = true /\ is_artifact (f_kind (info y)) = true.
Proof.
  set (info := fun x : nat => {| f_path := 7; f_kind := ArtifactFile (if x =? 1 then Generated else SourceFile) 0 |}).
  exists info, [TInsert 1; TInsert 2], (fun x => x = 1 \/ x = 2), 1, 2.
  split; [|repeat split; auto; discriminate].
  change [TInsert 1; TInsert 2] with ([TInsert 1] ++ [TInsert 2]). eapply (g_insert info [TInsert 1] 2 (fun x => x = 1)).
  - change [TInsert 1] with (@nil top ++ [TInsert 1]). eapply (g_insert info [] 1 (fun _ => False)); [constructor; auto| |tauto].
    intros (_ & y & [] & _).
  - intros (G & _). discriminate.
  - tauto.
Qed.

(** ... and a graph that was built and stored without complaint may then be refused when it is loaded. *)
Theorem reload_refuted :
  exists info os xs, NoDup xs /\ (forall o, In o os -> exists x, o = TInsert x) /\
    (forall path x, In x (table_ops info os path) <-> In x xs /\ f_path (info x) = path) /\ reload info (fun _ => []) xs = Conflict.
Proof.
  exists (fun x : nat => {| f_path := 7; f_kind := ArtifactFile (if x =? 1 then Generated else SourceFile) 0 |}), [TInsert 1; TInsert 2], [2; 1].
  split; [repeat constructor; cbn; intuition; discriminate|]. split; [intros o [<-|[<-|[]]]; eauto|]. split; [|reflexivity].
  intros path x. cbn. unfold upd. destruct (Nat.eqb_spec path 7) as [->|Hp]; cbn; intuition.
Qed.

(** * Tags *)

Section Tags.
  Variable ptags : list nat.

  Definition indexed (st : pstate) (t a : nat) : Prop := exists l, p_index st t = Some l /\ In a l.

  Lemma indexed_add st a t u b : indexed (index_add st a t) u b <-> indexed st u b \/ (u = t /\ b = a).
  Proof.
    unfold indexed, index_add. cbn. unfold upd. destruct (Nat.eqb_spec u t) as [->|Hu].
    - split.
      + intros (l & E & Hb). injection E as <-. apply in_add in Hb as [->|Hb]; [now right|]. left.
        destruct (p_index st t) as [l|]; [eauto|destruct Hb].
      + intros H. eexists. split; [reflexivity|]. apply in_add. destruct H as [(l & -> & Hb)|[_ ->]]; [now right|now left].
    - intuition.
  Qed.
  Lemma indexed_remove st a t u b : indexed (index_remove st a t) u b <-> indexed st u b /\ ~ (u = t /\ b = a).
  Proof.
    unfold indexed, index_remove. destruct (p_index st t) as [l0|] eqn:E0.
    - cbn. unfold upd. destruct (Nat.eqb_spec u t) as [->|Hu]; [|intuition].
      split.
      + intros (l & E & Hb). assert (Hd : In b (del a l0)) by (destruct (del a l0) eqn:D; [discriminate|injection E as <-; exact Hb]).
        apply in_del in Hd as [H1 H2]. split; [eauto|]. intuition.
      + intros ((l & E & Hb) & Hn). rewrite E0 in E. injection E as <-.
        assert (Hd : In b (del a l0)) by (apply in_del; intuition). destruct (del a l0) as [|c d] eqn:D; [destruct Hd|]. eauto.
    - split; [|tauto]. intros H. split; [exact H|]. intros [-> ->]. destruct H as (l & E & _). congruence.
  Qed.

  (** No key without artifacts. *)
  Definition no_empty (st : pstate) : Prop := forall t, p_index st t <> Some [].
  Lemma add_not_nil x l : add x l <> [].
  Proof. destruct l as [|y l]; cbn [add]; [discriminate|]. destruct (x <? y); [discriminate|]. destruct (x =? y); discriminate. Qed.
  Lemma no_empty_add st a t : no_empty st -> no_empty (index_add st a t).
  Proof.
    intros N u. unfold index_add. cbn. unfold upd. destruct (u =? t); [|apply N]. intros E. injection E. apply add_not_nil.
  Qed.
  Lemma no_empty_remove st a t : no_empty st -> no_empty (index_remove st a t).
  Proof.
    intros N u. unfold index_remove. destruct (p_index st t); [|apply N]. cbn. unfold upd. destruct (u =? t); [|apply N].
    destruct (del a l); discriminate.
  Qed.

  Record pinv (st : pstate) : Prop := {
    v_index : forall t a, indexed st t a <-> In a (p_nodes st) /\ In t (p_tags st a);
    v_empty : no_empty st;
    v_in : forall a, In a (p_nodes st) -> p_in st a = true;
    v_roots : forall a, In a (p_roots st) -> In a (p_nodes st) /\ exists t, In t ptags /\ In t (p_tags st a);
  }.
  Definition roots_complete (st : pstate) : Prop :=
    forall a t, In a (p_nodes st) -> In t ptags -> In t (p_tags st a) -> In a (p_roots st).

  Lemma intersects_spec a b : intersects a b = true <-> exists x, In x a /\ In x b.
  Proof.
    unfold intersects. rewrite existsb_exists. split; intros (x & H1 & H2); exists x; (split; [exact H1|]); now apply mem_in.
  Qed.

  (** Adding and removing a tag of an artifact of the product, or of one that is not yet part of one. *)
  Definition live (st : pstate) (a : nat) : Prop := p_in st a = true -> In a (p_nodes st).

  Lemma add_tag_inv st a t : pinv st -> live st a ->
    pinv (add_tag ptags st a t) /\ p_in (add_tag ptags st a t) = p_in st /\ p_nodes (add_tag ptags st a t) = p_nodes st
    /\ (forall b u, In u (p_tags (add_tag ptags st a t) b) <-> In u (p_tags st b) \/ (b = a /\ u = t))
    /\ (roots_complete st -> roots_complete (add_tag ptags st a t)).
  Proof.
    intros V L.
    assert (T : forall b u, In u (p_tags (add_tag ptags st a t) b) <-> In u (p_tags st b) \/ (b = a /\ u = t)).
    { intros b u. unfold add_tag. cbn zeta. cbn [set_tags p_in]. destruct (p_in st a); [destruct (mem t ptags)|]; cbn; unfold upd;
        (destruct (Nat.eqb_spec b a) as [->|]; [rewrite in_add|]); intuition. }
    assert (E1 : p_in (add_tag ptags st a t) = p_in st).
    { unfold add_tag. cbn zeta. cbn [set_tags p_in]. destruct (p_in st a); [destruct (mem t ptags)|]; reflexivity. }
    assert (E2 : p_nodes (add_tag ptags st a t) = p_nodes st).
    { unfold add_tag. cbn zeta. cbn [set_tags p_in]. destruct (p_in st a); [destruct (mem t ptags)|]; reflexivity. }
    assert (R : forall b, In b (p_roots (add_tag ptags st a t)) <-> In b (p_roots st) \/ (b = a /\ p_in st a = true /\ In t ptags)).
    { intros b. unfold add_tag. cbn zeta. cbn [set_tags p_in]. destruct (p_in st a) eqn:Pa.
      - destruct (mem t ptags) eqn:M; cbn.
        + apply mem_in in M. rewrite in_add. tauto.
        + apply mem_not_in in M. tauto.
      - cbn. intuition; discriminate. }
    assert (Ix : forall u b, indexed (add_tag ptags st a t) u b <-> indexed st u b \/ (u = t /\ b = a /\ p_in st a = true)).
    { intros u b. unfold add_tag. cbn zeta. cbn [set_tags p_in]. destruct (p_in st a) eqn:Pa.
      - transitivity (indexed (index_add (set_tags st a (add t (p_tags st a))) a t) u b); [destruct (mem t ptags); reflexivity|].
        rewrite indexed_add. unfold indexed. cbn. tauto.
      - unfold indexed. cbn. intuition; discriminate. }
    split; [|split; [exact E1|split; [exact E2|split; [exact T|]]]].
    - split.
      + intros u b. rewrite Ix, E2, T, (v_index _ V). split.
        * intros [[H1 H2]|(-> & -> & Pa)]; [tauto|]. split; [now apply L|now right].
        * intros [H1 [H2|[-> ->]]]; [tauto|]. right. split; [reflexivity|]. split; [reflexivity|]. now apply (v_in _ V).
      + unfold add_tag. cbn zeta. cbn [set_tags p_in]. destruct (p_in st a); [|exact (v_empty _ V)].
        assert (N : no_empty (index_add (set_tags st a (add t (p_tags st a))) a t)) by (apply no_empty_add; exact (v_empty _ V)).
        destruct (mem t ptags); exact N.
      + intros b Hb. rewrite E2 in Hb. rewrite E1. now apply (v_in _ V).
      + intros b Hb. rewrite E2. apply R in Hb as [Hb|(-> & Pa & Ht)].
        * destruct (v_roots _ V b Hb) as (H1 & u & H2 & H3). split; [exact H1|]. exists u. split; [exact H2|]. apply T. now left.
        * split; [now apply L|]. exists t. split; [exact Ht|]. apply T. now right.
    - intros RC b u Hb Hu Hub. rewrite E2 in Hb. apply R. apply T in Hub as [Hub|[-> ->]]; [left; eauto|]. right.
      split; [reflexivity|]. split; [now apply (v_in _ V)|exact Hu].
  Qed.

  Lemma remove_tag_inv st a t : pinv st -> live st a ->
    pinv (remove_tag ptags st a t) /\ p_in (remove_tag ptags st a t) = p_in st /\ p_nodes (remove_tag ptags st a t) = p_nodes st
    /\ (forall b u, In u (p_tags (remove_tag ptags st a t) b) <-> In u (p_tags st b) /\ ~ (b = a /\ u = t))
    /\ (roots_complete st -> roots_complete (remove_tag ptags st a t)).
  Proof.
    intros V L. unfold remove_tag. cbn zeta. cbn [set_tags p_in].
    set (s1 := set_tags st a (del t (p_tags st a))).
    assert (T1 : forall b u, In u (p_tags s1 b) <-> In u (p_tags st b) /\ ~ (b = a /\ u = t)).
    { intros b u. unfold s1. cbn. unfold upd. destruct (Nat.eqb_spec b a) as [->|]; [rewrite in_del|]; intuition. }
    destruct (p_in st a) eqn:Pa.
    - assert (Ha : In a (p_nodes st)) by (apply L; exact Pa).
      set (s2 := index_remove s1 a t).
      assert (F : p_tags s2 = p_tags s1 /\ p_in s2 = p_in st /\ p_nodes s2 = p_nodes st /\ p_roots s2 = p_roots st).
      { unfold s2, index_remove. destruct (p_index s1 t); cbn; auto. }
      destruct F as (F1 & F2 & F3 & F4).
      assert (Ix : forall u b, indexed s2 u b <-> In b (p_nodes st) /\ In u (p_tags s1 b)).
      { intros u b. unfold s2. rewrite indexed_remove, T1. change (indexed s1 u b) with (indexed st u b). rewrite (v_index _ V). intuition. }
      assert (Ne : no_empty s2) by (apply no_empty_remove; exact (v_empty _ V)).
      rewrite F1. rewrite F4.
      assert (R : forall b, In b (p_roots (if mem t ptags && negb (intersects ptags (p_tags s1 a)) then set_roots s2 (del a (p_roots st)) else s2))
                   <-> In b (p_roots st) /\ ~ (b = a /\ In t ptags /\ forall u, In u ptags -> ~ In u (p_tags s1 a))).
      { intros b. destruct (mem t ptags && negb (intersects ptags (p_tags s1 a))) eqn:C.
        - apply andb_true_iff in C as [C1 C2]. apply mem_in in C1. apply negb_true_iff in C2. cbn. rewrite in_del.
          assert (N : forall u, In u ptags -> ~ In u (p_tags s1 a)).
          { intros u H1 H2. assert (I1 : intersects ptags (p_tags s1 a) = true) by (apply intersects_spec; eauto). congruence. }
          tauto.
        - rewrite F4. split; [|tauto]. intros Hb. split; [exact Hb|]. intros (-> & H1 & H2). apply andb_false_iff in C as [C|C].
          + apply mem_not_in in C. contradiction.
          + apply negb_false_iff, intersects_spec in C as (u & H3 & H4). exact (H2 u H3 H4). }
      match goal with |- pinv ?s /\ _ => set (s3 := s) in * end.
      assert (G : p_tags s3 = p_tags s1 /\ p_in s3 = p_in st /\ p_nodes s3 = p_nodes st /\ p_index s3 = p_index s2).
      { unfold s3. destruct (mem t ptags && negb (intersects ptags (p_tags s1 a))); cbn; auto. }
      destruct G as (G1 & G2 & G3 & G4).
      split; [|split; [exact G2|split; [exact G3|split]]].
      + split.
        * intros u b. unfold indexed. rewrite G4, G3, G1. apply Ix.
        * intros u. rewrite G4. apply Ne.
        * intros b Hb. rewrite G2. rewrite G3 in Hb. now apply (v_in _ V).
        * intros b Hb. rewrite G3, G1. apply R in Hb as [Hb Hn]. destruct (v_roots _ V b Hb) as (H1 & u & H2 & H3).
          split; [exact H1|]. destruct (Nat.eq_dec b a) as [->|Hba].
          -- destruct (intersects ptags (p_tags s1 a)) eqn:C; [apply intersects_spec in C; exact C|].
             assert (N : forall w, In w ptags -> ~ In w (p_tags s1 a)).
             { intros w W1 W2. assert (I1 : intersects ptags (p_tags s1 a) = true) by (apply intersects_spec; eauto). congruence. }
             destruct (Nat.eq_dec u t) as [->|Hut]; [exfalso; apply Hn; auto|]. exists u. split; [exact H2|]. apply T1. intuition.
          -- exists u. split; [exact H2|]. apply T1. intuition.
      + intros b u. rewrite G1. apply T1.
      + intros RC b u Hb Hu Hub. rewrite G3 in Hb. rewrite G1 in Hub. apply R. split.
        * apply T1 in Hub as [Hub _]. eauto.
        * intros (-> & _ & N). exact (N u Hu Hub).
    - assert (Na : ~ In a (p_nodes st)) by (intros H; apply (v_in _ V) in H; congruence).
      split; [|split; [reflexivity|split; [reflexivity|split; [exact T1|]]]].
      + split; cbn.
        * intros u b. change (indexed s1 u b) with (indexed st u b). rewrite (v_index _ V). unfold upd.
          destruct (Nat.eqb_spec b a) as [->|]; tauto.
        * exact (v_empty _ V).
        * apply (v_in _ V).
        * intros b Hb. destruct (v_roots _ V b Hb) as (H1 & u & H2 & H3). split; [exact H1|]. exists u. split; [exact H2|].
          apply T1. split; [exact H3|]. intros [-> _]. contradiction.
      + intros RC b u Hb Hu Hub. cbn in Hb. cbn. apply (RC b u Hb Hu). now apply T1 in Hub.
  Qed.

  (** What stays the same and what changes in a step. *)
  Definition retagged (st st' : pstate) (a : nat) (P : nat -> Prop) : Prop :=
    pinv st' /\ p_in st' = p_in st /\ p_nodes st' = p_nodes st
    /\ (forall b u, b <> a -> In u (p_tags st' b) <-> In u (p_tags st b)) /\ (forall u, In u (p_tags st' a) <-> P u)
    /\ (roots_complete st -> roots_complete st').

  Lemma add_tags a l : forall st, pinv st -> live st a ->
    retagged st (fold_left (fun s t => add_tag ptags s a t) l st) a (fun u => In u (p_tags st a) \/ In u l).
  Proof.
    induction l as [|t l IH]; intros st V L; cbn [fold_left].
    - split; [exact V|]. split; [reflexivity|]. split; [reflexivity|]. split; [intros; reflexivity|]. split; [cbn; tauto|auto].
    - destruct (add_tag_inv st a t V L) as (A1 & A2 & A3 & A4 & A5).
      assert (L1 : live (add_tag ptags st a t) a) by (unfold live; rewrite A2, A3; exact L).
      destruct (IH _ A1 L1) as (B1 & B2 & B3 & B4 & B5 & B6). split; [exact B1|]. split; [congruence|]. split; [congruence|].
      split; [intros b u Hb; rewrite B4, A4 by exact Hb; tauto|]. split; [|auto].
      intros u. rewrite B5, A4. cbn. intuition.
  Qed.
  Lemma remove_tags a l : forall st, pinv st -> live st a ->
    retagged st (fold_left (fun s t => remove_tag ptags s a t) l st) a (fun u => In u (p_tags st a) /\ ~ In u l).
  Proof.
    induction l as [|t l IH]; intros st V L; cbn [fold_left].
    - split; [exact V|]. split; [reflexivity|]. split; [reflexivity|]. split; [intros; reflexivity|]. split; [cbn; tauto|auto].
    - destruct (remove_tag_inv st a t V L) as (A1 & A2 & A3 & A4 & A5).
      assert (L1 : live (remove_tag ptags st a t) a) by (unfold live; rewrite A2, A3; exact L).
      destruct (IH _ A1 L1) as (B1 & B2 & B3 & B4 & B5 & B6). split; [exact B1|]. split; [congruence|]. split; [congruence|].
      split; [intros b u Hb; rewrite B4, A4 by exact Hb; tauto|]. split; [|auto].
      intros u. rewrite B5, A4. cbn. intuition.
  Qed.

  Lemma in_subtract x a b : In x (subtract a b) <-> In x a /\ ~ In x b.
  Proof. unfold subtract. rewrite filter_In, negb_true_iff, mem_not_in. reflexivity. Qed.
  Lemma same_tags_spec a b : same_tags a b = true <-> forall x, In x a <-> In x b.
  Proof.
    unfold same_tags. rewrite andb_true_iff, !forallb_forall. split.
    - intros [H1 H2] x. split; intros H; [apply H1 in H|apply H2 in H]; now apply mem_in.
    - intros H. split; intros x Hx; apply mem_in; now apply H.
  Qed.

  (** Setting the tags sets exactly these tags. *)
  Lemma set_file_tags_inv st a l : pinv st -> live st a -> retagged st (set_file_tags ptags st a l) a (fun u => In u l).
  Proof.
    intros V L. unfold set_file_tags. destruct (p_in st a) eqn:Pa; cbn [negb].
    - destruct (same_tags (p_tags st a) l) eqn:Sm.
      + assert (Sm' := proj1 (same_tags_spec _ _) Sm). split; [exact V|]. split; [reflexivity|]. split; [reflexivity|]. split; [intros; reflexivity|]. split; [exact Sm'|auto].
      + cbn zeta. destruct (add_tags a (subtract l (p_tags st a)) st V L) as (A1 & A2 & A3 & A4 & A5 & A6).
        set (s1 := fold_left (fun s t => add_tag ptags s a t) (subtract l (p_tags st a)) st) in *.
        assert (L1 : live s1 a) by (unfold live; rewrite A2, A3; exact L).
        destruct (remove_tags a (subtract (p_tags s1 a) l) s1 A1 L1) as (B1 & B2 & B3 & B4 & B5 & B6).
        split; [exact B1|]. split; [congruence|]. split; [congruence|]. split; [intros b u Hb; rewrite B4 by exact Hb; now apply A4|].
        split; [|auto]. intros u. rewrite B5, in_subtract, A5, in_subtract. destruct (in_dec Nat.eq_dec u l), (in_dec Nat.eq_dec u (p_tags st a)); tauto.
    - assert (Na : ~ In a (p_nodes st)) by (intros H; apply (v_in _ V) in H; congruence).
      assert (T : forall b u, b <> a -> In u (p_tags (set_tags st a l) b) <-> In u (p_tags st b)).
      { intros b u Hb. cbn. now rewrite upd_other. }
      split; [|split; [reflexivity|split; [reflexivity|split; [exact T|split; [cbn; intros u; rewrite upd_same; tauto|]]]]].
      + split; cbn.
        * intros u b. change (indexed (set_tags st a l) u b) with (indexed st u b). rewrite (v_index _ V). unfold upd.
          destruct (Nat.eqb_spec b a) as [->|]; tauto.
        * exact (v_empty _ V).
        * apply (v_in _ V).
        * intros b Hb. destruct (v_roots _ V b Hb) as (H1 & u & H2 & H3). split; [exact H1|]. exists u. split; [exact H2|].
          rewrite upd_other; [exact H3|]. intros ->. contradiction.
      + intros RC b u Hb Hu Hub. cbn in *. apply (RC b u Hb Hu). rewrite upd_other in Hub; [exact Hub|]. intros ->. contradiction.
  Qed.

  Lemma attach_inv st a st' : pinv st -> attach st a = Some st' ->
    pinv st' /\ (forall b, In b (p_nodes st') <-> In b (p_nodes st) \/ b = a) /\ p_tags st' = p_tags st /\ p_roots st' = p_roots st.
  Proof.
    intros V H. unfold attach in H. destruct (p_in st a || mem a (p_nodes st)) eqn:C; [discriminate|]. injection H as <-.
    apply orb_false_iff in C as [C1 C2]. apply mem_not_in in C2.
    set (s1 := mkP (p_tags st) (upd (p_in st) a true) (add a (p_nodes st)) (p_roots st) (p_index st)).
    assert (G : forall l s, (forall u b, indexed (fold_left (fun s t => index_add s a t) l s) u b <-> indexed s u b \/ (In u l /\ b = a))
      /\ (no_empty s -> no_empty (fold_left (fun s t => index_add s a t) l s))
      /\ p_tags (fold_left (fun s t => index_add s a t) l s) = p_tags s /\ p_in (fold_left (fun s t => index_add s a t) l s) = p_in s
      /\ p_nodes (fold_left (fun s t => index_add s a t) l s) = p_nodes s /\ p_roots (fold_left (fun s t => index_add s a t) l s) = p_roots s).
    { induction l as [|t l IH]; intros s; cbn [fold_left]; [cbn; intuition|].
      destruct (IH (index_add s a t)) as (A & B & C & D & E & F). split; [|split; [intros N; apply B, no_empty_add, N|auto]].
      intros u b. rewrite A, indexed_add. cbn. intuition. }
    destruct (G (p_tags st a) s1) as (A & B & C & D & E & F). split; [|split; [|split; [exact C|exact F]]].
    - split.
      + intros t b. rewrite A, C, E. change (indexed s1 t b) with (indexed st t b). rewrite (v_index _ V). cbn. rewrite in_add.
        split; [intros [[H1 H2]|[H1 ->]]; auto|]. intros [[->|H1] H2]; auto.
      + apply B. exact (v_empty _ V).
      + intros b Hb. rewrite E in Hb. rewrite D. cbn in *. apply in_add in Hb as [->|Hb]; [apply upd_same|].
        unfold upd. destruct (b =? a); [reflexivity|now apply (v_in _ V)].
      + intros b Hb. rewrite F in Hb. rewrite C, E. cbn. rewrite in_add. destruct (v_roots _ V b Hb) as (H1 & H2). auto.
    - intros b. rewrite E. cbn. rewrite in_add. tauto.
  Qed.

  Lemma detach_inv st a : pinv st ->
    pinv (detach st a) /\ (forall b, In b (p_nodes (detach st a)) <-> In b (p_nodes st) /\ b <> a) /\ p_tags (detach st a) = p_tags st
    /\ (forall b, In b (p_roots (detach st a)) <-> In b (p_roots st) /\ b <> a).
  Proof.
    intros V. unfold detach. set (s1 := mkP (p_tags st) (p_in st) (del a (p_nodes st)) (del a (p_roots st)) (p_index st)).
    assert (G : forall l s, (forall u b, indexed (fold_left (fun s t => index_remove s a t) l s) u b <-> indexed s u b /\ ~ (In u l /\ b = a))
      /\ (no_empty s -> no_empty (fold_left (fun s t => index_remove s a t) l s))
      /\ p_tags (fold_left (fun s t => index_remove s a t) l s) = p_tags s /\ p_in (fold_left (fun s t => index_remove s a t) l s) = p_in s
      /\ p_nodes (fold_left (fun s t => index_remove s a t) l s) = p_nodes s /\ p_roots (fold_left (fun s t => index_remove s a t) l s) = p_roots s).
    { induction l as [|t l IH]; intros s; cbn [fold_left]; [cbn; intuition|].
      destruct (IH (index_remove s a t)) as (A & B & C & D & E & F).
      assert (Z : p_tags (index_remove s a t) = p_tags s /\ p_in (index_remove s a t) = p_in s /\ p_nodes (index_remove s a t) = p_nodes s
        /\ p_roots (index_remove s a t) = p_roots s) by (unfold index_remove; destruct (p_index s t); cbn; auto).
      destruct Z as (Z1 & Z2 & Z3 & Z4).
      split; [|split; [intros N; apply B, no_empty_remove, N|]].
      - intros u b. rewrite A, indexed_remove. cbn. intuition.
      - rewrite C, D, E, F. auto. }
    destruct (G (p_tags st a) s1) as (A & B & C & D & E & F). split; [|split; [|split; [exact C|]]].
    - split.
      + intros t b. rewrite A, C, E. change (indexed s1 t b) with (indexed st t b). rewrite (v_index _ V). cbn. rewrite in_del.
        destruct (Nat.eq_dec b a) as [->|Hb]; tauto.
      + apply B. exact (v_empty _ V).
      + intros b Hb. rewrite E in Hb. rewrite D. cbn in *. apply in_del in Hb as [Hb _]. now apply (v_in _ V).
      + intros b Hb. rewrite F in Hb. rewrite C, E. cbn in *. apply in_del in Hb as [Hb Hn]. destruct (v_roots _ V b Hb) as (H1 & H2).
        split; [apply in_del; auto|exact H2].
    - intros b. rewrite E. cbn. apply in_del.
    - intros b. rewrite F. cbn. apply in_del.
  Qed.

  Lemma ops_inv os : forall st st', pinv st -> disciplined ptags st os -> p_ops ptags st os = Some st' ->
    pinv st' /\ (roots_complete st -> tagged_later ptags st os -> roots_complete st').
  Proof.
    induction os as [|o os IH]; intros st st' V D H; cbn [p_ops] in H; [injection H as <-; auto|].
    destruct D as [D1 D2]. destruct (p_op ptags st o) as [s|] eqn:O; [|discriminate]. cbn [tagged_later]. rewrite O.
    assert (X : pinv s /\ (roots_complete st -> match o with PAttach a => forall t, In t (p_tags st a) -> ~ In t ptags | _ => True end -> roots_complete s)).
    { destruct o as [a|a|a t|a t|a l]; cbn [p_op] in O.
      - destruct (attach_inv st a s V O) as (A & B & C & D). split; [exact A|]. intros RC N b u Hb Hu Hub. rewrite D. rewrite C in Hub.
        apply B in Hb as [Hb| ->]; [eauto|]. destruct (N u Hub Hu).
      - injection O as <-. destruct (detach_inv st a V) as (A & B & C & D). split; [exact A|]. intros RC _ b u Hb Hu Hub. rewrite C in Hub.
        apply B in Hb as [Hb Hn]. apply D. eauto.
      - injection O as <-. destruct (add_tag_inv st a t V D1) as (A & _ & _ & _ & B). auto.
      - injection O as <-. destruct (remove_tag_inv st a t V D1) as (A & _ & _ & _ & B). auto.
      - injection O as <-. destruct (set_file_tags_inv st a l V D1) as (A & _ & _ & _ & _ & B). auto. }
    destruct X as [X1 X2]. destruct (IH s st' X1 D2 H) as [Y1 Y2]. split; [exact Y1|]. intros RC [T1 T2]. auto.
  Qed.

  Lemma empty_inv : pinv p_empty.
  Proof.
    split; cbn.
    - intros t a. split; [intros (l & E & _); discriminate|intros [[] _]].
    - intros t. discriminate.
    - intros a [].
    - intros a [].
  Qed.

  (** The index finds, for every tag, exactly the artifacts of the product that have it now, and has no entries for other tags. *)
  Theorem tag_index_exact os st : disciplined ptags p_empty os -> p_ops ptags p_empty os = Some st ->
    (forall t a, (exists l, p_index st t = Some l /\ In a l) <-> In a (p_nodes st) /\ In t (p_tags st a))
    /\ (forall t, p_index st t = None <-> forall a, In a (p_nodes st) -> ~ In t (p_tags st a)).
  Proof.
    intros D H. destruct (ops_inv os p_empty st empty_inv D H) as [V _]. split; [exact (v_index _ V)|].
    intros t. split.
    - intros E a Ha Ht. destruct (proj2 (v_index _ V t a) (conj Ha Ht)) as (l & E' & _). congruence.
    - intros N. destruct (p_index st t) as [[|a l]|] eqn:E; [destruct (v_empty _ V t E)| |reflexivity].
      exfalso. destruct (proj1 (v_index _ V t a)) as [H1 H2]; [exists (a :: l); split; [exact E|now left]|]. exact (N a H1 H2).
  Qed.

  (** The root artifacts are those with a tag of the product type; all of them, if artifacts are tagged after they are added. *)
  Theorem roots_exact os st : disciplined ptags p_empty os -> p_ops ptags p_empty os = Some st ->
    (forall a, In a (p_roots st) -> In a (p_nodes st) /\ exists t, In t ptags /\ In t (p_tags st a))
    /\ (tagged_later ptags p_empty os -> forall a t, In a (p_nodes st) -> In t ptags -> In t (p_tags st a) -> In a (p_roots st)).
  Proof.
    intros D H. destruct (ops_inv os p_empty st empty_inv D H) as [V R]. split; [exact (v_roots _ V)|]. apply R. intros a t [].
  Qed.

  (** Setting the tags of an artifact sets these tags, and changes those of no other artifact. *)
  Theorem set_tags_exact os st a l : disciplined ptags p_empty os -> p_ops ptags p_empty os = Some st -> (p_in st a = true -> In a (p_nodes st)) ->
    (forall t, In t (p_tags (set_file_tags ptags st a l) a) <-> In t l)
    /\ (forall b t, b <> a -> In t (p_tags (set_file_tags ptags st a l) b) <-> In t (p_tags st b)).
  Proof.
    intros D H L. destruct (ops_inv os p_empty st empty_inv D H) as [V _].
    destruct (set_file_tags_inv st a l V L) as (_ & _ & _ & A & B & _). auto.
  Qed.
End Tags.

(** A source file that has a tag of the product type from the beginning is not a root, but becomes one when its tags are changed
    to the same product type tag and another one: which artifacts are roots depends on the history. *)
Theorem source_roots_refuted :
  exists ptags os os' st st', disciplined ptags p_empty os /\ disciplined ptags p_empty os'
    /\ p_ops ptags p_empty os = Some st /\ p_ops ptags p_empty os' = Some st'
    /\ p_nodes st = p_nodes st' /\ p_tags st 1 = p_tags st' 1 /\ p_roots st <> p_roots st'.
Proof.
  exists [7], [PSet 1 [7]; PAttach 1], [PAttach 1; PSet 1 [7]]. eexists. eexists.
  split; [cbn; intuition; discriminate|]. split; [cbn; intuition|]. split; [reflexivity|]. split; [reflexivity|].
  split; [reflexivity|]. split; [reflexivity|]. discriminate.
Qed.

(** * Examples *)
Module Demo.
  (* product type 1; tags 1 (application), 2 (obj), 3 (installable) *)
  Definition history := [PAttach 10; PSet 10 [2; 3]; PAttach 11; PSet 11 [1]; PAdd 11 3; PRemove 10 3; PSet 12 [2]; PAttach 12; PDetach 10; PSet 11 [3]].
  Example result : option_map (fun s => (p_index s 1, p_index s 2, p_index s 3, p_roots s, p_nodes s)) (p_ops [1] p_empty history)
    = Some (None, Some [12], Some [11], [], [11; 12]).
  Proof. reflexivity. Qed.
  Example root_before : option_map (fun s => (p_index s 1, p_index s 2, p_roots s)) (p_ops [1] p_empty (firstn 8 history)) = Some (Some [11], Some [10; 12], [11]).
  Proof. reflexivity. Qed.
  Example is_disciplined : disciplined [1] p_empty history.
  Proof. cbn. intuition. Qed.
  Example is_tagged_later : tagged_later [1] p_empty history.
  Proof. cbn. intuition; subst; discriminate. Qed.

  (* path 5: a source file listed by two products and a dependency; a generated artifact is refused *)
  Definition info (x : nat) : finfo :=
    {| f_path := 5; f_kind := if x =? 1 then ArtifactFile SourceFile 0 else if x =? 2 then ArtifactFile SourceFile 1 else if x =? 3 then Dependency else ArtifactFile Generated 0 |}.
  Example sources : table_ops info [TInsert 1; TInsert 3; TInsert 2; TInsert 4] 5 = [1; 3; 2].
  Proof. reflexivity. Qed.
  Example found : lookup_artifact info (table_ops info [TInsert 1; TInsert 3; TInsert 2; TInsert 4]) 1 5 = Some 2.
  Proof. reflexivity. Qed.
  Example allowed_again : table_ops info [TInsert 1; TInsert 3; TRemove 1; TInsert 4] 5 = [3; 4].
  Proof. reflexivity. Qed.
End Demo.

Print Assumptions table_exact.
Print Assumptions registered_exists.
Print Assumptions one_generated.
Print Assumptions insertion_outcome.
Print Assumptions lookup_exact.
Print Assumptions reload_outcome.
Print Assumptions source_after_generated_refuted.
Print Assumptions reload_refuted.
Print Assumptions tag_index_exact.
Print Assumptions roots_exact.
Print Assumptions set_tags_exact.
Print Assumptions source_roots_refuted.
