(** Which products take part in a build (C12). *)
From Coq Require Import List Bool Arith Lia.
From Verif Require Import ProductsModel.
Import ListNotations.

(** *** Specification *)

(** [chain deps full p q]: q is reached from p by following dependencies; if [full], by non-minimal
    ones only. *)
Inductive chain (deps : products) (full : bool) : nat -> nat -> Prop :=
| chain_refl p : chain deps full p p
| chain_step p q m r : In (q, m) (deps p) -> (full = true -> m = false) -> chain deps full q r -> chain deps full p r.

(** Products depend on each other without cycles. *)
Definition acyclic (deps : products) : Prop :=
  exists rank : nat -> nat, forall p q m, In (q, m) (deps p) -> rank q < rank p.

Record project (deps : products) (all primary : list nat) : Prop := {
  pr_all : NoDup all;
  pr_deps : forall p q m, In p all -> In (q, m) (deps p) -> In q all;
  pr_primary : NoDup primary /\ incl primary all;
  pr_acyclic : acyclic deps
}.

(** *** Proofs *)
Lemma note_keys p m h q : In q (map fst (note p m h)) <-> In q (map fst h) \/ q = p.
Proof.
  induction h as [|[r f] h IH]; simpl; [intuition|]. destruct (Nat.eqb_spec r p); simpl; [subst; intuition|].
  rewrite IH. intuition.
Qed.
Lemma note_nodup p m h : NoDup (map fst h) -> NoDup (map fst (note p m h)).
Proof.
  induction h as [|[r f] h IH]; simpl; intros N; [repeat constructor; auto|]. inversion N; subst.
  destruct (Nat.eqb_spec r p); simpl; [now constructor|]. constructor; auto. rewrite note_keys. intuition.
Qed.
Lemma note_full p m h q : NoDup (map fst h) ->
  (In (q, true) (note p m h) <-> In (q, true) h \/ (q = p /\ m = false)).
Proof.
  induction h as [|[r f] h IH]; simpl; intros N.
  - split; [intros [[= -> H]|[]]; right; split; auto; now apply negb_true_iff|]. intros [[]|[-> ->]]. now left.
  - inversion N; subst. destruct (Nat.eqb_spec r p) as [->|Hr]; simpl.
    + split.
      * intros [[= -> H]|H]; auto. apply orb_prop in H. destruct H as [->|H]; auto. right. split; auto. now apply negb_true_iff.
      * intros [[[= -> ->]|H]|[-> ->]]; auto. left. now rewrite orb_true_r.
    + rewrite IH; auto. intuition.
Qed.

(** What is in the hash afterwards. *)
Record added (deps : products) (h h' : hash) (K F : nat -> Prop) : Prop := {
  ad_nodup : NoDup (map fst h');
  ad_keys : forall q, In q (map fst h') <-> In q (map fst h) \/ K q;
  ad_full : forall q, In (q, true) h' <-> In (q, true) h \/ F q
}.

Lemma added_trans deps h1 h2 h3 K1 F1 K2 F2 : added deps h1 h2 K1 F1 -> added deps h2 h3 K2 F2 ->
  added deps h1 h3 (fun q => K1 q \/ K2 q) (fun q => F1 q \/ F2 q).
Proof.
  intros [N1 A1 B1] [N2 A2 B2]. constructor; auto; intros q; [rewrite A2, A1|rewrite B2, B1]; tauto.
Qed.
Lemma added_ext deps h h' (K F K' F' : nat -> Prop) : added deps h h' K F -> (forall q, K q <-> K' q) -> (forall q, F q <-> F' q) ->
  added deps h h' K' F'.
Proof. intros [N A B] EK EF. constructor; auto; intros q; [rewrite A, EK|rewrite B, EF]; tauto. Qed.

Lemma add_list deps (f : nat * bool -> hash -> option hash) (K F : nat * bool -> nat -> Prop) l :
  (forall d h, In d l -> NoDup (map fst h) -> exists h', f d h = Some h' /\ added deps h h' (K d) (F d)) ->
  forall h, NoDup (map fst h) ->
  exists h', fold_left (fun acc d => match acc with Some h => f d h | None => None end) l (Some h) = Some h'
   /\ added deps h h' (fun q => exists d, In d l /\ K d q) (fun q => exists d, In d l /\ F d q).
Proof.
  induction l as [|d l IH]; intros H h N; simpl.
  - exists h. split; auto. constructor; auto; intros q; split; auto; intros [X|(d & [] & _)]; auto.
  - destruct (H d h (or_introl eq_refl) N) as (h1 & -> & A1).
    destruct (IH (fun d0 h0 Hd => H d0 h0 (or_intror Hd)) h1 (ad_nodup _ _ _ _ _ A1)) as (h2 & E2 & A2).
    exists h2. split; auto. eapply added_ext; [exact (added_trans _ _ _ _ _ _ _ _ A1 A2)| |]; intros q; simpl.
    + split; [intros [X|(d' & X & Y)]; eauto|]. intros (d' & [<-|X] & Y); eauto.
    + split; [intros [X|(d' & X & Y)]; eauto|]. intros (d' & [<-|X] & Y); eauto.
Qed.

Lemma add_dependency_ok deps (rank : nat -> nat) : (forall p q m, In (q, m) (deps p) -> rank q < rank p) ->
  forall fuel p minimal h, rank p < fuel -> NoDup (map fst h) ->
  exists h', add_dependency fuel deps p minimal h = Some h'
    /\ added deps h h' (chain deps false p) (fun q => minimal = false /\ chain deps true p q).
Proof.
  intros Hr. induction fuel as [|fuel IH]; intros p minimal h Hp N; [lia|]. cbn [add_dependency].
  assert (L := add_list deps (fun d h => add_dependency fuel deps (fst d) (minimal || snd d) h)
    (fun d => chain deps false (fst d)) (fun d q => minimal || snd d = false /\ chain deps true (fst d) q) (deps p)).
  destruct L with (h := note p minimal h) as (h' & E & A).
  - intros [q m] h0 Hd N0. apply IH; auto. apply Hr in Hd. simpl. lia.
  - now apply note_nodup.
  - exists h'. split; [exact E|]. constructor.
    + apply (ad_nodup _ _ _ _ _ A).
    + intros q. rewrite (ad_keys _ _ _ _ _ A), note_keys. split.
      * intros [[X| ->]|((r, m) & Hd & X)]; auto; [right; constructor|]. right. apply (chain_step _ _ p r m q); auto. discriminate.
      * intros [X|X]; auto. inversion X as [|? r m ? Hd _ Y]; subst; auto. right. exists (r, m). auto.
    + intros q. rewrite (ad_full _ _ _ _ _ A), note_full; auto. split.
      * intros [[X|[-> ->]]|((r, m) & Hd & E1 & X)]; auto; [right; split; [auto|constructor]|]. simpl in *.
        apply orb_false_iff in E1. destruct E1 as [-> ->]. right. split; auto. apply (chain_step _ _ p r false q); auto.
      * intros [X|[-> X]]; auto. inversion X as [|? r m ? Hd Hm Y]; subst; auto. right. exists (r, m). simpl. auto.
Qed.

Lemma map_filter_snd (h : hash) q : In q (map fst (filter snd h)) <-> In (q, true) h.
Proof.
  rewrite in_map_iff. split.
  - intros ([r f] & <- & H). apply filter_In in H. simpl in *. destruct H as [H ->]. auto.
  - intros H. exists (q, true). split; auto. apply filter_In. auto.
Qed.

Lemma chain_in deps all full p q : (forall p q m, In p all -> In (q, m) (deps p) -> In q all) ->
  In p all -> chain deps full p q -> In q all.
Proof. intros H Hp C. induction C as [|p r m q Hd _ _ IH]; auto. apply IH. eapply H; eauto. Qed.

Lemma chain_snoc_inv deps full p q : chain deps full p q <->
  p = q \/ exists r m, In (r, m) (deps p) /\ (full = true -> m = false) /\ chain deps full r q.
Proof.
  split.
  - intros H. destruct H; eauto 6.
  - intros [->|(r & m & A & B & C)]; [constructor|econstructor; eauto].
Qed.

(** The acyclic product graph has chains no longer than the number of products, so fuel proportional to
    any rank function is enough; the model with that much fuel behaves like the unbounded recursion. *)
Lemma setup_ok deps all primary rank fuel : NoDup all -> NoDup primary -> incl primary all ->
  (forall p q m, In p all -> In (q, m) (deps p) -> In q all) ->
  (forall p q m, In (q, m) (deps p) -> rank q < rank p) -> (forall p, In p all -> rank p < fuel) ->
  exists buildable full, setup_products fuel deps all primary = Some (buildable, full)
   /\ (forall q, In q buildable <-> exists p, In p primary /\ chain deps false p q)
   /\ (forall q, In q full <-> exists p, In p primary /\ chain deps true p q).
Proof.
  intros Na Np I D Hr Hf. unfold setup_products. destruct (Nat.eqb_spec (length primary) (length all)) as [E|_].
  - exists primary, primary. split; auto.
    assert (X : incl all primary) by (apply NoDup_length_incl; auto; lia).
    split; intros q; split; try (intros H; exists q; split; auto; constructor).
    + intros (p & Hp & C). apply X. eapply chain_in; eauto.
    + intros (p & Hp & C). apply X. eapply chain_in; eauto.
  - assert (Q : exists h, fold_left (fun acc p => fold_left (fun acc d => match acc with
                                   | Some h => add_dependency fuel deps (fst d) (snd d) h
                                   | None => None
                                   end) (deps p) acc) primary (Some []) = Some h
      /\ added deps [] h (fun q => exists p d, In p primary /\ In d (deps p) /\ chain deps false (fst d) q)
          (fun q => exists p d, In p primary /\ In d (deps p) /\ snd d = false /\ chain deps true (fst d) q)).
    { assert (G : forall l h0, incl l primary -> NoDup (map fst h0) -> exists h, fold_left (fun acc p => fold_left (fun acc d => match acc with
                                   | Some h => add_dependency fuel deps (fst d) (snd d) h
                                   | None => None
                                   end) (deps p) acc) l (Some h0) = Some h
         /\ added deps h0 h (fun q => exists p d, In p l /\ In d (deps p) /\ chain deps false (fst d) q)
            (fun q => exists p d, In p l /\ In d (deps p) /\ snd d = false /\ chain deps true (fst d) q)).
      { induction l as [|p l IH]; intros h0 Hi N0; simpl.
        - exists h0. split; auto. constructor; auto; intros q; split; auto; intros [X|(p & d & [] & _)]; auto.
        - assert (L := add_list deps (fun d h => add_dependency fuel deps (fst d) (snd d) h)
            (fun d => chain deps false (fst d)) (fun d q => snd d = false /\ chain deps true (fst d) q) (deps p)).
          destruct L with (h := h0) as (h1 & -> & A1); auto.
          + intros [q m] h2 Hd N2. apply (add_dependency_ok deps rank Hr); auto. simpl.
            apply Hf. apply (D p q m); auto. apply I, Hi. now left.
          + destruct (IH h1) as (h2 & E2 & A2); [intros x Hx; apply Hi; now right|apply (ad_nodup _ _ _ _ _ A1)|].
            exists h2. split; auto. eapply added_ext; [exact (added_trans _ _ _ _ _ _ _ _ A1 A2)| |]; intros q; simpl.
            * split; [intros [(d & X & Y)|(p' & d & X & Y & Z)]; [exists p, d|exists p', d]; auto|].
              intros (p' & d & [<-|X] & Y & Z); [left; eauto|right; eauto].
            * split; [intros [(d & X & Y)|(p' & d & X & Y & Z)]; [exists p, d|exists p', d]; auto|].
              intros (p' & d & [<-|X] & Y & Z); [left; eauto|right; exists p', d; auto]. }
      apply G; [apply incl_refl|constructor]. }
    destruct Q as (h & -> & A). eexists _, _. split; [reflexivity|]. split; intros q.
    + rewrite in_app_iff, (ad_keys _ _ _ _ _ A). split.
      * intros [X|[[]|(p & [r m] & X & Y & Z)]]; [exists q; split; auto; constructor|].
        exists p. split; auto. apply (chain_step _ _ p r m q); auto. discriminate.
      * intros (p & Hp & C). apply chain_snoc_inv in C. destruct C as [->|(r & m & X & _ & Y)]; auto.
        right. right. exists p, (r, m). auto.
    + rewrite in_app_iff, map_filter_snd, (ad_full _ _ _ _ _ A). split.
      * intros [X|[[]|(p & [r m] & X & Y & Hm & Z)]]; [exists q; split; auto; constructor|]. simpl in *. subst m.
        exists p. split; auto. apply (chain_step _ _ p r false q); auto.
      * intros (p & Hp & C). apply chain_snoc_inv in C. destruct C as [->|(r & m & X & Hm & Y)]; auto.
        right. right. exists p, (r, m). simpl. auto.
Qed.

(** *** Theorem (C12): the products that take part in the build are the requested ones and everything they
    depend on; built fully are the requested ones and what they fully depend on. *)
Theorem product_selection deps all primary : project deps all primary ->
  exists fuel0, forall fuel, fuel0 <= fuel ->
  exists buildable full, setup_products fuel deps all primary = Some (buildable, full)
   /\ (forall q, In q buildable <-> exists p, In p primary /\ chain deps false p q)
   /\ (forall q, In q full <-> exists p, In p primary /\ chain deps true p q).
Proof.
  intros [A D [Np I] [rank Hr]].
  exists (S (list_max (map rank all))). intros fuel Hf. apply (setup_ok deps all primary rank fuel); auto.
  intros p Hp. assert (X : rank p <= list_max (map rank all)); [|lia].
  assert (Y := proj1 (list_max_le (map rank all) (list_max (map rank all))) (Nat.le_refl _)).
  rewrite Forall_forall in Y. apply Y. now apply in_map.
Qed.

(** Product 0 requested; it depends minimally on 1 and fully on 2, both depend fully on 3; 4 is unrelated. *)
Definition ex_deps : products := fun p => match p with 0 => [(1, true); (2, false)] | 1 | 2 => [(3, false)] | _ => [] end.
Example product_selection_case : project ex_deps [0; 1; 2; 3; 4] [0]
  /\ setup_products 5 ex_deps [0; 1; 2; 3; 4] [0] = Some ([0; 1; 3; 2], [0; 3; 2]).
Proof.
  split; [|reflexivity]. constructor.
  - repeat (apply NoDup_cons; [simpl; intuition discriminate|]). apply NoDup_nil.
  - intros p q m _ H. destruct p as [|[|[|p]]]; simpl in H; repeat (destruct H as [H|H]; [injection H as <- _; simpl; auto 6|]); destruct H.
  - split; [repeat constructor; auto|]. intros x [<-|[]]. now left.
  - exists (fun p => 4 - p). intros p q m H. destruct p as [|[|[|p]]]; simpl in H; repeat (destruct H as [H|H]; [injection H as <- _; lia|]); destruct H.
Qed.

Print Assumptions product_selection.
