(** An include is resolved to the file that takes precedence; a scan ends for all files, also if they include each other, and finds exactly the files that are included directly or indirectly. *)
From Coq Require Import List Bool NArith Arith Lia.
Import ListNotations.
From Verif Require Import Str PathModel DepScanModel.

(** ** Specification *)

(** What an include stands for *)
Inductive target := Plain (p : str) | Artifact (k : nat * str) (trafo : option nat) (ready : bool).
Definition t_path (t : target) : str := match t with Plain p => p | Artifact k _ _ => snd k end.
(** Whether the file is scanned in turn *)
Definition scannable (t : target) : Prop := match t with Plain _ => True | Artifact _ _ b => b = true end.
(** The directory that an include refers to, seen from [base]; it is cleaned only if the include itself has got dots or double slashes in its directory *)
Definition joined (home base dir p : str) : Prop := (base = [] /\ p = dir) \/ (base <> [] /\ dir = [] /\ p = base) \/ (base <> [] /\ dir <> [] /\ p = resolve_path Unix home base dir).
Definition untidy (dir : str) : Prop := In 46%N dir \/ exists a b, dir = a ++ slash :: slash :: b.
Definition place (home base : str) (d : raw) (dir : str) : Prop := exists p, joined home base (fst d) p /\ ((untidy (fst d) /\ dir = clean_path p) \/ (~ untidy (fst d) /\ dir = p)).
(** The file [r] of the project is the one in this directory with this name *)
Definition at_place (dir name : str) (r : res) : Prop := split_dir (f_path r) = (dir, name).
Definition artifact_of (q : nat) (r : res) : Prop := exists t b, f_kind r = Art q t b.
(** Precedence: an artifact of the product; of a product it depends on (the first one); of another product (the last one); a known file; an existing file *)
Inductive located (w : world) (l : list res) (product : nat) (dir name : str) : target -> Prop :=
| own_artifact l1 r l2 t b : l = l1 ++ r :: l2 -> at_place dir name r -> f_kind r = Art product t b -> (forall x, In x l1 -> at_place dir name x -> ~ artifact_of product x) -> located w l product dir name (Artifact (product, f_path r) t b)
| needed_artifact l1 r l2 q t b : l = l1 ++ r :: l2 -> at_place dir name r -> f_kind r = Art q t b -> q <> product -> w_depends w product q = true -> (forall x, In x l -> at_place dir name x -> ~ artifact_of product x) ->
    (forall x p, In x l1 -> at_place dir name x -> artifact_of p x -> w_depends w product p = false) -> located w l product dir name (Artifact (q, f_path r) t b)
| other_artifact l1 r l2 q t b : l = l1 ++ r :: l2 -> at_place dir name r -> f_kind r = Art q t b -> q <> product -> (forall x, In x l -> at_place dir name x -> ~ artifact_of product x) ->
    (forall x p, In x l -> at_place dir name x -> artifact_of p x -> w_depends w product p = false) -> (forall x p, In x l2 -> at_place dir name x -> ~ artifact_of p x) -> located w l product dir name (Artifact (q, f_path r) t b)
| known_file l1 r l2 : l = l1 ++ r :: l2 -> at_place dir name r -> f_kind r = FileDep -> (forall x p, In x l -> at_place dir name x -> ~ artifact_of p x) -> (forall x, In x l2 -> at_place dir name x -> False) -> located w l product dir name (Plain (f_path r))
| existing_file : (forall x, In x l -> ~ at_place dir name x) -> In (dir ++ slash :: name) (w_disk w) -> located w l product dir name (Plain (dir ++ slash :: name)).
(** Includes with absolute paths; others are looked for in the search paths, one after the other *)
Inductive refers (w : world) (l : list res) (product : nat) (paths : list str) (d : raw) : target -> Prop :=
| refers_absolute dir t : is_absolute Unix (raw_path d) = true -> place (w_home w) [] d dir -> located w l product dir (snd d) t -> refers w l product paths d t
| refers_relative ps1 p ps2 dir t : is_absolute Unix (raw_path d) = false -> paths = ps1 ++ p :: ps2 -> (forall q dir' t', In q ps1 -> place (w_home w) q d dir' -> ~ located w l product dir' (snd d) t') ->
    place (w_home w) p d dir -> located w l product dir (snd d) t -> refers w l product paths d t.
(** Which files are scanned for an input, and which are found *)
Inductive scanned (w : world) (l : list res) (j : job) : str -> Prop :=
| scan_input : scanned w l j (j_input j)
| scan_next p d t : scanned w l j p -> In d (w_contents w (j_scanner j) (j_props j) p) -> refers w l (j_product j) (j_search j) d t -> j_recursive j = true -> scannable t -> scanned w l j (t_path t).
Definition found (w : world) (l : list res) (j : job) (t : target) : Prop := exists p d, scanned w l j p /\ In d (w_contents w (j_scanner j) (j_props j) p) /\ refers w l (j_product j) (j_search j) d t.
(** The edges that are possible: not to itself, not to an output of the same rule application, no cycle *)
Definition admissible (w : world) (a : art) (k : nat * str) (t : option nat) : Prop := k <> (a_product a, a_path a) /\ t <> Some (a_trafo a) /\ w_circular w k = false.

(** ** Basics *)

Lemma mem_str_spec x l : existsb (str_eqb x) l = true <-> In x l.
Proof. rewrite existsb_exists. split; [intros (y & I & E); apply str_eqb_eq in E; now subst|]. intros I. exists x. split; [assumption|apply str_eqb_refl]. Qed.
Lemma mem_str_no x l : existsb (str_eqb x) l = false <-> ~ In x l.
Proof. rewrite <- mem_str_spec. destruct (existsb (str_eqb x) l); split; congruence. Qed.
Lemma str_in_dec (x : str) l : {In x l} + {~ In x l}.
Proof. destruct (existsb (str_eqb x) l) eqn:E; [left; now apply mem_str_spec|right; now apply mem_str_no]. Qed.
Lemma raw_eqb_eq a b : raw_eqb a b = true <-> a = b.
Proof. unfold raw_eqb. rewrite andb_true_iff, !str_eqb_eq. destruct a, b; cbn. split; [intros [-> ->]; reflexivity|intros [= -> ->]; auto]. Qed.
Lemma id_eqb_eq a b : id_eqb a b = true <-> a = b.
Proof. unfold id_eqb. rewrite andb_true_iff, Nat.eqb_eq, str_eqb_eq. destruct a, b; cbn. split; [intros [-> ->]; reflexivity|intros [= -> ->]; auto]. Qed.
Lemma mem_id_spec k l : mem_id k l = true <-> In k l.
Proof. unfold mem_id. rewrite existsb_exists. split; [intros (y & I & E); apply id_eqb_eq in E; now subst|]. intros I. exists k. split; [assumption|now apply id_eqb_eq]. Qed.
Lemma mem_id_no k l : mem_id k l = false <-> ~ In k l.
Proof. rewrite <- mem_id_spec. destruct (mem_id k l); split; congruence. Qed.

(** ** Resolving *)

Definition tgt (r : resolved) : target := match snd r with None => Plain (fst r) | Some f => match f_kind f with FileDep => Plain (f_path f) | Art q t b => Artifact (q, f_path f) t b end end.
Definition is_art (r : res) : bool := match f_kind r with Art _ _ _ => true | FileDep => false end.
Definition is_art_of (P : nat -> bool) (r : res) : bool := match f_kind r with Art q _ _ => P q | FileDep => false end.
(** The loop in closed form *)
Lemma pick_spec w product l : forall fd other is_dep, pick w product l fd other is_dep =
  match find (is_art_of (Nat.eqb product)) l with
  | Some r => Some r
  | None =>
      let other := if is_dep then other else match find (is_art_of (w_depends w product)) l with Some r => Some r | None => match find is_art (rev l) with Some r => Some r | None => other end end in
      match other with Some r => Some r | None => match find (fun r => negb (is_art r)) (rev l) with Some r => Some r | None => fd end end
  end.
Proof.
  assert (FA : forall (P : res -> bool) a b, find P (a ++ b) = match find P a with Some x => Some x | None => find P b end).
  { intros P a b. induction a as [|x a IH]; cbn; [reflexivity|]. now destruct (P x). }
  induction l as [|r l IH]; intros fd other is_dep; [cbn; destruct is_dep, other; reflexivity|]. cbn [pick find rev]. unfold is_art_of at 1 3. rewrite !FA. cbn [find]. unfold is_art at 2 4. destruct (f_kind r) as [|q t b] eqn:K.
  - rewrite IH. destruct (find (is_art_of (Nat.eqb product)) l); [reflexivity|]. cbn zeta. cbn [negb].
    destruct is_dep; [destruct other; [reflexivity|]; now destruct (find (fun r => negb (is_art r)) (rev l))|].
    destruct (find (is_art_of (w_depends w product)) l); [reflexivity|]. destruct (find is_art (rev l)); [reflexivity|]. destruct other; [reflexivity|]. now destruct (find (fun r => negb (is_art r)) (rev l)).
  - rewrite (Nat.eqb_sym q product). destruct (Nat.eqb product q) eqn:EQ; [reflexivity|]. cbn [negb]. destruct is_dep.
    + rewrite IH. destruct (find (is_art_of (Nat.eqb product)) l); [reflexivity|]. cbn zeta. destruct other; [reflexivity|]. now destruct (find (fun r => negb (is_art r)) (rev l)).
    + rewrite IH. destruct (find (is_art_of (Nat.eqb product)) l); [reflexivity|]. cbn zeta. destruct (w_depends w product q); [reflexivity|]. destruct (find (is_art_of (w_depends w product)) l); [reflexivity|]. destruct (find is_art (rev l)); reflexivity.
Qed.
Definition here (dir name : str) (r : res) : bool := raw_eqb (split_dir (f_path r)) (dir, name).
Lemma here_spec dir name r : here dir name r = true <-> at_place dir name r.
Proof. unfold here, at_place. apply raw_eqb_eq. Qed.
Lemma find_filter {A} (P Q : A -> bool) l : find P (filter Q l) = find (fun x => Q x && P x) l.
Proof. induction l as [|x l IH]; cbn; [reflexivity|]. destruct (Q x); cbn; [now destruct (P x)|assumption]. Qed.
Lemma find_split {A} (P : A -> bool) l x : find P l = Some x -> exists l1 l2, l = l1 ++ x :: l2 /\ P x = true /\ forall y, In y l1 -> P y = false.
Proof.
  induction l as [|y l IH]; cbn; [discriminate|]. destruct (P y) eqn:E.
  - intros [= <-]. exists [], l. repeat split; auto. intros z [].
  - intros H. destruct (IH H) as (l1 & l2 & -> & PX & N). exists (y :: l1), l2. repeat split; auto. intros z [<-|I]; auto.
Qed.
Lemma find_first {A} (P : A -> bool) l1 x l2 : P x = true -> (forall y, In y l1 -> P y = false) -> find P (l1 ++ x :: l2) = Some x.
Proof. intros PX N. induction l1 as [|y l1 IH]; cbn; [now rewrite PX|]. rewrite (N y) by now left. apply IH. intros z I. apply N. now right. Qed.
Lemma find_no {A} (P : A -> bool) l : find P l = None <-> forall x, In x l -> P x = false.
Proof.
  induction l as [|y l IH]; cbn; [split; [intros _ x []|reflexivity]|]. destruct (P y) eqn:E; [split; [intros C; discriminate C|intros H; specialize (H y (or_introl eq_refl)); congruence]|]. rewrite IH. split; [intros H x [<-|I]; auto|intros H x I; apply H; now right].
Qed.
Lemma find_last {A} (P : A -> bool) l x : find P (rev l) = Some x <-> exists l1 l2, l = l1 ++ x :: l2 /\ P x = true /\ forall y, In y l2 -> P y = false.
Proof.
  split.
  - intros H. apply find_split in H as (l1 & l2 & E & PX & N). exists (rev l2), (rev l1). split; [|split; [assumption|intros y I; apply N; now rewrite in_rev]]. rewrite <- (rev_involutive l), E, rev_app_distr. cbn. now rewrite <- app_assoc.
  - intros (l1 & l2 & -> & PX & N). rewrite rev_app_distr. cbn. rewrite <- app_assoc. cbn. apply find_first; [assumption|]. intros y I. apply N. now rewrite in_rev.
Qed.
Lemma filter_rev' {A} (P : A -> bool) l : filter P (rev l) = rev (filter P l).
Proof. induction l as [|x l IH]; cbn; [reflexivity|]. rewrite filter_app, IH. cbn. destruct (P x); cbn; [reflexivity|now rewrite app_nil_r]. Qed.
(** The choice among the files of the project *)
Lemma pick_here w l product dir name : pick w product (lookup_files l dir name) None None false =
  match find (fun x => here dir name x && is_art_of (Nat.eqb product) x) l with Some r => Some r | None =>
  match find (fun x => here dir name x && is_art_of (w_depends w product) x) l with Some r => Some r | None =>
  match find (fun x => here dir name x && is_art x) (rev l) with Some r => Some r | None => find (fun x => here dir name x && negb (is_art x)) (rev l) end end end.
Proof.
  rewrite pick_spec. unfold lookup_files. fold (here dir name). rewrite <- filter_rev', !find_filter. cbn zeta. destruct (find _ l); [reflexivity|]. destruct (find _ l); [reflexivity|]. destruct (find _ (rev l)); [reflexivity|]. now destruct (find _ (rev l)).
Qed.
Lemma art_of_spec P r : is_art_of P r = true <-> exists q, artifact_of q r /\ P q = true.
Proof. unfold is_art_of, artifact_of. destruct (f_kind r) as [|q t b]; split; [discriminate|intros (q & (t & b & C) & _); discriminate|intros H; exists q; eauto|intros (q' & (t' & b' & E) & H); congruence]. Qed.
Lemma is_art_spec r : is_art r = true <-> exists q, artifact_of q r.
Proof. unfold is_art, artifact_of. destruct (f_kind r) as [|q t b]; split; [discriminate|intros (q & t & b & C); discriminate|eauto|reflexivity]. Qed.

Lemma located_spec w l product dir name t : located w l product dir name t <->
  match pick w product (lookup_files l dir name) None None false with
  | Some r => t = match f_kind r with FileDep => Plain (f_path r) | Art q tr b => Artifact (q, f_path r) tr b end
  | None => In (dir ++ slash :: name) (w_disk w) /\ t = Plain (dir ++ slash :: name)
  end.
Proof.
  rewrite pick_here. split.
  - intros H. destruct H as [l1 r l2 tr b -> A K N|l1 r l2 q tr b -> A K NE D N1 N2|l1 r l2 q tr b -> A K NE N1 N2 N3|l1 r l2 -> A K N1 N2|N I].
    + rewrite (find_first _ l1 r l2); [now rewrite K| |].
      * apply andb_true_iff. split; [now apply here_spec|]. unfold is_art_of. rewrite K. apply Nat.eqb_refl.
      * intros y IY. destruct (here dir name y) eqn:HY; [|reflexivity]. apply here_spec in HY. cbn [andb]. destruct (is_art_of (Nat.eqb product) y) eqn:AY; [|reflexivity]. apply art_of_spec in AY as (q & AY & E). apply Nat.eqb_eq in E. subst q. now apply N in AY.
    + rewrite (proj2 (find_no _ (l1 ++ r :: l2))).
      * rewrite (find_first _ l1 r l2); [now rewrite K| |].
        -- apply andb_true_iff. split; [now apply here_spec|]. unfold is_art_of. now rewrite K.
        -- intros y IY. destruct (here dir name y) eqn:HY; [|reflexivity]. apply here_spec in HY. cbn [andb]. destruct (is_art_of (w_depends w product) y) eqn:AY; [|reflexivity]. apply art_of_spec in AY as (p & AY & E). now rewrite (N2 y p IY HY AY) in E.
      * intros y IY. destruct (here dir name y) eqn:HY; [|reflexivity]. apply here_spec in HY. cbn [andb]. destruct (is_art_of (Nat.eqb product) y) eqn:AY; [|reflexivity]. apply art_of_spec in AY as (p & AY & E). apply Nat.eqb_eq in E. subst p. now apply N1 in AY.
    + rewrite (proj2 (find_no _ (l1 ++ r :: l2))).
      * rewrite (proj2 (find_no _ (l1 ++ r :: l2))).
        -- rewrite (proj2 (find_last (fun x => here dir name x && is_art x) (l1 ++ r :: l2) r)); [now rewrite K|]. exists l1, l2. split; [reflexivity|]. split; [apply andb_true_iff; split; [now apply here_spec|unfold is_art; now rewrite K]|].
           intros y IY. destruct (here dir name y) eqn:HY; [|reflexivity]. apply here_spec in HY. cbn [andb]. destruct (is_art y) eqn:AY; [|reflexivity]. apply is_art_spec in AY as (p & AY). now apply (N3 y p) in AY.
        -- intros y IY. destruct (here dir name y) eqn:HY; [|reflexivity]. apply here_spec in HY. cbn [andb]. destruct (is_art_of (w_depends w product) y) eqn:AY; [|reflexivity]. apply art_of_spec in AY as (p & AY & E). now rewrite (N2 y p IY HY AY) in E.
      * intros y IY. destruct (here dir name y) eqn:HY; [|reflexivity]. apply here_spec in HY. cbn [andb]. destruct (is_art_of (Nat.eqb product) y) eqn:AY; [|reflexivity]. apply art_of_spec in AY as (p & AY & E). apply Nat.eqb_eq in E. subst p. now apply N1 in AY.
    + assert (NA : forall P y, In y (l1 ++ r :: l2) -> here dir name y && is_art_of P y = false).
      { intros P y IY. destruct (here dir name y) eqn:HY; [|reflexivity]. apply here_spec in HY. cbn [andb]. destruct (is_art_of P y) eqn:AY; [|reflexivity]. apply art_of_spec in AY as (p & AY & _). now apply (N1 y p) in AY. }
      rewrite (proj2 (find_no _ (l1 ++ r :: l2))) by apply NA. rewrite (proj2 (find_no _ (l1 ++ r :: l2))) by apply NA. rewrite (proj2 (find_no _ (rev (l1 ++ r :: l2)))).
      * rewrite (proj2 (find_last (fun x => here dir name x && negb (is_art x)) (l1 ++ r :: l2) r)); [now rewrite K|]. exists l1, l2. split; [reflexivity|]. split; [apply andb_true_iff; split; [now apply here_spec|unfold is_art; now rewrite K]|].
        intros y IY. destruct (here dir name y) eqn:HY; [|reflexivity]. apply here_spec in HY. now apply N2 in HY.
      * intros y IY. apply in_rev in IY. destruct (here dir name y) eqn:HY; [|reflexivity]. apply here_spec in HY. cbn [andb]. destruct (is_art y) eqn:AY; [|reflexivity]. apply is_art_spec in AY as (p & AY). now apply (N1 y p) in AY.
    + assert (NH : forall y b, In y l -> here dir name y && b = false) by (intros y b IY; destruct (here dir name y) eqn:HY; [|reflexivity]; apply here_spec in HY; now apply N in HY).
      rewrite (proj2 (find_no _ l)) by (intros; now apply NH). rewrite (proj2 (find_no _ l)) by (intros; now apply NH). rewrite (proj2 (find_no _ (rev l))) by (intros y IY; apply in_rev in IY; now apply NH). rewrite (proj2 (find_no _ (rev l))) by (intros y IY; apply in_rev in IY; now apply NH). auto.
  - destruct (find (fun x => here dir name x && is_art_of (Nat.eqb product) x) l) as [r|] eqn:F1.
    + intros ->. apply find_split in F1 as (l1 & l2 & E & P & N). apply andb_true_iff in P as [P1 P2]. apply here_spec in P1. unfold is_art_of in P2. destruct (f_kind r) as [|q tr b] eqn:K; [discriminate|]. apply Nat.eqb_eq in P2. subst q. apply (own_artifact w l product dir name l1 r l2); auto.
      intros x IX AX (tr' & b' & KX). apply here_spec in AX. specialize (N x IX). rewrite AX in N. unfold is_art_of in N. rewrite KX, Nat.eqb_refl in N. discriminate.
    + assert (N1 : forall x, In x l -> at_place dir name x -> ~ artifact_of product x).
      { intros x IX AX (tr' & b' & KX). apply here_spec in AX. pose proof (proj1 (find_no _ l) F1 x IX) as N. cbn beta in N. rewrite AX in N. unfold is_art_of in N. rewrite KX, Nat.eqb_refl in N. discriminate. }
      destruct (find (fun x => here dir name x && is_art_of (w_depends w product) x) l) as [r|] eqn:F2.
      * intros ->. apply find_split in F2 as (l1 & l2 & E & P & N). apply andb_true_iff in P as [P1 P2]. apply here_spec in P1. unfold is_art_of in P2. destruct (f_kind r) as [|q tr b] eqn:K; [discriminate|]. apply (needed_artifact w l product dir name l1 r l2); auto.
        -- intros ->. apply (N1 r); [rewrite E; apply in_elt|assumption|]. exists tr, b. assumption.
        -- intros x p IX AX (tr' & b' & KX). apply here_spec in AX. specialize (N x IX). rewrite AX in N. unfold is_art_of in N. now rewrite KX in N.
      * assert (N2 : forall x p, In x l -> at_place dir name x -> artifact_of p x -> w_depends w product p = false).
        { intros x p IX AX (tr' & b' & KX). apply here_spec in AX. pose proof (proj1 (find_no _ l) F2 x IX) as N. cbn beta in N. rewrite AX in N. unfold is_art_of in N. now rewrite KX in N. }
        destruct (find (fun x => here dir name x && is_art x) (rev l)) as [r|] eqn:F3.
        -- intros ->. apply find_last in F3 as (l1 & l2 & E & P & N). apply andb_true_iff in P as [P1 P2]. apply here_spec in P1. unfold is_art in P2. destruct (f_kind r) as [|q tr b] eqn:K; [discriminate|]. apply (other_artifact w l product dir name l1 r l2); auto.
           ++ intros ->. apply (N1 r); [rewrite E; apply in_elt|assumption|]. exists tr, b. assumption.
           ++ intros x p IX AX (tr' & b' & KX). apply here_spec in AX. specialize (N x IX). rewrite AX in N. unfold is_art in N. now rewrite KX in N.
        -- assert (N3 : forall x p, In x l -> at_place dir name x -> ~ artifact_of p x).
           { intros x p IX AX (tr' & b' & KX). apply here_spec in AX. apply in_rev in IX. pose proof (proj1 (find_no _ (rev l)) F3 x IX) as N. cbn beta in N. rewrite AX in N. unfold is_art in N. now rewrite KX in N. }
           destruct (find (fun x => here dir name x && negb (is_art x)) (rev l)) as [r|] eqn:F4.
           ++ intros ->. apply find_last in F4 as (l1 & l2 & E & P & N). apply andb_true_iff in P as [P1 P2]. apply here_spec in P1. unfold is_art in P2. destruct (f_kind r) as [|q tr b] eqn:K; [|discriminate]. apply (known_file w l product dir name l1 r l2); auto.
              intros x IX AX. pose proof (N3 x) as N3x. apply here_spec in AX. specialize (N x IX). rewrite AX in N. cbn [andb] in N. apply negb_false_iff, is_art_spec in N as (p & N). apply (N3x p); [rewrite E; apply in_app_iff; right; now right|now apply here_spec|assumption].
           ++ intros [I ->]. apply existing_file; [|assumption]. intros x IX AX. pose proof (N3 x) as N3x. specialize (N3x 0 IX AX) as _. assert (HX := AX). apply here_spec in HX. apply in_rev in IX. pose proof (proj1 (find_no _ (rev l)) F4 x IX) as N. cbn beta in N. rewrite HX in N. cbn [andb] in N. apply negb_false_iff, is_art_spec in N as (p & N).
              apply in_rev in IX. now apply (N3 x p) in N.
Qed.

Lemma double_slash_spec s : double_slash s = true <-> exists a b, s = a ++ slash :: slash :: b.
Proof.
  induction s as [|x s IH]; [split; [discriminate|intros ([|] & b & E); discriminate]|]. destruct s as [|y s]; [split; [discriminate|intros ([|? [|]] & b & E); discriminate]|].
  cbn [double_slash]. rewrite orb_true_iff, andb_true_iff, !N.eqb_eq. cbn [double_slash] in IH. rewrite IH. split.
  - intros [[-> ->]|(a & b & E)]; [exists [], s; reflexivity|]. exists (x :: a), b. cbn. now rewrite E.
  - intros ([|z a] & b & E); cbn in E.
    + left. split; congruence.
    + right. exists a, b. congruence.
Qed.
Lemma is_clean_spec d : is_clean d = true <-> ~ untidy (fst d).
Proof.
  unfold is_clean, untidy. rewrite andb_true_iff, !negb_true_iff. split.
  - intros [H1 H2] [C|C].
    + assert (existsb (N.eqb 46) (fst d) = true) by (apply existsb_exists; exists 46%N; split; [assumption|apply N.eqb_refl]). congruence.
    + apply double_slash_spec in C. congruence.
  - intros H. split; apply not_true_iff_false; intros C; apply H.
    + left. apply existsb_exists in C as (x & IX & E). apply N.eqb_eq in E. now subst.
    + right. now apply double_slash_spec.
Qed.
Lemma place_spec w base d dir : place (w_home w) base d dir <-> dir = abs_dir w base d.
Proof.
  unfold place, abs_dir. set (p0 := if str_eqb base [] then fst d else if str_eqb (fst d) [] then base else resolve_path Unix (w_home w) base (fst d)).
  assert (J : forall p, joined (w_home w) base (fst d) p <-> p = p0).
  { intros p. unfold joined, p0. destruct (str_eqb base []) eqn:B.
    - apply str_eqb_eq in B. split; [intros [[_ H]|[[C _]|[C _]]]; congruence|intros ->; now left].
    - assert (NB : base <> []) by (intros ->; now rewrite str_eqb_refl in B). destruct (str_eqb (fst d) []) eqn:D.
      + apply str_eqb_eq in D. split; [intros [[C _]|[(_ & _ & H)|(_ & C & _)]]; congruence|intros ->; right; left; auto].
      + assert (ND : fst d <> []) by (intros C; rewrite C, str_eqb_refl in D; discriminate). split; [intros [[C _]|[(_ & C & _)|(_ & _ & H)]]; congruence|intros ->; right; right; auto]. }
  pose proof (is_clean_spec d) as C. destruct (is_clean d).
  - split; [intros (p & H & [[U _]|[_ ->]]); [now apply C in U|now apply J]|intros ->]. exists p0. split; [now apply J|]. right. split; [now apply C|reflexivity].
  - split; [intros (p & H & [[_ ->]|[U _]]); [apply J in H; now subst|apply C in U; discriminate]|intros ->]. exists p0. split; [now apply J|]. left. split; [|reflexivity].
    destruct (in_dec N.eq_dec 46%N (fst d)) as [I|NI]; [now left|]. right. apply double_slash_spec. destruct (double_slash (fst d)) eqn:DS; [reflexivity|]. exfalso. assert (X : false = true); [|discriminate]. apply C. intros [U|U]; [auto|]. apply double_slash_spec in U. congruence.
Qed.
Definition target_in (w : world) (l : list res) (product : nat) (d : raw) (base : str) : option target := option_map tgt (resolve_in w l product d base).
Definition target_of (w : world) (l : list res) (product : nat) (paths : list str) (d : raw) : option target := option_map tgt (resolve w l product d paths).
(** What one directory yields *)
Theorem located_is_resolved w l product d base t : located w l product (abs_dir w base d) (snd d) t <-> target_in w l product d base = Some t.
Proof.
  rewrite located_spec. unfold target_in, resolve_in. destruct (pick _ _ _ _ _ _) as [r|].
  - cbn. unfold tgt. cbn. split; [now intros ->|congruence].
  - destruct (existsb (str_eqb (abs_dir w base d ++ slash :: snd d)) (w_disk w)) eqn:E.
    + apply mem_str_spec in E. cbn. unfold tgt. cbn. split; [now intros [_ ->]|]. intros [= <-]. auto.
    + apply mem_str_no in E. cbn. split; [tauto|discriminate].
Qed.
(** An include is resolved to what takes precedence, and to nothing if there is nothing *)
Theorem refers_is_resolved w l product paths d t : refers w l product paths d t <-> target_of w l product paths d = Some t.
Proof.
  unfold target_of, resolve. split.
  - intros H. destruct H as [dir t A P L|ps1 p ps2 dir t A -> N P L].
    + rewrite A. apply place_spec in P. subst dir. now apply located_is_resolved in L.
    + rewrite A. apply place_spec in P. subst dir. apply located_is_resolved in L. induction ps1 as [|q ps1 IH]; cbn.
      * unfold target_in in L. destruct (resolve_in w l product d p); [assumption|discriminate].
      * destruct (resolve_in w l product d q) as [r|] eqn:R; [|apply IH; intros; eapply N; eauto; now right]. exfalso. apply (N q (abs_dir w q d) (tgt r)); [now left|now apply place_spec|]. apply located_is_resolved. unfold target_in. now rewrite R.
  - destruct (is_absolute Unix (raw_path d)) eqn:A.
    + intros H. apply (refers_absolute w l product paths d (abs_dir w [] d) t A); [now apply place_spec|now apply located_is_resolved].
    + intros H. assert (X : exists ps1 p ps2, paths = ps1 ++ p :: ps2 /\ (forall q, In q ps1 -> target_in w l product d q = None) /\ target_in w l product d p = Some t).
      { induction paths as [|q paths IH]; cbn in H; [discriminate|]. destruct (resolve_in w l product d q) as [r|] eqn:R.
        - exists [], q, paths. repeat split; [intros ? []|]. unfold target_in. now rewrite R.
        - destruct (IH H) as (ps1 & p & ps2 & -> & N & E). exists (q :: ps1), p, ps2. repeat split; [|assumption]. intros x [<-|IX]; [unfold target_in; now rewrite R|auto]. }
      destruct X as (ps1 & p & ps2 & E & N & T). apply (refers_relative w l product paths d ps1 p ps2 (abs_dir w p d) t A E); [|now apply place_spec|now apply located_is_resolved].
      intros q dir' t' IQ P L. apply place_spec in P. subst dir'. apply located_is_resolved in L. rewrite (N q IQ) in L. discriminate.
Qed.

(** ** New file dependencies *)

(** The project's files at the beginning, with file dependencies that were created since *)
Definition extends (w : world) (l0 l : list res) : Prop :=
  exists news, l = l0 ++ news /\ forall n, In n news -> f_kind n = FileDep /\ In (f_path n) (w_disk w) /\ f_path n = fst (split_dir (f_path n)) ++ slash :: snd (split_dir (f_path n)) /\ forall r, In r l0 -> split_dir (f_path r) <> split_dir (f_path n).
Lemma extends_refl w l : extends w l l.
Proof. exists []. split; [now rewrite app_nil_r|intros n []]. Qed.
Lemma extends_target_in w l0 l product d base : extends w l0 l -> target_in w l product d base = target_in w l0 product d base.
Proof.
  intros (news & -> & N). unfold target_in, resolve_in. set (dir := abs_dir w base d). unfold lookup_files. rewrite filter_app.
  destruct (filter (fun r => raw_eqb (split_dir (f_path r)) (dir, snd d)) news) as [|n0 ns] eqn:F; [now rewrite app_nil_r|].
  assert (NI : forall x, In x (n0 :: ns) -> In x news /\ split_dir (f_path x) = (dir, snd d)) by (intros x I; rewrite <- F in I; apply filter_In in I as [I E]; split; [assumption|now apply raw_eqb_eq]).
  assert (E0 : filter (fun r => raw_eqb (split_dir (f_path r)) (dir, snd d)) l0 = []).
  { destruct (filter (fun r => raw_eqb (split_dir (f_path r)) (dir, snd d)) l0) as [|x xs] eqn:F0; [reflexivity|]. exfalso. assert (I : In x (x :: xs)) by now left. rewrite <- F0 in I. apply filter_In in I as [I E]. apply raw_eqb_eq in E. destruct (NI n0 (or_introl eq_refl)) as [I0 E1]. destruct (N n0 I0) as (_ & _ & _ & D). apply (D x I). congruence. }
  rewrite E0. cbn [app]. cbn [pick]. 
  assert (PK : forall xs fd, (forall x, In x xs -> f_kind x = FileDep /\ f_path x = dir ++ slash :: snd d) -> (forall x, fd = Some x -> f_kind x = FileDep /\ f_path x = dir ++ slash :: snd d) -> (xs <> [] \/ fd <> None) -> exists x, pick w product xs fd None false = Some x /\ f_kind x = FileDep /\ f_path x = dir ++ slash :: snd d).
  { induction xs as [|x xs IH]; intros fd HX HF NE; cbn.
    - destruct fd as [x|]; [exists x; split; [reflexivity|auto]|]. destruct NE; congruence.
    - destruct (HX x (or_introl eq_refl)) as [K P]. rewrite K. apply IH; [intros y I; apply HX; now right|intros y [= <-]; auto|right; discriminate]. }
  destruct (PK (n0 :: ns) None) as (x & E & K & P).
  - intros x I. destruct (NI x I) as [I1 E1]. destruct (N x I1) as (K & _ & P & _). rewrite E1 in P. auto.
  - discriminate.
  - left. discriminate.
  - cbn [pick] in E. rewrite E. cbn. unfold tgt. cbn. rewrite K, P. destruct (NI n0 (or_introl eq_refl)) as [I1 E1]. destruct (N n0 I1) as (_ & D & P1 & _). rewrite E1 in P1. cbn in P1. rewrite P1 in D. rewrite (proj2 (mem_str_spec _ _) D). reflexivity.
Qed.
Lemma extends_target w l0 l product paths d : extends w l0 l -> target_of w l product paths d = target_of w l0 product paths d.
Proof.
  intros X. unfold target_of, resolve. destruct (is_absolute Unix (raw_path d)).
  - apply (extends_target_in w l0 l product d [] X).
  - induction paths as [|p paths IH]; cbn; [reflexivity|]. pose proof (extends_target_in w l0 l product d p X) as E. unfold target_in in E. destruct (resolve_in w l product d p), (resolve_in w l0 product d p); cbn in *; congruence.
Qed.

(** ** One file *)

(** Requirements on the inputs: file names have no slashes; a file without time stamp has no contents; the test whether scan results can be shared is right; the same holds for search paths *)
Record consistent (w : world) (js : list job) : Prop := {
  names_ok : forall j p d, In j js -> In d (w_contents w (j_scanner j) (j_props j) p) -> ~ In slash (snd d);
  stamps_ok : forall j p, In j js -> w_stamp w p = 0 -> w_contents w (j_scanner j) (j_props j) p = [];
  same_refl : forall j, In j js -> j_same j (j_props j) (j_props j) = true;
  same_ok : forall j j' x p, In j js -> In j' js -> j_scanner j = j_scanner j' -> j_same j (j_props j) x = true -> j_same j' (j_props j') x = true -> w_contents w (j_scanner j) (j_props j) p = w_contents w (j_scanner j') (j_props j') p;
  keys_ok : forall j j', In j js -> In j' js -> j_key j = j_key j' -> j_product j = j_product j' /\ j_search j = j_search j'
}.
(** What the state holds is right: scan results that are not outdated are what the file contains; remembered resolutions are those of the project's files at the beginning *)
Definition scans_right (w : world) (js : list job) (l : list scan_data) : Prop :=
  forall e j, In e l -> In j js -> d_scanner e = j_scanner j -> j_same j (j_props j) (d_props e) = true -> w_stamp w (d_path e) <= d_time e -> d_deps e = w_contents w (j_scanner j) (j_props j) (d_path e).
Definition cache_right (w : world) (l0 : list res) (j : job) (c : cache) : Prop :=
  c_paths c = j_search j /\ forall d o, cached d c = Some o -> option_map tgt o = target_of w l0 (j_product j) (j_search j) d /\ forall r, o = Some r -> snd r <> None.
Definition right_state (w : world) (l0 : list res) (js : list job) (s : state) : Prop :=
  extends w l0 (s_files s) /\ scans_right w js (s_scans s) /\ forall j c, In j js -> find_cache (j_key j) (s_caches s) = Some c -> cache_right w l0 j c.

Lemma scan_right w js j p l : consistent w js -> In j js -> scans_right w js l -> exists l', scan w j p l = (w_contents w (j_scanner j) (j_props j) p, l') /\ scans_right w js l'.
Proof.
  intros C IJ R. assert (FR : forall x j', In j' js -> j_same j (j_props j) x = true -> j_scanner j = j_scanner j' -> j_same j' (j_props j') x = true -> w_contents w (j_scanner j) (j_props j) p = w_contents w (j_scanner j') (j_props j') p) by (intros x j' IJ' S1 SC S2; eapply (same_ok w js C); eauto).
  unfold scan. destruct (find (is_data j p) l) as [e|] eqn:F.
  - apply find_some in F as [IE D]. unfold is_data in D. apply andb_true_iff in D as [D SM]. apply andb_true_iff in D as [DP DS]. apply str_eqb_eq in DP. apply Nat.eqb_eq in DS. destruct (d_time e <? w_stamp w p) eqn:T.
    + cbn [d_deps]. eexists. split; [reflexivity|]. clear - R FR. intros e' j' IE' IJ' SC SM' ST.
      assert (X : forall l0, In e' ((fix go l := match l with [] => [] | x :: l => if is_data j p x then mkScan p (j_scanner j) (d_props x) (w_now w) (w_contents w (j_scanner j) (j_props j) p) :: l else x :: go l end) l0) -> In e' l0 \/ exists x, In x l0 /\ is_data j p x = true /\ e' = mkScan p (j_scanner j) (d_props x) (w_now w) (w_contents w (j_scanner j) (j_props j) p)).
      { induction l0 as [|x l0 IH]; [now left|]. destruct (is_data j p x) eqn:DX.
        - intros [<-|I]; [right; exists x; split; [now left|auto]|left; now right].
        - intros [<-|I]; [left; now left|]. destruct (IH I) as [H|(y & IY & H)]; [left; now right|right; exists y; split; [now right|assumption]]. }
      apply X in IE' as [I|(x & IX & DX & ->)]; [now apply (R e' j' I IJ')|]. cbn in *. unfold is_data in DX. apply andb_true_iff in DX as [_ SM]. now apply (FR (d_props x) j').
    + exists l. split; [|assumption]. f_equal. apply Nat.ltb_ge in T. rewrite <- DP in *. now apply (R e j IE IJ).
  - pose proof (same_refl w js C j IJ) as RF. destruct (0 <? w_stamp w p) eqn:T; eexists; (split; [reflexivity || (f_equal; symmetry; apply (stamps_ok w js C); [assumption|]; apply Nat.ltb_ge in T; lia)|]).
    + intros e' j' IE' IJ' SC SM' ST. apply in_app_iff in IE' as [I|[<-|[]]]; [now apply (R e' j' I IJ')|]. cbn in *. now apply (FR (j_props j) j').
    + intros e' j' IE' IJ' SC SM' ST. apply in_app_iff in IE' as [I|[<-|[]]]; [now apply (R e' j' I IJ')|]. cbn in *. symmetry. apply (stamps_ok w js C); [assumption|]. lia.
Qed.

Lemma find_filter_neq {A} (P Q : A -> bool) l : (forall x, P x = true -> Q x = true) -> find P (filter Q l) = find P l.
Proof. intros H. induction l as [|x l IH]; cbn; [reflexivity|]. destruct (P x) eqn:E; [rewrite (H x E); cbn; now rewrite E|]. destruct (Q x); cbn; [now rewrite E|assumption]. Qed.
Lemma cached_put d r c d' : cached d' (put_resolved d r c) = if raw_eqb d d' then Some r else cached d' c.
Proof.
  unfold cached, put_resolved. cbn [c_resolved find fst]. destruct (raw_eqb d d') eqn:E; [reflexivity|]. f_equal. apply find_filter_neq. intros x H. apply raw_eqb_eq in H. apply negb_true_iff. destruct (raw_eqb (fst x) d) eqn:E2; [|reflexivity]. apply raw_eqb_eq in E2. rewrite <- E2, H in E. now rewrite (proj2 (raw_eqb_eq d' d') eq_refl) in E.
Qed.
Lemma find_put_cache k c l k' : find_cache k' (put_cache k c l) = if k =? k' then Some c else find_cache k' l.
Proof.
  unfold find_cache, put_cache. cbn [find fst]. destruct (k =? k') eqn:E; [reflexivity|]. f_equal. apply find_filter_neq. intros x H. apply Nat.eqb_eq in H. apply negb_true_iff, Nat.eqb_neq. apply Nat.eqb_neq in E. congruence.
Qed.

(** What is done for a found file, in terms of the target *)
Definition admissibleb (w : world) (a : art) (k : nat * str) (t : option nat) : bool := negb (id_eqb k (a_product a, a_path a)) && negb (match t with Some t => t =? a_trafo a | None => false end) && negb (w_circular w k).
Definition absorb (w : world) (a : art) (t : target) : art :=
  match t with Plain p => add_file p a | Artifact k tr _ => if admissibleb w a k tr && negb (mem_id k (a_children a)) then add_child k a else a end.
Definition scannableb (t : target) : bool := match t with Plain _ => true | Artifact _ _ b => b end.
Lemma handle_spec w a f l p : handle w a (p, Some f) l = (absorb w a (tgt (p, Some f)), f, l).
Proof.
  unfold handle, absorb, tgt, admissibleb. cbn [snd]. destruct (f_kind f) as [|q t b]; [reflexivity|]. destruct (id_eqb _ _); [reflexivity|]. destruct (match t with Some t => t =? a_trafo a | None => false end); [reflexivity|]. destruct (mem_id _ _); cbn; [now rewrite andb_false_r|]. now destruct (w_circular w _).
Qed.
Lemma last_index_app_slash a b : ~ In slash b -> last_index slash (a ++ slash :: b) = Some (length a).
Proof.
  intros N. assert (NB : last_index slash b = None).
  { clear - N. induction b as [|x b IH]; cbn; [reflexivity|]. rewrite IH by (intros C; apply N; now right). destruct (N.eqb_spec x slash) as [->|]; [exfalso; apply N; now left|reflexivity]. }
  induction a as [|x a IH]; cbn; [now rewrite NB|]. now rewrite IH.
Qed.
Lemma split_dir_app a b : ~ In slash b -> split_dir (a ++ slash :: b) = (a, b).
Proof.
  intros N. unfold split_dir. rewrite last_index_app_slash by assumption. f_equal.
  - now rewrite firstn_app, firstn_all, Nat.sub_diag, app_nil_r.
  - clear. induction a as [|x a IH]; [reflexivity|exact IH].
Qed.
Lemma pick_none w product l : pick w product l None None false = None -> l = [].
Proof.
  rewrite pick_spec. destruct (find _ l); [discriminate|]. cbn zeta. destruct (find _ l); [discriminate|]. destruct (find is_art (rev l)) eqn:F1; [discriminate|]. destruct (find (fun r => negb (is_art r)) (rev l)) eqn:F2; [discriminate|]. intros _.
  destruct l as [|x l]; [reflexivity|]. assert (I : In x (rev (x :: l))) by (rewrite <- in_rev; now left). pose proof (proj1 (find_no _ _) F1 x I) as E1. pose proof (proj1 (find_no _ _) F2 x I) as E2. cbn beta in E2. rewrite E1 in E2. discriminate.
Qed.
Lemma resolve_in_none w l product d base p : resolve_in w l product d base = Some (p, None) -> lookup_files l (abs_dir w base d) (snd d) = [] /\ p = abs_dir w base d ++ slash :: snd d /\ In p (w_disk w).
Proof.
  unfold resolve_in. destruct (pick _ _ _ _ _ _) as [r|] eqn:P; [discriminate|]. apply pick_none in P. destruct (existsb _ _) eqn:E; [|discriminate]. intros [= <-]. apply mem_str_spec in E. auto.
Qed.
(** A file that is resolved but not known yet becomes a new file dependency *)
Lemma resolve_new w l product d paths p l0 : ~ In slash (snd d) -> resolve w l product d paths = Some (p, None) -> extends w l0 l -> extends w l0 (l ++ [mkRes p FileDep]).
Proof.
  intros NS R (news & -> & N). assert (X : exists base, resolve_in w (l0 ++ news) product d base = Some (p, None)).
  { unfold resolve in R. destruct (is_absolute Unix (raw_path d)); [eauto|]. induction paths as [|q paths IH]; cbn in R; [discriminate|]. destruct (resolve_in w (l0 ++ news) product d q) as [r|] eqn:E; [exists q; congruence|auto]. }
  destruct X as (base & X). apply resolve_in_none in X as (L & -> & D). set (dir := abs_dir w base d) in *.
  exists (news ++ [mkRes (dir ++ slash :: snd d) FileDep]). split; [now rewrite app_assoc|]. intros n I. apply in_app_iff in I as [I|[<-|[]]]; [now apply N|]. cbn [f_kind f_path]. rewrite split_dir_app by assumption. cbn [fst snd]. repeat split; auto.
  intros r IR E. cut (In r []); [intros []|]. rewrite <- L. apply filter_In. split; [apply in_app_iff; now left|]. now apply raw_eqb_eq.
Qed.

Definition targets (w : world) (l0 : list res) (j : job) (deps : list raw) : list target := flat_map (fun d => match target_of w l0 (j_product j) (j_search j) d with Some t => [t] | None => [] end) deps.
Definition next_paths (j : job) (ts : list target) : list str := if j_recursive j then map t_path (filter scannableb ts) else [].
Lemma get_resolved_spec w l0 l j d c : extends w l0 l -> cache_right w l0 j c -> ~ In slash (snd d) -> exists o c', get_resolved w j l d c = (o, c') /\ option_map tgt o = target_of w l0 (j_product j) (j_search j) d /\
  (forall p, o = Some (p, None) -> extends w l0 (l ++ [mkRes p FileDep])) /\ c_paths c' = j_search j /\ (forall d' o', d' <> d -> cached d' c' = Some o' -> cached d' c = Some o') /\ cached d c' = Some o.
Proof.
  intros X [CP CR] NS. unfold get_resolved. destruct (cached d c) as [o|] eqn:E.
  - exists o, c. destruct (CR d o E) as [T NN]. repeat split; auto. intros p ->. exfalso. now apply (NN (p, None)).
  - eexists _, _. split; [reflexivity|]. rewrite CP. split; [apply (extends_target w l0 l (j_product j) (j_search j) d X)|]. split; [intros p R; eapply resolve_new; eauto|]. split; [assumption|]. split; [|now rewrite cached_put, (proj2 (raw_eqb_eq d d) eq_refl)].
    intros d' o' ND. rewrite cached_put. destruct (raw_eqb d d') eqn:Q; [apply raw_eqb_eq in Q; congruence|auto].
Qed.
Lemma handle_all_spec w l0 j : forall deps a l c, extends w l0 l -> cache_right w l0 j c -> (forall d, In d deps -> ~ In slash (snd d)) ->
  exists l' c', handle_all w j deps a l c = (fold_left (absorb w) (targets w l0 j deps) a, l', c', next_paths j (targets w l0 j deps)) /\ extends w l0 l' /\ cache_right w l0 j c'.
Proof.
  induction deps as [|d deps IH]; intros a l c X CR NS.
  - exists l, c. cbn. unfold next_paths. split; [now destruct (j_recursive j)|auto].
  - cbn [handle_all]. destruct (get_resolved_spec w l0 l j d c X CR (NS d (or_introl eq_refl))) as (o & c' & G & T & NEW & CP & OLD & CUR). rewrite G. unfold targets. cbn [flat_map]. fold (targets w l0 j deps). rewrite <- T.
    assert (NS' : forall d, In d deps -> ~ In slash (snd d)) by (intros d' I; apply NS; now right).
    destruct o as [r|]; cbn [option_map app].
    + destruct (handle w a r l) as [[a1 f] l1] eqn:H.
      assert (H1 : a1 = absorb w a (tgt r) /\ tgt (fst r, Some f) = tgt r /\ extends w l0 l1 /\ f_path f = t_path (tgt r) /\ match f_kind f with FileDep => true | Art _ _ ready => ready end = scannableb (tgt r)).
      { destruct r as [p [g|]].
        - rewrite handle_spec in H. injection H as <- <- <-. repeat split; auto; unfold tgt; cbn; destruct (f_kind g); reflexivity.
        - unfold handle in H. cbn [snd fst] in H. injection H as <- <- <-. repeat split; auto. }
      destruct H1 as (-> & TF & X1 & PF & SF). rewrite PF, SF.
      destruct (IH (absorb w a (tgt r)) l1 (put_resolved d (Some (fst r, Some f)) c') X1) as (l' & c2 & E & X2 & CR2); [|assumption|].
      * split; [assumption|]. intros d' o'. rewrite cached_put. destruct (raw_eqb d d') eqn:Q.
        -- apply raw_eqb_eq in Q. subst d'. intros [= <-]. split; [cbn [option_map]; now rewrite TF|]. intros r' [= <-]. discriminate.
        -- intros CD. destruct CR as [_ CR]. apply CR. apply OLD; [|assumption]. intros ->. now rewrite (proj2 (raw_eqb_eq d d) eq_refl) in Q.
      * exists l', c2. rewrite E. split; [|auto]. cbn [fold_left]. f_equal. unfold next_paths. cbn [filter]. destruct (j_recursive j); [|reflexivity]. cbn [andb]. now destruct (scannableb (tgt r)).
    + destruct (IH a l c' X) as (l' & c2 & E & X2 & CR2); [|assumption|eauto]. split; [assumption|]. intros d' o' CD. destruct (raw_eqb d d') eqn:Q.
      * apply raw_eqb_eq in Q. subst d'. rewrite CUR in CD. injection CD as <-. split; [now rewrite <- T|discriminate].
      * destruct CR as [_ CR]. apply CR. apply OLD; [|assumption]. intros ->. now rewrite (proj2 (raw_eqb_eq d d) eq_refl) in Q.
Qed.

(** ** All files *)

Definition contents (w : world) (j : job) (p : str) : list raw := w_contents w (j_scanner j) (j_props j) p.
(** All paths that can be scanned *)
Definition paths_of (w : world) (l0 : list res) (j : job) : list str := j_input j :: map f_path l0 ++ w_disk w.
Lemma target_path w l0 product paths d t : target_of w l0 product paths d = Some t -> In (t_path t) (map f_path l0 ++ w_disk w).
Proof.
  intros H. apply in_app_iff. assert (X : exists base, target_in w l0 product d base = Some t).
  { unfold target_of, resolve in H. destruct (is_absolute Unix (raw_path d)); [exists []; assumption|]. induction paths as [|q paths IH]; cbn in H; [discriminate|]. destruct (resolve_in w l0 product d q) as [r|] eqn:E; [exists q; unfold target_in; now rewrite E|auto]. }
  destruct X as (base & X). apply located_is_resolved in X.
  assert (EL : forall l1 r l2, l0 = l1 ++ r :: l2 -> In (f_path r) (map f_path l0)) by (intros l1 r l2 ->; rewrite map_app; apply in_app_iff; right; now left).
  destruct X; cbn; eauto.
Qed.
Definition weight (w : world) (j : job) (visited : list str) (u : list str) : nat := list_sum (map (fun p => if existsb (str_eqb p) visited then 0 else length (contents w j p)) u).
Lemma weight_visit w j visited u p : NoDup u -> In p u -> ~ In p visited -> weight w j (p :: visited) u + length (contents w j p) = weight w j visited u.
Proof.
  unfold weight. intros ND I NV. induction u as [|x u IH]; [destruct I|]. cbn [map list_sum fold_right]. inversion ND as [|? ? NX ND']; subst. cbn [existsb]. destruct I as [->|I].
  - rewrite str_eqb_refl. cbn [orb]. rewrite (proj2 (mem_str_no p visited) NV).
    assert (E : list_sum (map (fun q => if str_eqb q p || existsb (str_eqb q) visited then 0 else length (contents w j q)) u) = list_sum (map (fun q => if existsb (str_eqb q) visited then 0 else length (contents w j q)) u)).
    { f_equal. apply map_ext_in. intros q IQ. destruct (str_eqb q p) eqn:E; [apply str_eqb_eq in E; subst; contradiction|reflexivity]. }
    unfold list_sum in E. rewrite E. lia.
  - specialize (IH ND' I). assert (NE : str_eqb x p = false) by (destruct (str_eqb x p) eqn:E; [apply str_eqb_eq in E; subst; contradiction|reflexivity]). rewrite NE. cbn [orb]. unfold list_sum in IH. cbn [existsb] in IH. lia.
Qed.
Lemma weight_le w j visited u : weight w j visited u <= list_sum (map (fun p => length (contents w j p)) u).
Proof. unfold weight. induction u as [|x u IH]; cbn [map list_sum fold_right]; [lia|]. unfold list_sum in IH. destruct (existsb (str_eqb x) visited); lia. Qed.
Lemma next_length w l0 j deps : length (next_paths j (targets w l0 j deps)) <= length deps.
Proof.
  unfold next_paths. destruct (j_recursive j); [|cbn; lia]. rewrite map_length. unfold targets. induction deps as [|d deps IH]; [cbn; lia|]. cbn [flat_map]. rewrite filter_app, app_length. destruct (target_of w l0 (j_product j) (j_search j) d) as [t|]; cbn [filter length]; [destruct (scannableb t); cbn; lia|lia].
Qed.
Lemma targets_In w l0 j deps t : In t (targets w l0 j deps) <-> exists d, In d deps /\ target_of w l0 (j_product j) (j_search j) d = Some t.
Proof.
  unfold targets. rewrite in_flat_map. split; intros (d & I & H); exists d; (split; [assumption|]).
  - destruct (target_of w l0 (j_product j) (j_search j) d) as [t'|]; [destruct H as [->|[]]; reflexivity|destruct H].
  - rewrite H. now left.
Qed.
Lemma scannableb_spec t : scannableb t = true <-> scannable t.
Proof. destruct t as [p|k tr b]; cbn; [tauto|reflexivity]. Qed.
Lemma next_In w l0 j deps p : In p (next_paths j (targets w l0 j deps)) <-> j_recursive j = true /\ exists d t, In d deps /\ target_of w l0 (j_product j) (j_search j) d = Some t /\ scannable t /\ t_path t = p.
Proof.
  unfold next_paths. destruct (j_recursive j).
  - rewrite in_map_iff. split.
    + intros (t & E & I). apply filter_In in I as [I S]. apply targets_In in I as (d & I & T). split; [reflexivity|]. exists d, t. apply scannableb_spec in S. auto.
    + intros (_ & d & t & I & T & S & E). exists t. split; [assumption|]. apply filter_In. split; [apply targets_In; eauto|now apply scannableb_spec].
  - split; [intros []|intros [C _]; discriminate].
Qed.

Lemma loop_spec w l0 js j u : consistent w js -> In j js -> NoDup u -> (forall p, In p (paths_of w l0 j) -> In p u) ->
  forall fuel queue visited a s, right_state w l0 js s -> (forall p, In p queue -> In p u) -> length queue + weight w j visited u <= fuel ->
  exists ts vs s', loop w j fuel queue visited a s = Some (fold_left (absorb w) ts a, s') /\ right_state w l0 js s' /\
    (forall t, In t ts <-> exists p d, In p vs /\ In d (contents w j p) /\ target_of w l0 (j_product j) (j_search j) d = Some t) /\
    (forall p, In p queue -> In p visited \/ In p vs) /\
    (forall p d t, In p vs -> In d (contents w j p) -> target_of w l0 (j_product j) (j_search j) d = Some t -> j_recursive j = true -> scannable t -> In (t_path t) visited \/ In (t_path t) vs) /\
    (forall P : str -> Prop, (forall p, In p queue -> P p) -> (forall p d t, P p -> In d (contents w j p) -> target_of w l0 (j_product j) (j_search j) d = Some t -> j_recursive j = true -> scannable t -> P (t_path t)) -> forall p, In p vs -> P p).
Proof.
  intros C IJ NDU UP. induction fuel as [|fuel IH]; intros queue visited a s R QU FU.
  - destruct queue as [|p queue]; [|cbn in FU; lia]. exists [], [], s. cbn. split; [reflexivity|]; split; [assumption|]; split; [intros t; split; [intros []|intros (p & d & [] & _)]|]; split; [intros ? []|]; split; [intros ? ? ? []|intros ? ? ? ? []].
  - destruct queue as [|p queue]; [exists [], [], s; cbn; split; [reflexivity|]; split; [assumption|]; split; [intros t; split; [intros []|intros (p & d & [] & _)]|]; split; [intros ? []|]; split; [intros ? ? ? []|intros ? ? ? ? []]|]. cbn [loop]. cbn [length] in FU. destruct (existsb (str_eqb p) visited) eqn:V.
    + apply mem_str_spec in V. destruct (IH queue visited a s R) as (ts & vs & s' & E & R' & T & Q & CL & LE); [intros q I; apply QU; now right|lia|]. exists ts, vs, s'. split; [assumption|]. split; [assumption|]. split; [assumption|]. split; [intros q [<-|I]; auto|]. split; [assumption|]. intros P PQ PS. apply LE; [|assumption]. intros q I. apply PQ. now right.
    + apply mem_str_no in V. destruct R as (X & SR & CR). destruct (scan_right w js j p (s_scans s) C IJ SR) as (scans & ES & SR'). rewrite ES. fold (contents w j p).
      assert (OC : cache_right w l0 j (open_cache j (s_caches s))).
      { unfold open_cache. destruct (find_cache (j_key j) (s_caches s)) as [c|] eqn:F; [now apply CR|]. split; [reflexivity|]. intros d o D. discriminate. }
      destruct (handle_all_spec w l0 j (contents w j p) a (s_files s) (open_cache j (s_caches s)) X OC) as (l' & c' & EH & X' & CR'); [intros d I; now apply (names_ok w js C j p)|]. rewrite EH.
      assert (PU : In p u) by (apply QU; now left).
      destruct (IH (queue ++ next_paths j (targets w l0 j (contents w j p))) (p :: visited) (fold_left (absorb w) (targets w l0 j (contents w j p)) a) (mkState l' scans (put_cache (j_key j) c' (s_caches s)))) as (ts & vs & s' & E & R' & T & Q & CL & LE).
      * split; [assumption|]. split; [assumption|]. cbn [s_caches]. intros j' c2 IJ' F. rewrite find_put_cache in F. destruct (j_key j =? j_key j') eqn:K; [|now apply CR]. apply Nat.eqb_eq in K. injection F as <-. destruct (keys_ok w js C j j' IJ IJ' K) as [KP KS]. destruct CR' as [A B]. split; [congruence|]. intros d o D. rewrite <- KP, <- KS. now apply B.
      * intros q I. apply in_app_iff in I as [I|I]; [apply QU; now right|]. apply next_In in I as (_ & d & t & _ & TD & _ & <-). apply UP. right. eapply target_path, TD.
      * rewrite app_length. pose proof (next_length w l0 j (contents w j p)). pose proof (weight_visit w j visited u p NDU PU V). lia.
      * exists (targets w l0 j (contents w j p) ++ ts), (p :: vs), s'. rewrite fold_left_app. split; [assumption|]. split; [assumption|]. split; [|split; [|split]].
        -- intros t. rewrite in_app_iff, T, targets_In. split.
           ++ intros [(d & I & H)|(q & d & I & H)]; [exists p, d; split; [now left|auto]|exists q, d; split; [now right|assumption]].
           ++ intros (q & d & [<-|I] & H); [left; exists d; tauto|right; exists q, d; auto].
        -- intros q [<-|I]; [right; now left|]. destruct (Q q) as [[<-|H]|H]; [apply in_app_iff; now left|right; now left|now left|right; now right].
        -- intros q d t [<-|I] D TD RC SC.
           ++ destruct (Q (t_path t)) as [[<-|H]|H]; [apply in_app_iff; right; apply next_In; eauto 8|right; now left|now left|right; now right].
           ++ destruct (CL q d t I D TD RC SC) as [[<-|H]|H]; [right; now left|now left|right; now right].
        -- intros P PQ PS q [<-|I]; [apply PQ; now left|]. apply (LE P); [|assumption|assumption]. intros x IX. apply in_app_iff in IX as [IX|IX]; [apply PQ; now right|]. apply next_In in IX as (RC & d & t & D & TD & SC & <-). eapply PS; eauto. apply PQ. now left.
Qed.
(** One input with one scanner *)
Lemma loop_found w l0 js j fuel a s : consistent w js -> In j js -> right_state w l0 js s -> S (list_sum (map (fun p => length (contents w j p)) (nodup (list_eq_dec N.eq_dec) (paths_of w l0 j)))) <= fuel ->
  exists ts s', loop w j fuel [j_input j] [] a s = Some (fold_left (absorb w) ts a, s') /\ right_state w l0 js s' /\ forall t, In t ts <-> found w l0 j t.
Proof.
  intros C IJ R FU. set (u := nodup (list_eq_dec N.eq_dec) (paths_of w l0 j)) in *.
  destruct (loop_spec w l0 js j u C IJ (NoDup_nodup _ _) (fun p => proj2 (nodup_In (list_eq_dec N.eq_dec) (paths_of w l0 j) p)) fuel [j_input j] [] a s R) as (ts & vs & s' & E & R' & T & Q & CL & LE).
  - intros p [<-|[]]. apply nodup_In. now left.
  - cbn [length]. pose proof (weight_le w j [] u). lia.
  - exists ts, s'. split; [assumption|]. split; [assumption|].
    assert (SC : forall p, In p vs <-> scanned w l0 j p).
    { intros p. split.
      - apply (LE (scanned w l0 j)); [intros q [<-|[]]; constructor|]. intros q d t S D TD RC SC. eapply scan_next; eauto. now apply refers_is_resolved.
      - induction 1 as [|p d t S IH D TD RC SC]; [destruct (Q (j_input j)) as [[]|H]; [now left|assumption]|]. apply refers_is_resolved in TD. destruct (CL p d t IH D TD RC SC) as [[]|H]. assumption. }
    intros t. rewrite T. unfold found. split; intros (p & d & I & D & TD); exists p, d; (split; [now apply SC|]); (split; [assumption|]); now apply refers_is_resolved.
Qed.

(** ** The artifact *)

Lemma absorb_same w a t : a_path (absorb w a t) = a_path a /\ a_product (absorb w a t) = a_product a /\ a_trafo (absorb w a t) = a_trafo a /\ a_time (absorb w a t) = a_time a.
Proof. destruct t as [p|k tr b]; cbn; [auto|]. destruct (_ && _); auto. Qed.
Lemma admissibleb_spec w a k t : admissibleb w a k t = true <-> admissible w a k t.
Proof.
  unfold admissibleb, admissible. rewrite !andb_true_iff, !negb_true_iff. split.
  - intros [[H1 H2] H3]. repeat split; [|destruct t as [t|]; [apply Nat.eqb_neq in H2; congruence|discriminate]|assumption]. intros ->. now rewrite (proj2 (id_eqb_eq _ _) eq_refl) in H1.
  - intros (H1 & H2 & H3). repeat split; [| |assumption].
    + destruct (id_eqb k (a_product a, a_path a)) eqn:E; [apply id_eqb_eq in E; congruence|reflexivity].
    + destruct t as [t|]; [|reflexivity]. apply Nat.eqb_neq. congruence.
Qed.
Lemma admissible_same w a a' k t : a_path a' = a_path a -> a_product a' = a_product a -> a_trafo a' = a_trafo a -> admissible w a' k t <-> admissible w a k t.
Proof. unfold admissible. intros -> -> ->. tauto. Qed.
Lemma absorb_files w a t p : In p (a_files (absorb w a t)) <-> In p (a_files a) \/ t = Plain p.
Proof.
  destruct t as [q|k tr b]; cbn.
  - destruct (existsb (str_eqb q) (a_files a)) eqn:E; [apply mem_str_spec in E|rewrite in_app_iff; cbn]; (split; [|]).
    + auto.
    + intros [I|[= ->]]; auto.
    + intros [I|[->|[]]]; auto.
    + intros [I|[= ->]]; auto.
  - destruct (_ && _); cbn; (split; [auto|intros [I|C]; [assumption|discriminate]]).
Qed.
Lemma absorb_children w a t k : In k (a_children (absorb w a t)) <-> In k (a_children a) \/ exists tr b, t = Artifact k tr b /\ admissible w a k tr.
Proof.
  destruct t as [q|k' tr b]; cbn; [split; [auto|intros [I|(? & ? & C & _)]; [assumption|discriminate]]|]. destruct (admissibleb w a k' tr) eqn:A.
  - apply admissibleb_spec in A. cbn [andb]. destruct (mem_id k' (a_children a)) eqn:M; cbn.
    + apply mem_id_spec in M. split; [auto|]. intros [I|(tr' & b' & [= -> _ _] & _)]; auto.
    + rewrite in_app_iff. cbn. split; [intros [I|[->|[]]]; [auto|right; eauto]|]. intros [I|(tr' & b' & [= -> _ _] & _)]; auto.
  - cbn [andb]. split; [auto|]. intros [I|(tr' & b' & E & AD)]; [assumption|]. injection E as -> -> ->. apply admissibleb_spec in AD. congruence.
Qed.
Lemma absorb_scanned w a t k : In k (a_scanned (absorb w a t)) <-> In k (a_scanned a) \/ (~ In k (a_children a) /\ exists tr b, t = Artifact k tr b /\ admissible w a k tr).
Proof.
  destruct t as [q|k' tr b]; cbn; [split; [auto|intros [I|(_ & ? & ? & C & _)]; [assumption|discriminate]]|]. destruct (admissibleb w a k' tr) eqn:A.
  - apply admissibleb_spec in A. cbn [andb]. destruct (mem_id k' (a_children a)) eqn:M; cbn.
    + apply mem_id_spec in M. split; [auto|]. intros [I|(N & tr' & b' & [= -> _ _] & _)]; [assumption|contradiction].
    + apply mem_id_no in M. rewrite in_app_iff. cbn. split; [intros [I|[->|[]]]; [auto|right; split; [assumption|eauto]]|]. intros [I|(_ & tr' & b' & [= -> _ _] & _)]; auto.
  - cbn [andb]. split; [auto|]. intros [I|(_ & tr' & b' & E & AD)]; [assumption|]. injection E as -> -> ->. apply admissibleb_spec in AD. congruence.
Qed.
Lemma NoDup_snoc' {A} (l : list A) x : NoDup l -> ~ In x l -> NoDup (l ++ [x]).
Proof. intros N H. apply (NoDup_Add (a := x) (l := l)); [|auto]. rewrite <- (app_nil_r l) at 1. apply Add_app. Qed.
Lemma absorb_all w ts : forall a, let b := fold_left (absorb w) ts a in
  (a_path b = a_path a /\ a_product b = a_product a /\ a_trafo b = a_trafo a /\ a_time b = a_time a) /\
  (forall p, In p (a_files b) <-> In p (a_files a) \/ In (Plain p) ts) /\
  (forall k, In k (a_children b) <-> In k (a_children a) \/ exists tr r, In (Artifact k tr r) ts /\ admissible w a k tr) /\
  (forall k, In k (a_scanned b) <-> In k (a_scanned a) \/ (~ In k (a_children a) /\ exists tr r, In (Artifact k tr r) ts /\ admissible w a k tr)) /\
  (NoDup (a_children a) -> NoDup (a_children b)).
Proof.
  induction ts as [|t ts IH]; intros a b; [subst b; cbn|].
  - split; [auto|]. split; [tauto|]. split; [intros k; split; [auto|intros [I|(? & ? & [] & _)]; assumption]|]. split; [|auto]. intros k; split; [auto|intros [I|(_ & ? & ? & [] & _)]; assumption].
  - subst b. cbn [fold_left]. destruct (IH (absorb w a t)) as ((E1 & E2 & E3 & E4) & F & CH & SC & ND). destruct (absorb_same w a t) as (S1 & S2 & S3 & S4).
    assert (AD : forall k tr, admissible w (absorb w a t) k tr <-> admissible w a k tr) by (intros; now apply admissible_same).
    split; [repeat split; congruence|]. split; [|split; [|split]].
    + intros p. rewrite F, absorb_files. cbn [In]. clear. tauto.
    + intros k. rewrite CH, absorb_children. cbn [In]. split.
      * intros [[I|(tr & r & -> & A)]|(tr & r & I & A)]; [auto|right; exists tr, r; auto|right; exists tr, r; split; [auto|now apply AD]].
      * intros [I|(tr & r & [->|I] & A)]; [auto|left; right; eauto|right; exists tr, r; split; [assumption|now apply AD]].
    + intros k. rewrite SC, absorb_scanned, absorb_children. cbn [In]. split.
      * intros [[I|(N & tr & r & -> & A)]|(N & tr & r & I & A)]; [auto|right; split; [assumption|exists tr, r; auto]|right; split; [tauto|exists tr, r; split; [auto|now apply AD]]].
      * intros [I|(N & tr & r & [->|I] & A)]; [auto|left; right; split; [assumption|eauto]|].
        destruct t as [q|k' tr' r']; [right; split; [intros [C|(? & ? & C & _)]; [contradiction|discriminate]|exists tr, r; split; [assumption|now apply AD]]|].
        destruct (admissibleb w a k' tr') eqn:B; [destruct (id_eqb k k') eqn:Q|].
        -- apply id_eqb_eq in Q. subst k'. left. right. split; [assumption|]. apply admissibleb_spec in B. eauto.
        -- right. split; [|exists tr, r; split; [assumption|now apply AD]]. intros [C|(? & ? & E & _)]; [contradiction|]. injection E as E _ _. subst k'. now rewrite (proj2 (id_eqb_eq k k) eq_refl) in Q.
        -- right. split; [|exists tr, r; split; [assumption|now apply AD]]. intros [C|(? & ? & E & A2)]; [contradiction|]. injection E as -> -> ->. apply admissibleb_spec in A2. congruence.
    + intros N. apply ND. destruct t as [q|k' tr' r']; cbn; [assumption|]. destruct (mem_id k' (a_children a)) eqn:M; [now rewrite andb_false_r|]. apply mem_id_no in M. destruct (_ && _); cbn; [now apply NoDup_snoc'|assumption].
Qed.

(** ** Every file dependency is known afterwards *)

Definition known (l : list res) (c : cache) : Prop := forall d p f, cached d c = Some (Some (p, Some f)) -> In f l.
Definition registered (a : art) (l : list res) : Prop := forall p, In p (a_files a) -> In (mkRes p FileDep) l.
Lemma pick_In w product l : forall fd other is_dep r, pick w product l fd other is_dep = Some r -> In r l \/ fd = Some r \/ other = Some r.
Proof.
  induction l as [|x l IH]; intros fd other is_dep r; cbn; [destruct other; auto|]. destruct (f_kind x).
  - intros H. apply IH in H as [H|[H|H]]; [auto|injection H as ->; auto|auto].
  - destruct (_ =? _); [intros [= ->]; auto|]. destruct is_dep; intros H; apply IH in H as [H|[H|H]]; auto. injection H as ->. auto.
Qed.
Lemma resolve_known w l product d paths p f : resolve w l product d paths = Some (p, Some f) -> In f l.
Proof.
  assert (X : forall base, resolve_in w l product d base = Some (p, Some f) -> In f l).
  { intros base. unfold resolve_in. destruct (pick _ _ _ _ _ _) as [r|] eqn:P; [|destruct (existsb _ _); discriminate]. intros [= _ ->]. apply pick_In in P as [P|[P|P]]; [|discriminate|discriminate]. now apply filter_In in P. }
  unfold resolve. destruct (is_absolute Unix (raw_path d)); [apply X|]. induction paths as [|q paths IH]; cbn; [discriminate|]. destruct (resolve_in w l product d q) as [r|] eqn:E; [intros [= ->]; eapply X, E|assumption].
Qed.
Lemma add_file_In q a p : In p (a_files (add_file q a)) -> p = q \/ In p (a_files a).
Proof. cbn. destruct (existsb _ _); [auto|]. intros I. apply in_app_iff in I as [I|[<-|[]]]; auto. Qed.
Lemma handle_known w a r l a' f l' : handle w a r l = (a', f, l') -> (forall g, snd r = Some g -> In g l) -> registered a l -> In f l' /\ registered a' l' /\ (forall x, In x l -> In x l').
Proof.
  unfold handle. intros H K R. destruct (snd r) as [g|].
  - specialize (K g eq_refl). destruct (f_kind g) as [|q t b] eqn:KG.
    + injection H as <- <- <-. split; [assumption|]. split; [|auto]. intros p I. apply add_file_In in I as [->|I]; [|now apply R]. destruct g as [gp gk]. cbn in *. now subst gk.
    + assert (H' : f = g /\ l' = l /\ a_files a' = a_files a) by (repeat match type of H with (if ?b then _ else _) = _ => destruct b end; injection H as <- <- <-; auto).
      destruct H' as (-> & -> & EF). split; [assumption|]. split; [|auto]. intros p I. rewrite EF in I. now apply R.
  - injection H as <- <- <-. split; [apply in_app_iff; right; now left|]. split; [|intros x I; apply in_app_iff; now left]. intros p I. apply in_app_iff. apply add_file_In in I as [->|I]; [right; now left|left; now apply R].
Qed.
Lemma handle_all_known w j : forall deps a l c a' l' c' q, handle_all w j deps a l c = (a', l', c', q) -> known l c -> registered a l -> registered a' l' /\ known l' c' /\ forall x, In x l -> In x l'.
Proof.
  induction deps as [|d deps IH]; intros a l c a' l' c' q; cbn [handle_all]; [intros [= <- <- <- <-]; auto|]. intros H K R. destruct (get_resolved w j l d c) as [o c1] eqn:G.
  assert (X : known l c1 /\ forall p g, o = Some (p, Some g) -> In g l).
  { unfold get_resolved in G. destruct (cached d c) as [o'|] eqn:E; injection G as <- <-; [split; [assumption|intros p g ->; eapply K, E]|]. split; [|intros p g; apply resolve_known]. intros d' p g. rewrite cached_put. destruct (raw_eqb d d'); [intros [= X]; eapply resolve_known, X|apply K]. }
  destruct X as [K1 KO]. destruct o as [r|]; [|eapply IH; eauto]. destruct (handle w a r l) as [[a1 f] l1] eqn:HD. destruct (handle_known w a r l a1 f l1 HD) as (F & R1 & IN); [intros g E; apply (KO (fst r)); rewrite <- E; now destruct r|assumption|].
  destruct (handle_all w j deps a1 l1 (put_resolved d (Some (fst r, Some f)) c1)) as [[[a2 l2] c2] q2] eqn:HA. injection H as <- <- <- _. apply IH in HA as (A & B & C); [auto| |assumption].
  intros d' p g. rewrite cached_put. destruct (raw_eqb d d'); [intros [= _ <-]; assumption|intros E; apply IN; eapply K1, E].
Qed.
Definition known_state (s : state) : Prop := forall k c, find_cache k (s_caches s) = Some c -> known (s_files s) c.
Lemma known_more l l' c : known l c -> (forall x, In x l -> In x l') -> known l' c.
Proof. intros K H d p f E. apply H. eapply K, E. Qed.
Lemma loop_known w j : forall fuel queue visited a s a' s', loop w j fuel queue visited a s = Some (a', s') -> known_state s -> registered a (s_files s) -> known_state s' /\ registered a' (s_files s').
Proof.
  induction fuel as [|fuel IH]; intros [|p queue] visited a s a' s'; cbn [loop]; try discriminate; try (intros [= <- <-]; auto; fail). destruct (existsb (str_eqb p) visited); [apply IH|]. destruct (scan w j p (s_scans s)) as [deps scans]. destruct (handle_all w j deps a (s_files s) (open_cache j (s_caches s))) as [[[a1 l1] c1] q1] eqn:H. intros E K R.
  apply handle_all_known in H as (R1 & K1 & IN); [| |assumption].
  - apply IH in E; [assumption| |assumption]. intros k c. cbn [s_caches s_files]. rewrite find_put_cache. destruct (j_key j =? k); [now intros [= <-]|]. intros F. eapply known_more; [eapply K, F|assumption].
  - unfold open_cache. destruct (find_cache (j_key j) (s_caches s)) as [c|] eqn:F; [eapply K, F|]. intros d p0 f D. discriminate.
Qed.
Lemma run_known w fuel : forall js a s a' s', run_jobs w fuel js a s = Some (a', s') -> known_state s -> registered a (s_files s) -> known_state s' /\ registered a' (s_files s').
Proof.
  induction js as [|j js IH]; intros a s a' s'; cbn [run_jobs]; [intros [= <- <-]; auto|]. destruct (loop w j fuel [j_input j] [] a s) as [[a1 s1]|] eqn:L; [|discriminate]. intros E K R. apply loop_known in L as [K1 R1]; [eapply IH; eauto|assumption|assumption].
Qed.

(** ** The theorems *)

(** How often the loop runs at most: once, and once for each include in each file that there is *)
Definition bound (w : world) (l0 : list res) (j : job) : nat := S (list_sum (map (fun p => length (w_contents w (j_scanner j) (j_props j) p)) (nodup (list_eq_dec N.eq_dec) (j_input j :: map f_path l0 ++ w_disk w)))).
Lemma run_found w l0 js fuel : consistent w js -> (forall j, In j js -> bound w l0 j <= fuel) -> forall js0 a s, (forall j, In j js0 -> In j js) -> right_state w l0 js s ->
  exists ts s', run_jobs w fuel js0 a s = Some (fold_left (absorb w) ts a, s') /\ right_state w l0 js s' /\ forall t, In t ts <-> exists j, In j js0 /\ found w l0 j t.
Proof.
  intros C FU. induction js0 as [|j js0 IH]; intros a s SUB R; cbn [run_jobs].
  - exists [], s. split; [reflexivity|]. split; [assumption|]. intros t. split; [intros []|intros (j & [] & _)].
  - assert (IJ : In j js) by (apply SUB; now left). destruct (loop_found w l0 js j fuel a s C IJ R (FU j IJ)) as (ts & s1 & E & R1 & T). rewrite E. destruct (IH (fold_left (absorb w) ts a) s1) as (ts2 & s2 & E2 & R2 & T2); [intros x I; apply SUB; now right|assumption|].
    exists (ts ++ ts2), s2. rewrite fold_left_app. split; [assumption|]. split; [assumption|]. intros t. rewrite in_app_iff, T, T2. split.
    + intros [H|(x & I & H)]; [exists j; split; [now left|assumption]|exists x; split; [now right|assumption]].
    + intros (x & [<-|I] & H); [now left|right; eauto].
Qed.
Lemma subset_spec a b : subset a b = true <-> forall x, In x a -> In x b.
Proof. unfold subset. rewrite forallb_forall. split; intros H x I; [apply mem_str_spec|apply mem_str_spec]; now apply H. Qed.

(** For all files, also if they include each other: the update ends; the artifact's file dependencies are exactly the files found by a scanner, directly or indirectly, that are not artifacts, and its children are those that it had for other reasons and exactly the artifacts found;
    those that are there only because of scanning are noted; the project's files are the same up to new file dependencies *)
Theorem update_exact w l0 js fuel a s : consistent w js -> right_state w l0 js s -> (forall j, In j js -> bound w l0 j <= fuel) ->
  exists b s' c, update w fuel js a s = Some (b, s', c) /\ right_state w l0 js s' /\
    (a_path b = a_path a /\ a_product b = a_product a /\ a_trafo b = a_trafo a) /\
    (forall p, In p (a_files b) <-> exists j, In j js /\ found w l0 j (Plain p)) /\
    (forall k, In k (a_children b) <-> (In k (a_children a) /\ ~ In k (a_scanned a)) \/ exists j tr r, In j js /\ found w l0 j (Artifact k tr r) /\ admissible w a k tr) /\
    (forall k, In k (a_scanned b) <-> ~ (In k (a_children a) /\ ~ In k (a_scanned a)) /\ exists j tr r, In j js /\ found w l0 j (Artifact k tr r) /\ admissible w a k tr) /\
    (c = true <-> exists k, In k (a_scanned b)) /\ (NoDup (a_children a) -> NoDup (a_children b)).
Proof.
  intros C R FU. unfold update. set (a0 := mkArt (a_path a) (a_product a) (a_trafo a) (a_time a) (filter (fun k => negb (mem_id k (a_scanned a))) (a_children a)) [] []).
  destruct (run_found w l0 js fuel C FU js a0 s (fun j I => I) R) as (ts & s' & E & R' & T). rewrite E.
  destruct (absorb_all w ts a0) as ((E1 & E2 & E3 & E4) & F & CH & SC & ND). cbn zeta in *. remember (fold_left (absorb w) ts a0) as b0 eqn:EB. clear EB.
  assert (BASE : forall k, In k (a_children a0) <-> In k (a_children a) /\ ~ In k (a_scanned a)) by (intros k; cbn [a0 a_children]; rewrite filter_In, negb_true_iff, mem_id_no; tauto).
  assert (AD : forall k, (exists tr r, In (Artifact k tr r) ts /\ admissible w a0 k tr) <-> exists j tr r, In j js /\ found w l0 j (Artifact k tr r) /\ admissible w a k tr).
  { intros k. split; [intros (tr & r & I & A); apply T in I as (j & IJ & FD); exists j, tr, r; auto|intros (j & tr & r & IJ & FD & A); exists tr, r; split; [apply T; eauto|assumption]]. }
  eexists _, s', _. split; [reflexivity|]. cbn [a_path a_product a_trafo a_files a_children a_scanned]. split; [assumption|]. split; [auto|]. split; [|split; [|split; [|split]]].
  - intros p. rewrite F, T. cbn. tauto.
  - intros k. rewrite CH, BASE, AD. reflexivity.
  - intros k. rewrite SC, BASE, AD. cbn. tauto.
  - destruct (a_scanned b0) as [|k l]; [split; [discriminate|intros (k & [])]|]. split; [intros _; exists k; now left|reflexivity].
  - intros N. apply ND. cbn. now apply NoDup_filter.
Qed.
(** The time stamp is cleared, so that the artifact is made again, if and only if the set of file dependencies changed *)
Theorem update_time w fuel js a s b s' c : update w fuel js a s = Some (b, s', c) ->
  ((forall p, In p (a_files b) <-> In p (a_files a)) -> a_time b = a_time a) /\ (~ (forall p, In p (a_files b) <-> In p (a_files a)) -> a_time b = 0).
Proof.
  unfold update. set (a0 := mkArt (a_path a) (a_product a) (a_trafo a) (a_time a) (filter (fun k => negb (mem_id k (a_scanned a))) (a_children a)) [] []). destruct (run_jobs w fuel js a0 s) as [[b0 s0]|] eqn:E; [|discriminate]. intros [= <- <- <-]. cbn [a_files a_time].
  assert (TM : forall a s a' s', run_jobs w fuel js a s = Some (a', s') -> a_time a' = a_time a).
  { clear. assert (HA : forall j deps a l c a' l' c' q, handle_all w j deps a l c = (a', l', c', q) -> a_time a' = a_time a).
    { intros j. induction deps as [|d deps IH]; intros a l c a' l' c' q; cbn [handle_all]; [congruence|]. destruct (get_resolved w j l d c) as [[r|] c1]; [|apply IH]. destruct (handle w a r l) as [[a1 f] l1] eqn:H. destruct (handle_all w j deps a1 l1 _) as [[[a2 l2] c2] q2] eqn:H2. intros [= <- _ _ _]. apply IH in H2. rewrite H2. destruct r as [p [g|]]; [rewrite handle_spec in H; injection H as <- _ _; apply absorb_same|injection H as <- _ _; reflexivity]. }
    assert (LP : forall j fuel queue visited a s a' s', loop w j fuel queue visited a s = Some (a', s') -> a_time a' = a_time a).
    { intros j. induction fuel0 as [|fuel0 IH]; intros [|p queue] visited a s a' s'; cbn [loop]; try discriminate; try (intros [= <- <-]; reflexivity). destruct (existsb (str_eqb p) visited); [apply IH|]. destruct (scan w j p (s_scans s)) as [deps scans]. destruct (handle_all w j deps a (s_files s) (open_cache j (s_caches s))) as [[[a1 l1] c1] q1] eqn:H. intros L. apply IH in L. apply HA in H. congruence. }
    induction js as [|j js IH]; intros a s a' s'; cbn [run_jobs]; [congruence|]. destruct (loop w j fuel [j_input j] [] a s) as [[a1 s1]|] eqn:L; [|discriminate]. intros H. apply IH in H. apply LP in L. congruence. }
  apply TM in E. cbn in E. split; intros H.
  - rewrite (proj2 (subset_spec _ _)), (proj2 (subset_spec _ _)); [assumption|intros x; apply H|intros x; apply H].
  - destruct (subset (a_files a) (a_files b0) && subset (a_files b0) (a_files a)) eqn:S; [|reflexivity]. exfalso. apply H. apply andb_true_iff in S as [S1 S2]. intros p. split; [now apply subset_spec|now apply subset_spec].
Qed.
(** The file dependencies are known to the project afterwards *)
Theorem update_known w fuel js a s b s' c p : update w fuel js a s = Some (b, s', c) -> known_state s -> In p (a_files b) -> In (mkRes p FileDep) (s_files s').
Proof.
  unfold update. destruct (run_jobs w fuel js _ s) as [[b0 s0]|] eqn:E; [|discriminate]. intros [= <- <- <-] K I. cbn [a_files] in I. apply run_known in E as [_ R]; [now apply R|assumption|]. intros q [].
Qed.
Theorem update_known_state w fuel js a s b s' c : update w fuel js a s = Some (b, s', c) -> known_state s -> known_state s'.
Proof.
  unfold update. destruct (run_jobs w fuel js _ s) as [[b0 s0]|] eqn:E; [|discriminate]. intros [= <- <- <-] K. apply run_known in E as [K' _]; [assumption|assumption|]. intros q [].
Qed.
(** At the beginning of a build nothing is remembered but scan results *)
Theorem start_right w js l scans : scans_right w js scans -> right_state w l js (mkState l scans []) /\ known_state (mkState l scans []).
Proof. intros S. split; [split; [apply extends_refl|]; split; [assumption|]; intros j c _ F; discriminate|]. intros k c F. discriminate. Qed.
(** Scan results stay right when files change, if each change gives the file a time after the last scan *)
Theorem scans_stay_right w w' js l : scans_right w js l -> (forall p, w_stamp w' p = w_stamp w p /\ (forall j, In j js -> w_contents w' (j_scanner j) (j_props j) p = w_contents w (j_scanner j) (j_props j) p) \/ forall e, In e l -> d_path e = p -> d_time e < w_stamp w' p) -> scans_right w' js l.
Proof.
  intros R H e j IE IJ SC SM ST. destruct (H (d_path e)) as [[E1 E2]|N]; [|specialize (N e IE eq_refl); lia]. rewrite E2 by assumption. apply R; auto. lia.
Qed.
(** A file is read again only if it is newer than the last scan *)
Theorem no_scan_when_older w j p l e : find (is_data j p) l = Some e -> w_stamp w p <= d_time e -> scan w j p l = (d_deps e, l).
Proof. intros F T. unfold scan. rewrite F. now rewrite (proj2 (Nat.ltb_ge _ _) T). Qed.

(** An include path survives the split into directory and name, unless it is directly below the root *)
Theorem raw_round_trip p : (forall n, p = slash :: n -> In slash n) -> raw_path (raw_of p) = p.
Proof.
  intros H. unfold raw_path, raw_of, split_dir. destruct (last_index slash p) as [i|] eqn:L; cbn [fst snd]; [|reflexivity].
  assert (X : forall s k, last_index slash s = Some k -> s = firstn k s ++ slash :: skipn (S k) s /\ ~ In slash (skipn (S k) s)).
  { clear. induction s as [|x s IH]; intros k; [discriminate|]. cbn [last_index]. destruct (last_index slash s) as [m|] eqn:E.
    - intros [= <-]. destruct (IH m eq_refl) as [A B]. split; [cbn [firstn app]; f_equal; exact A|exact B].
    - destruct (N.eqb_spec x slash) as [->|]; [|discriminate]. intros [= <-]. split; [reflexivity|]. cbn [skipn]. clear IH. intros I. induction s as [|y s IH]; [destruct I|]. cbn [last_index] in E. destruct (last_index slash s) eqn:E2; [discriminate|]. destruct (N.eqb_spec y slash); [discriminate|]. destruct I as [->|I]; [congruence|]. now apply IH. }
  destruct (X p i L) as [A B]. destruct (str_eqb (firstn i p) []) eqn:E; [|now symmetry].
  apply str_eqb_eq in E. rewrite E in A. cbn in A. destruct (B (H _ A)).
Qed.
Theorem root_include_refuted : exists p, is_absolute Unix p = true /\ is_absolute Unix (raw_path (raw_of p)) = false.
Proof. exists [slash; 102]%N. split; reflexivity. Qed.

Module Demo.
  Local Open Scope N_scope.
  (* /s/a.c includes x.h; /s/x.h and /i/y.h include each other; z.h is generated by product 1 in /b *)
  Definition a_c : str := [47; 115; 47; 97].
  Definition x_h : str := [47; 115; 47; 120].
  Definition y_h : str := [47; 105; 47; 121].
  Definition z_h : str := [47; 98; 47; 122].
  Definition inc (c : N) : raw := ([], [c]).
  Definition obj : art := mkArt [47; 98; 47; 111] 1 7 5 [(1%nat, a_c)] [] [].
  Definition lookup (l : list (str * list raw)) (p : str) : list raw := match find (fun e => str_eqb (fst e) p) l with Some e => snd e | None => [] end.
  Definition world_of (disk : list str) (l : list (str * list raw)) : world := mkWorld [] disk (fun _ _ => false) (fun _ _ => lookup l) (fun p => match lookup l p with [] => 0 | _ => 3 end)%nat 4 (fun _ => false).
  Definition w : world := world_of [a_c; x_h; y_h] [(a_c, [inc 120; inc 122]); (x_h, [inc 121]); (y_h, [inc 120; inc 110])].
  Definition dirs : list str := [[47; 98]; [47; 115]; [47; 105]].
  Definition j : job := mkJob a_c 1 0 true 0 (fun _ _ => true) 0 dirs.
  Definition files : list res := [mkRes a_c (Art 1 None true); mkRes z_h (Art 1 (Some 8%nat) false)].
  Example found_all : update w 20 [j] obj (mkState files [] []) = Some (mkArt [47; 98; 47; 111] 1 7 0 [(1%nat, a_c); (1%nat, z_h)] [(1%nat, z_h)] [x_h; y_h],
    mkState (files ++ [mkRes x_h FileDep; mkRes y_h FileDep]) [mkScan a_c 0 0 4 [inc 120; inc 122]; mkScan x_h 0 0 4 [inc 121]; mkScan y_h 0 0 4 [inc 120; inc 110]]
      [(0%nat, mkCache dirs [(inc 110, None); (inc 120, Some (x_h, Some (mkRes x_h FileDep))); (inc 121, Some (y_h, Some (mkRes y_h FileDep))); (inc 122, Some (z_h, Some (mkRes z_h (Art 1 (Some 8%nat) false))))])], true).
  Proof. vm_compute. reflexivity. Qed.
  Lemma lookup_In l p d : In d (lookup l p) -> In d (flat_map snd l).
  Proof. unfold lookup. destruct (find _ l) as [e|] eqn:F; [|intros []]. apply find_some in F as [F _]. intros I. apply in_flat_map. eauto. Qed.
  Lemma world_consistent disk l js : (forall d, In d (flat_map snd l) -> ~ In slash (snd d)) -> (forall j, In j js -> j = mkJob (j_input j) (j_product j) 0 (j_recursive j) 0 (fun _ _ => true) 0 dirs /\ j_product j = 1%nat) -> consistent (world_of disk l) js.
  Proof.
    intros N H. constructor.
    - intros j0 p d IJ I. cbn in I. apply N. eapply lookup_In, I.
    - intros j0 p IJ. cbn. destruct (lookup l p); [reflexivity|discriminate].
    - intros j0 IJ. destruct (H j0 IJ) as [-> _]. reflexivity.
    - reflexivity.
    - intros j1 j2 I1 I2 _. destruct (H j1 I1) as [E1 ->], (H j2 I2) as [E2 ->]. split; [reflexivity|]. now rewrite E1, E2.
  Qed.
  Definition job_of (input : str) : job := mkJob input 1 0 true 0 (fun _ _ => true) 0 dirs.
  Lemma jobs_ok inputs : forall j, In j (map job_of inputs) -> j = mkJob (j_input j) (j_product j) 0 (j_recursive j) 0 (fun _ _ => true) 0 dirs /\ j_product j = 1%nat.
  Proof. intros j0 I. apply in_map_iff in I as (p & <- & _). split; reflexivity. Qed.
  Example hypotheses : consistent w [j] /\ right_state w files [j] (mkState files [] []) /\ bound w files j = 6%nat.
  Proof.
    split; [apply (world_consistent _ _ [j]); [intros d I; vm_compute in I; intuition (subst; cbn in *; intuition discriminate)|exact (jobs_ok [a_c])]|]. split; [apply start_right; intros e j' []|vm_compute; reflexivity].
  Qed.
  (* precedence: own product, a product it depends on, another product, known file, existing file *)
  Definition w2 : world := mkWorld [] [x_h] (fun _ q => Nat.eqb q 3) (fun _ _ _ => []) (fun _ => 0%nat) 0 (fun _ => false).
  Example precedence : map (fun l => target_of w2 l 1 [[47; 115]] (inc 120)) [[mkRes x_h FileDep; mkRes x_h (Art 2 None true); mkRes x_h (Art 3 None true); mkRes x_h (Art 1 None false)]; [mkRes x_h FileDep; mkRes x_h (Art 2 None true); mkRes x_h (Art 3 None true); mkRes x_h (Art 4 None true)]; [mkRes x_h (Art 2 None true); mkRes x_h FileDep]; [mkRes x_h FileDep]; []]
    = [Some (Artifact (1%nat, x_h) None false); Some (Artifact (3%nat, x_h) None true); Some (Artifact (2%nat, x_h) None true); Some (Plain x_h); Some (Plain x_h)].
  Proof. vm_compute. reflexivity. Qed.
End Demo.

(** A header that a rule generates after the include was looked up in the same build is not found any more: the object does not wait for it *)
Theorem later_artifact_refuted : exists w js fuel a b s f r1 s1 c1 r2 s2 c2 k tr ready, consistent w js /\ right_state w (s_files s) js s /\ update w fuel js a s = Some (r1, s1, c1) /\
  let s1' := mkState (s_files s1 ++ [f]) (s_scans s1) (s_caches s1) in (exists j, In j js /\ found w (s_files s1') j (Artifact k tr ready)) /\ admissible w b k tr /\ update w fuel js b s1' = Some (r2, s2, c2) /\ ~ In k (a_children r2).
Proof.
  exists (Demo.world_of [Demo.a_c] [(Demo.a_c, [Demo.inc 122])]), [Demo.j], 20, Demo.obj, (mkArt [47; 98; 47; 112]%N 1 9 5 [(1, Demo.a_c)] [] []), (mkState [mkRes Demo.a_c (Art 1 None true)] [] []), (mkRes Demo.z_h (Art 1 (Some 8) false)).
  eexists _, _, _, _, _, _, (1, Demo.z_h), (Some 8), false.
  split; [apply Demo.world_consistent; [intros d I; vm_compute in I; intuition (subst; cbn in *; intuition discriminate)|exact (Demo.jobs_ok [Demo.a_c])]|]. split; [apply start_right; intros e j' []|]. split; [vm_compute; reflexivity|]. cbn zeta. split.
  - exists Demo.j. split; [now left|]. exists Demo.a_c, (Demo.inc 122). split; [constructor|]. split; [vm_compute; now left|]. apply refers_is_resolved. vm_compute. reflexivity.
  - split; [repeat split; try discriminate; intros C; discriminate|]. split; [vm_compute; reflexivity|]. vm_compute. intuition discriminate.
Qed.
(** An artifact that is found instead of another one does not clear the time stamp *)
Theorem child_change_refuted : exists w js fuel a s b s' c k, consistent w js /\ right_state w (s_files s) js s /\ update w fuel js a s = Some (b, s', c) /\ a_time a <> 0 /\ In k (a_children b) /\ ~ In k (a_children a) /\ a_time b = a_time a.
Proof.
  exists (Demo.world_of [Demo.a_c] [(Demo.a_c, [Demo.inc 122])]), [Demo.j], 20, Demo.obj, (mkState [mkRes Demo.a_c (Art 1 None true); mkRes Demo.z_h (Art 1 (Some 8) false)] [] []). eexists _, _, _, (1, Demo.z_h).
  split; [apply Demo.world_consistent; [intros d I; vm_compute in I; intuition (subst; cbn in *; intuition discriminate)|exact (Demo.jobs_ok [Demo.a_c])]|]. split; [apply start_right; intros e j' []|]. split; [vm_compute; reflexivity|]. split; [discriminate|]. split; [right; now left|]. split; [vm_compute; intuition discriminate|reflexivity].
Qed.
(** With a search path that is not clean an artifact is taken for a plain file *)
Theorem unclean_search_path_refuted : exists w l product paths d r p, In r l /\ artifact_of product r /\ refers w l product paths d (Plain p) /\ clean_path p = f_path r.
Proof.
  exists (mkWorld [] [[47; 113; 47; 46; 46; 47; 115; 47; 120]%N] (fun _ _ => false) (fun _ _ _ => []) (fun _ => 0) 0 (fun _ => false)), [mkRes Demo.x_h (Art 1 None true)], 1, [[47; 113; 47; 46; 46; 47; 115]%N], (Demo.inc 120), (mkRes Demo.x_h (Art 1 None true)). eexists.
  split; [now left|]. split; [exists None, true; reflexivity|]. split; [apply refers_is_resolved; vm_compute; reflexivity|]. vm_compute. reflexivity.
Qed.
(** A change in the same tick as the last scan is not noticed *)
Theorem same_tick_refuted : exists w js fuel a s b s' c p, consistent w js /\ (forall e, In e (s_scans s) -> d_time e <= w_stamp w (d_path e)) /\ s_caches s = [] /\ update w fuel js a s = Some (b, s', c) /\ (exists j, In j js /\ found w (s_files s) j (Plain p)) /\ ~ In p (a_files b).
Proof.
  exists (Demo.world_of [Demo.a_c; Demo.x_h] [(Demo.a_c, [Demo.inc 120])]), [Demo.j], 20, Demo.obj, (mkState [mkRes Demo.a_c (Art 1 None true)] [mkScan Demo.a_c 0 0 3 []] []). eexists _, _, _, Demo.x_h.
  split; [apply Demo.world_consistent; [intros d I; vm_compute in I; intuition (subst; cbn in *; intuition discriminate)|exact (Demo.jobs_ok [Demo.a_c])]|]. split; [intros e [<-|[]]; vm_compute; lia|]. split; [reflexivity|]. split; [vm_compute; reflexivity|]. split; [|vm_compute; intuition].
  exists Demo.j. split; [now left|]. exists Demo.a_c, (Demo.inc 120). split; [constructor|]. split; [vm_compute; now left|]. apply refers_is_resolved. vm_compute. reflexivity.
Qed.
(** Inputs with the same properties and tags share their search paths, even if a search path script would return other ones for the second file *)
Theorem shared_search_paths_refuted : exists w js fuel a b s s' c p, right_state w (s_files s) js s /\ update w fuel js a s = Some (b, s', c) /\ (exists j, In j js /\ found w (s_files s) j (Plain p)) /\ ~ In p (a_files b).
Proof.
  exists (Demo.world_of [Demo.a_c; Demo.x_h; Demo.y_h] [(Demo.a_c, [Demo.inc 120]); (Demo.z_h, [Demo.inc 121])]), [mkJob Demo.a_c 1 0 true 0 (fun _ _ => true) 0 [[47; 115]%N]; mkJob Demo.z_h 1 0 true 0 (fun _ _ => true) 0 [[47; 105]%N]], 20, Demo.obj. eexists _, (mkState [mkRes Demo.a_c (Art 1 None true)] [] []), _, _, Demo.y_h.
  split; [apply start_right; intros e j' []|]. split; [vm_compute; reflexivity|]. split; [|vm_compute; intuition discriminate].
  eexists. split; [right; now left|]. exists Demo.z_h, (Demo.inc 121). split; [constructor|]. split; [vm_compute; now left|]. apply refers_is_resolved. vm_compute. reflexivity.
Qed.

Print Assumptions located_is_resolved.
Print Assumptions refers_is_resolved.
Print Assumptions update_exact.
Print Assumptions update_time.
Print Assumptions update_known.
Print Assumptions update_known_state.
Print Assumptions start_right.
Print Assumptions scans_stay_right.
Print Assumptions no_scan_when_older.
Print Assumptions raw_round_trip.
Print Assumptions root_include_refuted.
Print Assumptions later_artifact_refuted.
Print Assumptions child_change_refuted.
Print Assumptions unclean_search_path_refuted.
Print Assumptions same_tick_refuted.
Print Assumptions shared_search_paths_refuted.
