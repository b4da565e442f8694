(** Paths are taken apart, put together and resolved like a walk through directories; rule outputs stay in the build directory. *)
From Coq Require Import List Bool Arith NArith Lia.
From Verif Require Import Str PathModel.
Import ListNotations.
Local Open Scope N_scope.

(** ** Specification: walking *)

(** The names between the slashes. *)
Definition parts (p : str) : list str :=
  fold_right (fun c l => if c =? 47 then [] :: l
                         else match l with h :: t => (c :: h) :: t | [] => [[c]] end) [[]] p.

(** A place is the list of directories one is in, innermost first; the root has no parent. *)
Definition place := list str.
Definition step (st : place) (name : str) : place :=
  if str_eqb name [] || str_eqb name [46] then st
  else if str_eqb name [46; 46] then tl st
  else name :: st.
Definition steps (st : place) (p : str) : place := fold_left step (parts p) st.
(** Where a path leads from a place. *)
Definition go (st : place) (p : str) : place :=
  match p with 47 :: _ => steps [] p | _ => steps st p end.

(** A proper name of a file or directory. *)
Definition proper (n : str) : Prop := n <> [] /\ n <> [46] /\ n <> [46; 46] /\ ~ In 47 n.
(** The usual way to write an absolute path. *)
Definition abs_path (names : list str) : str :=
  match names with [] => [47] | _ => flat_map (cons 47) names end.

(** Strictly inside a directory, which is left nowhere. *)
Definition inside (p dir : place) : Prop := exists names, names <> [] /\ Forall proper names /\ p = names ++ dir.

(** ** Strings *)

Lemma parts_cons c s : parts (c :: s) =
  if c =? 47 then [] :: parts s else match parts s with h :: t => (c :: h) :: t | [] => [[c]] end.
Proof. reflexivity. Qed.
Lemma parts_ne s : parts s <> [].
Proof. destruct s as [|c s]; [discriminate|]. rewrite parts_cons. destruct (c =? 47); [discriminate|]. destruct (parts s); discriminate. Qed.
Lemma sections_parts s : sections s = parts s.
Proof. induction s as [|c s IH]; [reflexivity|]. rewrite parts_cons, <- IH. reflexivity. Qed.

Lemma parts_app a b : parts (a ++ 47 :: b) = parts a ++ parts b.
Proof.
  induction a as [|c a IH]; [reflexivity|]. cbn [app]. rewrite !parts_cons, IH.
  destruct (c =? 47); [reflexivity|]. pose proof (parts_ne a). now destruct (parts a).
Qed.
Lemma parts_name a : ~ In 47 a -> parts a = [a].
Proof.
  induction a as [|c a IH]; intros H; [reflexivity|]. rewrite parts_cons, IH by (intros K; apply H; now right).
  destruct (N.eqb_spec c 47) as [->|]; [|reflexivity]. exfalso. apply H. now left.
Qed.
Lemma parts_no_slash s : Forall (fun n => ~ In 47 n) (parts s).
Proof.
  induction s as [|c s IH]; [repeat constructor; intros []|]. rewrite parts_cons.
  destruct (N.eqb_spec c 47) as [->|Ne]; [constructor; [intros []|exact IH]|].
  destruct (parts s) as [|h t]; [repeat constructor; cbn; intuition congruence|].
  inversion IH as [|? ? Hh Ht]; subst. constructor; [|exact Ht]. cbn. intuition congruence.
Qed.
Lemma parts_join l : l <> [] -> Forall (fun n => ~ In 47 n) l -> parts (join_slash l) = l.
Proof.
  induction l as [|x l IH]; intros H F; [congruence|]. inversion F as [|? ? Fx Fl]; subst.
  destruct l as [|y l]; [now apply parts_name|].
  change (join_slash (x :: y :: l)) with (x ++ 47 :: join_slash (y :: l)).
  rewrite parts_app, IH by (discriminate || assumption). now rewrite (parts_name x Fx).
Qed.
Lemma join_parts s : join_slash (parts s) = s.
Proof.
  induction s as [|c s IH]; [reflexivity|]. rewrite parts_cons. pose proof (parts_ne s) as Hn.
  destruct (N.eqb_spec c 47) as [->|].
  - destruct (parts s) as [|h t]; [congruence|]. cbn [join_slash app]. cbn [join_slash] in IH. now rewrite IH.
  - destruct (parts s) as [|h t]; [congruence|]. destruct t as [|h' t]; cbn [join_slash app] in *; now rewrite IH.
Qed.

Lemma last_index_some c s i : last_index c s = Some i ->
  s = firstn i s ++ c :: skipn (S i) s /\ ~ In c (skipn (S i) s).
Proof.
  revert i. induction s as [|x s IH]; intros i; cbn [last_index]; [discriminate|].
  destruct (last_index c s) as [j|] eqn:E.
  - intros [= <-]. destruct (IH j eq_refl) as [H1 H2]. cbn [firstn skipn app]. split; [now f_equal|exact H2].
  - destruct (N.eqb_spec x c) as [->|]; [|discriminate]. intros [= <-]. cbn. split; [reflexivity|].
    clear IH. revert E. induction s as [|y s IH']; cbn [last_index]; intros E; [intros []|].
    destruct (last_index c s); [discriminate|]. destruct (N.eqb_spec y c); [discriminate|].
    intros [K|K]; [congruence|now apply IH'].
Qed.
Lemma last_index_none c s : last_index c s = None -> ~ In c s.
Proof.
  induction s as [|y s IH]; cbn [last_index]; intros E; [intros []|].
  destruct (last_index c s); [discriminate|]. destruct (N.eqb_spec y c); [discriminate|].
  intros [K|K]; [congruence|now apply IH].
Qed.
Lemma last_index_app a c b : ~ In c b -> last_index c (a ++ c :: b) = Some (length a).
Proof.
  intros H. induction a as [|x a IH]; cbn [app last_index length]; [|now rewrite IH].
  assert (E : last_index c b = None); [|now rewrite E, N.eqb_refl].
  destruct (last_index c b) eqn:E; [|reflexivity]. apply last_index_some in E. destruct E as [E _]. exfalso. apply H.
  rewrite E. apply in_or_app. right. now left.
Qed.
Lemma last_index_not_in c s : ~ In c s -> last_index c s = None.
Proof.
  intros H. destruct (last_index c s) eqn:E; [|reflexivity]. apply last_index_some in E. destruct E as [E _]. exfalso. apply H.
  rewrite E. apply in_or_app. right. now left.
Qed.
Lemma first_index_some c s i : first_index c s = Some i ->
  s = firstn i s ++ c :: skipn (S i) s /\ ~ In c (firstn i s).
Proof.
  revert i. induction s as [|x s IH]; intros i; cbn [first_index]; [discriminate|].
  destruct (N.eqb_spec x c) as [->|Ne].
  - intros [= <-]. cbn. split; [reflexivity|intros []].
  - destruct (first_index c s) as [j|]; [|discriminate]. intros [= <-]. destruct (IH j eq_refl) as [H1 H2].
    cbn [firstn skipn app]. split; [now f_equal|]. intros [K|K]; [congruence|now apply H2].
Qed.
Lemma first_index_none c s : first_index c s = None -> ~ In c s.
Proof.
  induction s as [|x s IH]; cbn [first_index]; intros E; [intros []|].
  destruct (N.eqb_spec x c); [discriminate|]. destruct (first_index c s); [discriminate|].
  intros [K|K]; [congruence|now apply IH].
Qed.

(** ** Walking *)

Lemma steps_app st a b : steps st (a ++ 47 :: b) = steps (steps st a) b.
Proof. unfold steps. now rewrite parts_app, fold_left_app. Qed.
Lemma steps_nil st : steps st [] = st.
Proof. reflexivity. Qed.
Lemma steps_slash st b : steps st (47 :: b) = steps st b.
Proof. exact (steps_app st [] b). Qed.
Lemma steps_name st n : ~ In 47 n -> steps st n = step st n.
Proof. intros H. unfold steps. now rewrite parts_name. Qed.
Lemma step_proper st n : proper n -> step st n = n :: st.
Proof.
  intros (H1 & H2 & H3 & _). unfold step.
  destruct (str_eqb n []) eqn:E1; [apply str_eqb_eq in E1; congruence|].
  destruct (str_eqb n [46]) eqn:E2; [apply str_eqb_eq in E2; congruence|].
  destruct (str_eqb n [46; 46]) eqn:E3; [apply str_eqb_eq in E3; congruence|]. reflexivity.
Qed.
Lemma fold_proper st ns : Forall proper ns -> fold_left step ns st = rev ns ++ st.
Proof.
  intros F. revert st. induction F as [|n ns Hn F IH]; intros st; [reflexivity|]. cbn [fold_left rev].
  rewrite step_proper by exact Hn. rewrite IH, <- app_assoc. reflexivity.
Qed.
Lemma parts_abs ns : Forall proper ns -> parts (flat_map (cons 47) ns) = [] :: ns.
Proof.
  induction 1 as [|n ns (_ & _ & _ & Hn) F IH]; [reflexivity|]. cbn [flat_map].
  change ((47 :: n) ++ flat_map (cons 47) ns) with (47 :: (n ++ flat_map (cons 47) ns)). rewrite parts_cons. cbn [N.eqb Pos.eqb].
  f_equal. destruct ns as [|m ns]; [cbn; rewrite app_nil_r; now apply parts_name|].
  cbn [flat_map] in IH |- *. change (n ++ (47 :: m) ++ flat_map (cons 47) ns) with (n ++ 47 :: (m ++ flat_map (cons 47) ns)).
  change ((47 :: m) ++ flat_map (cons 47) ns) with (47 :: (m ++ flat_map (cons 47) ns)) in IH. rewrite parts_cons in IH.
  cbn [N.eqb Pos.eqb] in IH. injection IH as IH. rewrite parts_app, IH. now rewrite (parts_name n Hn).
Qed.
Lemma steps_abs st ns : Forall proper ns -> steps st (flat_map (cons 47) ns) = rev ns ++ st.
Proof. intros F. unfold steps. rewrite parts_abs by exact F. cbn [fold_left]. now apply fold_proper. Qed.
Lemma go_abs st ns : Forall proper ns -> go st (abs_path ns) = rev ns.
Proof.
  intros F. destruct ns as [|n ns]; [reflexivity|]. unfold abs_path. cbn [flat_map app go].
  change (steps [] (flat_map (cons 47) (n :: ns)) = rev (n :: ns)). rewrite steps_abs by exact F. apply app_nil_r.
Qed.

Lemma go_absolute st p : begins_with_slash p = true -> go st p = steps [] p.
Proof. destruct p as [|c p]; cbn; [discriminate|]. intros H. apply N.eqb_eq in H. now subst. Qed.
Lemma go_relative st p : begins_with_slash p = false -> go st p = steps st p.
Proof.
  destruct p as [|c p]; cbn; [reflexivity|]. intros H. apply N.eqb_neq in H.
  destruct c as [|c]; [reflexivity|]. do 6 (destruct c as [c|c|]; try reflexivity). exfalso; apply H; reflexivity.
Qed.

(** ** Cleaning *)

Definition fold_steps (l : list str) (st : place) : place := fold_left step l st.

Lemma step_skip st x : str_eqb x [] || str_eqb x dot = true -> step st x = st.
Proof. intros E. unfold step. now change [46] with dot; rewrite E. Qed.
Lemma step_up st x : str_eqb x dotdot = true -> step st x = tl st.
Proof. intros E. apply str_eqb_eq in E. subst. reflexivity. Qed.
Lemma step_name st x : str_eqb x [] || str_eqb x dot = false -> str_eqb x dotdot = false -> step st x = x :: st.
Proof. intros E1 E2. unfold step. change [46; 46] with dotdot. change [46] with dot. now rewrite E1, E2. Qed.

Lemma clean_sections_walk rs up out st :
  fold_left step (clean_sections rs up out) st = fold_left step (rev rs ++ repeat dotdot up ++ out) st.
Proof.
  revert up out. induction rs as [|x rs IH]; intros up out; [reflexivity|]. cbn [clean_sections rev].
  rewrite <- app_assoc. cbn [app]. destruct (str_eqb x [] || str_eqb x dot) eqn:E1.
  - rewrite IH, !fold_left_app. cbn [fold_left]. rewrite step_skip by exact E1. now rewrite fold_left_app.
  - destruct (str_eqb x dotdot) eqn:E2.
    + rewrite IH. apply str_eqb_eq in E2. subst. reflexivity.
    + destruct up as [|up]; rewrite IH; [reflexivity|]. rewrite !fold_left_app. cbn [repeat app fold_left].
      rewrite (step_name _ x E1 E2). change (step ?s dotdot) with (tl s). cbn [tl]. now rewrite fold_left_app.
Qed.

(** Double dots in front, then proper names. *)
Lemma clean_sections_shape rs up out : Forall (fun n => ~ In 47 n) rs -> Forall proper out ->
  exists u names, clean_sections rs up out = repeat dotdot u ++ names /\ Forall proper names.
Proof.
  intros F. revert up out. induction F as [|x rs Hx F IH]; intros up out Ho; cbn [clean_sections]; [eauto|].
  destruct (str_eqb x [] || str_eqb x dot) eqn:E1; [now apply IH|].
  destruct (str_eqb x dotdot) eqn:E2; [now apply IH|]. destruct up as [|up]; [|now apply IH]. apply IH.
  constructor; [|exact Ho]. apply orb_false_iff in E1. destruct E1 as [E0 E1].
  apply str_eqb_neq in E0, E1, E2. now repeat split.
Qed.

Lemma proper_no_slash names : Forall proper names -> Forall (fun n => ~ In 47 n) names.
Proof. apply Forall_impl. now intros n (_ & _ & _ & H). Qed.
Lemma dots_no_slash u names : Forall proper names -> Forall (fun n => ~ In 47 n) (repeat dotdot u ++ names).
Proof.
  intros F. apply Forall_app. split; [|now apply proper_no_slash].
  rewrite Forall_forall. intros n H. apply repeat_spec in H. subst. cbn. intuition discriminate.
Qed.

Lemma rev_parts_no_slash p : Forall (fun n => ~ In 47 n) (rev (parts p)).
Proof. apply Forall_rev, parts_no_slash. Qed.

Lemma clean_absolute p : begins_with_slash p = true ->
  exists u names, Forall proper names /\ clean_path p = 47 :: join_slash (repeat dotdot u ++ names)
                  /\ (forall st, fold_left step (repeat dotdot u ++ names) st = steps st p).
Proof.
  intros B. destruct p as [|c p]; [discriminate|]. unfold clean_path. rewrite B.
  destruct (clean_sections_shape (rev (parts (c :: p))) 0 [] (rev_parts_no_slash _) (Forall_nil _)) as (u & names & E & F).
  exists u, names. split; [exact F|]. rewrite sections_parts, E. split; [reflexivity|].
  intros st. rewrite <- E, clean_sections_walk. cbn [repeat app]. now rewrite app_nil_r, rev_involutive.
Qed.
Lemma clean_relative p : begins_with_slash p = false -> p <> [] ->
  exists u names, Forall proper names
    /\ clean_path p = (match repeat dotdot u ++ names with [] => dot | l => join_slash l end)
    /\ (forall st, fold_left step (repeat dotdot u ++ names) st = steps st p).
Proof.
  intros B Hp. destruct p as [|c p]; [congruence|]. unfold clean_path. rewrite B.
  destruct (clean_sections_shape (rev (parts (c :: p))) 0 [] (rev_parts_no_slash _) (Forall_nil _)) as (u & names & E & F).
  exists u, names. split; [exact F|]. rewrite sections_parts, E. split; [destruct (repeat dotdot u ++ names); reflexivity|].
  intros st. rewrite <- E, clean_sections_walk. cbn [repeat app]. now rewrite app_nil_r, rev_involutive.
Qed.

Lemma steps_join st l : Forall (fun n => ~ In 47 n) l -> steps st (join_slash l) = fold_left step l st.
Proof. intros F. destruct l as [|x l]; [reflexivity|]. unfold steps. now rewrite parts_join. Qed.

Lemma join_not_slash u names : Forall proper names -> begins_with_slash (join_slash (repeat dotdot u ++ names)) = false.
Proof.
  intros F. destruct u as [|u].
  - cbn [repeat app]. destruct F as [|n ns (H1 & _ & _ & H4) F]; [reflexivity|].
    destruct n as [|c n]; [congruence|]. assert (E : (c =? slash) = false) by (apply N.eqb_neq; intros ->; apply H4; now left).
    destruct ns; exact E.
  - cbn [repeat app]. destruct (repeat dotdot u ++ names); reflexivity.
Qed.

(** ** Theorems: paths *)

(** C28.  Cleaning a path changes the way, not the place. *)
Theorem clean_same_place st p : go st (clean_path p) = go st p.
Proof.
  destruct (begins_with_slash p) eqn:B.
  - destruct (clean_absolute p B) as (u & names & F & E & W). rewrite E, (go_absolute st p B).
    rewrite go_absolute by reflexivity. rewrite steps_slash, steps_join by (now apply dots_no_slash). apply W.
  - destruct p as [|c p]; [reflexivity|].
    destruct (clean_relative (c :: p) B ltac:(discriminate)) as (u & names & F & E & W). rewrite E, (go_relative st _ B), <- W.
    pose proof (join_not_slash u names F) as J. pose proof (dots_no_slash u names F) as D.
    destruct (repeat dotdot u ++ names) as [|x l]; [reflexivity|]. rewrite go_relative by exact J. now apply steps_join.
Qed.

(** The result has no detours: only proper names, after double dots that lead out of where one starts; it is relative exactly if the
    path was. *)
Theorem clean_has_no_detours p : p <> [] ->
  begins_with_slash (clean_path p) = begins_with_slash p
  /\ (clean_path p = dot
      \/ exists u names, Forall proper names
           /\ clean_path p = (if begins_with_slash p then [47] else []) ++ join_slash (repeat dotdot u ++ names)).
Proof.
  intros Hp. destruct (begins_with_slash p) eqn:B.
  - destruct (clean_absolute p B) as (u & names & F & E & W). rewrite E. split; [reflexivity|]. right. now exists u, names.
  - destruct (clean_relative p B Hp) as (u & names & F & E & W). rewrite E.
    pose proof (join_not_slash u names F) as J.
    destruct (repeat dotdot u ++ names) as [|x l] eqn:Q; [split; [reflexivity|now left]|].
    split; [exact J|]. right. exists u, names. split; [exact F|]. now rewrite Q.
Qed.

Lemma clean_sections_normal u names : Forall proper names ->
  clean_sections (rev (repeat dotdot u ++ names)) 0 [] = repeat dotdot u ++ names.
Proof.
  intros F. rewrite rev_app_distr.
  assert (G : forall l out, Forall proper l -> clean_sections (l ++ rev (repeat dotdot u)) 0 out = repeat dotdot u ++ rev l ++ out).
  { induction l as [|x l IH]; intros out Fl.
    - cbn [app rev]. assert (R : forall k v o, clean_sections (rev (repeat dotdot k)) v o = repeat dotdot (k + v) ++ o).
      { intros k. assert (Q : rev (repeat dotdot k) = repeat dotdot k).
        { induction k as [|k IHk]; [reflexivity|]. cbn [repeat rev]. rewrite IHk. symmetry. apply repeat_cons. }
        rewrite Q. clear Q. induction k as [|k IHk]; intros v o; [reflexivity|]. cbn [repeat clean_sections].
        change (str_eqb dotdot [] || str_eqb dotdot dot) with false. change (str_eqb dotdot dotdot) with true. cbn iota.
        rewrite IHk. now rewrite Nat.add_succ_r. }
      rewrite R. now rewrite Nat.add_0_r.
    - inversion Fl as [|? ? (H1 & H2 & H3 & _) Fl']; subst. cbn [app clean_sections rev].
      destruct (str_eqb x []) eqn:E0; [apply str_eqb_eq in E0; congruence|].
      destruct (str_eqb x dot) eqn:E1; [apply str_eqb_eq in E1; now destruct (H2 E1)|].
      destruct (str_eqb x dotdot) eqn:E2; [apply str_eqb_eq in E2; now destruct (H3 E2)|]. cbn [orb].
      rewrite IH by exact Fl'. rewrite <- !app_assoc. reflexivity. }
  rewrite G by (now apply Forall_rev). now rewrite rev_involutive, app_nil_r.
Qed.

(** Cleaning twice is cleaning once. *)
Theorem clean_idempotent p : clean_path (clean_path p) = clean_path p.
Proof.
  destruct p as [|c p]; [reflexivity|]. destruct (begins_with_slash (c :: p)) eqn:B.
  - destruct (clean_absolute (c :: p) B) as (u & names & F & E & _). rewrite E.
    unfold clean_path at 1. rewrite sections_parts. cbn [begins_with_slash]. rewrite parts_cons. cbn [N.eqb Pos.eqb slash].
    f_equal. f_equal. cbn [rev]. pose proof (clean_sections_normal u names F) as K. pose proof (dots_no_slash u names F) as D.
    destruct (repeat dotdot u ++ names) as [|x l] eqn:Q; [reflexivity|]. rewrite parts_join by (discriminate || exact D).
    rewrite <- K at 2. generalize (rev (x :: l)). clear. intros l.
    enough (G : forall up out, clean_sections (l ++ [[]]) up out = clean_sections l up out) by apply G.
    induction l as [|y l IH]; intros up out; [reflexivity|]. cbn [app clean_sections].
    destruct (str_eqb y [] || str_eqb y dot); [apply IH|]. destruct (str_eqb y dotdot); [apply IH|]. destruct up; apply IH.
  - destruct (clean_relative (c :: p) B ltac:(discriminate)) as (u & names & F & E & _). rewrite E.
    pose proof (clean_sections_normal u names F) as K. pose proof (dots_no_slash u names F) as D.
    pose proof (join_not_slash u names F) as J.
    destruct (repeat dotdot u ++ names) as [|x l] eqn:Q; [reflexivity|].
    destruct (join_slash (x :: l)) as [|c0 r] eqn:Ej.
    + exfalso. pose proof (parts_join (x :: l) ltac:(discriminate) D) as P. rewrite Ej in P. cbn in P. injection P as <- <-.
      destruct u as [|u]; [|discriminate]. cbn in Q. subst. inversion F as [|? ? (H & _) _]. congruence.
    + unfold clean_path. rewrite J. rewrite sections_parts, <- Ej, parts_join by (discriminate || exact D). now rewrite K.
Qed.

(** The directory and the file name together are the path. *)
Theorem split_recomposes p :
  match split_dir p with
  | (d, f) => ~ In 47 f /\ f = file_name p /\ (p = d ++ 47 :: f \/ (p = f /\ d = []))
  end.
Proof.
  unfold split_dir, file_name. destruct (last_index slash p) as [i|] eqn:E.
  - apply last_index_some in E. destruct E as [E1 E2]. split; [exact E2|]. split; [reflexivity|]. now left.
  - apply last_index_none in E. split; [exact E|]. split; [reflexivity|]. now right.
Qed.

(** Going to the directory of a file and then to the file of that name leads to the file. *)
Theorem path_and_name st p : p <> [] -> step (go st (path Unix p)) (file_name p) = go st p.
Proof.
  intros Hp. unfold path, file_name. destruct p as [|c p]; [congruence|].
  destruct (last_index slash (c :: p)) as [i|] eqn:E.
  - apply last_index_some in E. destruct E as [E1 E2].
    set (d := firstn i (c :: p)) in *. set (f := skipn (S i) (c :: p)) in *.
    assert (G : go st (c :: p) = step (if begins_with_slash (c :: p) then steps [] d else steps st d) f).
    { destruct (begins_with_slash (c :: p)) eqn:B; rewrite ?(go_absolute _ _ B), ?(go_relative _ _ B), E1, steps_app;
        now apply steps_name. }
    rewrite G. f_equal.
    destruct (clean_path d) as [|x y] eqn:C.
    + assert (Hd : d = []).
      { destruct d as [|d0 d']; [reflexivity|]. exfalso. unfold clean_path in C. destruct (begins_with_slash (d0 :: d')) eqn:B; [discriminate|].
        destruct (clean_relative (d0 :: d') B ltac:(discriminate)) as (u & names & F & E & _).
        unfold clean_path in E. rewrite B in E. rewrite C in E. destruct (repeat dotdot u ++ names) as [|n l] eqn:Q; [discriminate|].
        pose proof (dots_no_slash u names F) as D. rewrite Q in D.
        pose proof (parts_join (n :: l) ltac:(discriminate) D) as P. rewrite <- E in P. cbn in P. injection P as <- <-.
        destruct u as [|u]; [|discriminate]. cbn in Q. subst. inversion F as [|? ? (H & _) _]. congruence. }
      rewrite Hd in E1 |- *. cbn [app] in E1. rewrite E1. cbn [begins_with_slash]. reflexivity.
    + rewrite <- C, clean_same_place. assert (Hd : d <> []) by (intros Hd; rewrite Hd in C; discriminate).
      assert (B : begins_with_slash (c :: p) = begins_with_slash d).
      { rewrite E1. destruct d; [congruence|reflexivity]. }
      rewrite B. destruct (begins_with_slash d) eqn:B'; [now apply go_absolute|now apply go_relative].
  - apply last_index_none in E.
    assert (B : begins_with_slash (c :: p) = false) by (cbn; apply N.eqb_neq; intros ->; apply E; now left).
    rewrite (go_relative _ _ B). rewrite steps_name by exact E. reflexivity.
Qed.

(** The directory of a file has a name that can be used on its own: it is not empty, and on Windows not a
    drive without the slash after it, which would mean the current directory of that drive.  The file
    name has no slash left in it. *)
Theorem path_usable o p : p <> [] ->
  path o p <> [] /\ (o = Windows -> is_drive (path o p) = false) /\ ~ In slash (file_name p).
Proof.
  intros Hp. unfold path, file_name. destruct p as [|c p]; [congruence|].
  destruct (last_index slash (c :: p)) as [i|] eqn:E.
  - apply last_index_some in E. split; [|split; [|exact (proj2 E)]].
    + destruct (clean_path (firstn i (c :: p))) as [|x y]; [discriminate|].
      destruct o; [discriminate|]. destruct (is_drive (x :: y)); discriminate.
    + intros ->. destruct (clean_path (firstn i (c :: p))) as [|x y] eqn:C; [reflexivity|].
      destruct (is_drive (x :: y)) eqn:D; [|exact D].
      destruct y as [|z [|w y]]; try discriminate. reflexivity.
  - apply last_index_none in E. split; [discriminate|]. split; [|exact E]. intros _. reflexivity.
Qed.

(** The file name is the base name and the complete suffix, or the complete base name and the suffix, with a dot in between.
    Without a dot, all of them are the whole name. *)
Theorem names_recompose p :
  (In 46 (file_name p) ->
   file_name p = base_name p ++ 46 :: complete_suffix p /\ ~ In 46 (base_name p)
   /\ file_name p = complete_base_name p ++ 46 :: suffix p /\ ~ In 46 (suffix p))
  /\ (~ In 46 (file_name p) ->
      base_name p = file_name p /\ complete_base_name p = file_name p
      /\ suffix p = file_name p /\ complete_suffix p = file_name p).
Proof.
  unfold base_name, complete_suffix, complete_base_name, suffix. set (f := file_name p). clearbody f. split; intros H.
  - destruct (first_index 46 f) as [i|] eqn:E1; [|apply first_index_none in E1; contradiction].
    destruct (last_index 46 f) as [j|] eqn:E2; [|apply last_index_none in E2; contradiction].
    apply first_index_some in E1. apply last_index_some in E2. tauto.
  - destruct (first_index 46 f) as [i|] eqn:E1.
    + exfalso. apply first_index_some in E1. destruct E1 as [E1 _]. apply H. rewrite E1. apply in_or_app. right. now left.
    + rewrite last_index_not_in by exact H. tauto.
Qed.

(** A file without a dot in its name has a suffix: its whole name. *)
Theorem suffix_without_dot_refuted : exists p, ~ In 46 p /\ suffix p <> [].
Proof. exists [77; 97]. split; [cbn; intuition discriminate|discriminate]. Qed.

(** ** Theorems: resolving *)

Lemma removelast_snoc {A} (l : list A) x : removelast (l ++ [x]) = l.
Proof. apply removelast_last. Qed.
Lemma flat_map_snoc ns n : flat_map (cons 47) (ns ++ [n]) = flat_map (cons 47) ns ++ 47 :: n.
Proof. rewrite flat_map_app. cbn. now rewrite app_nil_r. Qed.

Lemma truncate_abs ns : Forall proper ns -> truncate_last (flat_map (cons 47) ns) = flat_map (cons 47) (removelast ns).
Proof.
  intros F. destruct ns as [|n ns] using rev_ind; [reflexivity|]. clear IHns.
  apply Forall_app in F. destruct F as [_ F]. inversion F as [|? ? (_ & _ & _ & H) _]; subst.
  rewrite removelast_snoc, flat_map_snoc. unfold truncate_last. change slash with 47. rewrite last_index_app by exact H.
  now rewrite firstn_app, Nat.sub_diag, firstn_all, app_nil_r.
Qed.
Lemma removelast_proper ns : Forall proper ns -> Forall proper (removelast ns).
Proof.
  intros F. destruct ns as [|n ns] using rev_ind; [constructor|]. rewrite removelast_snoc. now apply Forall_app in F.
Qed.
Lemma rev_removelast (ns : list str) : rev (removelast ns) = tl (rev ns).
Proof.
  destruct ns as [|n ns] using rev_ind; [reflexivity|]. now rewrite removelast_snoc, rev_app_distr.
Qed.

Lemma up_steps_walk s ns : Forall proper ns ->
  exists ns' s', up_steps (flat_map (cons 47) ns) s = (flat_map (cons 47) ns', s') /\ Forall proper ns'
                 /\ steps (rev ns') s' = steps (rev ns) s.
Proof.
  remember (length s) as k eqn:Hk. assert (Hk' : (length s <= k)%nat) by lia. clear Hk. revert s ns Hk'.
  induction k as [|k IH]; intros s ns Hk F.
  - destruct s; [|cbn in Hk; lia]. exists ns, []. now repeat split.
  - destruct s as [|a [|b [|c s]]]; try (eexists ns, _; now repeat split). cbn [up_steps].
    destruct ((a =? 46) && (b =? 46) && (c =? slash)) eqn:E; [|exists ns, (a :: b :: c :: s); now repeat split].
    apply andb_prop in E. destruct E as [E E3]. apply andb_prop in E. destruct E as [E1 E2].
    apply N.eqb_eq in E1, E2, E3. subst. rewrite truncate_abs by exact F.
    destruct (IH s (removelast ns)) as (ns' & s' & H1 & H2 & H3); [cbn in Hk; lia|now apply removelast_proper|].
    exists ns', s'. split; [exact H1|]. split; [exact H2|]. rewrite H3, rev_removelast.
    change (46 :: 46 :: slash :: s) with ([46; 46] ++ 47 :: s). rewrite steps_app. reflexivity.
Qed.

Definition home_relative (rel : str) : bool := str_eqb rel [126] || starts_with [126; 47] rel.

(** A base directory as it is usually written, perhaps with a slash at the end. *)
Definition written (base : str) (ns : list str) : Prop :=
  Forall proper ns /\ (base = abs_path ns \/ base = abs_path ns ++ [47]).

Lemma written_absolute o base ns : written base ns -> is_absolute o base = true.
Proof. intros [_ [->| ->]]; destruct ns; reflexivity. Qed.

Lemma ends_with_slash_snoc p c : ends_with_slash (p ++ [c]) = (c =? slash).
Proof. unfold ends_with_slash. now rewrite rev_app_distr. Qed.

Lemma abs_no_slash_end n ns : Forall proper (n :: ns) -> ends_with_slash (abs_path (n :: ns)) = false.
Proof.
  intros F. unfold abs_path. change (ends_with_slash (flat_map (cons 47) (n :: ns)) = false).
  destruct (exists_last (l := n :: ns) ltac:(discriminate)) as (l & x & E). rewrite E in *. rewrite flat_map_snoc.
  apply Forall_app in F. destruct F as [_ F]. inversion F as [|? ? (H1 & _ & _ & H) _]; subst.
  destruct (exists_last (l := x) H1) as (y & c & Q). rewrite Q in *.
  replace (flat_map (cons 47) l ++ 47 :: y ++ [c]) with ((flat_map (cons 47) l ++ 47 :: y) ++ [c]) by (now rewrite <- app_assoc).
  rewrite ends_with_slash_snoc. apply N.eqb_neq. intros ->. apply H. apply in_or_app. right. now left.
Qed.

Lemma chop_written base ns : written base ns -> base <> [47; 47] ->
  (if ends_with_slash base then chop base else base) = flat_map (cons 47) ns.
Proof.
  intros [F [->| ->]] Hb.
  - destruct ns as [|n ns]; [reflexivity|]. rewrite abs_no_slash_end by exact F. reflexivity.
  - rewrite ends_with_slash_snoc. cbn [N.eqb Pos.eqb slash]. unfold chop. rewrite removelast_snoc.
    destruct ns as [|n ns]; [exfalso; now apply Hb|reflexivity].
Qed.

Lemma drive_not_abs ns : is_drive (flat_map (cons 47) ns) = false.
Proof. destruct ns as [|n ns]; [reflexivity|]. cbn. destruct (n ++ flat_map (cons 47) ns) as [|a [|b l]]; reflexivity. Qed.

(** An absolute path is not affected by the base. *)
Theorem resolve_absolute o home base rel :
  is_absolute o base = true -> is_absolute o rel = true -> is_current_drive o rel = false -> resolve_path o home base rel = rel.
Proof. intros H1 H2 H3. unfold resolve_path. now rewrite H1, H2, H3. Qed.

(** C28.  Resolving a relative path is walking along it from the base directory. *)
Theorem resolve_walks home base ns rel :
  written base ns -> base <> [47; 47] -> is_absolute Unix rel = false -> home_relative rel = false ->
  steps [] (resolve_path Unix home base rel) = steps (rev ns) rel.
Proof.
  intros W Hb Ha Hh. unfold resolve_path. rewrite (written_absolute _ _ _ W). cbn [is_current_drive negb andb]. rewrite Ha.
  apply orb_false_iff in Hh. destruct Hh as [Hh1 Hh2]. destruct (str_eqb rel dot) eqn:Ed.
  - apply str_eqb_eq in Ed. subst. destruct W as [F [->| ->]].
    + rewrite <- (go_abs [] ns F). destruct ns; reflexivity.
    + rewrite steps_app, steps_nil. rewrite <- (go_abs [] ns F). destruct ns; reflexivity.
  - rewrite Hh1. change slash with 47. rewrite Hh2. rewrite (chop_written base ns W Hb). destruct W as [F _].
    destruct (up_steps_walk rel ns F) as (ns' & s' & E & F' & S'). rewrite E, <- S'. clear E S'.
    destruct (str_eqb s' dotdot) eqn:Es.
    + apply str_eqb_eq in Es. subst. cbn [str_eqb negb orb]. rewrite truncate_abs by exact F'.
      rewrite steps_abs by (now apply removelast_proper). rewrite app_nil_r, rev_removelast. reflexivity.
    + destruct (str_eqb s' []) eqn:Ee.
      * apply str_eqb_eq in Ee. subst. cbn [negb orb]. rewrite steps_abs by exact F'. now rewrite app_nil_r.
      * cbn [negb orb]. rewrite steps_app, steps_abs by exact F'. now rewrite app_nil_r.
Qed.

(** The result is absolute, unless the place is the root. *)
Theorem resolve_is_absolute home base ns rel :
  written base ns -> base <> [47; 47] -> is_absolute Unix rel = false -> home_relative rel = false ->
  steps (rev ns) rel <> [] -> is_absolute Unix (resolve_path Unix home base rel) = true.
Proof.
  intros W Hb Ha Hh Hr. rewrite <- (resolve_walks home base ns rel W Hb Ha Hh) in Hr.
  unfold resolve_path in *. rewrite (written_absolute _ _ _ W) in *. cbn [is_current_drive negb andb] in *. rewrite Ha in *.
  apply orb_false_iff in Hh. destruct Hh as [Hh1 Hh2]. destruct (str_eqb rel dot) eqn:Ed; [now apply (written_absolute Unix base ns)|].
  rewrite Hh1 in *. change slash with 47 in *. rewrite Hh2 in *. rewrite (chop_written base ns W Hb) in *. destruct W as [F _].
  destruct (up_steps_walk rel ns F) as (ns' & s' & E & F' & S'). rewrite E in *.
  assert (A : forall l t, is_absolute Unix (flat_map (cons 47) l ++ 47 :: t) = true) by (intros l t; destruct l; reflexivity).
  assert (A' : forall l, steps [] (flat_map (cons 47) l) <> [] -> is_absolute Unix (flat_map (cons 47) l) = true)
    by (intros l; destruct l; [intros K; now destruct K|reflexivity]).
  destruct (str_eqb s' dotdot) eqn:Es.
  - cbn [str_eqb negb orb] in *. rewrite truncate_abs in * by exact F'. now apply A'.
  - destruct (negb (str_eqb s' []) || false); [apply A|]. now apply A'.
Qed.

(** The parent of a top-level directory comes out as the empty string, which is not an absolute path. *)
Theorem resolve_root_refuted : exists home base rel,
  is_absolute Unix base = true /\ is_absolute Unix rel = false /\ is_absolute Unix (resolve_path Unix home base rel) = false.
Proof. exists [], [47; 97], [46; 46]. repeat split. Qed.

(** The base has to be free of detours: here the parent of a//  is a itself. *)
Theorem resolve_untidy_refuted : exists home base rel,
  is_absolute Unix base = true /\ is_absolute Unix rel = false /\ home_relative rel = false
  /\ steps [] (resolve_path Unix home base rel) <> steps (steps [] base) rel.
Proof. exists [], [47; 97; 47; 47], [46; 46; 47; 98]. repeat split. vm_compute. discriminate. Qed.

(** Windows: below a drive everything is as below the Unix root, except that the drive itself is written with a slash. *)
Theorem resolve_drive home letter ns rel :
  is_letter letter = true -> Forall proper ns -> is_absolute Windows rel = false -> is_current_drive Windows rel = false ->
  rel <> dot -> home_relative rel = false ->
  resolve_path Windows home (letter :: 58 :: abs_path ns) rel
  = letter :: 58 :: match resolve_path Unix home (abs_path ns) rel with [] => [47] | p => p end.
Proof.
  intros Hl F Ha Hd Hdot Hh. apply orb_false_iff in Hh. destruct Hh as [Hh1 Hh2].
  assert (Ed : str_eqb rel dot = false) by (now apply str_eqb_neq).
  assert (Ha' : is_absolute Unix rel = false).
  { destruct rel as [|a r]; [reflexivity|]. cbn in Ha |- *. apply orb_false_iff in Ha. destruct Ha as [-> _]. reflexivity. }
  assert (B1 : is_absolute Windows (letter :: 58 :: abs_path ns) = true).
  { cbn. rewrite Hl. destruct ns; cbn; now rewrite !orb_true_r. }
  assert (B2 : is_absolute Unix (abs_path ns) = true) by (destruct ns; reflexivity).
  unfold resolve_path. rewrite B1, B2, Ha, Ha', Hd, Ed, Hh1. change slash with 47. rewrite Hh2. cbn [is_current_drive negb andb].
  assert (C : (if ends_with_slash (letter :: 58 :: abs_path ns) then chop (letter :: 58 :: abs_path ns) else letter :: 58 :: abs_path ns)
              = letter :: 58 :: flat_map (cons 47) ns).
  { destruct ns as [|n ns]; [reflexivity|].
    assert (Q : ends_with_slash (letter :: 58 :: abs_path (n :: ns)) = ends_with_slash (abs_path (n :: ns))).
    { unfold ends_with_slash. cbn [rev]. rewrite <- app_assoc. destruct (rev (abs_path (n :: ns))) as [|x l] eqn:E; [|reflexivity].
      apply (f_equal (@rev N)) in E. rewrite rev_involutive in E. discriminate. }
    rewrite Q, abs_no_slash_end by exact F. reflexivity. }
  rewrite C. rewrite (chop_written (abs_path ns) ns).
  2:{ split; [exact F|now left]. }
  2:{ destruct ns as [|[|x n] ns]; [discriminate|inversion F as [|? ? (K & _) _]; congruence|].
      inversion F as [|? ? (_ & _ & _ & K) _]; subst. intros Q. injection Q as Q _. apply K. left. now symmetry. }
  assert (Tr : forall l, Forall proper l -> truncate_last (letter :: 58 :: flat_map (cons 47) l) = letter :: 58 :: truncate_last (flat_map (cons 47) l)).
  { intros l Fl. rewrite truncate_abs by exact Fl. destruct l as [|x l] using rev_ind.
    - unfold truncate_last. cbn [flat_map last_index removelast].
      assert (E1 : (letter =? slash) = false).
      { apply N.eqb_neq. intros ->. vm_compute in Hl. discriminate. }
      now rewrite E1.
    - clear IHl. apply Forall_app in Fl. destruct Fl as [_ Fl]. inversion Fl as [|? ? (_ & _ & _ & H) _]; subst.
      rewrite removelast_snoc, flat_map_snoc. unfold truncate_last. change slash with 47.
      change (letter :: 58 :: flat_map (cons 47) l ++ 47 :: x) with ((letter :: 58 :: flat_map (cons 47) l) ++ 47 :: x).
      rewrite last_index_app by exact H. now rewrite firstn_app, Nat.sub_diag, firstn_all, app_nil_r. }
  assert (U : forall s l, Forall proper l -> exists l' s', Forall proper l'
     /\ up_steps (flat_map (cons 47) l) s = (flat_map (cons 47) l', s')
     /\ up_steps (letter :: 58 :: flat_map (cons 47) l) s = (letter :: 58 :: flat_map (cons 47) l', s')).
  { intros s. remember (length s) as k eqn:Hk. assert (Hk' : (length s <= k)%nat) by lia. clear Hk. revert s Hk'.
    induction k as [|k IH]; intros s Hk l Fl.
    - destruct s; [|cbn in Hk; lia]. exists l, []. now repeat split.
    - destruct s as [|a [|b [|c s]]]; try (eexists l, _; now repeat split). cbn [up_steps].
      destruct ((a =? 46) && (b =? 46) && (c =? slash)); [|exists l, (a :: b :: c :: s); now repeat split].
      rewrite Tr by exact Fl. rewrite truncate_abs by exact Fl. apply IH; [cbn in Hk; lia|now apply removelast_proper]. }
  destruct (U rel ns F) as (l' & s' & Fl' & E1 & E2). rewrite E1, E2.
  assert (D0 : forall l, is_drive (letter :: 58 :: flat_map (cons 47) l) = match l with [] => true | _ => false end).
  { intros [|x l]; [cbn; now rewrite Hl|reflexivity]. }
  destruct (str_eqb s' dotdot).
  - rewrite Tr by exact Fl'. rewrite truncate_abs by exact Fl'. cbn [str_eqb negb orb]. rewrite D0.
    destruct (removelast l'); reflexivity.
  - rewrite D0. destruct (str_eqb s' []) eqn:Es; cbn [negb orb].
    + apply str_eqb_eq in Es. subst. destruct l'; reflexivity.
    + destruct l'; reflexivity.
Qed.

(** Joining paths is walking along them one after the other; only the first one counts as absolute. *)
Lemma unique_walk st prev p : steps st (unique_separators prev p) = steps st p.
Proof.
  enough (G : forall prev st, steps st (unique_separators prev p) = steps st p
              /\ forall x, x <> [] -> ~ In 47 x -> prev = false -> steps st (x ++ unique_separators prev p) = steps st (x ++ p)).
  { apply G. }
  clear st prev. induction p as [|c p IH]; intros prev st; [now split|]. split.
  - cbn [unique_separators]. destruct (N.eqb_spec c slash) as [->|Ne].
    + rewrite andb_true_r. destruct prev.
      * change (slash :: p) with (47 :: p). rewrite steps_slash. apply IH.
      * change slash with 47. rewrite !steps_slash. apply IH.
    + rewrite andb_false_r. apply (proj2 (IH false st) [c]); [discriminate| |reflexivity]. cbn. intuition.
  - intros x Hx Hn ->. cbn [unique_separators andb]. destruct (N.eqb_spec c slash) as [->|Ne].
    + change slash with 47. rewrite !steps_app. apply IH.
    + change (c :: unique_separators false p) with ([c] ++ unique_separators false p). change (c :: p) with ([c] ++ p).
      rewrite !app_assoc. apply (proj2 (IH false st)); [destruct x; discriminate| |reflexivity].
      intros K. apply in_app_or in K. destruct K as [K|[K|[]]]; [now apply Hn|]. now apply Ne.
Qed.
Lemma unique_begins p : begins_with_slash (unique_separators false p) = begins_with_slash p.
Proof. destruct p; reflexivity. Qed.

Theorem join_walks st ps :
  go st (join_paths ps)
  = match filter (fun p => negb (str_eqb p [])) ps with
    | [] => st
    | p :: rest => fold_left steps rest (go st p)
    end.
Proof.
  unfold join_paths. set (l := filter _ ps). assert (N : Forall (fun p => p <> []) l).
  { unfold l. rewrite Forall_forall. intros p H. apply filter_In in H. destruct H as [_ H].
    apply negb_true_iff, str_eqb_neq in H. exact H. }
  clearbody l. destruct l as [|p rest]; [reflexivity|]. inversion N as [|? ? Np Nr]; subst.
  assert (W : forall rest p st, steps st (join_slash (p :: rest)) = fold_left steps rest (steps st p)).
  { clear. induction rest as [|q rest IH]; intros p st; [reflexivity|].
    change (join_slash (p :: q :: rest)) with (p ++ 47 :: join_slash (q :: rest)). rewrite steps_app. apply IH. }
  assert (B : begins_with_slash (join_slash (p :: rest)) = begins_with_slash p).
  { destruct p; [congruence|]. destruct rest; reflexivity. }
  destruct (begins_with_slash p) eqn:Bp.
  - rewrite go_absolute by (now rewrite unique_begins). rewrite unique_walk, W. now rewrite (go_absolute st p Bp).
  - rewrite go_relative by (now rewrite unique_begins). rewrite unique_walk, W. now rewrite (go_relative st p Bp).
Qed.

(** ** Theorems: rule outputs *)

Lemma steps_no_up st p : ~ In dotdot (parts p) -> exists names, Forall proper names /\ steps st p = names ++ st
  /\ names = rev (filter (fun n => negb (str_eqb n [] || str_eqb n dot)) (parts p)).
Proof.
  unfold steps. intros H. pose proof (parts_no_slash p) as S. revert st. induction (parts p) as [|n l IH]; intros st.
  - exists []. split; [constructor|split; reflexivity].
  - inversion S as [|? ? Sn Sl]; subst. cbn [fold_left filter]. destruct (str_eqb n [] || str_eqb n dot) eqn:E; cbn [negb].
    + rewrite step_skip by exact E. apply IH; [intros K; apply H; now right|exact Sl].
    + assert (E2 : str_eqb n dotdot = false) by (apply str_eqb_neq; intros ->; apply H; now left).
      rewrite step_name by assumption. destruct (IH ltac:(intros K; apply H; now right) Sl (n :: st)) as (names & F & Q & Qn).
      exists (names ++ [n]). split; [|split].
      * apply Forall_app. split; [exact F|]. constructor; [|constructor]. apply orb_false_iff in E. destruct E as [E0 E1].
        apply str_eqb_neq in E0, E1, E2. now repeat split.
      * rewrite Q, <- app_assoc. reflexivity.
      * cbn [rev]. now rewrite Qn.
Qed.

(** C20.  The output is strictly inside the build directory, or there is an error, whatever the path and the home directory
    are.  The build directory is an absolute path without double dots. *)
Theorem output_inside home build_dir p out :
  is_absolute Unix build_dir = true -> ~ In dotdot (parts build_dir) ->
  resolve_out home build_dir p = Some out ->
  is_absolute Unix out = true /\ inside (go [] out) (go [] build_dir).
Proof.
  intros Ha Hd. unfold resolve_out. set (q := resolve_path Unix home build_dir p). clearbody q.
  destruct (starts_with (build_dir ++ [slash]) (clean_path q)) eqn:E; [|discriminate]. intros [= <-].
  apply starts_with_spec in E. destruct E as [t E]. rewrite <- app_assoc in E. cbn [app] in E. change slash with 47 in E.
  assert (B : begins_with_slash build_dir = true).
  { destruct build_dir; [discriminate|]. cbn in Ha |- *. now rewrite orb_false_r in Ha. }
  assert (Bc : begins_with_slash (clean_path q) = true).
  { rewrite E. destruct build_dir; [discriminate|exact B]. }
  assert (Bq : begins_with_slash q = true).
  { destruct q as [|c q]; [discriminate|]. destruct (clean_has_no_detours (c :: q) ltac:(discriminate)) as [K _]. now rewrite <- K. }
  split.
  { destruct (clean_path q); [discriminate|]. cbn in Bc |- *. now rewrite Bc. }
  rewrite (go_absolute [] _ Bc), (go_absolute [] _ B).
  destruct (clean_absolute q Bq) as (u & names & F & Ec & _). pose proof (dots_no_slash u names F) as D.
  assert (P : parts (clean_path q) = [] :: match repeat dotdot u ++ names with [] => [[]] | l => l end).
  { rewrite Ec, parts_cons. cbn [N.eqb Pos.eqb]. f_equal. destruct (repeat dotdot u ++ names) as [|x l]; [reflexivity|].
    apply parts_join; [discriminate|exact D]. }
  assert (P' : parts (clean_path q) = parts build_dir ++ parts t) by (rewrite E; apply parts_app).
  rewrite E, steps_app.
  (* the first section of the build directory is empty *)
  destruct build_dir as [|c bd]; [discriminate|]. cbn in B. apply N.eqb_eq in B. subst c.
  rewrite parts_cons in P', Hd. cbn [N.eqb Pos.eqb app] in P', Hd. rewrite P in P'. injection P' as P'.
  pose proof (parts_ne bd) as Nb. pose proof (parts_ne t) as Nt.
  assert (U : u = 0%nat).
  { destruct u as [|u]; [reflexivity|]. exfalso. cbn in P'. destruct (parts bd) as [|x l]; [congruence|].
    cbn in P'. injection P' as <- _. apply Hd. right. now left. }
  subst u. cbn [repeat app] in P'.
  assert (Pn : Forall proper (parts t)).
  { destruct names as [|x l].
    - exfalso. destruct (parts bd) as [|b0 bl]; [congruence|]. cbn in P'. injection P' as _ P'.
      destruct bl; cbn in P'; [now apply Nt|discriminate].
    - rewrite P' in F. apply Forall_app in F. apply F. }
  exists (rev (parts t)). split; [|split].
  - intros K. apply (f_equal (@rev str)) in K. rewrite rev_involutive in K. now apply Nt.
  - now apply Forall_rev.
  - unfold steps at 1. now apply fold_proper.
Qed.

(** The same for what the rules declare, which is first resolved against the build directory of the product. *)
Theorem rule_output_inside home build_dir product_dir p out :
  is_absolute Unix build_dir = true -> ~ In dotdot (parts build_dir) ->
  rule_output home build_dir product_dir p = Some out ->
  is_absolute Unix out = true /\ inside (go [] out) (go [] build_dir).
Proof. intros H1 H2 H3. now apply (output_inside home build_dir (resolve_path Unix home product_dir p)). Qed.

Lemma clean_no_up p : begins_with_slash p = true -> ~ In dotdot (parts p) ->
  exists names, Forall proper names /\ steps [] p = rev names /\ clean_path p = abs_path names.
Proof.
  intros B H. destruct (clean_absolute p B) as (u & names & F & E & W).
  assert (U : u = 0%nat).
  { destruct u as [|u]; [reflexivity|]. exfalso.
    destruct (steps_no_up [[]] p H) as (l & Fl & Ql & _). specialize (W [[]]). rewrite Ql in W.
    rewrite fold_left_app in W. cbn [repeat fold_left] in W. change (step [[]] dotdot) with (@nil str) in W.
    assert (Z0 : forall k, fold_left step (repeat dotdot k) [] = []) by (induction k as [|k IHk]; [reflexivity|exact IHk]).
    rewrite Z0, fold_proper, app_nil_r in W by exact F.
    assert (In [] (rev names)) as K by (rewrite W; apply in_or_app; right; now left).
    apply in_rev in K. rewrite Forall_forall in F. destruct (F _ K) as [K' _]. congruence. }
  subst u. cbn [repeat app] in *. exists names. split; [exact F|]. split.
  - rewrite <- W, fold_proper by exact F. apply app_nil_r.
  - rewrite E. clear -F. destruct F as [|n ns Hn F]; [reflexivity|]. unfold abs_path. revert n Hn.
    induction F as [|m ns Hm F IH]; intros n Hn; [cbn; now rewrite app_nil_r|].
    change (join_slash (n :: m :: ns)) with (n ++ 47 :: join_slash (m :: ns)). rewrite (IH m Hm). reflexivity.
Qed.

Lemma abs_path_app a b : a <> [] -> abs_path (a ++ b) = abs_path a ++ flat_map (cons 47) b.
Proof. intros H. destruct a as [|x a]; [congruence|]. unfold abs_path. cbn [app]. change (x :: a ++ b) with ((x :: a) ++ b). apply flat_map_app. Qed.
Lemma join_abs n ns : 47 :: join_slash (n :: ns) = abs_path (n :: ns).
Proof.
  unfold abs_path. revert n. induction ns as [|m ns IH]; intros n; [cbn; now rewrite app_nil_r|].
  change (join_slash (n :: m :: ns)) with (n ++ 47 :: join_slash (m :: ns)). rewrite (IH m). reflexivity.
Qed.
Lemma parts_abs_path ns : Forall proper ns -> ~ In dotdot (parts (abs_path ns)).
Proof.
  intros F. destruct ns as [|n ns]; [cbn; intuition discriminate|]. unfold abs_path. rewrite parts_abs by exact F.
  intros [K|K]; [discriminate|]. rewrite Forall_forall in F. destruct (F _ K) as (_ & _ & K' & _). now apply K'.
Qed.

(** Ordinary relative paths are not refused, and end up where expected. *)
Theorem output_accepted home dirs n ns :
  dirs <> [] -> Forall proper dirs -> Forall proper (n :: ns) -> n <> [126] ->
  resolve_out home (abs_path dirs) (join_slash (n :: ns)) = Some (abs_path (dirs ++ n :: ns)).
Proof.
  intros Hd F Fn Ht. unfold resolve_out.
  assert (Ej : resolve_path Unix home (abs_path dirs) (join_slash (n :: ns)) = abs_path dirs ++ 47 :: join_slash (n :: ns)).
  { pose proof (join_not_slash 0 (n :: ns) Fn) as J. cbn [repeat app] in J.
    inversion Fn as [|? ? (N1 & N2 & N3 & N4) Fns]; subst.
    assert (Pj : parts (join_slash (n :: ns)) = n :: ns) by (apply parts_join; [discriminate|now apply proper_no_slash]).
    set (rel := join_slash (n :: ns)) in *.
    assert (Hdot : forall x, ~ In 47 x -> (x = [] \/ x = dot \/ x = dotdot \/ x = [126]) -> str_eqb rel x = false).
    { intros x Hx Hc. apply str_eqb_neq. intros K. rewrite K, parts_name in Pj by exact Hx. injection Pj as -> _.
      destruct Hc as [->|[->|[->| ->]]]; unfold dot, dotdot in *; congruence. }
    assert (Hpre : forall x t, ~ In 47 x -> (x = dotdot \/ x = [126]) -> rel <> x ++ 47 :: t).
    { intros x t Hx Hc K. rewrite K, parts_app, parts_name in Pj by exact Hx. injection Pj as -> _.
      destruct Hc as [->| ->]; unfold dot, dotdot in *; congruence. }
    unfold resolve_path. assert (B : is_absolute Unix (abs_path dirs) = true) by (destruct dirs; reflexivity). rewrite B.
    cbn [is_current_drive negb andb].
    assert (A : is_absolute Unix rel = false) by (destruct rel; [reflexivity|]; cbn in J |- *; now rewrite J). rewrite A.
    rewrite (Hdot dot) by (cbn; intuition discriminate). rewrite (Hdot [126]) by (cbn; intuition discriminate).
    assert (T : starts_with [126; slash] rel = false).
    { destruct (starts_with [126; slash] rel) eqn:T; [|reflexivity]. apply starts_with_spec in T. destruct T as [t T].
      exfalso. apply (Hpre [126] t); [cbn; intuition discriminate|now right|exact T]. }
    rewrite T. destruct dirs as [|d0 dirs]; [congruence|]. rewrite abs_no_slash_end by exact F.
    assert (Up : up_steps (abs_path (d0 :: dirs)) rel = (abs_path (d0 :: dirs), rel)).
    { destruct rel as [|a [|b [|c r]]] eqn:Er; try reflexivity. cbn [up_steps].
      destruct ((a =? 46) && (b =? 46) && (c =? slash)) eqn:Q; [|reflexivity]. exfalso.
      apply andb_prop in Q. destruct Q as [Q Q3]. apply andb_prop in Q. destruct Q as [Q1 Q2]. apply N.eqb_eq in Q1, Q2, Q3. subst a b c.
      apply (Hpre dotdot r); [cbn; intuition discriminate|now left|reflexivity]. }
    rewrite Up. rewrite (Hdot dotdot) by (cbn; intuition discriminate). rewrite (Hdot []) by (cbn; intuition discriminate). reflexivity. }
  rewrite Ej. rewrite join_abs. change (abs_path (n :: ns)) with (flat_map (cons 47) (n :: ns)). rewrite <- (abs_path_app dirs (n :: ns) Hd).
  assert (Fa : Forall proper (dirs ++ n :: ns)) by (apply Forall_app; now split).
  destruct (clean_no_up (abs_path (dirs ++ n :: ns))) as (names & F' & W & E).
  { destruct dirs; reflexivity. }
  { now apply parts_abs_path. }
  rewrite E. assert (Q : names = dirs ++ n :: ns).
  { rewrite <- (rev_involutive names), <- W, <- (rev_involutive (dirs ++ n :: ns)). f_equal.
    pose proof (go_abs [] _ Fa) as K. rewrite go_absolute in K by (destruct dirs; reflexivity). now rewrite rev_involutive. }
  rewrite Q. rewrite (abs_path_app dirs (n :: ns) Hd). cbn [flat_map app].
  assert (P : starts_with (abs_path dirs ++ [slash]) (abs_path dirs ++ 47 :: n ++ flat_map (cons 47) ns) = true).
  { apply starts_with_spec. exists (n ++ flat_map (cons 47) ns). now rewrite <- app_assoc. }
  now rewrite P.
Qed.

(** ** Examples *)
Module Demo.
  (** /a/./b/../../../c and friends; letters: a 97, b 98, c 99. *)
  Example clean1 : clean_path [47; 97; 47; 46; 47; 98; 47; 46; 46; 47; 46; 46; 47; 47; 99; 47] = [47; 99]. Proof. reflexivity. Qed.
  Example clean2 : clean_path [97; 47; 46; 46; 47; 46; 46; 47; 98] = [46; 46; 47; 98]. Proof. reflexivity. Qed.
  Example proper_ok : proper [97]. Proof. repeat split; try discriminate. cbn. intuition discriminate. Qed.
  Example written_ok : written [47; 97; 47; 98; 47] [[97]; [98]].
  Proof. split; [repeat constructor; try discriminate; cbn; intuition discriminate|now right]. Qed.
  (** /a/b/ and ../../c/./d *)
  Example resolve : resolve_path Unix [] [47; 97; 47; 98; 47] [46; 46; 47; 46; 46; 47; 99; 47; 46; 47; 100] = [47; 99; 47; 46; 47; 100].
  Proof. reflexivity. Qed.
  Example resolve_place : steps [[98]; [97]] [46; 46; 47; 46; 46; 47; 99; 47; 46; 47; 100] = [[100]; [99]]. Proof. reflexivity. Qed.
  Example dir_of_name : path Unix [97] = [46] /\ path Windows [67; 58; 47; 97] = [67; 58; 47]. Proof. split; reflexivity. Qed.
  Example drive : resolve_path Windows [] [67; 58; 47; 97] [46; 46] = [67; 58; 47]. Proof. reflexivity. Qed.
  (** Escaping is refused, also to a directory whose name begins with that of the build directory. *)
  Example refused1 : resolve_out [] [47; 97] [98; 47; 46; 46; 47; 46; 46; 47; 99] = None. Proof. reflexivity. Qed.
  Example refused2 : resolve_out [] [47; 97] [46; 46; 47; 97; 98; 47; 99] = None. Proof. reflexivity. Qed.
  Example accepted : resolve_out [] [47; 97] [46; 46; 47; 97; 47; 47; 99] = Some [47; 97; 47; 99]. Proof. reflexivity. Qed.
  Example build_dir_ok : ~ In dotdot (parts [47; 97]). Proof. cbn. intuition discriminate. Qed.
  Example joined : join_paths [[47; 97; 47]; []; [47; 98]] = [47; 97; 47; 98]. Proof. reflexivity. Qed.
End Demo.

Print Assumptions clean_same_place.
Print Assumptions clean_has_no_detours.
Print Assumptions clean_idempotent.
Print Assumptions split_recomposes.
Print Assumptions path_and_name.
Print Assumptions path_usable.
Print Assumptions names_recompose.
Print Assumptions suffix_without_dot_refuted.
Print Assumptions resolve_absolute.
Print Assumptions resolve_walks.
Print Assumptions resolve_is_absolute.
Print Assumptions resolve_root_refuted.
Print Assumptions resolve_untidy_refuted.
Print Assumptions resolve_drive.
Print Assumptions join_walks.
Print Assumptions output_inside.
Print Assumptions rule_output_inside.
Print Assumptions output_accepted.
