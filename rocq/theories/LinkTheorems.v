(** What users can rely on about the libraries given to the linker: which ones, once each,
    in an order that suits linkers that look at static libraries from left to right, and
    with the right ones linked as a whole. *)
From Coq Require Import List NArith Bool Lia Arith.
From Verif Require Import LinkModel.
Import ListNotations.
Local Open Scope N_scope.

(** * Specification *)

(** All products that occur. *)
Inductive within (deps : list (param * node)) : node -> Prop :=
| W_top : forall q n, In (q, n) deps -> within deps n
| W_step : forall x q m, within deps x -> In (q, m) (ndeps x) -> within deps m.

(** The products to link with: those depended on, and what static and object libraries among
    them depend on in turn. *)
Inductive linked (deps : list (param * node)) : node -> Prop :=
| L_top : forall q n, In (q, n) deps -> plink q = true -> linked deps n
| L_step : forall x q m, linked deps x -> (nkind x = Static \/ nkind x = Object) ->
    In (q, m) (ndeps x) -> plink q = true -> linked deps m.

(** A name stands for one product, a file belongs to one product, and external libraries are
    not files of products. *)
Record sound_project (deps : list (param * node)) (exts : list N) : Prop := {
  one_product : forall x y, within deps x -> within deps y -> nname x = nname y -> x = y;
  one_owner : forall x y f, within deps x -> within deps y -> In f (nfiles x) ->
    In f (nfiles y) -> x = y;
  not_external : forall x y f, within deps x -> within deps y -> In f (nfiles x) ->
    ~ In f (nexts y) /\ ~ In f exts }.

(** A dependency that makes the linker use its target. *)
Definition used_dependency (deps : list (param * node)) (q : param) (x : node) : Prop :=
  plink q = true /\
  (In (q, x) deps \/
   exists y, linked deps y /\ (nkind y = Static \/ nkind y = Object) /\ In (q, x) (ndeps y)).

(** How a linker reads its arguments: the libraries, and for each whether all of it is wanted. *)
Fixpoint read_args (whole : bool) (l : list arg) : list (N * bool) :=
  match l with
  | [] => []
  | WholeArchive :: r => read_args true r
  | NoWholeArchive :: r => read_args false r
  | Lib f :: r => (f, whole) :: read_args whole r
  end.

(** The mode the linker is in at the end. *)
Fixpoint mode_after (whole : bool) (l : list arg) : bool :=
  match l with
  | [] => whole
  | WholeArchive :: r => mode_after true r
  | NoWholeArchive :: r => mode_after false r
  | Lib _ :: r => mode_after whole r
  end.

(** The first of each run of entries for one file. *)
Definition runs (before : option N) (l : list (N * bool)) : list (N * bool) :=
  map fst (filter (fun e => match snd e with Some g => negb (fst (fst e) =? g) | None => true end)
                  (combine l (before :: map (fun e => Some (fst e)) l))).

Definition comes_before (f g : N) (l : list N) : Prop :=
  exists l1 l2 l3, l = l1 ++ f :: l2 ++ g :: l3.

Definition files_linked (k : kind) : Prop := k = Static \/ k = Dynamic.

(** * Lists of objects *)

Definition befo (f g : N) (l : list obj) : Prop :=
  exists l1 a l2 b l3, l = l1 ++ a :: l2 ++ b :: l3 /\ opath a = f /\ opath b = g.

Definition direct (f : N) (l : list obj) : Prop :=
  exists o, In o l /\ opath o = f /\ odirect o = true.

Lemma known_true : forall f l, known f l = true <-> In f (map opath l).
Proof.
  intros f l. unfold known. rewrite existsb_exists, in_map_iff. split.
  - intros [o [H E]]. apply N.eqb_eq in E. exists o. split; assumption.
  - intros [o [E H]]. exists o. split; [exact H|apply N.eqb_eq; exact E].
Qed.

Lemma known_false : forall f l, known f l = false -> ~ In f (map opath l).
Proof. intros f l E H. apply known_true in H. congruence. Qed.

Definition mark (w : bool) (f : N) (o : obj) : obj :=
  if opath o =? f then {| opath := f; odirect := true; owhole := w |} else o.

Lemma mark_path : forall w f o, opath (mark w f o) = opath o.
Proof.
  intros w f o. unfold mark. destruct (N.eqb_spec (opath o) f) as [E|E]; [symmetry; exact E|reflexivity].
Qed.

Lemma mark_paths : forall w f l, map opath (map (mark w f) l) = map opath l.
Proof.
  intros w f l. rewrite map_map. apply map_ext. intros o. apply mark_path.
Qed.

Lemma befo_cons : forall f g o l, befo f g l -> befo f g (o :: l).
Proof.
  intros f g o l [l1 [a [l2 [b [l3 [E [A B]]]]]]]. exists (o :: l1), a, l2, b, l3.
  split; [rewrite E; reflexivity|]. split; assumption.
Qed.

Lemma befo_front : forall o g l, In g (map opath l) -> befo (opath o) g (o :: l).
Proof.
  intros o g l H. apply in_map_iff in H. destruct H as [b [E H]].
  apply in_split in H. destruct H as [l2 [l3 ->]].
  exists [], o, l2, b, l3. split; [reflexivity|]. split; [reflexivity|exact E].
Qed.

Lemma befo_app : forall f g l t, befo f g l -> befo f g (l ++ t).
Proof.
  intros f g l t [l1 [a [l2 [b [l3 [E [A B]]]]]]]. exists l1, a, l2, b, (l3 ++ t).
  split; [|split; assumption]. rewrite E, <- app_assoc. cbn. rewrite <- app_assoc. reflexivity.
Qed.

Lemma befo_filter : forall P f g l, befo f g l ->
  (forall o, In o l -> opath o = f \/ opath o = g -> P o = true) -> befo f g (filter P l).
Proof.
  intros P f g l [l1 [a [l2 [b [l3 [E [A B]]]]]]] H. subst l.
  rewrite filter_app. cbn [filter]. rewrite (H a), filter_app.
  - cbn [filter]. rewrite (H b).
    + exists (filter P l1), a, (filter P l2), b, (filter P l3).
      split; [reflexivity|]. split; assumption.
    + apply in_or_app. right. right. apply in_or_app. right. left. reflexivity.
    + right. exact B.
  - apply in_or_app. right. left. reflexivity.
  - left. exact A.
Qed.

Lemma befo_map : forall (h : obj -> obj) f g l, (forall o, opath (h o) = opath o) -> befo f g l ->
  befo f g (map h l).
Proof.
  intros h f g l H [l1 [a [l2 [b [l3 [E [A B]]]]]]]. subst l.
  exists (map h l1), (h a), (map h l2), (h b), (map h l3).
  split; [rewrite map_app; cbn; rewrite map_app; reflexivity|].
  rewrite !H. split; assumption.
Qed.

(** * One step *)

Section Steps.

Variable deps : list (param * node).
Variable exts : list N.
Variable imp : bool.
Hypothesis ok : sound_project deps exts.

Definition art (f : N) : Prop := exists x, within deps x /\ In f (nfiles x).
Definition ext (f : N) : Prop := In f exts \/ exists x, within deps x /\ In f (nexts x).

Lemma art_ext : forall f, art f -> ext f -> False.
Proof.
  intros f [x [W H]] [E|[y [W' E]]].
  - destruct (not_external _ _ ok x x f W W H) as [_ Q]. exact (Q E).
  - destruct (not_external _ _ ok x y f W W' H) as [Q _]. exact (Q E).
Qed.

(** The external libraries that are linked with. *)
Definition used_ext (e : N) : Prop :=
  imp = true /\ exists x, linked deps x /\ (nkind x = Static \/ nkind x = Object) /\ In e (nexts x).

Definition wanted (f : N) : Prop :=
  (exists x, linked deps x /\ nkind x <> NoLibrary /\ In f (nfiles x)) \/ used_ext f \/ In f exts.

Definition parted (l : list obj) : Prop :=
  exists a b, l = a ++ b /\ (forall o, In o a -> art (opath o)) /\ (forall o, In o b -> ext (opath o)).

Record good_list (l : list obj) : Prop := {
  gl_nodup : NoDup (map opath l);
  gl_parted : parted l;
  gl_wanted : forall f, direct f l -> wanted f }.

(** What one step may do to the list. *)
Record steps (l l' : list obj) : Prop := {
  st_direct : forall f, direct f l -> direct f l';
  st_order : forall f g, art f -> art g -> befo f g l -> befo f g l';
  st_in : forall f, art f -> In f (map opath l) -> In f (map opath l') }.

Lemma steps_refl : forall l, steps l l.
Proof. intros l. constructor; intros; assumption. Qed.

Lemma steps_trans : forall a b c, steps a b -> steps b c -> steps a c.
Proof.
  intros a b c [A1 A2 A3] [B1 B2 B3]. constructor.
  - intros f H. apply B1, A1, H.
  - intros f g F G H. apply B2; [exact F|exact G|]. apply A2; assumption.
  - intros f F H. apply B3; [exact F|]. apply A3; assumption.
Qed.

Lemma public_step : forall w f l, art f -> wanted f -> good_list l ->
  good_list (add_public w f l) /\ steps l (add_public w f l) /\ direct f (add_public w f l) /\
  (forall g, In g (map opath (add_public w f l)) -> g = f \/ In g (map opath l)) /\
  (~ In f (map opath l) -> forall g, In g (map opath l) -> befo f g (add_public w f l)).
Proof.
  intros w f l Af Wf [G1 G2 G3]. unfold add_public.
  destruct (known f l) eqn:K.
  - change (map (fun o => if opath o =? f then {| opath := f; odirect := true; owhole := w |} else o) l)
      with (map (mark w f) l).
    apply known_true in K. split; [|split; [|split; [|split]]].
    + constructor.
      * rewrite mark_paths. exact G1.
      * destruct G2 as [a [b [E [A B]]]]. exists (map (mark w f) a), (map (mark w f) b).
        split; [rewrite E, map_app; reflexivity|].
        split; intros o H; apply in_map_iff in H; destruct H as [o' [<- H]]; rewrite mark_path;
          [apply A|apply B]; exact H.
      * intros g [o [H [P D]]]. apply in_map_iff in H. destruct H as [o' [E H]].
        destruct (N.eq_dec g f) as [Q|Q]; [rewrite Q; exact Wf|].
        apply G3. exists o'. unfold mark in E.
        destruct (N.eqb_spec (opath o') f) as [Q2|Q2].
        -- subst o. cbn in P. congruence.
        -- subst o'. split; [exact H|]. split; assumption.
    + constructor.
      * intros g [o [H [P D]]]. exists (mark w f o).
        split; [apply in_map; exact H|]. split; [rewrite mark_path; exact P|].
        unfold mark. destruct (opath o =? f); [reflexivity|exact D].
      * intros g h _ _ H. apply befo_map; [apply mark_path|exact H].
      * intros g _ H. rewrite mark_paths. exact H.
    + apply in_map_iff in K. destruct K as [o [P H]]. exists (mark w f o).
      split; [apply in_map; exact H|]. split; [rewrite mark_path; exact P|].
      unfold mark. rewrite P, N.eqb_refl. reflexivity.
    + intros g H. rewrite mark_paths in H. right. exact H.
    + intros Q. contradiction.
  - apply known_false in K. split; [|split; [|split; [|split]]].
    + constructor.
      * cbn. constructor; assumption.
      * destruct G2 as [a [b [E [A B]]]].
        exists ({| opath := f; odirect := true; owhole := w |} :: a), b.
        split; [rewrite E; reflexivity|]. split; [|exact B].
        intros o [<-|H]; [exact Af|apply A; exact H].
      * intros g [o [[<-|H] [P D]]]; [cbn in P; subst g; exact Wf|].
        apply G3. exists o. split; [exact H|]. split; assumption.
    + constructor.
      * intros g [o [H PD]]. exists o. split; [right; exact H|exact PD].
      * intros g h _ _ H. apply befo_cons. exact H.
      * intros g _ H. right. exact H.
    + eexists. split; [left; reflexivity|]. split; reflexivity.
    + intros g [H|H]; [left; symmetry; exact H|right; exact H].
    + intros _ g H.
      exact (befo_front {| opath := f; odirect := true; owhole := w |} g l H).
Qed.

Lemma private_step : forall f l, art f -> good_list l ->
  good_list (add_private f l) /\ steps l (add_private f l) /\
  (forall g, In g (map opath (add_private f l)) -> g = f \/ In g (map opath l)).
Proof.
  intros f l Af G. unfold add_private.
  destruct (known f l) eqn:K.
  - split; [exact G|]. split; [apply steps_refl|]. intros g H. right. exact H.
  - apply known_false in K. destruct G as [G1 G2 G3]. split; [|split].
    + constructor.
      * cbn. constructor; assumption.
      * destruct G2 as [a [b [E [A B]]]].
        exists ({| opath := f; odirect := false; owhole := false |} :: a), b.
        split; [rewrite E; reflexivity|]. split; [|exact B].
        intros o [<-|H]; [exact Af|apply A; exact H].
      * intros g [o [[<-|H] [P D]]]; [discriminate D|].
        apply G3. exists o. split; [exact H|]. split; assumption.
    + constructor.
      * intros g [o [H PD]]. exists o. split; [right; exact H|exact PD].
      * intros g h _ _ H. apply befo_cons. exact H.
      * intros g _ H. right. exact H.
    + intros g [H|H]; [left; symmetry; exact H|right; exact H].
Qed.

Lemma nodup_filter_map : forall (P : obj -> bool) l, NoDup (map opath l) ->
  NoDup (map opath (filter P l)).
Proof.
  intros P. induction l as [|o r IH]; intros H; [constructor|].
  cbn in H. inversion H as [|? ? H1 H2]; subst. cbn [filter].
  destruct (P o); [|apply IH; exact H2]. cbn. constructor; [|apply IH; exact H2].
  intros Q. apply H1. apply in_map_iff in Q. destruct Q as [o' [E Q]].
  apply filter_In in Q. apply in_map_iff. exists o'. split; [exact E|apply Q].
Qed.

Lemma nodup_snoc : forall (x : N) l, NoDup l -> ~ In x l -> NoDup (l ++ [x]).
Proof.
  intros x. induction l as [|y r IH]; intros H Q; cbn; [constructor; [intros []|constructor]|].
  inversion H as [|? ? H1 H2]; subst. constructor.
  - intros Z. apply in_app_or in Z. destruct Z as [Z|[Z|[]]]; [exact (H1 Z)|].
    apply Q. left. symmetry. exact Z.
  - apply IH; [exact H2|]. intros Z. apply Q. right. exact Z.
Qed.

Lemma external_step : forall e l, ext e -> wanted e -> good_list l ->
  good_list (add_external e l) /\ steps l (add_external e l) /\ direct e (add_external e l) /\
  (forall g, In g (map opath (add_external e l)) -> g = e \/ In g (map opath l)).
Proof.
  intros e l Ee We [G1 G2 G3]. unfold add_external.
  set (new := {| opath := e; odirect := true; owhole := false |}).
  split; [|split; [|split]].
  - constructor.
    + rewrite map_app. cbn [map]. apply nodup_snoc; [apply nodup_filter_map; exact G1|].
      intros Q. apply in_map_iff in Q. destruct Q as [o [E Q]]. apply filter_In in Q.
      destruct Q as [_ Q]. change (opath new) with e in E. rewrite E, N.eqb_refl in Q. discriminate.
    + destruct G2 as [a [b [E [A B]]]].
      exists (filter (fun o => negb (opath o =? e)) a), (filter (fun o => negb (opath o =? e)) b ++ [new]).
      split; [rewrite E, filter_app, <- app_assoc; reflexivity|]. split.
      * intros o H. apply filter_In in H. apply A. apply H.
      * intros o H. apply in_app_or in H. destruct H as [H|[<-|[]]]; [|exact Ee].
        apply filter_In in H. apply B. apply H.
    + intros f [o [H [P D]]]. apply in_app_or in H. destruct H as [H|[<-|[]]].
      * apply filter_In in H. apply G3. exists o. split; [apply H|]. split; assumption.
      * cbn in P. subst f. exact We.
  - constructor.
    + intros f [o [H [P D]]]. destruct (N.eq_dec f e) as [Q|Q].
      * subst f. exists new. split; [apply in_or_app; right; left; reflexivity|].
        split; [symmetry; exact Q|reflexivity].
      * exists o. split; [|split; assumption]. apply in_or_app. left. apply filter_In.
        split; [exact H|]. destruct (N.eqb_spec (opath o) e); [congruence|reflexivity].
    + intros f g Af Ag H. apply befo_app. apply befo_filter; [exact H|].
      intros o _ Q. destruct (N.eqb_spec (opath o) e) as [Q2|Q2]; [|reflexivity].
      exfalso. apply (art_ext e); [|exact Ee].
      destruct Q as [Q|Q]; rewrite Q in Q2; rewrite <- Q2; assumption.
    + intros f Af H. rewrite map_app. apply in_or_app. left.
      apply in_map_iff in H. destruct H as [o [E H]]. apply in_map_iff. exists o.
      split; [exact E|]. apply filter_In. split; [exact H|].
      destruct (N.eqb_spec (opath o) e) as [Q|Q]; [|reflexivity].
      exfalso. rewrite E in Q. apply (art_ext e); [rewrite <- Q; exact Af|exact Ee].
  - exists new. split; [apply in_or_app; right; left; reflexivity|]. split; reflexivity.
  - intros g H. rewrite map_app in H. apply in_app_or in H. destruct H as [H|[H|[]]].
    + right. apply in_map_iff in H. destruct H as [o [E H]]. apply filter_In in H.
      apply in_map_iff. exists o. split; [exact E|apply H].
    + left. symmetry. exact H.
Qed.

(** Several at once. *)
Lemma publics_step : forall w fs l, (forall f, In f fs -> art f /\ wanted f) -> good_list l ->
  good_list (add_publics w fs l) /\ steps l (add_publics w fs l) /\
  (forall f, In f fs -> direct f (add_publics w fs l)) /\
  (forall g, In g (map opath (add_publics w fs l)) -> In g fs \/ In g (map opath l)).
Proof.
  intros w. induction fs as [|f r IH]; intros l H G; cbn [add_publics fold_left].
  - split; [exact G|]. split; [apply steps_refl|]. split; [intros f []|]. intros g Q. right. exact Q.
  - destruct (H f (or_introl eq_refl)) as [Af Wf].
    destruct (public_step w f l Af Wf G) as [G1 [S1 [D1 [I1 _]]]].
    destruct (IH _ (fun g Q => H g (or_intror Q)) G1) as [G2 [S2 [D2 I2]]].
    split; [exact G2|]. split; [eapply steps_trans; eassumption|]. split.
    + intros g [<-|Q]; [apply (st_direct _ _ S2); exact D1|apply D2; exact Q].
    + intros g Q. destruct (I2 g Q) as [Q2|Q2]; [left; right; exact Q2|].
      destruct (I1 g Q2) as [Q3|Q3]; [left; left; symmetry; exact Q3|right; exact Q3].
Qed.

Lemma publics_order : forall w g fs l, art g -> (forall f, In f fs -> art f /\ wanted f) ->
  good_list l -> (forall f, In f fs -> ~ In f (map opath l) \/ befo f g l) ->
  In g (map opath l) -> forall f, In f fs -> befo f g (add_publics w fs l).
Proof.
  intros w g fs l Ag. revert l. induction fs as [|h r IH]; intros l H G Hn Ig h0 Hh; [inversion Hh|].
  cbn [add_publics fold_left].
  destruct (H h (or_introl eq_refl)) as [Ah Wh].
  destruct (public_step w h l Ah Wh G) as [G1 [S1 [D1 [I1 O1]]]].
  assert (Hr : forall g, In g r -> art g /\ wanted g) by (intros x Q; apply H; right; exact Q).
  destruct (publics_step w r _ Hr G1) as [_ [S2 _]].
  assert (B : befo h g (add_public w h l)).
  { destruct (Hn h (or_introl eq_refl)) as [Q|Q]; [apply O1; assumption|].
    apply (st_order _ _ S1); assumption. }
  destruct (N.eq_dec h0 h) as [Q|Q]; [rewrite Q; apply (st_order _ _ S2); assumption|].
  destruct Hh as [Q2|Hh]; [congruence|].
  apply IH; [exact Hr|exact G1| |apply (st_in _ _ S1); assumption|exact Hh].
  intros x Hx. destruct (N.eq_dec x h) as [Qx|Qx]; [rewrite Qx; right; exact B|].
  destruct (Hn x (or_intror Hx)) as [Q3|Q3].
  - left. intros Q4. destruct (I1 x Q4); [congruence|contradiction].
  - right. apply (st_order _ _ S1); [apply H; right; exact Hx|exact Ag|exact Q3].
Qed.

Lemma privates_step : forall fs l, (forall f, In f fs -> art f) -> good_list l ->
  good_list (add_privates fs l) /\ steps l (add_privates fs l) /\
  (forall g, In g (map opath (add_privates fs l)) -> In g fs \/ In g (map opath l)).
Proof.
  induction fs as [|f r IH]; intros l H G; cbn [add_privates fold_left].
  - split; [exact G|]. split; [apply steps_refl|]. intros g Q. right. exact Q.
  - destruct (private_step f l (H f (or_introl eq_refl)) G) as [G1 [S1 I1]].
    destruct (IH _ (fun g Q => H g (or_intror Q)) G1) as [G2 [S2 I2]].
    split; [exact G2|]. split; [eapply steps_trans; eassumption|].
    intros g Q. destruct (I2 g Q) as [Q2|Q2]; [left; right; exact Q2|].
    destruct (I1 g Q2) as [Q3|Q3]; [left; left; symmetry; exact Q3|right; exact Q3].
Qed.

Lemma externals_step : forall es l, (forall e, In e es -> ext e /\ wanted e) -> good_list l ->
  good_list (add_externals es l) /\ steps l (add_externals es l) /\
  (forall e, In e es -> direct e (add_externals es l)) /\
  (forall g, In g (map opath (add_externals es l)) -> In g es \/ In g (map opath l)).
Proof.
  induction es as [|e r IH]; intros l H G; cbn [add_externals fold_left].
  - split; [exact G|]. split; [apply steps_refl|]. split; [intros f []|]. intros g Q. right. exact Q.
  - destruct (H e (or_introl eq_refl)) as [Ee We].
    destruct (external_step e l Ee We G) as [G1 [S1 [D1 I1]]].
    destruct (IH _ (fun g Q => H g (or_intror Q)) G1) as [G2 [S2 [D2 I2]]].
    split; [exact G2|]. split; [eapply steps_trans; eassumption|]. split.
    + intros g [<-|Q]; [apply (st_direct _ _ S2); exact D1|apply D2; exact Q].
    + intros g Q. destruct (I2 g Q) as [Q2|Q2]; [left; right; exact Q2|].
      destruct (I1 g Q2) as [Q3|Q3]; [left; left; symmetry; exact Q3|right; exact Q3].
Qed.

Record inv (s : state) : Prop := {
  i_list : good_list (objs s);
  i_files : forall x f, within deps x -> In (nname x) (pub s) -> files_linked (nkind x) ->
    In f (nfiles x) -> direct f (objs s);
  i_deps : forall x q m, within deps x -> In (nname x) (pub s) ->
    nkind x = Static \/ nkind x = Object -> In (q, m) (ndeps x) -> plink q = true ->
    nkind m <> NoLibrary -> In (nname m) (pub s);
  i_order : forall x q m f g, within deps x -> In (nname x) (pub s) -> nkind x = Static ->
    In (q, m) (ndeps x) -> plink q = true -> files_linked (nkind m) ->
    In f (nfiles x) -> In g (nfiles m) -> befo f g (objs s);
  i_new : forall x f, within deps x -> nkind x = Static -> In f (nfiles x) ->
    In f (map opath (objs s)) -> In (nname x) (pub s);
  i_exts : forall x e, imp = true -> within deps x -> In (nname x) (pub s) ->
    nkind x = Static \/ nkind x = Object -> In e (nexts x) -> direct e (objs s) }.

Lemma direct_in : forall f l, direct f l -> In f (map opath l).
Proof. intros f l [o [H [P _]]]. apply in_map_iff. exists o. split; assumption. Qed.

Lemma finish_pub : forall n s pr l', within deps n -> inv s -> good_list l' ->
  steps (objs s) l' ->
  (files_linked (nkind n) -> forall f, In f (nfiles n) -> direct f l') ->
  (nkind n = Static \/ nkind n = Object -> forall q m, In (q, m) (ndeps n) -> plink q = true ->
     nkind m <> NoLibrary -> In (nname m) (pub s)) ->
  (nkind n = Static -> forall q m f g, In (q, m) (ndeps n) -> plink q = true ->
     files_linked (nkind m) -> In f (nfiles n) -> In g (nfiles m) -> befo f g l') ->
  (forall f, art f -> In f (map opath l') -> In f (nfiles n) \/ In f (map opath (objs s))) ->
  (imp = true -> nkind n = Static \/ nkind n = Object -> forall e, In e (nexts n) -> direct e l') ->
  inv {| pub := nname n :: pub s; priv := pr; objs := l' |}.
Proof.
  intros n s pr l' W [I1 I2 I3 I4 I5 I6] G S F D O Nw X.
  assert (same : forall x, within deps x -> nname n = nname x -> x = n).
  { intros x Wx E. symmetry. apply (one_product _ _ ok); assumption. }
  constructor; cbn [pub objs].
  - exact G.
  - intros x f Wx [E|H] K Hf.
    + rewrite (same x Wx E) in *. apply F; assumption.
    + apply (st_direct _ _ S). eapply I2; eassumption.
  - intros x q m Wx [E|H] K Hm Pq Km.
    + rewrite (same x Wx E) in *. right. eapply D; eassumption.
    + right. exact (I3 x q m Wx H K Hm Pq Km).
  - intros x q m f g Wx [E|H] K Hm Pq Km Hf Hg.
    + rewrite (same x Wx E) in *. eapply O; eassumption.
    + apply (st_order _ _ S).
      * exists x. split; assumption.
      * exists m. split; [eapply W_step; eassumption|exact Hg].
      * exact (I4 x q m f g Wx H K Hm Pq Km Hf Hg).
  - intros x f Wx K Hf H. destruct (Nw f) as [Q|Q].
    + exists x. split; assumption.
    + exact H.
    + left. rewrite (one_owner _ _ ok x n f Wx W Hf Q). reflexivity.
    + right. exact (I5 x f Wx K Hf Q).
  - intros x e Im Wx [E|H] K He.
    + rewrite (same x Wx E) in *. apply X; assumption.
    + apply (st_direct _ _ S). exact (I6 x e Im Wx H K He).
Qed.

(** Products inside a product. *)
Inductive part : node -> node -> Prop :=
| P_self : forall n, part n n
| P_dep : forall y q m n, In (q, m) (ndeps n) -> part y m -> part y n.

Fixpoint size (n : node) : nat :=
  match n with
  | Node _ _ _ _ ds =>
      S ((fix sum (l : list (param * node)) : nat :=
            match l with [] => 0 | (_, m) :: r => size m + sum r end) ds)%nat
  end.

Lemma size_dep : forall q m n, In (q, m) (ndeps n) -> (size m < size n)%nat.
Proof.
  intros q m [nm k fs es ds]. cbn [ndeps size]. induction ds as [|[q' m'] r IH]; intros H; [inversion H|].
  destruct H as [H|H]; [inversion H; subst; lia|]. specialize (IH H). lia.
Qed.

Lemma size_part : forall y n, part y n -> (size y <= size n)%nat.
Proof.
  intros y n H. induction H as [n|y q m n H1 H2 IH]; [lia|]. apply size_dep in H1. lia.
Qed.

Lemma part_within : forall y n, part y n -> within deps n -> within deps y.
Proof.
  intros y n H. induction H as [n|y q m n H1 H2 IH]; intros W; [exact W|].
  apply IH. eapply W_step; eassumption.
Qed.

Fixpoint traverse_all (nm : N) (below consumed : bool) (l : list (param * node)) (s : state)
    : state :=
  match l with
  | [] => s
  | (q, m) :: r =>
      traverse_all nm below consumed r
        (if nname m =? nm then s else traverse imp m q below consumed s)
  end.

Lemma traverse_unfold : forall n p below consumed s, traverse imp n p below consumed s =
  if skipped n p below s then s
  else finish imp n p below consumed
         (traverse_all (nname n) (below || is_dynamic (nkind n))
            (consumed || negb (is_object (nkind n))) (ndeps n) s).
Proof.
  intros [nm k fs es ds] p below consumed s. cbn [traverse nname nkind ndeps].
  destruct (skipped (Node nm k fs es ds) p below s); [reflexivity|]. f_equal.
  revert s. induction ds as [|[q m] r IH]; intros s; [reflexivity|].
  cbn [traverse_all]. apply IH.
Qed.

Definition post (n : node) (p : param) (below : bool) (s s' : state) : Prop :=
  inv s' /\ incl (pub s) (pub s') /\
  (below = false -> plink p = true -> nkind n <> NoLibrary -> In (nname n) (pub s')) /\
  (forall x, In x (pub s') -> In x (pub s) \/ exists y, part y n /\ nname y = x).

Lemma mem_name_true : forall x l, mem_name x l = true <-> In x l.
Proof.
  intros x l. unfold mem_name. rewrite existsb_exists. split.
  - intros [y [H E]]. apply N.eqb_eq in E. subst y. exact H.
  - intros H. exists x. split; [exact H|apply N.eqb_refl].
Qed.

Lemma all_post : forall n below consumed, within deps n -> (below = false -> linked deps n) ->
  (below = false -> nkind n = Static \/ nkind n = Object) ->
  (forall q m, In (q, m) (ndeps n) -> forall p b c s, inv s ->
     (b = false -> plink p = true -> linked deps m) -> post m p b s (traverse imp m p b c s)) ->
  forall l s, (forall e, In e l -> In e (ndeps n)) -> inv s ->
  inv (traverse_all (nname n) below consumed l s) /\
  incl (pub s) (pub (traverse_all (nname n) below consumed l s)) /\
  (below = false -> forall q m, In (q, m) l -> plink q = true -> nkind m <> NoLibrary ->
     In (nname m) (pub (traverse_all (nname n) below consumed l s))) /\
  (forall x, In x (pub (traverse_all (nname n) below consumed l s)) ->
     In x (pub s) \/ exists q m y, In (q, m) l /\ part y m /\ nname y = x).
Proof.
  intros n below consumed W L K IH. induction l as [|[q m] r IHl]; intros s H I; cbn [traverse_all].
  - split; [exact I|]. split; [apply incl_refl|]. split; [intros _ q m []|].
    intros x Q. left. exact Q.
  - assert (Hm : In (q, m) (ndeps n)) by (apply H; left; reflexivity).
    assert (Ne : (nname m =? nname n) = false).
    { destruct (N.eqb_spec (nname m) (nname n)) as [E|E]; [|reflexivity]. exfalso.
      assert (m = n) as -> by (apply (one_product _ _ ok); [eapply W_step; eassumption|exact W|exact E]).
      apply size_dep in Hm. lia. }
    rewrite Ne.
    destruct (IH q m Hm q below consumed s I) as [J1 [J2 [J3 J4]]].
    { intros B P. apply (L_step deps n q m); [apply L; exact B|apply K; exact B|exact Hm|exact P]. }
    destruct (IHl (traverse imp m q below consumed s)) as [M1 [M2 [M3 M4]]].
    { intros e He. apply H. right. exact He. }
    { exact J1. }
    split; [exact M1|]. split; [intros x Q; apply M2, J2, Q|]. split.
    + intros B q' m' [E|Hr] P Km; [injection E as <- <-; apply M2; apply J3; assumption|].
      eapply M3; eassumption.
    + intros x Q. destruct (M4 x Q) as [Q2|[q' [m' [y [Q2 Q3]]]]].
      * destruct (J4 x Q2) as [Q3|[y Q3]]; [left; exact Q3|right].
        exists q, m, y. split; [left; reflexivity|exact Q3].
      * right. exists q', m', y. split; [right; exact Q2|exact Q3].
Qed.

Lemma node_ind2 : forall P : node -> Prop,
  (forall n, (forall q m, In (q, m) (ndeps n) -> P m) -> P n) -> forall n, P n.
Proof.
  intros P H n. remember (size n) as k eqn:E. assert (L : (size n <= k)%nat) by lia. clear E.
  revert n L. induction k as [|k IH]; intros n L.
  - destruct n; cbn in L; lia.
  - apply H. intros q m Q. apply IH. apply size_dep in Q. lia.
Qed.

Lemma traverse_post : forall n, within deps n -> forall p below consumed s, inv s ->
  (below = false -> plink p = true -> linked deps n) ->
  post n p below s (traverse imp n p below consumed s).
Proof.
  intros n. induction n as [n IH] using node_ind2. intros W p below consumed s I L.
  rewrite traverse_unfold. destruct (skipped n p below s) eqn:Sk.
  - split; [exact I|]. split; [apply incl_refl|]. split; [|intros x Q; left; exact Q].
    intros B P K. unfold skipped in Sk. rewrite B, P in Sk. cbn [andb negb] in Sk.
    rewrite !orb_false_r in Sk.
    destruct (nkind n) eqn:Kn; [| | |contradiction]; rewrite orb_false_r in Sk;
      apply mem_name_true; exact Sk.
  - unfold skipped in Sk. apply orb_false_iff in Sk. destruct Sk as [Sk Sk4].
    apply orb_false_iff in Sk. destruct Sk as [Sk Sk3].
    apply orb_false_iff in Sk. destruct Sk as [Sk1 Sk2].
    apply negb_false_iff in Sk2.
    set (below' := below || is_dynamic (nkind n)).
    set (cons' := consumed || negb (is_object (nkind n))).
    assert (B' : below' = false -> below = false /\ (nkind n = Static \/ nkind n = Object)).
    { unfold below'. intros Q. apply orb_false_iff in Q. destruct Q as [Q1 Q2].
      split; [exact Q1|]. destruct (nkind n); try discriminate; [left|right]; reflexivity. }
    destruct (all_post n below' cons' W) with (l := ndeps n) (s := s) as [M1 [M2 [M3 M4]]].
    { intros Q. apply L; [apply B'; exact Q|exact Sk2]. }
    { intros Q. apply B'. exact Q. }
    { intros q m Hm. apply (IH q m Hm). eapply W_step; eassumption. }
    { intros e He. exact He. }
    { exact I. }
    set (s1 := traverse_all (nname n) below' cons' (ndeps n) s) in *.
    assert (Np : ~ In (nname n) (pub s1)).
    { intros Q. destruct (M4 _ Q) as [Q2|[q [m [y [Q2 [Q3 Q4]]]]]].
      - apply mem_name_true in Q2. congruence.
      - assert (y = n) as ->.
        { apply (one_product _ _ ok); [|exact W|exact Q4].
          eapply part_within; [exact Q3|]. eapply W_step; eassumption. }
        apply size_part in Q3. apply size_dep in Q2. lia. }
    assert (Names : forall x, In x (nname n :: pub s1) ->
              In x (pub s) \/ exists y, part y n /\ nname y = x).
    { intros x [<-|Q]; [right; exists n; split; [apply P_self|reflexivity]|].
      destruct (M4 _ Q) as [Q2|[q [m [y [Q2 [Q3 Q4]]]]]]; [left; exact Q2|right].
      exists y. split; [eapply P_dep; eassumption|exact Q4]. }
    assert (Names1 : forall x, In x (pub s1) ->
              In x (pub s) \/ exists y, part y n /\ nname y = x)
      by (intros x Q; apply Names; right; exact Q).
    assert (Arts : forall f, In f (nfiles n) -> art f) by (intros f Q; exists n; split; assumption).
    pose proof (i_list _ M1) as G1.
    unfold finish.
    destruct (nkind n) eqn:Kn.
    + (* static *)
      destruct below.
      * split; [exact M1|]. split; [exact M2|]. split; [discriminate|exact Names1].
      * specialize (L eq_refl Sk2).
        assert (Wt : forall f, In f (nfiles n) -> art f /\ wanted f).
        { intros f Q. split; [apply Arts; exact Q|]. left. exists n.
          split; [exact L|]. split; [rewrite Kn; discriminate|exact Q]. }
        destruct (publics_step (pwhole p) (nfiles n) (objs s1) Wt G1) as [G2 [S2 [D2 I2]]].
        assert (Xt : forall l, good_list l ->
                  good_list (if imp then add_externals (nexts n) l else l) /\
                  steps l (if imp then add_externals (nexts n) l else l) /\
                  (imp = true -> forall e, In e (nexts n) ->
                     direct e (if imp then add_externals (nexts n) l else l)) /\
                  (forall g, art g -> In g (map opath (if imp then add_externals (nexts n) l else l)) ->
                     In g (map opath l))).
        { intros l Gl. destruct imp eqn:Im.
          - destruct (externals_step (nexts n) l) as [X1 [X2 [X3 X4]]].
            + intros e Q. split; [right; exists n; split; assumption|]. right. left.
              split; [exact Im|]. exists n. split; [exact L|]. split; [left; exact Kn|exact Q].
            + exact Gl.
            + split; [exact X1|]. split; [exact X2|]. split; [intros _; exact X3|].
              intros g Ag Q. destruct (X4 g Q) as [Q2|Q2]; [|exact Q2]. exfalso.
              apply (art_ext g Ag). right. exists n. split; assumption.
          - split; [exact Gl|]. split; [apply steps_refl|]. split; [discriminate|].
            intros g _ Q. exact Q. }
        destruct (Xt _ G2) as [G3 [S3 [D3 I3]]].
        split; [|split; [intros x Q; right; apply M2; exact Q|
                 split; [intros _ _ _; left; reflexivity|exact Names]]].
        apply finish_pub; [exact W|exact M1|exact G3|eapply steps_trans; eassumption| | | | |].
        -- intros _ f Q. apply (st_direct _ _ S3). apply D2. exact Q.
        -- intros _ q m Hm Pq Km. eapply M3; [reflexivity|exact Hm|exact Pq|exact Km].
        -- intros _ q m f g Hm Pq Km Hf Hg.
           assert (Wm : within deps m) by (eapply W_step; eassumption).
           assert (Ag : art g) by (exists m; split; assumption).
           apply (st_order _ _ S3); [apply Arts; exact Hf|exact Ag|].
           apply publics_order; [exact Ag|exact Wt|exact G1| | |exact Hf].
           ++ intros h Hh. left. intros Q. apply Np. exact (i_new _ M1 n h W Kn Hh Q).
           ++ apply direct_in. apply (i_files _ M1 m g Wm); [|exact Km|exact Hg].
              eapply M3; [reflexivity|exact Hm|exact Pq|].
              destruct Km as [Km|Km]; rewrite Km; discriminate.
        -- intros f Af Q. apply I2. apply I3; assumption.
        -- intros Im _ e Q. apply D3; assumption.
    + (* objects *)
      destruct below.
      * split; [exact M1|]. split; [exact M2|]. split; [discriminate|exact Names1].
      * specialize (L eq_refl Sk2).
        assert (Wt : forall f, In f (nfiles n) -> art f /\ wanted f).
        { intros f Q. split; [apply Arts; exact Q|]. left. exists n.
          split; [exact L|]. split; [rewrite Kn; discriminate|exact Q]. }
        assert (exists l2, (if consumed then objs s1
                   else add_publics (pwhole p) (nfiles n) (objs s1)) = l2 /\
                 good_list l2 /\ steps (objs s1) l2 /\
                 (forall g, In g (map opath l2) -> In g (nfiles n) \/ In g (map opath (objs s1))))
          as [l2 [-> [G2 [S2 I2]]]].
        { eexists. split; [reflexivity|]. destruct consumed.
          - split; [exact G1|]. split; [apply steps_refl|]. intros g Q. right. exact Q.
          - destruct (publics_step (pwhole p) (nfiles n) (objs s1) Wt G1) as [X1 [X2 [_ X4]]].
            split; [exact X1|]. split; [exact X2|exact X4]. }
        assert (Xt : good_list (if imp then add_externals (nexts n) l2 else l2) /\
                  steps l2 (if imp then add_externals (nexts n) l2 else l2) /\
                  (imp = true -> forall e, In e (nexts n) ->
                     direct e (if imp then add_externals (nexts n) l2 else l2)) /\
                  (forall g, art g -> In g (map opath (if imp then add_externals (nexts n) l2 else l2)) ->
                     In g (map opath l2))).
        { destruct imp eqn:Im.
          - destruct (externals_step (nexts n) l2) as [X1 [X2 [X3 X4]]].
            + intros e Q. split; [right; exists n; split; assumption|]. right. left.
              split; [exact Im|]. exists n. split; [exact L|]. split; [right; exact Kn|exact Q].
            + exact G2.
            + split; [exact X1|]. split; [exact X2|]. split; [intros _; exact X3|].
              intros g Ag Q. destruct (X4 g Q) as [Q2|Q2]; [|exact Q2]. exfalso.
              apply (art_ext g Ag). right. exists n. split; assumption.
          - split; [exact G2|]. split; [apply steps_refl|]. split; [discriminate|].
            intros g _ Q. exact Q. }
        destruct Xt as [G3 [S3 [D3 I3]]].
        split; [|split; [intros x Q; right; apply M2; exact Q|
                 split; [intros _ _ _; left; reflexivity|exact Names]]].
        apply finish_pub; [exact W|exact M1|exact G3|eapply steps_trans; eassumption| | | | |].
        -- intros [Q|Q]; congruence.
        -- intros _ q m Hm Pq Km. eapply M3; [reflexivity|exact Hm|exact Pq|exact Km].
        -- intros Q. congruence.
        -- intros f Af Q. apply I2. apply I3; assumption.
        -- intros Im _ e Q. apply D3; assumption.
    + (* dynamic *)
      destruct below.
      * destruct (privates_step (nfiles n) (objs s1) Arts G1) as [G2 [S2 I2]].
        split; [|split; [exact M2|split; [discriminate|exact Names1]]].
        destruct M1 as [J1 J2 J3 J4 J5 J6]. constructor; cbn [pub objs].
        -- exact G2.
        -- intros x f Wx H K Hf. apply (st_direct _ _ S2). eapply J2; eassumption.
        -- exact J3.
        -- intros x q m f g Wx H K Hm Pq Km Hf Hg. apply (st_order _ _ S2).
           ++ exists x. split; assumption.
           ++ exists m. split; [eapply W_step; eassumption|exact Hg].
           ++ exact (J4 x q m f g Wx H K Hm Pq Km Hf Hg).
        -- intros x f Wx K Hf H. destruct (I2 f H) as [Q|Q]; [|exact (J5 x f Wx K Hf Q)].
           rewrite (one_owner _ _ ok x n f Wx W Hf Q) in K. congruence.
        -- intros x e Im Wx H K He. apply (st_direct _ _ S2). exact (J6 x e Im Wx H K He).
      * specialize (L eq_refl Sk2).
        assert (Wt : forall f, In f (nfiles n) -> art f /\ wanted f).
        { intros f Q. split; [apply Arts; exact Q|]. left. exists n.
          split; [exact L|]. split; [rewrite Kn; discriminate|exact Q]. }
        destruct (publics_step (pwhole p) (nfiles n) (objs s1) Wt G1) as [G2 [S2 [D2 I2]]].
        split; [|split; [intros x Q; right; apply M2; exact Q|
                 split; [intros _ _ _; left; reflexivity|exact Names]]].
        apply finish_pub; [exact W|exact M1|exact G2|exact S2| | | | |].
        -- intros _ f Q. apply D2. exact Q.
        -- intros [Q|Q]; congruence.
        -- intros Q. congruence.
        -- intros f Af Q. apply I2. exact Q.
        -- intros _ [Q|Q]; congruence.
    + discriminate Sk3.
Qed.

Lemma inv_start : inv {| pub := []; priv := []; objs := [] |}.
Proof.
  constructor; cbn [pub objs].
  - constructor.
    + constructor.
    + exists [], []. split; [reflexivity|]. split; intros o [].
    + intros f [o [[] _]].
  - intros x f _ [].
  - intros x q m _ [].
  - intros x q m f g _ [].
  - intros x f _ _ _ [].
  - intros x e _ _ [].
Qed.

Lemma top_post : forall l s, (forall e, In e l -> In e deps) -> inv s ->
  let s' := fold_left (fun s e => traverse imp (snd e) (fst e) false false s) l s in
  inv s' /\ incl (pub s) (pub s') /\
  (forall q m, In (q, m) l -> plink q = true -> nkind m <> NoLibrary -> In (nname m) (pub s')).
Proof.
  induction l as [|[q m] r IH]; intros s H I; cbn [fold_left fst snd].
  - split; [exact I|]. split; [apply incl_refl|intros q m []].
  - assert (Hm : In (q, m) deps) by (apply H; left; reflexivity).
    destruct (traverse_post m (W_top deps q m Hm) q false false s I) as [J1 [J2 [J3 _]]].
    { intros _ P. exact (L_top deps q m Hm P). }
    destruct (IH (traverse imp m q false false s)) as [M1 [M2 M3]].
    { intros e He. apply H. right. exact He. }
    { exact J1. }
    split; [exact M1|]. split; [intros x Q; apply M2, J2, Q|].
    intros q' m' [E|Hr] P K; [injection E as <- <-; apply M2; apply J3; [reflexivity|exact P|exact K]|].
    eapply M3; eassumption.
Qed.

Lemma linked_within : forall x, linked deps x -> within deps x.
Proof.
  intros x H. induction H as [q n H P|x q m H IH K Hm P].
  - eapply W_top. exact H.
  - eapply W_step; eassumption.
Qed.

Definition final : state := fold_left (fun s e => traverse imp (snd e) (fst e) false false s) deps
             {| pub := []; priv := []; objs := [] |}.

Lemma final_inv : inv final.
Proof. exact (proj1 (top_post deps _ (fun e H => H) inv_start)). Qed.

Lemma linked_pub : forall x, linked deps x -> nkind x <> NoLibrary -> In (nname x) (pub final).
Proof.
  intros x H. induction H as [q n H P|x q m H IH K Hm P]; intros Kn.
  - destruct (top_post deps _ (fun e H => H) inv_start) as [_ [_ T]]. eapply T; eassumption.
  - eapply (i_deps _ final_inv x q m); [apply linked_within; exact H| |exact K|exact Hm|exact P|exact Kn].
    apply IH. destruct K as [K|K]; rewrite K; discriminate.
Qed.

Lemma final_list : good_list (collect imp deps exts) /\ steps (objs final) (collect imp deps exts) /\
  (forall e, In e exts -> direct e (collect imp deps exts)).
Proof.
  destruct (externals_step exts (objs final)) as [X1 [X2 [X3 _]]].
  - intros e Q. split; [left; exact Q|]. right. right. exact Q.
  - exact (i_list _ final_inv).
  - split; [exact X1|]. split; [exact X2|exact X3].
Qed.

Lemma in_libraries : forall f, In f (map fst (libraries imp deps exts)) <-> direct f (collect imp deps exts).
Proof.
  intros f. unfold libraries. rewrite map_map, in_map_iff. split.
  - intros [o [E H]]. apply filter_In in H. exists o. split; [apply H|]. split; [exact E|apply H].
  - intros [o [H [E D]]]. exists o. split; [exact E|]. apply filter_In. split; assumption.
Qed.

Lemma befo_before : forall f g l, NoDup (map opath l) -> direct f l -> direct g l -> befo f g l ->
  comes_before f g (map fst (map (fun o => (opath o, owhole o)) (filter odirect l))).
Proof.
  intros f g l Nd Df Dg B.
  assert (U : forall h, direct h l -> forall o, In o l -> opath o = h -> odirect o = true).
  { intros h [o' [H' [P' D']]] o H P. replace o with o'; [exact D'|].
    rewrite <- P in P'. clear - Nd H H' P'. revert Nd H H'.
    induction l as [|a r IH]; intros Nd H H'; [inversion H|].
    cbn in Nd. apply NoDup_cons_iff in Nd. destruct Nd as [N1 N2].
    destruct H as [H|H]; destruct H' as [H'|H'].
    - rewrite <- H, <- H'. reflexivity.
    - exfalso. apply N1. rewrite H, <- P'. apply in_map. exact H'.
    - exfalso. apply N1. rewrite H', P'. apply in_map. exact H.
    - apply IH; assumption. }
  apply (befo_filter odirect) in B.
  - destruct B as [l1 [a [l2 [b [l3 [E [A Bb]]]]]]]. rewrite E.
    rewrite map_map, map_app. cbn. rewrite map_app. cbn. subst f g.
    eexists _, _, _. reflexivity.
  - intros o H [Q|Q]; [exact (U f Df o H Q)|exact (U g Dg o H Q)].
Qed.

Definition flagged (l : list obj) : Prop :=
  forall o, In o l -> odirect o = true ->
    (exists q x, used_dependency deps q x /\ In (opath o) (nfiles x) /\ pwhole q = owhole o) \/
    (ext (opath o) /\ owhole o = false).

Lemma flagged_publics : forall q x fs l, used_dependency deps q x -> incl fs (nfiles x) ->
  flagged l -> flagged (add_publics (pwhole q) fs l).
Proof.
  intros q x. induction fs as [|f r IH]; intros l U H F; [exact F|]. cbn [add_publics fold_left].
  apply IH; [exact U|intros g Q; apply H; right; exact Q|].
  assert (Hf : In f (nfiles x)) by (apply H; left; reflexivity).
  intros o Ho D. unfold add_public in Ho. destruct (known f l).
  - apply in_map_iff in Ho. destruct Ho as [o' [E Ho]].
    destruct (opath o' =? f); [|rewrite E in Ho; exact (F o Ho D)].
    subst o. left. exists q, x. split; [exact U|]. split; [exact Hf|reflexivity].
  - destruct Ho as [Ho|Ho]; [|exact (F o Ho D)].
    subst o. left. exists q, x. split; [exact U|]. split; [exact Hf|reflexivity].
Qed.

Lemma flagged_privates : forall fs l, flagged l -> flagged (add_privates fs l).
Proof.
  induction fs as [|f r IH]; intros l F; [exact F|]. cbn [add_privates fold_left]. apply IH.
  intros o Ho D. unfold add_private in Ho. destruct (known f l); [exact (F o Ho D)|].
  destruct Ho as [Ho|Ho]; [subst o; discriminate|exact (F o Ho D)].
Qed.

Lemma flagged_externals : forall es l, (forall e, In e es -> ext e) -> flagged l ->
  flagged (add_externals es l).
Proof.
  induction es as [|e r IH]; intros l H F; [exact F|]. cbn [add_externals fold_left].
  apply IH; [intros g Q; apply H; right; exact Q|].
  intros o Ho D. unfold add_external in Ho. apply in_app_or in Ho. destruct Ho as [Ho|[Ho|[]]].
  - apply filter_In in Ho. exact (F o (proj1 Ho) D).
  - subst o. right. split; [apply H; left; reflexivity|reflexivity].
Qed.

Lemma traverse_flagged : forall n, within deps n -> forall p below consumed s,
  flagged (objs s) ->
  (below = false -> plink p = true -> linked deps n /\ used_dependency deps p n) ->
  flagged (objs (traverse imp n p below consumed s)).
Proof.
  intros n. induction n as [n IH] using node_ind2. intros W p below consumed s F L.
  rewrite traverse_unfold. destruct (skipped n p below s) eqn:Sk; [exact F|].
  unfold skipped in Sk. apply orb_false_iff in Sk. destruct Sk as [Sk Sk4].
  apply orb_false_iff in Sk. destruct Sk as [Sk Sk3].
  apply orb_false_iff in Sk. destruct Sk as [Sk1 Sk2]. apply negb_false_iff in Sk2.
  set (below' := below || is_dynamic (nkind n)).
  set (cons' := consumed || negb (is_object (nkind n))).
  assert (F1 : forall l s, (forall e, In e l -> In e (ndeps n)) -> flagged (objs s) ->
            flagged (objs (traverse_all (nname n) below' cons' l s))).
  { induction l as [|[q m] r IHl]; intros s0 H F0; [exact F0|]. cbn [traverse_all].
    apply IHl; [intros e Q; apply H; right; exact Q|].
    destruct (nname m =? nname n); [exact F0|].
    assert (Hm : In (q, m) (ndeps n)) by (apply H; left; reflexivity).
    apply (IH q m Hm); [eapply W_step; eassumption|exact F0|].
    intros B P. unfold below' in B. apply orb_false_iff in B. destruct B as [B1 B2].
    destruct (L B1 Sk2) as [L1 L2].
    assert (K : nkind n = Static \/ nkind n = Object)
      by (destruct (nkind n); try discriminate; [left|right]; reflexivity).
    split; [exact (L_step deps n q m L1 K Hm P)|]. split; [exact P|]. right.
    exists n. split; [exact L1|]. split; [exact K|exact Hm]. }
  specialize (F1 (ndeps n) s (fun e H => H) F).
  set (s1 := traverse_all (nname n) below' cons' (ndeps n) s) in *.
  assert (Xs : forall l, flagged l -> flagged (if imp then add_externals (nexts n) l else l)).
  { intros l Fl. destruct imp; [|exact Fl]. apply flagged_externals; [|exact Fl].
    intros e Q. right. exists n. split; assumption. }
  unfold finish. destruct (nkind n); destruct below; cbn [objs]; try exact F1.
  - apply Xs. apply (flagged_publics p n); [apply L; [reflexivity|exact Sk2]|apply incl_refl|exact F1].
  - apply Xs. destruct consumed; [exact F1|].
    apply (flagged_publics p n); [apply L; [reflexivity|exact Sk2]|apply incl_refl|exact F1].
  - apply flagged_privates. exact F1.
  - apply (flagged_publics p n); [apply L; [reflexivity|exact Sk2]|apply incl_refl|exact F1].
Qed.

Lemma final_flagged : flagged (collect imp deps exts).
Proof.
  unfold collect. apply flagged_externals; [intros e Q; left; exact Q|].
  assert (T : forall l s, (forall e, In e l -> In e deps) -> flagged (objs s) ->
    flagged (objs (fold_left (fun s e => traverse imp (snd e) (fst e) false false s) l s))).
  { induction l as [|[q m] r IH]; intros s H F; [exact F|]. cbn [fold_left fst snd].
    assert (Hm : In (q, m) deps) by (apply H; left; reflexivity).
    apply IH; [intros e Q; apply H; right; exact Q|].
    apply traverse_flagged; [eapply W_top; exact Hm|exact F|].
    intros _ P. split; [exact (L_top deps q m Hm P)|]. split; [exact P|left; exact Hm]. }
  apply T; [intros e Q; exact Q|]. intros o [].
Qed.

End Steps.

(** * Theorems *)

(** C134. All static and shared libraries a product depends on, and those static and object
    libraries depend on in turn, are given to the linker, together with the external
    libraries of the product and, if private libraries are imported, of the static and object
    libraries. *)
Theorem all_libraries_linked : forall imp deps exts, sound_project deps exts ->
  (forall x f, linked deps x -> files_linked (nkind x) -> In f (nfiles x) ->
     In f (map fst (libraries imp deps exts))) /\
  (forall e, In e exts -> In e (map fst (libraries imp deps exts))) /\
  (forall x e, imp = true -> linked deps x -> nkind x = Static \/ nkind x = Object ->
     In e (nexts x) -> In e (map fst (libraries imp deps exts))).
Proof.
  intros imp deps exts ok. destruct (final_list deps exts imp ok) as [G [S X]].
  split; [|split].
  - intros x f L K Hf. apply in_libraries. apply (st_direct _ _ _ S).
    apply (i_files _ _ _ _ (final_inv deps exts imp ok) x f (linked_within deps x L)); [|exact K|exact Hf].
    apply (linked_pub deps exts imp ok x L). destruct K as [K|K]; rewrite K; discriminate.
  - intros e He. apply in_libraries. apply X. exact He.
  - intros x e Im L K He. apply in_libraries. apply (st_direct _ _ _ S).
    apply (i_exts _ _ _ _ (final_inv deps exts imp ok) x e Im (linked_within deps x L)); [|exact K|exact He].
    apply (linked_pub deps exts imp ok x L). destruct K as [K|K]; rewrite K; discriminate.
Qed.

(** C134. Nothing else is given to the linker. *)
Theorem only_those_libraries : forall imp deps exts f, sound_project deps exts ->
  In f (map fst (libraries imp deps exts)) ->
  (exists x, linked deps x /\ nkind x <> NoLibrary /\ In f (nfiles x)) \/
  (imp = true /\ exists x, linked deps x /\ (nkind x = Static \/ nkind x = Object) /\
     In f (nexts x)) \/
  In f exts.
Proof.
  intros imp deps exts f ok H. apply in_libraries in H.
  destruct (final_list deps exts imp ok) as [G _]. exact (gl_wanted _ _ _ _ G f H).
Qed.

(** C134. Each one once. *)
Theorem libraries_once : forall imp deps exts, sound_project deps exts ->
  NoDup (map fst (libraries imp deps exts)).
Proof.
  intros imp deps exts ok. destruct (final_list deps exts imp ok) as [G _].
  unfold libraries. rewrite map_map.
  apply (nodup_filter_map odirect). exact (gl_nodup _ _ _ _ G).
Qed.

(** C135. A static library comes before all libraries it depends on. *)
Theorem libraries_in_order : forall imp deps exts x q m f g, sound_project deps exts ->
  linked deps x -> nkind x = Static -> In (q, m) (ndeps x) -> plink q = true ->
  files_linked (nkind m) -> In f (nfiles x) -> In g (nfiles m) ->
  comes_before f g (map fst (libraries imp deps exts)).
Proof.
  intros imp deps exts x q m f g ok L K Hm P Km Hf Hg.
  destruct (final_list deps exts imp ok) as [G [S _]].
  pose proof (final_inv deps exts imp ok) as I. pose proof (linked_within deps x L) as W.
  assert (Hp : In (nname x) (pub (final deps imp))) by
    (apply (linked_pub deps exts imp ok x L); rewrite K; discriminate).
  assert (Wm : within deps m) by (eapply W_step; eassumption).
  apply befo_before.
  - exact (gl_nodup _ _ _ _ G).
  - apply (st_direct _ _ _ S). apply (i_files _ _ _ _ I x f W Hp); [left; exact K|exact Hf].
  - apply (st_direct _ _ _ S). apply (i_files _ _ _ _ I m g Wm); [|exact Km|exact Hg].
    eapply (i_deps _ _ _ _ I x q m W Hp); [left; exact K|exact Hm|exact P|].
    destruct Km as [Km|Km]; rewrite Km; discriminate.
  - apply (st_order _ _ _ S).
    + exists x. split; assumption.
    + exists m. split; assumption.
    + exact (i_order _ _ _ _ I x q m f g W Hp K Hm P Km Hf Hg).
Qed.

(** C135. External libraries come after the libraries of all products. *)
Theorem externals_come_last : forall imp deps exts x f e, sound_project deps exts ->
  linked deps x -> In f (nfiles x) -> In f (map fst (libraries imp deps exts)) ->
  In e (map fst (libraries imp deps exts)) -> ~ (exists y, within deps y /\ In e (nfiles y)) ->
  comes_before f e (map fst (libraries imp deps exts)).
Proof.
  intros imp deps exts x f e ok L Hf Lf Le Ne.
  destruct (final_list deps exts imp ok) as [G _].
  apply in_libraries in Lf. apply in_libraries in Le.
  apply befo_before; [exact (gl_nodup _ _ _ _ G)|exact Lf|exact Le|].
  destruct (gl_parted _ _ _ _ G) as [a [b [E [A B]]]]. rewrite E in *.
  destruct Lf as [o [Ho [Po _]]]. destruct Le as [o' [Ho' [Po' _]]].
  apply in_app_or in Ho. apply in_app_or in Ho'.
  destruct Ho as [Ho|Ho].
  2:{ exfalso. apply (art_ext deps exts ok f).
      - exists x. split; [apply linked_within; exact L|exact Hf].
      - rewrite <- Po. apply B. exact Ho. }
  destruct Ho' as [Ho'|Ho'].
  { exfalso. apply Ne. rewrite <- Po'. exact (A o' Ho'). }
  apply in_split in Ho. destruct Ho as [a1 [a2 ->]].
  apply in_split in Ho'. destruct Ho' as [b1 [b2 ->]].
  exists a1, o, (a2 ++ b1), o', b2. split; [|split; assumption].
  rewrite <- !app_assoc. cbn. reflexivity.
Qed.

(** C136. Which libraries are linked as a whole is what some dependency on them says, and
    external libraries are never linked as a whole. *)
Theorem whole_archive_from_dependency : forall imp deps exts f w,
  In (f, w) (libraries imp deps exts) ->
  (exists q x, used_dependency deps q x /\ In f (nfiles x) /\ pwhole q = w) \/
  ((In f exts \/ exists x, within deps x /\ In f (nexts x)) /\ w = false).
Proof.
  intros imp deps exts f w H. unfold libraries in H. apply in_map_iff in H.
  destruct H as [o [E H]]. apply filter_In in H. destruct H as [H D]. injection E as <- <-.
  exact (final_flagged deps exts imp o H D).
Qed.

(** C136. If all dependencies on a library agree, it is linked the way they say. *)
Theorem whole_archive_agreed : forall imp deps exts x f w, sound_project deps exts ->
  linked deps x -> files_linked (nkind x) -> In f (nfiles x) ->
  (forall q, used_dependency deps q x -> pwhole q = w) ->
  In (f, w) (libraries imp deps exts).
Proof.
  intros imp deps exts x f w ok L K Hf A.
  destruct (all_libraries_linked imp deps exts ok) as [T _].
  specialize (T x f L K Hf). apply in_map_iff in T. destruct T as [[g w'] [E T]].
  cbn in E. subst g. pose proof (linked_within deps x L) as W.
  destruct (whole_archive_from_dependency imp deps exts f w' T) as [[q [y [U [Hy Q]]]]|[Q _]].
  - assert (y = x) as ->.
    { apply (one_owner _ _ ok y x f); [|exact W|exact Hy|exact Hf].
      destruct U as [_ [U|[z [Lz [_ U]]]]]; [eapply W_top; exact U|].
      eapply W_step; [apply linked_within; exact Lz|exact U]. }
    rewrite <- (A q U), Q. exact T.
  - exfalso. destruct Q as [Q|[y [Wy Q]]].
    + destruct (not_external _ _ ok x x f W W Hf) as [_ R]. exact (R Q).
    + destruct (not_external _ _ ok x y f W Wy Hf) as [R _]. exact (R Q).
Qed.

Lemma lib_args_read : forall l active prev, NoDup (map fst l) ->
  (forall g, prev = Some g -> ~ In g (map fst l)) ->
  read_args active (lib_args active prev l) = l /\ mode_after active (lib_args active prev l) = false.
Proof.
  induction l as [|[f w] r IH]; intros active prev Nd Pv.
  - cbn. destruct active; split; reflexivity.
  - cbn [map fst] in Nd. apply NoDup_cons_iff in Nd. destruct Nd as [N1 N2].
    assert (E : match prev with Some g => g =? f | None => false end = false).
    { destruct prev as [g|]; [|reflexivity]. apply N.eqb_neq. intros Q.
      apply (Pv g eq_refl). left. symmetry. exact Q. }
    cbn [lib_args]. rewrite E.
    destruct (IH w (Some f) N2) as [R M]; [intros g Q; injection Q as <-; exact N1|].
    destruct w, active; cbn [andb negb app read_args mode_after]; rewrite R; split;
      first [reflexivity|exact M].
Qed.

Lemma lib_args_runs : forall l active prev,
  read_args active (lib_args active prev l) = runs prev l /\
  mode_after active (lib_args active prev l) = false.
Proof.
  induction l as [|[f w] r IH]; intros active prev.
  - cbn. destruct active; split; reflexivity.
  - assert (R : runs prev ((f, w) :: r) =
      if match prev with Some g => g =? f | None => false end then runs (Some f) r
      else (f, w) :: runs (Some f) r).
    { unfold runs. cbn [map combine filter fst snd].
      destruct prev as [g|]; [|reflexivity]. rewrite (N.eqb_sym f g).
      destruct (g =? f); reflexivity. }
    rewrite R. cbn [lib_args].
    destruct (match prev with Some g => g =? f | None => false end) eqn:E.
    + destruct prev as [g|]; [|discriminate]. apply N.eqb_eq in E. subst g. apply IH.
    + destruct (IH w (Some f)) as [R2 M].
      destruct w, active; cbn [andb negb app read_args mode_after]; rewrite R2; split;
        first [reflexivity|exact M].
Qed.

(** C136. The same for any list of libraries: of entries for one file in a row the first one
    counts, and all others are read as they are. *)
Theorem whole_archive_flags_any_list : forall l,
  read_args false (lib_args false None l) = runs None l /\
  mode_after false (lib_args false None l) = false.
Proof. intros l. apply lib_args_runs. Qed.

(** C136. The linker reads exactly the libraries and the parameters that were meant, and is
    back in its normal mode for whatever follows. *)
Theorem whole_archive_flags_exact : forall imp deps exts, sound_project deps exts ->
  read_args false (lib_args false None (libraries imp deps exts)) = libraries imp deps exts /\
  mode_after false (lib_args false None (libraries imp deps exts)) = false.
Proof.
  intros imp deps exts ok. apply lib_args_read; [apply libraries_once; exact ok|discriminate].
Qed.

(** A product without the dependencies that have its own name, which are the variants of a
    product that combines them. *)
Definition without_variants (n : node) : node :=
  Node (nname n) (nkind n) (nfiles n) (nexts n)
       (filter (fun e => negb (nname (snd e) =? nname n)) (ndeps n)).

Lemma traverse_variants : forall imp n p b c s,
  traverse imp (without_variants n) p b c s = traverse imp n p b c s.
Proof.
  intros imp n p b c s. rewrite !traverse_unfold. unfold without_variants.
  cbn [nname nkind ndeps].
  change (skipped (Node (nname n) (nkind n) (nfiles n) (nexts n)
    (filter (fun e => negb (nname (snd e) =? nname n)) (ndeps n))) p b s) with (skipped n p b s).
  destruct (skipped n p b s); [reflexivity|].
  assert (E : forall l s0, traverse_all imp (nname n) (b || is_dynamic (nkind n))
     (c || negb (is_object (nkind n))) (filter (fun e => negb (nname (snd e) =? nname n)) l) s0 =
     traverse_all imp (nname n) (b || is_dynamic (nkind n))
     (c || negb (is_object (nkind n))) l s0).
  { induction l as [|[q m] r IH]; intros s0; [reflexivity|]. cbn [filter snd].
    destruct (nname m =? nname n) eqn:Q; cbn [negb traverse_all]; rewrite Q; apply IH. }
  rewrite E. reflexivity.
Qed.

(** C134. If a product combines variants of itself, the variants are not linked as well. *)
Theorem variants_not_linked : forall imp deps exts,
  libraries imp (map (fun e => (fst e, without_variants (snd e))) deps) exts =
  libraries imp deps exts.
Proof.
  intros imp deps exts. unfold libraries, collect.
  assert (E : forall l s, fold_left (fun s e => traverse imp (snd e) (fst e) false false s)
      (map (fun e => (fst e, without_variants (snd e))) l) s =
    fold_left (fun s e => traverse imp (snd e) (fst e) false false s) l s).
  { induction l as [|e r IH]; intros s; [reflexivity|]. cbn [map fold_left fst snd].
    rewrite traverse_variants. apply IH. }
  rewrite E. reflexivity.
Qed.

(** * What does not hold *)

Definition plain : param := {| plink := true; pwhole := false |}.
Definition whole : param := {| plink := true; pwhole := true |}.
Definition lib_x : node := Node 2 Static [20] [] [].
Definition lib_a : node := Node 1 Static [10] [] [(plain, lib_x)].
Definition obj_o : node := Node 4 Object [40] [] [].
Definition lib_s : node := Node 3 Static [30] [] [(plain, obj_o)].

Lemma two_products : forall q1 q2 a b, ndeps b = [] -> (exists q, ndeps a = [(q, b)]) ->
  nname a <> nname b -> (forall f, In f (nfiles a) -> ~ In f (nfiles b)) ->
  nexts a = [] -> nexts b = [] -> forall l, incl l [(q1, a); (q2, b)] -> sound_project l [].
Proof.
  intros q1 q2 a b Db [q Da] Nn Nf Ea Eb l Hl.
  assert (T : forall x, within l x -> x = a \/ x = b).
  { intros x H. induction H as [q' n H|x q' m H IH Hm].
    - apply Hl in H. destruct H as [H|[H|[]]]; injection H as _ <-; [left|right]; reflexivity.
    - destruct IH as [-> | ->].
      + rewrite Da in Hm. destruct Hm as [Hm|[]]. injection Hm as _ <-. right. reflexivity.
      + rewrite Db in Hm. destruct Hm. }
  constructor.
  - intros x y Hx Hy E. destruct (T x Hx) as [-> | ->]; destruct (T y Hy) as [-> | ->];
      try reflexivity; exfalso; apply Nn; [exact E|symmetry; exact E].
  - intros x y f Hx Hy Fx Fy. destruct (T x Hx) as [-> | ->]; destruct (T y Hy) as [-> | ->];
      try reflexivity; exfalso; [exact (Nf f Fx Fy)|exact (Nf f Fy Fx)].
  - intros x y f Hx Hy Fx. split; [|intros []].
    destruct (T y Hy) as [-> | ->]; [rewrite Ea|rewrite Eb]; intros [].
Qed.

(** C136. A product that wants a static library as a whole does not get it if another
    dependency, looked at earlier, has led there without asking for that. *)
Theorem whole_archive_ignored_refuted : exists imp deps exts q x f,
  sound_project deps exts /\ In (q, x) deps /\ plink q = true /\ nkind x = Static /\
  In f (nfiles x) /\ pwhole q = true /\ In (f, false) (libraries imp deps exts) /\
  In (f, true) (libraries imp (rev deps) exts).
Proof.
  exists false, [(plain, lib_a); (whole, lib_x)], [], whole, lib_x, 20.
  split.
  { apply (two_products plain whole lib_a lib_x); try reflexivity.
    - exists plain. reflexivity.
    - discriminate.
    - intros f [<-|[]] [H|[]]. discriminate.
    - apply incl_refl. }
  split; [right; left; reflexivity|]. split; [reflexivity|]. split; [reflexivity|].
  split; [left; reflexivity|]. split; [reflexivity|]. split; vm_compute; auto.
Qed.

(** C134. The object files of an object library a product depends on are passed or not,
    depending on the order of the dependencies. *)
Theorem object_library_dropped_refuted : exists imp deps exts q x f,
  sound_project deps exts /\ In (q, x) deps /\ plink q = true /\ nkind x = Object /\
  In f (nfiles x) /\ ~ In f (map fst (libraries imp deps exts)) /\
  In f (map fst (libraries imp (rev deps) exts)).
Proof.
  exists false, [(plain, lib_s); (plain, obj_o)], [], plain, obj_o, 40.
  split.
  { apply (two_products plain plain lib_s obj_o); try reflexivity.
    - exists plain. reflexivity.
    - discriminate.
    - intros f [<-|[]] [H|[]]. discriminate.
    - apply incl_refl. }
  split; [right; left; reflexivity|]. split; [reflexivity|]. split; [reflexivity|].
  split; [left; reflexivity|]. split; [|vm_compute; auto].
  vm_compute. intros [H|[]]. discriminate.
Qed.

Module Demo.
  (** An application with a static library that needs another one and a shared library, and
      with an external library. *)
  Definition dyn : node := Node 5 Dynamic [50; 51] [] [(plain, Node 6 Dynamic [60] [] [])].
  Definition low : node := Node 2 Static [20] [90] [(plain, dyn)].
  Definition high : node := Node 1 Static [10; 11] [91] [(whole, low); (plain, dyn)].
  Definition deps : list (param * node) := [(plain, high)].

  Example result : libraries true deps [92; 90] =
    [(11, false); (10, false); (20, true); (51, false); (50, false); (91, false); (92, false);
     (90, false)].
  Proof. reflexivity. Qed.

  Example arguments : lib_args false None (libraries true deps [92; 90]) =
    [Lib 11; Lib 10; WholeArchive; Lib 20; NoWholeArchive; Lib 51; Lib 50; Lib 91; Lib 92; Lib 90].
  Proof. reflexivity. Qed.

  Lemma all : forall x, within deps x -> In x [high; low; dyn; Node 6 Dynamic [60] [] []].
  Proof.
    intros x H. induction H as [q n H|x q m H IH Hm].
    - destruct H as [H|[]]. injection H as _ <-. left. reflexivity.
    - cbn in IH. destruct IH as [<-|[<-|[<-|[<-|[]]]]]; cbn in Hm;
        repeat (destruct Hm as [Hm|Hm]; [injection Hm as _ <-; cbn; auto 6|]); destruct Hm.
  Qed.

  Example sound : sound_project deps [92; 90].
  Proof.
    constructor.
    - intros x y Hx Hy E. apply all in Hx. apply all in Hy. cbn in Hx, Hy.
      destruct Hx as [<-|[<-|[<-|[<-|[]]]]]; destruct Hy as [<-|[<-|[<-|[<-|[]]]]];
        first [reflexivity|discriminate].
    - intros x y f Hx Hy Fx Fy. apply all in Hx. apply all in Hy. cbn in Hx, Hy.
      destruct Hx as [<-|[<-|[<-|[<-|[]]]]]; destruct Hy as [<-|[<-|[<-|[<-|[]]]]];
        try reflexivity; exfalso; cbn in Fx, Fy; intuition congruence.
    - intros x y f Hx Hy Fx. apply all in Hx. apply all in Hy. cbn in Hx, Hy.
      destruct Hx as [<-|[<-|[<-|[<-|[]]]]]; destruct Hy as [<-|[<-|[<-|[<-|[]]]]];
        cbn in Fx |- *; intuition congruence.
  Qed.

  Lemma l_high : linked deps high.
  Proof. eapply L_top; [left; reflexivity|reflexivity]. Qed.

  Lemma l_low : linked deps low.
  Proof.
    eapply (L_step deps high); [exact l_high|left; reflexivity|left; reflexivity|reflexivity].
  Qed.

  Example linked_use : In 20 (map fst (libraries true deps [92; 90])) /\
    In 90 (map fst (libraries true deps [92; 90])) /\ In 91 (map fst (libraries true deps [92; 90])).
  Proof.
    destruct (all_libraries_linked true deps [92; 90] sound) as [T1 [T2 T3]]. split; [|split].
    - apply (T1 low 20 l_low); [left; reflexivity|left; reflexivity].
    - apply T2. right. left. reflexivity.
    - apply (T3 high 91 eq_refl l_high); [left; reflexivity|left; reflexivity].
  Qed.

  Example not_below_shared : ~ In 60 (map fst (libraries true deps [92; 90])).
  Proof. vm_compute. intuition discriminate. Qed.

  Example variants : libraries true [(plain, Node 1 Static [10] [] [(plain, Node 1 Static [12] [] [])])] [] =
    [(10, false)].
  Proof. reflexivity. Qed.

  Example order_use : comes_before 10 20 (map fst (libraries true deps [92; 90])).
  Proof.
    apply (libraries_in_order true deps [92; 90] high whole low 10 20 sound l_high);
      first [reflexivity|left; reflexivity].
  Qed.

  Example last_use : comes_before 20 90 (map fst (libraries true deps [92; 90])).
  Proof.
    apply (externals_come_last true deps [92; 90] low 20 90 sound l_low).
    - left. reflexivity.
    - exact (proj1 linked_use).
    - exact (proj1 (proj2 linked_use)).
    - intros [y [Hy Q]]. apply all in Hy. cbn in Hy.
      destruct Hy as [<-|[<-|[<-|[<-|[]]]]]; cbn in Q; intuition discriminate.
  Qed.

  Example agreed_use : In (20, true) (libraries true deps [92; 90]).
  Proof.
    apply (whole_archive_agreed true deps [92; 90] low 20 true sound l_low);
      [left; reflexivity|left; reflexivity|].
    intros q [_ [[H|[]]|[y [Ly [_ H]]]]]; [discriminate|].
    apply linked_within in Ly. apply all in Ly. cbn in Ly.
    destruct Ly as [<-|[<-|[<-|[<-|[]]]]]; cbn in H;
      repeat (destruct H as [H|H]; [first [discriminate|injection H as <-; reflexivity]|]);
      destruct H.
  Qed.

  Example runs_use : lib_args false None [(1, true); (1, false); (2, true); (1, false); (1, true)] =
    [WholeArchive; Lib 1; Lib 2; NoWholeArchive; Lib 1] /\
    runs None [(1, true); (1, false); (2, true); (1, false); (1, true)] =
    [(1, true); (2, true); (1, false)].
  Proof. split; reflexivity. Qed.

  Example flags_use : mode_after false (lib_args false None (libraries true deps [92; 90])) = false.
  Proof. apply (whole_archive_flags_exact true deps [92; 90] sound). Qed.
End Demo.

Print Assumptions all_libraries_linked.
Print Assumptions only_those_libraries.
Print Assumptions libraries_once.
Print Assumptions libraries_in_order.
Print Assumptions externals_come_last.
Print Assumptions whole_archive_from_dependency.
Print Assumptions whole_archive_agreed.
Print Assumptions whole_archive_flags_exact.
Print Assumptions whole_archive_ignored_refuted.
Print Assumptions object_library_dropped_refuted.
Print Assumptions variants_not_linked.
Print Assumptions whole_archive_flags_any_list.
