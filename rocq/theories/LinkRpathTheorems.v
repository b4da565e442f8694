(** What users can rely on about shared libraries that are needed only indirectly: their
    directories are given to the linker for the search of libraries that shared libraries
    need (-rpath-link). *)
From Coq Require Import List NArith Bool Lia Arith.
From Verif Require Import LinkModel LinkTheorems.
Import ListNotations.
Local Open Scope N_scope.

(** * Specification *)

(** What a shared library that is linked needs, directly or not. *)
Inductive needed_below (deps : list (param * node)) : node -> Prop :=
| B_start : forall x q m, linked deps x -> nkind x = Dynamic -> In (q, m) (ndeps x) ->
    plink q = true -> nkind m <> NoLibrary -> needed_below deps m
| B_step : forall x q m, needed_below deps x -> In (q, m) (ndeps x) ->
    plink q = true -> nkind m <> NoLibrary -> needed_below deps m.

(** * Lemmas *)

Section Rpath.
Variables (imp : bool) (deps : list (param * node)) (exts : list N).
Hypothesis ok : sound_project deps exts.

Definition paths (s : state) : list N := map opath (objs s).
Definition names (s : state) : list N := pub s ++ priv s.

Lemma paths_public : forall w fs l, incl (map opath l ++ fs) (map opath (add_publics w fs l)).
Proof.
  intros w. induction fs as [|f r IH]; intros l.
  - rewrite app_nil_r. apply incl_refl.
  - cbn [add_publics fold_left]. change (fold_left (fun l f => add_public w f l) r (add_public w f l))
      with (add_publics w r (add_public w f l)).
    assert (T : incl (f :: map opath l) (map opath (add_public w f l))).
    { unfold add_public. destruct (known f l) eqn:K; [|apply incl_refl].
      change (fun o => if opath o =? f then {| opath := f; odirect := true; owhole := w |} else o)
        with (mark w f). rewrite mark_paths. apply known_true in K.
      intros x [<-|Q]; assumption. }
    intros x Q. apply IH. apply in_app_or in Q. apply in_or_app.
    destruct Q as [Q|[Q|Q]]; [left; apply T; right; exact Q|left; apply T; left; exact Q|right; exact Q].
Qed.

Lemma paths_private : forall fs l, incl (map opath l ++ fs) (map opath (add_privates fs l)).
Proof.
  induction fs as [|f r IH]; intros l.
  - rewrite app_nil_r. apply incl_refl.
  - cbn [add_privates fold_left]. change (fold_left (fun l f => add_private f l) r (add_private f l))
      with (add_privates r (add_private f l)).
    assert (T : incl (f :: map opath l) (map opath (add_private f l))).
    { unfold add_private. destruct (known f l) eqn:K; [|apply incl_refl].
      apply known_true in K. intros x [<-|Q]; assumption. }
    intros x Q. apply IH. apply in_app_or in Q. apply in_or_app.
    destruct Q as [Q|[Q|Q]]; [left; apply T; right; exact Q|left; apply T; left; exact Q|right; exact Q].
Qed.

Lemma paths_external : forall es l, incl (map opath l) (map opath (add_externals es l)).
Proof.
  induction es as [|e r IH]; intros l; [apply incl_refl|].
  cbn [add_externals fold_left]. change (fold_left (fun l e => add_external e l) r (add_external e l))
    with (add_externals r (add_external e l)).
  eapply incl_tran; [|apply IH]. unfold add_external. intros x Q. rewrite map_app. apply in_or_app.
  destruct (N.eq_dec x e) as [E|E]; [right; left; symmetry; exact E|left].
  apply in_map_iff in Q. destruct Q as [o [<- Q]]. apply in_map. apply filter_In.
  split; [exact Q|]. apply negb_true_iff. apply N.eqb_neq. exact E.
Qed.

(** A product of which all shared libraries next to it are known. *)
Inductive covered (s : state) : node -> Prop :=
| C_known : forall m, In (nname m) (names s) -> covered s m
| C_static : forall m, nkind m = Static \/ nkind m = Object ->
    (forall q d, In (q, d) (ndeps m) -> plink q = true -> nkind d <> NoLibrary -> covered s d) ->
    covered s m.

Definition more (s t : state) : Prop := incl (names s) (names t) /\ incl (paths s) (paths t).

Lemma more_refl : forall s, more s s.
Proof. intros s. split; apply incl_refl. Qed.

Lemma more_trans : forall s t u, more s t -> more t u -> more s u.
Proof. intros s t u [A B] [C D]. split; eapply incl_tran; eassumption. Qed.

Lemma covered_more : forall s t m, more s t -> covered s m -> covered t m.
Proof.
  intros s t m M C. induction C as [m H|m K H IH].
  - apply C_known. apply M. exact H.
  - apply C_static; assumption.
Qed.

(** What is there for a product that is known. *)
Definition served (x : node) (s : state) : Prop :=
  (forall q d, In (q, d) (ndeps x) -> plink q = true -> nkind d <> NoLibrary -> covered s d) /\
  (nkind x = Dynamic -> incl (nfiles x) (paths s)).

Lemma served_more : forall x s t, more s t -> served x s -> served x t.
Proof.
  intros x s t M [A B]. split.
  - intros q d H P K. eapply covered_more; [exact M|]. eapply A; eassumption.
  - intros K. eapply incl_tran; [apply B; exact K|apply M].
Qed.

Definition kinv (s : state) : Prop :=
  (forall x, within deps x -> In (nname x) (names s) -> served x s) /\
  (forall o, In o (objs s) -> odirect o = false ->
     exists x, needed_below deps x /\ nkind x = Dynamic /\ In (opath o) (nfiles x)).

(** Nothing that is known is forgotten, and indirect files come from the libraries below. *)
Lemma indirect_public : forall w fs l o, In o (add_publics w fs l) -> odirect o = false -> In o l.
Proof.
  intros w. induction fs as [|f r IH]; intros l o H D; [exact H|].
  apply IH in H; [|exact D]. unfold add_public in H. destruct (known f l).
  - apply in_map_iff in H. destruct H as [o' [E H]]. destruct (opath o' =? f); subst o; [discriminate|exact H].
  - destruct H as [H|H]; [subst o; discriminate|exact H].
Qed.

Lemma indirect_external : forall es l o, In o (add_externals es l) -> odirect o = false -> In o l.
Proof.
  induction es as [|e r IH]; intros l o H D; [exact H|].
  apply IH in H; [|exact D]. unfold add_external in H. apply in_app_or in H.
  destruct H as [H|[H|[]]]; [apply filter_In in H; apply H|subst o; discriminate].
Qed.

Lemma indirect_private : forall fs l o, In o (add_privates fs l) -> odirect o = false ->
  In o l \/ In (opath o) fs.
Proof.
  induction fs as [|f r IH]; intros l o H D; [left; exact H|].
  destruct (IH _ _ H D) as [Q|Q]; [|right; right; exact Q].
  unfold add_private in Q. destruct (known f l); [left; exact Q|].
  destruct Q as [Q|Q]; [right; left; subst o; reflexivity|left; exact Q].
Qed.

Lemma add_kinv : forall n s t, within deps n -> kinv s -> more s t ->
  (forall y, In y (names t) -> y = nname n \/ In y (names s)) ->
  served n t ->
  (forall o, In o (objs t) -> odirect o = false -> In o (objs s) \/
     exists x, needed_below deps x /\ nkind x = Dynamic /\ In (opath o) (nfiles x)) ->
  kinv t.
Proof.
  intros n s t W [K1 K2] M Nm Sv Ob. split.
  - intros x Wx H. destruct (Nm _ H) as [Q|Q].
    + rewrite (one_product _ _ ok x n Wx W Q). exact Sv.
    + eapply served_more; [exact M|]. apply K1; assumption.
  - intros o H D. destruct (Ob o H D) as [Q|Q]; [exact (K2 o Q D)|exact Q].
Qed.

Lemma traverse_kinv : forall n, within deps n -> forall p (below consumed : bool) s, kinv s ->
  (plink p = true -> nkind n <> NoLibrary -> if below then needed_below deps n else linked deps n) ->
  kinv (traverse imp n p below consumed s) /\ more s (traverse imp n p below consumed s) /\
  (plink p = true -> nkind n <> NoLibrary -> covered (traverse imp n p below consumed s) n).
Proof.
  intros n. induction n as [n IH] using node_ind2. intros W p below consumed s K L.
  rewrite traverse_unfold. destruct (skipped n p below s) eqn:Sk.
  - split; [exact K|]. split; [apply more_refl|]. intros P Kn. apply C_known. unfold names.
    apply in_or_app. unfold skipped in Sk. rewrite P in Sk. cbn [negb] in Sk.
    rewrite orb_false_r in Sk.
    assert (Sk' : mem_name (nname n) (pub s) || (below && mem_name (nname n) (priv s)) = true)
      by (destruct (nkind n); [| | |contradiction]; rewrite orb_false_r in Sk; exact Sk).
    apply orb_true_iff in Sk'. destruct Sk' as [Q|Q]; [left; apply mem_name_true; exact Q|right].
    apply andb_true_iff in Q. apply mem_name_true. apply Q.
  - unfold skipped in Sk. apply orb_false_iff in Sk. destruct Sk as [Sk Sk4].
    apply orb_false_iff in Sk. destruct Sk as [Sk Sk3].
    apply orb_false_iff in Sk. destruct Sk as [Sk1 Sk2]. apply negb_false_iff in Sk2.
    assert (Kn : nkind n <> NoLibrary) by (intros Q; rewrite Q in Sk3; discriminate).
    specialize (L Sk2 Kn).
    set (below' := below || is_dynamic (nkind n)).
    set (cons' := consumed || negb (is_object (nkind n))).
    assert (All : forall l s0, (forall e, In e l -> In e (ndeps n)) -> kinv s0 ->
      kinv (traverse_all imp (nname n) below' cons' l s0) /\
      more s0 (traverse_all imp (nname n) below' cons' l s0) /\
      (forall q d, In (q, d) l -> plink q = true -> nkind d <> NoLibrary ->
         covered (traverse_all imp (nname n) below' cons' l s0) d)).
    { induction l as [|[q m] r IHl]; intros s0 H K0; cbn [traverse_all].
      - split; [exact K0|]. split; [apply more_refl|intros q d []].
      - assert (Hm : In (q, m) (ndeps n)) by (apply H; left; reflexivity).
        assert (Ne : (nname m =? nname n) = false).
        { destruct (N.eqb_spec (nname m) (nname n)) as [E|E]; [|reflexivity]. exfalso.
          assert (m = n) as -> by
            (apply (one_product _ _ ok); [eapply W_step; eassumption|exact W|exact E]).
          apply size_dep in Hm. lia. }
        rewrite Ne.
        destruct (IH q m Hm (W_step _ _ _ _ W Hm) q below' cons' s0 K0) as [J1 [J2 J3]].
        { intros P Km. unfold below'. destruct below; cbn [orb].
          - exact (B_step deps n q m L Hm P Km).
          - destruct (nkind n) eqn:Kk; cbn [is_dynamic]; [| | |contradiction].
            + apply (L_step deps n q m L); [left; exact Kk|exact Hm|exact P].
            + apply (L_step deps n q m L); [right; exact Kk|exact Hm|exact P].
            + exact (B_start deps n q m L Kk Hm P Km). }
        destruct (IHl (traverse imp m q below' cons' s0)) as [T1 [T2 T3]].
        { intros e Q. apply H. right. exact Q. }
        { exact J1. }
        split; [exact T1|]. split; [eapply more_trans; eassumption|].
        intros q' d [E|Q] P Kd; [|eapply T3; eassumption].
        injection E as <- <-. eapply covered_more; [exact T2|]. apply J3; assumption. }
    destruct (All (ndeps n) s (fun e H => H) K) as [K1 [M1 C1]].
    set (s1 := traverse_all imp (nname n) below' cons' (ndeps n) s) in *.
    assert (Known : forall t, more s1 t ->
      (forall y, In y (names t) -> y = nname n \/ In y (names s1)) ->
      In (nname n) (names t) -> (nkind n = Dynamic -> incl (nfiles n) (paths t)) ->
      (forall o, In o (objs t) -> odirect o = false -> In o (objs s1) \/
        exists x, needed_below deps x /\ nkind x = Dynamic /\ In (opath o) (nfiles x)) ->
      kinv t /\ more s t /\ (plink p = true -> nkind n <> NoLibrary -> covered t n)).
    { intros t M Nm Nn F Ob. split; [|split].
      - apply (add_kinv n s1 t W K1 M Nm); [|exact Ob]. split; [|exact F].
        intros q d H P Kd. eapply covered_more; [exact M|]. eapply C1; eassumption.
      - eapply more_trans; eassumption.
      - intros _ _. apply C_known. exact Nn. }
    assert (Same : nkind n = Static \/ nkind n = Object ->
      kinv s1 /\ more s s1 /\ (plink p = true -> nkind n <> NoLibrary -> covered s1 n)).
    { intros Kk. split; [exact K1|]. split; [exact M1|]. intros _ _. apply C_static; [exact Kk|exact C1]. }
    assert (Pub : forall pr l, incl (paths s1) (map opath l) ->
      (nkind n = Dynamic -> incl (nfiles n) (map opath l)) -> pr = priv s1 ->
      (forall o, In o l -> odirect o = false -> In o (objs s1)) ->
      kinv {| pub := nname n :: pub s1; priv := pr; objs := l |} /\
      more s {| pub := nname n :: pub s1; priv := pr; objs := l |} /\
      (plink p = true -> nkind n <> NoLibrary ->
         covered {| pub := nname n :: pub s1; priv := pr; objs := l |} n)).
    { intros pr l Pt F -> Ob. apply Known.
      - split; [intros x Q; right; exact Q|exact Pt].
      - intros y [Q|Q]; [left; symmetry; exact Q|right; exact Q].
      - left. reflexivity.
      - exact F.
      - intros o H D. left. exact (Ob o H D). }
    assert (Ex : forall l, incl (map opath l)
        (map opath (if imp then add_externals (nexts n) l else l)) /\
      (forall o, In o (if imp then add_externals (nexts n) l else l) -> odirect o = false -> In o l)).
    { intros l. destruct imp; [|split; [apply incl_refl|intros o H _; exact H]].
      split; [apply paths_external|intros o H D; eapply indirect_external; eassumption]. }
    assert (Pb : forall w, incl (paths s1) (map opath (add_publics w (nfiles n) (objs s1)))).
    { intros w x Q. apply paths_public. apply in_or_app. left. exact Q. }
    unfold finish. destruct (nkind n) eqn:Kk; [| | |contradiction].
    + destruct below; [apply Same; left; reflexivity|]. apply Pub; try reflexivity; [|discriminate|].
      * eapply incl_tran; [apply Pb|apply Ex].
      * intros o H D. apply Ex in H; [|exact D]. eapply indirect_public; eassumption.
    + destruct below; [apply Same; right; reflexivity|]. apply Pub; try reflexivity; [|discriminate|].
      * destruct consumed; [apply Ex|]. eapply incl_tran; [apply Pb|apply Ex].
      * intros o H D. apply Ex in H; [|exact D]. destruct consumed; [exact H|].
        eapply indirect_public; eassumption.
    + destruct below.
      * apply Known.
        -- split; [|intros x Q; apply paths_private; apply in_or_app; left; exact Q].
           intros x Q. unfold names in *. cbn [pub priv]. apply in_app_or in Q. apply in_or_app.
           destruct Q as [Q|Q]; [left; exact Q|right; right; exact Q].
        -- intros y Q. unfold names in *. cbn [pub priv] in Q. apply in_app_or in Q.
           destruct Q as [Q|[Q|Q]]; [right; apply in_or_app; left; exact Q|left; symmetry; exact Q|].
           right. apply in_or_app. right. exact Q.
        -- unfold names. cbn [pub priv]. apply in_or_app. right. left. reflexivity.
        -- intros _ x Q. apply paths_private. apply in_or_app. right. exact Q.
        -- intros o H D. destruct (indirect_private _ _ _ H D) as [Q|Q]; [left; exact Q|right].
           exists n. split; [exact L|]. split; [exact Kk|exact Q].
      * apply Pub; [apply Pb| |reflexivity|].
        -- intros _ x Q. apply paths_public. apply in_or_app. right. exact Q.
        -- intros o H D. eapply indirect_public; eassumption.
Qed.

Lemma final_kinv : kinv (final deps imp).
Proof.
  assert (T : forall l s, (forall e, In e l -> In e deps) -> kinv s ->
    kinv (fold_left (fun s e => traverse imp (snd e) (fst e) false false s) l s)).
  { induction l as [|[q m] r IH]; intros s H K; [exact K|]. cbn [fold_left fst snd].
    assert (Hm : In (q, m) deps) by (apply H; left; reflexivity).
    apply IH; [intros e Q; apply H; right; exact Q|].
    apply traverse_kinv; [eapply W_top; exact Hm|exact K|].
    intros P _. exact (L_top deps q m Hm P). }
  apply T; [intros e Q; exact Q|]. split; [intros x _ []|intros o []].
Qed.

Lemma below_within : forall x, needed_below deps x -> within deps x.
Proof.
  intros x H. induction H as [x q m L K H P Km|x q m B IH H P Km].
  - eapply W_step; [apply linked_within; exact L|exact H].
  - eapply W_step; eassumption.
Qed.

Lemma below_covered : forall x, needed_below deps x -> covered (final deps imp) x.
Proof.
  intros x H. destruct final_kinv as [K1 _].
  induction H as [x q m L K H P Km|x q m B IH H P Km].
  - assert (Hx : In (nname x) (names (final deps imp))).
    { unfold names. apply in_or_app. left. apply (linked_pub deps exts imp ok x L).
      rewrite K. discriminate. }
    destruct (K1 x (linked_within deps x L) Hx) as [C _]. eapply C; eassumption.
  - inversion IH as [m' Hk|m' Ks Hc]; subst.
    + destruct (K1 x (below_within x B) Hk) as [C _]. eapply C; eassumption.
    + eapply Hc; eassumption.
Qed.

Lemma collect_split : forall f, In f (map opath (collect imp deps exts)) <->
  In f (map fst (libraries imp deps exts)) \/ In f (indirect imp deps exts).
Proof.
  intros f. unfold libraries, indirect. rewrite map_map. cbn [fst].
  rewrite !in_map_iff. split.
  - intros [o [E H]]. destruct (odirect o) eqn:D; [left|right]; exists o; (split; [exact E|]);
      apply filter_In; (split; [exact H|]); rewrite D; reflexivity.
  - intros [[o [E H]]|[o [E H]]]; apply filter_In in H; exists o; split; [exact E|apply H|exact E|apply H].
Qed.

End Rpath.

(** * Theorems *)

(** C138. Every shared library that a linked shared library needs, directly or not, is given
    to the linker or is among those whose directories it searches. *)
Theorem indirect_libraries_found : forall imp deps exts x f, sound_project deps exts ->
  needed_below deps x -> nkind x = Dynamic -> In f (nfiles x) ->
  In f (map fst (libraries imp deps exts)) \/ In f (indirect imp deps exts).
Proof.
  intros imp deps exts x f ok B K Hf. apply collect_split.
  destruct (final_kinv imp deps exts ok) as [K1 _].
  pose proof (below_covered imp deps exts ok x B) as C. inversion C as [m Hk|m [Q|Q] _]; subst; [|congruence|congruence].
  destruct (K1 x (below_within deps x B) Hk) as [_ F].
  apply (paths_external exts). apply F; assumption.
Qed.

(** C138. Only those are, and none of them is linked directly. *)
Theorem indirect_libraries_only : forall imp deps exts f, sound_project deps exts ->
  In f (indirect imp deps exts) ->
  ~ In f (map fst (libraries imp deps exts)) /\
  exists x, needed_below deps x /\ nkind x = Dynamic /\ In f (nfiles x).
Proof.
  intros imp deps exts f ok H. unfold indirect in H. apply in_map_iff in H.
  destruct H as [o [E H]]. apply filter_In in H. destruct H as [H D]. apply negb_true_iff in D.
  split.
  - intros Q. apply in_libraries in Q. destruct Q as [o' [H' [E' D']]].
    destruct (final_list deps exts imp ok) as [G _]. pose proof (gl_nodup _ _ _ _ G) as Nd.
    assert (o = o'); [|congruence]. rewrite <- E' in E. clear - Nd H H' E. revert Nd H H'.
    induction (collect imp deps exts) as [|a r IH]; intros Nd H H'; [inversion H|].
    cbn in Nd. apply NoDup_cons_iff in Nd. destruct Nd as [N1 N2].
    destruct H as [H|H]; destruct H' as [H'|H'].
    + rewrite <- H, <- H'. reflexivity.
    + exfalso. apply N1. rewrite H, E. apply in_map. exact H'.
    + exfalso. apply N1. rewrite H', <- E. apply in_map. exact H.
    + apply IH; assumption.
  - destruct (final_kinv imp deps exts ok) as [_ K2]. rewrite <- E. apply K2; [|exact D].
    unfold collect in H. eapply indirect_external; eassumption.
Qed.

(** C138. A shared library that is to be linked and is needed by another one is not among them. *)
Theorem linked_not_indirect : forall imp deps exts x f, sound_project deps exts ->
  linked deps x -> nkind x = Dynamic -> In f (nfiles x) -> ~ In f (indirect imp deps exts).
Proof.
  intros imp deps exts x f ok L K Hf H.
  destruct (indirect_libraries_only imp deps exts f ok H) as [N _]. apply N.
  destruct (all_libraries_linked imp deps exts ok) as [T _].
  apply (T x f L); [right; exact K|exact Hf].
Qed.

Module Demo.
  Import LinkTheorems.Demo.

  Example result : indirect true deps [92; 90] = [60].
  Proof. reflexivity. Qed.

  Lemma l_dyn : linked deps dyn.
  Proof.
    eapply (L_step deps low); [exact l_low|left; reflexivity|left; reflexivity|reflexivity].
  Qed.

  Lemma b_six : needed_below deps (Node 6 Dynamic [60] [] []).
  Proof.
    eapply (B_start deps dyn); [exact l_dyn|reflexivity|left; reflexivity|reflexivity|discriminate].
  Qed.

  Example found_use : In 60 (map fst (libraries true deps [92; 90])) \/ In 60 (indirect true deps [92; 90]).
  Proof.
    apply (indirect_libraries_found true deps [92; 90] _ 60 sound b_six); [reflexivity|left; reflexivity].
  Qed.

  Example not_indirect_use : ~ In 50 (indirect true deps [92; 90]).
  Proof.
    apply (linked_not_indirect true deps [92; 90] dyn 50 sound l_dyn); [reflexivity|left; reflexivity].
  Qed.
End Demo.

Print Assumptions indirect_libraries_found.
Print Assumptions indirect_libraries_only.
Print Assumptions linked_not_indirect.
