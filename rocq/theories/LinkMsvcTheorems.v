(** What users can rely on about the libraries given to linkers that are not like GCC's. The
    specification of what is to be linked ([linked], [used_dependency], [sound_project]) is
    the one in LinkTheorems. *)
From Coq Require Import List NArith Bool Lia Arith.
From Verif Require Import LinkModel LinkTheorems LinkMsvcModel.
Import ListNotations.
Local Open Scope N_scope.

(** * Specification *)

(** How often a file is given to the linker. *)
Fixpoint times (f : N) (l : list (N * bool)) : nat :=
  match l with
  | [] => 0
  | (g, _) :: r => if f =? g then S (times f r) else times f r
  end.

(** * Lemmas *)

Lemma m_mem_true : forall x l, m_mem x l = true <-> In x l.
Proof.
  intros x l. unfold m_mem. rewrite existsb_exists. split.
  - intros [y [H E]]. apply N.eqb_eq in E. subst y. exact H.
  - intros H. exists x. split; [exact H|apply N.eqb_refl].
Qed.

Lemma times_app : forall f a b, times f (a ++ b) = (times f a + times f b)%nat.
Proof.
  intros f. induction a as [|[g w] r IH]; intros b; [reflexivity|]. cbn. rewrite IH.
  destruct (f =? g); reflexivity.
Qed.

Lemma times_none : forall f l, times f l = 0%nat <-> ~ In f (map fst l).
Proof.
  intros f. induction l as [|[g w] r IH]; cbn; [split; [intros _ []|reflexivity]|].
  destruct (N.eqb_spec f g) as [E|E].
  - split; [discriminate|]. intros H. exfalso. apply H. left. symmetry. exact E.
  - rewrite IH. split; [intros H [Q|Q]; [apply E; symmetry; exact Q|exact (H Q)]|].
    intros H Q. apply H. right. exact Q.
Qed.

Lemma times_files : forall f w fs, NoDup fs ->
  times f (map (fun f => (f, w)) fs) = if m_mem f fs then 1%nat else 0%nat.
Proof.
  intros f w. induction fs as [|g r IH]; intros Nd; [reflexivity|].
  apply NoDup_cons_iff in Nd. destruct Nd as [N1 N2]. cbn [map times m_mem existsb].
  change (existsb (N.eqb f) r) with (m_mem f r). rewrite (IH N2).
  destruct (N.eqb_spec f g) as [E|E]; [|reflexivity]. cbn [orb].
  destruct (m_mem f r) eqn:Q; [|reflexivity]. apply m_mem_true in Q. subst g. contradiction.
Qed.

Lemma map_fst_files : forall (w : bool) (fs : list N), map fst (map (fun f => (f, w)) fs) = fs.
Proof. intros w fs. rewrite map_map. cbn. apply map_id. Qed.

Section Msvc.
Variables (isobj : N -> bool) (imp : bool) (deps : list (param * node)) (exts : list N).
Hypothesis ok : sound_project deps exts.

Fixpoint m_all (l : list (param * node)) (s : mstate) : mstate :=
  match l with
  | [] => s
  | (q, m) :: r => m_all r (m_traverse isobj imp m q s)
  end.

Lemma m_unfold : forall n p s, m_traverse isobj imp n p s =
  if m_mem (nname n) (mseen s) || negb (plink p) then s
  else match nkind n with
       | NoLibrary => s
       | Dynamic => m_add_files (pwhole p) (nfiles n) (m_see (nname n) s)
       | Static | Object =>
           let s2 := m_add_files (pwhole p) (nfiles n) (m_all (ndeps n) (m_see (nname n) s)) in
           if imp then m_add_externals isobj (nexts n) s2 else s2
       end.
Proof.
  intros [nm k fs es ds] p s. cbn [m_traverse nname nkind nfiles nexts ndeps].
  destruct (m_mem nm (mseen s) || negb (plink p)); [reflexivity|].
  assert (E : forall s0, (fix each (l : list (param * node)) (s : mstate) : mstate :=
                 match l with
                 | [] => s
                 | (q, m) :: r => each r (m_traverse isobj imp m q s)
                 end) ds s0 = m_all ds s0).
  { induction ds as [|[q m] r IH]; intros s0; [reflexivity|]. cbn [m_all]. apply IH. }
  rewrite E. reflexivity.
Qed.

(** ** Growth *)

Definition grows (s t : mstate) : Prop :=
  incl (mseen s) (mseen t) /\ incl (mres s) (mres t).

Lemma grows_refl : forall s, grows s s.
Proof. intros s. split; apply incl_refl. Qed.

Lemma grows_trans : forall s t u, grows s t -> grows t u -> grows s u.
Proof. intros s t u [A B] [C D]. split; eapply incl_tran; eassumption. Qed.

Lemma grows_files : forall w fs s, grows s (m_add_files w fs s).
Proof. intros w fs s. split; [apply incl_refl|]. cbn. apply incl_appl, incl_refl. Qed.

Lemma grows_external : forall s e, grows s (m_add_external isobj s e).
Proof.
  intros s e. unfold m_add_external. destruct (isobj e); [destruct (m_mem e (mobjs s))|];
    split; cbn; try apply incl_refl; apply incl_appl, incl_refl.
Qed.

Lemma grows_externals : forall es s, grows s (m_add_externals isobj es s).
Proof.
  induction es as [|e r IH]; intros s; [apply grows_refl|].
  eapply grows_trans; [apply grows_external|]. apply (IH (m_add_external isobj s e)).
Qed.

(** ** The invariant *)

Definition ours (f : N) : Prop := exists x, within deps x /\ In f (nfiles x).

(** The libraries a product that is done has brought with it. *)
Definition complete (x : node) (s : mstate) : Prop :=
  (forall f, nkind x <> NoLibrary -> In f (nfiles x) -> In f (map fst (mres s))) /\
  (nkind x = Static \/ nkind x = Object ->
   (forall q m, In (q, m) (ndeps x) -> plink q = true -> nkind m <> NoLibrary ->
      In (nname m) (mseen s)) /\
   (imp = true -> forall e, In e (nexts x) -> In e (map fst (mres s)))).

Lemma complete_grows : forall x s t, grows s t -> complete x s -> complete x t.
Proof.
  intros x s t [A B] [C D].
  assert (P : incl (map fst (mres s)) (map fst (mres t))) by (apply incl_map; exact B).
  split; [intros f K H; apply P, C; assumption|]. intros K. destruct (D K) as [D1 D2].
  split; [intros q m H1 H2 H3; apply A; eapply D1; eassumption|].
  intros Im e He. apply P. apply D2; assumption.
Qed.

Definition source (e : N * bool) : Prop :=
  (exists q x, used_dependency deps q x /\ linked deps x /\ nkind x <> NoLibrary /\
     In (fst e) (nfiles x) /\ pwhole q = snd e) \/
  (snd e = false /\
   (In (fst e) exts \/
    imp = true /\ exists x, linked deps x /\ (nkind x = Static \/ nkind x = Object) /\
                            In (fst e) (nexts x))).

(** [st] are the products whose dependencies are being looked at, [op] those of them whose files
    are not there yet. *)
Record minv (st op : list N) (s : mstate) : Prop := {
  m_done : forall x, within deps x -> In (nname x) (mseen s) ->
    In (nname x) st \/ complete x s;
  m_source : forall e, In e (mres s) -> source e;
  m_early : forall x f, within deps x -> In f (nfiles x) -> In f (map fst (mres s)) ->
    In (nname x) (mseen s) /\ ~ In (nname x) op;
  m_once : (forall x, within deps x -> NoDup (nfiles x)) ->
    forall f, ours f -> (times f (mres s) <= 1)%nat;
  m_objs : forall e, isobj e = true -> ~ ours e ->
    (times e (mres s) <= 1)%nat /\ (In e (map fst (mres s)) <-> In e (mobjs s)) }.

Lemma ours_ext : forall x e, within deps x -> In e (nexts x) -> ~ ours e.
Proof. intros x e W H [y [Wy Q]]. exact (proj1 (not_external _ _ ok y x e Wy W Q) H). Qed.

Lemma ours_top : forall e, In e exts -> ~ ours e.
Proof. intros e H [y [Wy Q]]. exact (proj2 (not_external _ _ ok y y e Wy Wy Q) H). Qed.

Lemma external_keeps : forall st op s e, minv st op s -> ~ ours e -> source (e, false) ->
  minv st op (m_add_external isobj s e) /\ In e (map fst (mres (m_add_external isobj s e))).
Proof.
  intros st op s e M No Sr. pose proof (grows_external s e) as G.
  destruct M as [M1 M2 M3 M4 M5].
  assert (Common : forall ob, mres (m_add_external isobj s e) = mres s ++ [(e, false)] ->
            mobjs (m_add_external isobj s e) = ob ->
            (isobj e = true -> ~ In e (map fst (mres s)) /\ ob = e :: mobjs s) ->
            (isobj e = false -> ob = mobjs s) ->
            mseen (m_add_external isobj s e) = mseen s ->
            minv st op (m_add_external isobj s e) /\ In e (map fst (mres (m_add_external isobj s e)))).
  { intros ob Er Eo Ho Hn Es. split.
    2:{ rewrite Er, map_app. apply in_or_app. right. left. reflexivity. }
    constructor.
    - intros x W H. rewrite Es in H. destruct (M1 x W H) as [Q|Q]; [left; exact Q|right].
      eapply complete_grows; eassumption.
    - intros x H. rewrite Er in H. apply in_app_or in H. destruct H as [H|[<-|[]]]; [exact (M2 x H)|exact Sr].
    - intros x f W Hf H. rewrite Es. rewrite Er, map_app in H. apply in_app_or in H.
      destruct H as [H|[H|[]]]; [exact (M3 x f W Hf H)|]. exfalso. apply No. exists x.
      cbn in H. subst f. split; assumption.
    - intros Nd f Of. rewrite Er, times_app. cbn [times].
      destruct (N.eqb_spec f e) as [E|E]; [subst f; contradiction|]. specialize (M4 Nd f Of). lia.
    - intros g Hg Ng. rewrite Er, Eo, times_app, map_app, in_app_iff. cbn [times map fst In].
      destruct (M5 g Hg Ng) as [T1 T2]. destruct (N.eqb_spec g e) as [E|E].
      + subst g. destruct (Ho Hg) as [H1 ->]. apply times_none in H1. split; [lia|].
        split; [intros _; left; reflexivity|intros _; right; left; reflexivity].
      + split; [lia|]. split.
        * intros [Q|[Q|[]]]; [|exfalso; apply E; symmetry; exact Q].
          apply T2 in Q. destruct (isobj e) eqn:Ie; [destruct (Ho eq_refl) as [_ ->]; right; exact Q|].
          rewrite (Hn eq_refl). exact Q.
        * intros Q. left. apply T2. destruct (isobj e) eqn:Ie.
          -- destruct (Ho eq_refl) as [_ ->]. destruct Q as [Q|Q]; [|exact Q].
             exfalso. apply E. symmetry. exact Q.
          -- rewrite (Hn eq_refl) in Q. exact Q. }
  unfold m_add_external in *. destruct (isobj e) eqn:Ie.
  - destruct (m_mem e (mobjs s)) eqn:Me.
    + split; [constructor; assumption|]. apply (M5 e Ie No). apply m_mem_true. exact Me.
    + apply (Common (e :: mobjs s)); try reflexivity; [|discriminate].
      intros _. split; [|reflexivity]. intros Q. apply (M5 e Ie No) in Q.
      apply m_mem_true in Q. congruence.
  - apply (Common (mobjs s)); try reflexivity. discriminate.
Qed.

Lemma externals_keep : forall es st op s, minv st op s ->
  (forall e, In e es -> ~ ours e /\ source (e, false)) ->
  minv st op (m_add_externals isobj es s) /\
  (forall e, In e es -> In e (map fst (mres (m_add_externals isobj es s)))).
Proof.
  induction es as [|e r IH]; intros st op s M H; [split; [exact M|intros e []]|].
  destruct (H e (or_introl eq_refl)) as [H1 H2].
  destruct (external_keeps st op s e M H1 H2) as [M1 I1].
  destruct (IH st op _ M1 (fun g Q => H g (or_intror Q))) as [M2 I2].
  split; [exact M2|]. intros g [<-|Q]; [|exact (I2 g Q)].
  pose proof (grows_externals r (m_add_external isobj s e)) as [_ G].
  exact (incl_map fst G e I1).
Qed.

Lemma externals_seen : forall es s, mseen (m_add_externals isobj es s) = mseen s.
Proof.
  induction es as [|e r IH]; intros s; [reflexivity|]. cbn [m_add_externals fold_left].
  change (fold_left (m_add_external isobj) r (m_add_external isobj s e))
    with (m_add_externals isobj r (m_add_external isobj s e)). rewrite IH.
  unfold m_add_external. destruct (isobj e); [destruct (m_mem e (mobjs s))|]; reflexivity.
Qed.

(** A product that has been noted as seen is open until its files are there. *)
Lemma see_keeps : forall n st op s, within deps n -> minv st op s -> ~ In (nname n) (mseen s) ->
  minv (nname n :: st) (nname n :: op) (m_see (nname n) s).
Proof.
  intros n st op s W M Nn.
  assert (G : grows s (m_see (nname n) s))
    by (split; [intros x Q; right; exact Q|apply incl_refl]).
  destruct M as [M1 M2 M3 M4 M5]. constructor; cbn [m_see mseen mobjs mres].
  - intros x Wx [E|H]; [left; left; exact E|].
    destruct (M1 x Wx H) as [Q|Q]; [left; right; exact Q|right; eapply complete_grows; eassumption].
  - exact M2.
  - intros x f Wx Hf H. destruct (M3 x f Wx Hf H) as [Q1 Q2]. split; [right; exact Q1|].
    intros [Q|Q]; [|exact (Q2 Q)]. apply Nn. rewrite Q. exact Q1.
  - exact M4.
  - exact M5.
Qed.

(** Adding the files of a product that is open. *)
Lemma files_keep : forall n w st op s, within deps n -> minv st (nname n :: op) s ->
  In (nname n) (mseen s) -> ~ In (nname n) op ->
  (forall f, In f (nfiles n) -> source (f, w)) ->
  minv st op (m_add_files w (nfiles n) s).
Proof.
  intros n w st op s W M Sn No Sr. pose proof (grows_files w (nfiles n) s) as G.
  destruct M as [M1 M2 M3 M4 M5]. constructor; cbn [m_add_files mseen mobjs mres].
  - intros x Wx H. destruct (M1 x Wx H) as [Q|Q]; [left; exact Q|right].
    eapply complete_grows; eassumption.
  - intros e H. apply in_app_or in H. destruct H as [H|H]; [exact (M2 e H)|].
    apply in_map_iff in H. destruct H as [f [<- H]]. exact (Sr f H).
  - intros x f Wx Hf H. rewrite map_app, map_fst_files in H. apply in_app_or in H.
    destruct H as [H|H].
    + destruct (M3 x f Wx Hf H) as [Q1 Q2]. split; [exact Q1|]. intros Q. apply Q2. right. exact Q.
    + rewrite (one_owner _ _ ok x n f Wx W Hf H). split; assumption.
  - intros Nd f Of. rewrite times_app, (times_files f w _ (Nd n W)).
    specialize (M4 Nd f Of). destruct (m_mem f (nfiles n)) eqn:Q; [|lia].
    apply m_mem_true in Q.
    assert (times f (mres s) = 0)%nat as ->; [|lia]. apply times_none. intros H.
    destruct (M3 n f W Q H) as [_ X]. apply X. left. reflexivity.
  - intros e He Ne. destruct (M5 e He Ne) as [T1 T2].
    assert (Nf : ~ In e (nfiles n)) by (intros Q; apply Ne; exists n; split; assumption).
    rewrite times_app, map_app, map_fst_files, in_app_iff.
    assert (times e (map (fun f => (f, w)) (nfiles n)) = 0)%nat as ->
      by (apply times_none; rewrite map_fst_files; exact Nf).
    split; [lia|]. rewrite <- T2. tauto.
Qed.

(** Closing a product. *)
Lemma close_keeps : forall n st op s, within deps n -> minv (nname n :: st) op s ->
  complete n s -> minv st op s.
Proof.
  intros n st op s W [M1 M2 M3 M4 M5] C. constructor; try assumption.
  intros x Wx H. destruct (M1 x Wx H) as [[Q|Q]|Q]; [right|left; exact Q|right; exact Q].
  rewrite <- (one_product _ _ ok n x W Wx Q). exact C.
Qed.

Definition mpost (n : node) (p : param) (st op : list N) (s t : mstate) : Prop :=
  minv st op t /\ grows s t /\
  (plink p = true -> nkind n <> NoLibrary -> In (nname n) (mseen t)).

Lemma m_all_post : forall n, within deps n -> linked deps n ->
  nkind n = Static \/ nkind n = Object ->
  (forall q m, In (q, m) (ndeps n) -> forall p st op s, minv st op s -> incl op (mseen s) ->
     (plink p = true -> linked deps m /\ used_dependency deps p m) ->
     mpost m p st op s (m_traverse isobj imp m p s)) ->
  forall l st op s, (forall e, In e l -> In e (ndeps n)) -> minv st op s -> incl op (mseen s) ->
  minv st op (m_all l s) /\ grows s (m_all l s) /\
  (forall q m, In (q, m) l -> plink q = true -> nkind m <> NoLibrary ->
     In (nname m) (mseen (m_all l s))).
Proof.
  intros n W L K IH. induction l as [|[q m] r IHl]; intros st op s H M O; cbn [m_all].
  - split; [exact M|]. split; [apply grows_refl|intros q m []].
  - assert (Hm : In (q, m) (ndeps n)) by (apply H; left; reflexivity).
    destruct (IH q m Hm q st op s M O) as [J1 [J2 J3]].
    { intros P. split; [exact (L_step deps n q m L K Hm P)|]. split; [exact P|right].
      exists n. split; [exact L|]. split; [exact K|exact Hm]. }
    destruct (IHl st op (m_traverse isobj imp m q s)) as [T1 [T2 T3]].
    { intros e Q. apply H. right. exact Q. }
    { exact J1. }
    { intros x Q. apply J2, O, Q. }
    split; [exact T1|]. split; [eapply grows_trans; eassumption|].
    intros q' m' [E|Q] P Km; [|eapply T3; eassumption].
    injection E as <- <-. apply T2. apply J3; assumption.
Qed.

Lemma m_post : forall n, within deps n -> forall p st op s, minv st op s -> incl op (mseen s) ->
  (plink p = true -> linked deps n /\ used_dependency deps p n) ->
  mpost n p st op s (m_traverse isobj imp n p s).
Proof.
  intros n. induction n as [n IH] using node_ind2. intros W p st op s M O L.
  rewrite m_unfold. destruct (m_mem (nname n) (mseen s)) eqn:Se; cbn [orb].
  - split; [exact M|]. split; [apply grows_refl|]. intros _ _. apply m_mem_true. exact Se.
  - assert (Ns : ~ In (nname n) (mseen s)) by (intros Q; apply m_mem_true in Q; congruence).
    destruct (plink p) eqn:P; cbn [negb].
    2:{ split; [exact M|]. split; [apply grows_refl|]. congruence. }
    destruct (L eq_refl) as [L1 L2].
    assert (Op : ~ In (nname n) op) by (intros Q; apply Ns, O, Q).
    pose proof (see_keeps n st op s W M Ns) as M1.
    assert (G1 : grows s (m_see (nname n) s))
      by (split; [intros x Q; right; exact Q|apply incl_refl]).
    assert (Sr : nkind n <> NoLibrary -> forall f, In f (nfiles n) -> source (f, pwhole p)).
    { intros K f Hf. left. exists p, n. split; [exact L2|]. split; [exact L1|]. split; [exact K|].
      split; [exact Hf|reflexivity]. }
    assert (Lib : nkind n = Static \/ nkind n = Object ->
      mpost n p st op s
        (let s2 := m_add_files (pwhole p) (nfiles n) (m_all (ndeps n) (m_see (nname n) s)) in
         if imp then m_add_externals isobj (nexts n) s2 else s2)).
    { intros K. assert (Kn : nkind n <> NoLibrary) by (destruct K as [K|K]; rewrite K; discriminate).
      destruct (m_all_post n W L1 K) with (l := ndeps n) (st := nname n :: st)
        (op := nname n :: op) (s := m_see (nname n) s) as [M2 [G2 C2]].
      { intros q m Hm. apply (IH q m Hm). eapply W_step; eassumption. }
      { intros e Q. exact Q. }
      { exact M1. }
      { intros x [<-|Q]; [left; reflexivity|right; apply O; exact Q]. }
      set (s1 := m_all (ndeps n) (m_see (nname n) s)) in *.
      assert (Sn : In (nname n) (mseen s1)) by (apply G2; left; reflexivity).
      pose proof (files_keep n (pwhole p) (nname n :: st) op s1 W M2 Sn Op (Sr Kn)) as M3.
      pose proof (grows_files (pwhole p) (nfiles n) s1) as G3.
      assert (F3 : forall f, In f (nfiles n) ->
                In f (map fst (mres (m_add_files (pwhole p) (nfiles n) s1)))).
      { intros f Q. cbn. rewrite map_app, map_fst_files. apply in_or_app. right. exact Q. }
      set (s2 := m_add_files (pwhole p) (nfiles n) s1) in *. cbv zeta.
      assert (exists t, (if imp then m_add_externals isobj (nexts n) s2 else s2) = t /\
                minv (nname n :: st) op t /\ grows s2 t /\
                (imp = true -> forall e, In e (nexts n) -> In e (map fst (mres t))))
        as [t [-> [M4 [G4 X4]]]].
      { eexists. split; [reflexivity|]. destruct imp eqn:Im.
        - destruct (externals_keep (nexts n) (nname n :: st) op s2 M3) as [X1 X2].
          { intros e Q. split; [eapply ours_ext; eassumption|]. right. split; [reflexivity|].
            right. split; [exact Im|]. exists n. split; [exact L1|]. split; [exact K|exact Q]. }
          split; [exact X1|]. split; [apply grows_externals|]. intros _. exact X2.
        - split; [exact M3|]. split; [apply grows_refl|discriminate]. }
      assert (Gs : grows s1 t) by (eapply grows_trans; eassumption).
      split; [|split].
      - apply (close_keeps n st op t W M4). split.
        + intros f _ Hf. exact (incl_map fst (proj2 G4) f (F3 f Hf)).
        + intros _. split; [|exact X4].
          intros q m Hm Pq Km. apply Gs. eapply C2; eassumption.
      - eapply grows_trans; [exact G1|]. eapply grows_trans; [exact G2|exact Gs].
      - intros _ _. apply Gs. exact Sn. }
    destruct (nkind n) eqn:K.
    + apply Lib. left. reflexivity.
    + apply Lib. right. reflexivity.
    + pose proof (files_keep n (pwhole p) (nname n :: st) op (m_see (nname n) s) W M1
        (or_introl eq_refl) Op (Sr ltac:(discriminate))) as M3.
      split; [|split].
      * apply (close_keeps n st op _ W M3). split; [|rewrite K; intros [Q|Q]; discriminate].
        intros f _ Hf. cbn. rewrite map_app, map_fst_files. apply in_or_app. right. exact Hf.
      * eapply grows_trans; [exact G1|apply grows_files].
      * intros _ _. left. reflexivity.
    + split; [exact M|]. split; [apply grows_refl|]. intros _ Q. exfalso. apply Q. exact K.
Qed.

Definition m_final : mstate :=
  fold_left (fun s e => m_traverse isobj imp (snd e) (fst e) s) deps
             {| mseen := []; mobjs := []; mres := [] |}.

Lemma m_top : forall l s, (forall e, In e l -> In e deps) -> minv [] [] s ->
  let t := fold_left (fun s e => m_traverse isobj imp (snd e) (fst e) s) l s in
  minv [] [] t /\ grows s t /\
  (forall q m, In (q, m) l -> plink q = true -> nkind m <> NoLibrary -> In (nname m) (mseen t)).
Proof.
  induction l as [|[q m] r IH]; intros s H M; cbn [fold_left fst snd].
  - split; [exact M|]. split; [apply grows_refl|intros q m []].
  - assert (Hm : In (q, m) deps) by (apply H; left; reflexivity).
    destruct (m_post m (W_top deps q m Hm) q [] [] s M) as [J1 [J2 J3]].
    { intros x []. }
    { intros P. split; [exact (L_top deps q m Hm P)|]. split; [exact P|left; exact Hm]. }
    destruct (IH (m_traverse isobj imp m q s)) as [T1 [T2 T3]].
    { intros e Q. apply H. right. exact Q. }
    { exact J1. }
    split; [exact T1|]. split; [eapply grows_trans; eassumption|].
    intros q' m' [E|Q] P Km; [|eapply T3; eassumption].
    injection E as <- <-. apply T2. apply J3; assumption.
Qed.

Lemma m_start : minv [] [] {| mseen := []; mobjs := []; mres := [] |}.
Proof.
  constructor; cbn.
  - intros x _ [].
  - intros e [].
  - intros x f _ _ [].
  - intros _ f _. lia.
  - intros e _ _. split; [lia|]. split; intros [].
Qed.

Lemma m_final_inv : minv [] [] m_final.
Proof. exact (proj1 (m_top deps _ (fun e H => H) m_start)). Qed.

Lemma m_linked_seen : forall x, linked deps x -> nkind x <> NoLibrary ->
  In (nname x) (mseen m_final).
Proof.
  intros x H. induction H as [q n H P|x q m H IH K Hm P]; intros Kn.
  - destruct (m_top deps _ (fun e H => H) m_start) as [_ [_ T]]. eapply T; eassumption.
  - assert (Kx : nkind x <> NoLibrary) by (destruct K as [K|K]; rewrite K; discriminate).
    destruct (m_done _ _ _ m_final_inv x (linked_within deps x H) (IH Kx)) as [[]|[_ C]].
    destruct (C K) as [C1 _]. eapply C1; eassumption.
Qed.

Lemma m_linked_complete : forall x, linked deps x -> nkind x <> NoLibrary -> complete x m_final.
Proof.
  intros x L K. destruct (m_done _ _ _ m_final_inv x (linked_within deps x L) (m_linked_seen x L K))
    as [[]|C]. exact C.
Qed.

Lemma m_result : minv [] [] (m_add_externals isobj exts m_final) /\
  grows m_final (m_add_externals isobj exts m_final) /\
  (forall e, In e exts -> In e (map fst (m_libraries isobj imp deps exts))).
Proof.
  destruct (externals_keep exts [] [] m_final m_final_inv) as [X1 X2].
  - intros e Q. split; [apply ours_top; exact Q|]. right. split; [reflexivity|left; exact Q].
  - split; [exact X1|]. split; [apply grows_externals|exact X2].
Qed.

End Msvc.

(** * Theorems *)

(** C137. All libraries and object files of the products to link with are given to the linker,
    and all external libraries. *)
Theorem msvc_all_libraries : forall isobj imp deps exts, sound_project deps exts ->
  (forall x f, linked deps x -> nkind x <> NoLibrary -> In f (nfiles x) ->
     In f (map fst (m_libraries isobj imp deps exts))) /\
  (forall e, In e exts -> In e (map fst (m_libraries isobj imp deps exts))) /\
  (forall x e, imp = true -> linked deps x -> nkind x = Static \/ nkind x = Object ->
     In e (nexts x) -> In e (map fst (m_libraries isobj imp deps exts))).
Proof.
  intros isobj imp deps exts ok. destruct (m_result isobj imp deps exts ok) as [_ [[_ G] X]].
  pose proof (incl_map fst G) as G'. split; [|split].
  - intros x f L K Hf. apply G'.
    exact (proj1 (m_linked_complete isobj imp deps exts ok x L K) f K Hf).
  - exact X.
  - intros x e Im L K He. apply G'.
    assert (Kn : nkind x <> NoLibrary) by (destruct K as [K|K]; rewrite K; discriminate).
    destruct (m_linked_complete isobj imp deps exts ok x L Kn) as [_ C].
    exact (proj2 (C K) Im e He).
Qed.

(** C137. Nothing else is given to it, and a library is linked as a whole only if some
    dependency on it says so. *)
Theorem msvc_only_those : forall isobj imp deps exts f w, sound_project deps exts ->
  In (f, w) (m_libraries isobj imp deps exts) ->
  (exists q x, used_dependency deps q x /\ linked deps x /\ nkind x <> NoLibrary /\
     In f (nfiles x) /\ pwhole q = w) \/
  (w = false /\
   (In f exts \/
    imp = true /\ exists x, linked deps x /\ (nkind x = Static \/ nkind x = Object) /\
                            In f (nexts x))).
Proof.
  intros isobj imp deps exts f w ok H. destruct (m_result isobj imp deps exts ok) as [M _].
  exact (m_source _ _ _ _ _ _ _ M (f, w) H).
Qed.

(** C137. If all dependencies on a library agree, it is linked the way they say. *)
Theorem msvc_whole_archive_agreed : forall isobj imp deps exts x f w, sound_project deps exts ->
  linked deps x -> nkind x <> NoLibrary -> In f (nfiles x) ->
  (forall q, used_dependency deps q x -> pwhole q = w) ->
  In (f, w) (m_libraries isobj imp deps exts) /\
  ~ In (f, negb w) (m_libraries isobj imp deps exts).
Proof.
  intros isobj imp deps exts x f w ok L K Hf A.
  pose proof (linked_within deps x L) as W.
  assert (T : forall v, In (f, v) (m_libraries isobj imp deps exts) -> v = w).
  { intros v H. destruct (msvc_only_those isobj imp deps exts f v ok H)
      as [[q [y [U [Ly [_ [Hy E]]]]]]|[_ [Q|[_ [y [Ly [_ Q]]]]]]].
    - rewrite <- E. apply A.
      rewrite <- (one_owner _ _ ok y x f (linked_within deps y Ly) W Hy Hf). exact U.
    - exfalso. exact (proj2 (not_external _ _ ok x x f W W Hf) Q).
    - exfalso. exact (proj1 (not_external _ _ ok x y f W (linked_within deps y Ly) Hf) Q). }
  split.
  - destruct (msvc_all_libraries isobj imp deps exts ok) as [C _]. specialize (C x f L K Hf).
    apply in_map_iff in C. destruct C as [[g v] [E C]]. cbn in E. subst g.
    rewrite <- (T v C). exact C.
  - intros H. apply T in H. destruct w; discriminate.
Qed.

(** C137. The files of products and external object files are given to it once, so that no
    symbol is defined twice. *)
Theorem msvc_objects_once : forall isobj imp deps exts, sound_project deps exts ->
  (forall x, within deps x -> NoDup (nfiles x)) ->
  (forall x f, linked deps x -> nkind x <> NoLibrary -> In f (nfiles x) ->
     times f (m_libraries isobj imp deps exts) = 1%nat) /\
  (forall e, In e exts -> isobj e = true -> times e (m_libraries isobj imp deps exts) = 1%nat) /\
  (forall x e, within deps x -> In e (nexts x) -> isobj e = true ->
     (times e (m_libraries isobj imp deps exts) <= 1)%nat).
Proof.
  intros isobj imp deps exts ok Nd. destruct (m_result isobj imp deps exts ok) as [M _].
  destruct (msvc_all_libraries isobj imp deps exts ok) as [C1 [C2 _]].
  assert (One : forall f l, (times f l <= 1)%nat -> In f (map fst l) -> times f l = 1%nat).
  { intros f l H Q. destruct (times f l) as [|[|k]] eqn:E; [|reflexivity|lia].
    apply times_none in E. contradiction. }
  split; [|split].
  - intros x f L K Hf. apply One; [|exact (C1 x f L K Hf)].
    apply (m_once _ _ _ _ _ _ _ M Nd). exists x. split; [apply linked_within; exact L|exact Hf].
  - intros e He Ie. apply One; [|exact (C2 e He)].
    apply (m_objs _ _ _ _ _ _ _ M e Ie). eapply ours_top; eassumption.
  - intros x e W He Ie. apply (m_objs _ _ _ _ _ _ _ M e Ie). eapply ours_ext; eassumption.
Qed.

Lemma m_seen_grows : forall isobj imp n p s,
  incl (mseen s) (mseen (m_traverse isobj imp n p s)).
Proof.
  intros isobj imp n. induction n as [n IH] using node_ind2. intros p s. rewrite m_unfold.
  destruct (m_mem (nname n) (mseen s) || negb (plink p)); [apply incl_refl|].
  assert (T : forall l s0, (forall e, In e l -> In e (ndeps n)) ->
            incl (mseen s0) (mseen (m_all isobj imp l s0))).
  { induction l as [|[q m] r IHl]; intros s0 H; [apply incl_refl|]. cbn [m_all].
    eapply incl_tran; [apply (IH q m); apply H; left; reflexivity|].
    apply IHl. intros e Q. apply H. right. exact Q. }
  specialize (T (ndeps n) (m_see (nname n) s) (fun e H => H)).
  assert (T2 : incl (mseen s) (mseen (m_all isobj imp (ndeps n) (m_see (nname n) s))))
    by (intros x Q; apply T; right; exact Q).
  destruct (nkind n); cbv zeta.
  - destruct imp; [|exact T2]. rewrite externals_seen. exact T2.
  - destruct imp; [|exact T2]. rewrite externals_seen. exact T2.
  - intros x Q. right. exact Q.
  - apply incl_refl.
Qed.

Lemma m_traverse_variants : forall isobj imp n p s,
  m_traverse isobj imp (without_variants n) p s = m_traverse isobj imp n p s.
Proof.
  intros isobj imp n p s. rewrite !m_unfold. unfold without_variants.
  cbn [nname nkind ndeps nfiles nexts].
  destruct (m_mem (nname n) (mseen s) || negb (plink p)); [reflexivity|].
  assert (E : forall l s0, In (nname n) (mseen s0) ->
    m_all isobj imp (filter (fun e => negb (nname (snd e) =? nname n)) l) s0 =
    m_all isobj imp l s0).
  { induction l as [|[q m] r IH]; intros s0 H; [reflexivity|]. cbn [filter snd].
    destruct (N.eqb_spec (nname m) (nname n)) as [Q|Q]; cbn [negb m_all].
    - rewrite (m_unfold isobj imp m q s0), Q.
      replace (m_mem (nname n) (mseen s0)) with true
        by (symmetry; apply m_mem_true; exact H). cbn [orb]. apply IH. exact H.
    - apply IH. apply m_seen_grows. exact H. }
  rewrite E; [reflexivity|]. left. reflexivity.
Qed.

(** C137. If a product combines variants of itself, the variants are not linked as well. *)
Theorem msvc_variants_not_linked : forall isobj imp deps exts,
  m_libraries isobj imp (map (fun e => (fst e, without_variants (snd e))) deps) exts =
  m_libraries isobj imp deps exts.
Proof.
  intros isobj imp deps exts. unfold m_libraries.
  assert (E : forall l s, fold_left (fun s e => m_traverse isobj imp (snd e) (fst e) s)
      (map (fun e => (fst e, without_variants (snd e))) l) s =
    fold_left (fun s e => m_traverse isobj imp (snd e) (fst e) s) l s).
  { induction l as [|e r IH]; intros s; [reflexivity|]. cbn [map fold_left fst snd].
    rewrite m_traverse_variants. apply IH. }
  rewrite E. reflexivity.
Qed.

(** C137. As with GCC, a product that wants a static library as a whole does not always get it. *)
Theorem msvc_whole_archive_ignored_refuted : exists isobj imp deps exts q x f,
  sound_project deps exts /\ In (q, x) deps /\ plink q = true /\ nkind x = Static /\
  In f (nfiles x) /\ pwhole q = true /\ ~ In (f, true) (m_libraries isobj imp deps exts) /\
  In (f, true) (m_libraries isobj imp (rev deps) exts).
Proof.
  exists (fun _ => false), false, [(plain, lib_a); (whole, lib_x)], [], whole, lib_x, 20.
  split.
  { apply (two_products plain whole lib_a lib_x); try reflexivity.
    - exists plain. reflexivity.
    - discriminate.
    - intros f [<-|[]] [H|[]]. discriminate.
    - apply incl_refl. }
  split; [right; left; reflexivity|]. split; [reflexivity|]. split; [reflexivity|].
  split; [left; reflexivity|]. split; [reflexivity|]. split; [|vm_compute; auto].
  vm_compute. intros [H|[H|[]]]; discriminate.
Qed.

Module Demo.
  Definition isobj (e : N) : bool := e =? 90.

  (** The project of the other file; 90 is an object file that two products have. *)
  Example result : m_libraries isobj true LinkTheorems.Demo.deps [92; 90; 92] =
    [(50, false); (51, false); (20, true); (90, false); (10, false); (11, false); (91, false);
     (92, false); (92, false)].
  Proof. reflexivity. Qed.

  Example all_use : In 20 (map fst (m_libraries isobj true LinkTheorems.Demo.deps [92; 90])).
  Proof.
    destruct (msvc_all_libraries isobj true LinkTheorems.Demo.deps [92; 90] LinkTheorems.Demo.sound) as [T _].
    apply (T LinkTheorems.Demo.low 20 LinkTheorems.Demo.l_low); [discriminate|left; reflexivity].
  Qed.

  Example once_use : times 10 (m_libraries isobj true LinkTheorems.Demo.deps [92; 90]) = 1%nat /\
    times 90 (m_libraries isobj true LinkTheorems.Demo.deps [92; 90]) = 1%nat.
  Proof.
    destruct (msvc_objects_once isobj true LinkTheorems.Demo.deps [92; 90] LinkTheorems.Demo.sound) as [T1 [T2 _]].
    - intros x H. apply LinkTheorems.Demo.all in H. cbn in H.
      destruct H as [<-|[<-|[<-|[<-|[]]]]]; repeat constructor; cbn; intuition discriminate.
    - split; [apply (T1 LinkTheorems.Demo.high 10 LinkTheorems.Demo.l_high); [discriminate|left; reflexivity]|].
      apply T2; [right; left; reflexivity|reflexivity].
  Qed.

  Example agreed_use : In (20, true) (m_libraries isobj true LinkTheorems.Demo.deps [92; 90]).
  Proof.
    apply (msvc_whole_archive_agreed isobj true LinkTheorems.Demo.deps [92; 90] LinkTheorems.Demo.low 20 true
             LinkTheorems.Demo.sound LinkTheorems.Demo.l_low); [discriminate|left; reflexivity|].
    intros q [_ [[H|[]]|[y [Ly [_ H]]]]]; [discriminate|].
    apply linked_within in Ly. apply LinkTheorems.Demo.all in Ly. cbn in Ly.
    destruct Ly as [<-|[<-|[<-|[<-|[]]]]]; cbn in H;
      repeat (destruct H as [H|H]; [first [discriminate|injection H as <-; reflexivity]|]);
      destruct H.
  Qed.
End Demo.

Print Assumptions msvc_all_libraries.
Print Assumptions msvc_only_those.
Print Assumptions msvc_whole_archive_agreed.
Print Assumptions msvc_objects_once.
Print Assumptions msvc_whole_archive_ignored_refuted.
Print Assumptions msvc_variants_not_linked.
