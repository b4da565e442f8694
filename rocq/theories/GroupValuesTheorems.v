(** Theorems about the module properties of groups. *)

From Coq Require Import List Bool NArith Lia Arith.
From Verif Require Import Str EvaluatorModel EvaluatorTheorems.
Import ListNotations.
Open Scope N_scope.
Open Scope list_scope.

(** ** Specification

    A group has an instance of each module of its product. The properties of
    that instance are those of the product's instance, except for the ones set
    in the group, and their scripts ask the group's instances where the
    product's scripts ask the product's ones. *)

(** The two items are the same, or the first is the group's instance and the
    second the product's. *)
Definition below (inst : list (iid * iid)) (a b : iid) : Prop := a = b \/ In (a, b) inst.

Inductive alike (inst : list (iid * iid)) : prog -> prog -> Prop :=
| alike_ret v : alike inst (Ret v) (Ret v)
| alike_throw : alike inst Throw Throw
| alike_get a b n k l :
    below inst a b -> (forall x, alike inst (k x) (l x)) ->
    alike inst (Get a n k) (Get b n l).

(** The module property q is given by a script of a module (instance). *)
Definition scripted (w : world) (i : iid) (n : name) (q : qid) : Prop :=
  exists o obj v it, property_of w i n (Some (o, obj, v)) /\ the_item w o it /\
    js v = true /\ (kind_of it = Instance \/ kind_of it = ModuleItem) /\
    q = (mod_name it, n).

Record group_of (w : world) (inst : list (iid * iid)) (names : iid -> str)
  (set : list qid) : Prop := {
  group_absent : forall g m n, In (g, m) inst -> ~ In (names m, n) set ->
    property_of w m n None -> property_of w g n None;
  group_alike : forall g m n o obj v, In (g, m) inst -> ~ In (names m, n) set ->
    property_of w m n (Some (o, obj, v)) ->
    exists o' obj' v', property_of w g n (Some (o', obj', v')) /\
      alike inst (code v' g obj') (code v m obj);
  group_names : forall g m n o obj v, In (g, m) inst ->
    property_of w m n (Some (o, obj, v)) ->
    exists it, the_item w o it /\ mod_name it = names m /\
      (kind_of it = Instance \/ kind_of it = ModuleItem);
  group_variants : forall g m n o obj v, In (g, m) inst ->
    property_of w m n (Some (o, obj, v)) -> js v = false ->
    exists x, code v m obj = Ret x;
  (** What the group sets is given by scripts in the product. *)
  group_scripts : forall g m n, In (g, m) inst -> In (names m, n) set ->
    exists q, scripted w m n q }.

(** ** What is recorded *)

Inductive path (w : world) : prog -> iid -> name -> Prop :=
| path_here i n k : path w (Get i n k) i n
| path_later i n k a j m : means w i n a -> path w (k a) j m -> path w (Get i n k) j m.

Definition recq (w : world) (i : iid) (n : name) : option qid :=
  match find_value w i n with
  | Some (o, _, v) =>
      if js v && recorded (kind_of (item_of w o)) then Some (mod_name (item_of w o), n)
      else None
  | None => None
  end.

Lemma recorded_spec k : recorded k = true <-> (k = Instance \/ k = ModuleItem).
Proof. destruct k; simpl; intuition congruence. Qed.

Lemma scripted_spec w i n q : scripted w i n q <-> recq w i n = Some q.
Proof.
  unfold scripted, recq. split.
  - intros (o & obj & v & it & P & T & J & K & ->). apply property_of_spec in P.
    apply the_item_eq in T. subst. rewrite P, J. apply recorded_spec in K. rewrite K.
    reflexivity.
  - destruct (find_value w i n) as [[[o obj] v]|] eqn:F; [|discriminate].
    destruct (js v) eqn:J; simpl; [|discriminate].
    destruct (recorded (kind_of (item_of w o))) eqn:K; [|discriminate].
    intros E. inversion E; subst. exists o, obj, v, (item_of w o).
    split; [apply property_of_spec; auto|].
    split; [apply item_of_spec|]. split; auto. split; auto. apply recorded_spec; auto.
Qed.

(** The cached properties of the items in [base] are recorded: what they asked
    for is cached, and each asked script is noted. *)
Definition good (w : world) (base : list iid) (s : state) : Prop :=
  forall i n, In i base -> cached (cache s) i n <> None ->
  forall o obj v, find_value w i n = Some (o, obj, v) ->
  forall j m, path w (code v i obj) j m ->
    (find_value w j m <> None -> cached (cache s) j m <> None) /\
    (forall q p, recq w i n = Some q -> recq w j m = Some p -> In (p, q) (deps s)).

Definition grows (s s' : state) : Prop :=
  incl (deps s) (deps s') /\
  (forall j m, cached (cache s) j m <> None -> cached (cache s') j m <> None).

Lemma grows_refl s : grows s s.
Proof. split; [apply incl_refl|auto]. Qed.

Lemma grows_trans a b c : grows a b -> grows b c -> grows a c.
Proof. intros [A B] [C D]. split; [eapply incl_tran; eauto|auto]. Qed.

Definition records (w : world) (base : list iid)
  (ask : iid -> name -> state -> result * state) : Prop :=
  forall i n s r s', ask i n s = (r, s') -> right_cache w s -> good w base s ->
  pending s' = false -> r <> SelfRef -> r <> OutOfFuel ->
  good w base s' /\ requested s' = requested s /\ grows s s' /\
  (find_value w i n <> None -> cached (cache s') i n <> None) /\
  (forall q t l, recq w i n = Some q -> requested s = t :: l -> In (q, t) (deps s')).

Lemma run_records w base ask p s v s' :
  records w base ask ->
  (forall i n s r s', ask i n s = (r, s') -> right_cache w s -> pending s' = false ->
     right_cache w s' /\
     (r = NotFound -> means w i n None) /\
     (forall v, r = Found v -> means w i n (Some v))) ->
  (forall i n s, pending s = true -> pending (snd (ask i n s)) = true) ->
  run ask p s = (Done v, s') -> right_cache w s -> good w base s -> pending s' = false ->
  good w base s' /\ requested s' = requested s /\ grows s s' /\
  (forall j m, path w p j m ->
     (find_value w j m <> None -> cached (cache s') j m <> None) /\
     (forall q t l, recq w j m = Some q -> requested s = t :: l -> In (q, t) (deps s'))).
Proof.
  intros HR HA HP. revert s. induction p as [u| |i n k IH]; intros s E RC G PE; cbn [run] in E.
  - inversion E; subst. split; [auto|split; [auto|split; [apply grows_refl|]]].
    intros j m X. inversion X.
  - discriminate.
  - destruct (ask i n s) as [r s1] eqn:A.
    assert (P1 : pending s1 = false).
    { destruct (pending s1) eqn:C; auto. exfalso.
      destruct r as [|x| |]; try discriminate.
      - generalize (run_pending ask (k None) s1 HP C). rewrite E. simpl. congruence.
      - generalize (run_pending ask (k (Some x)) s1 HP C). rewrite E. simpl. congruence. }
    destruct (HA _ _ _ _ _ A RC P1) as (R1 & M0 & M1).
    assert (X : exists a, means w i n a /\ run ask (k a) s1 = (Done v, s') /\ r <> SelfRef /\ r <> OutOfFuel).
    { destruct r as [|x| |]; try discriminate.
      - exists None. split; [auto|split; [auto|split; discriminate]].
      - exists (Some x). split; [auto|split; [auto|split; discriminate]]. }
    destruct X as (a & M & E1 & N1 & N2).
    destruct (HR _ _ _ _ _ A RC G P1 N1 N2) as (G1 & Q1 & W1 & C1 & D1).
    destruct (IH a s1 E1 R1 G1 PE) as (G2 & Q2 & W2 & H2).
    split; [auto|split; [congruence|split; [eapply grows_trans; eauto|]]].
    intros j m X. inversion X; subst.
    + split.
      * intros F. apply W2. auto.
      * intros q t l RQ RS. apply W2. eapply D1; eauto.
    + assert (a0 = a) by (eapply means_fun; eauto). subst.
      match goal with Y : path w (k a) j m |- _ => destruct (H2 _ _ Y) as [U1 U2] end.
      split; auto. intros q t l RQ RS. eapply U2; eauto. rewrite Q1. eauto.
Qed.

Lemma good_grows w base s s' :
  grows s s' -> good w base s ->
  (forall i n, In i base -> cached (cache s') i n <> None -> cached (cache s) i n <> None) ->
  good w base s'.
Proof.
  intros [GD GC] G B i n IB C o obj v F j m P.
  destruct (G i n IB (B _ _ IB C) _ _ _ F _ _ P) as [X Y].
  split; [auto|]. intros q p RQ RP. apply GD. eauto.
Qed.

Lemma cached_put i n r s j m :
  cached (cache (put_cache i n r s)) j m =
  if N.eqb j i && str_eqb m n then Some r else cached (cache s) j m.
Proof. reflexivity. Qed.

Lemma get_records w base fuel stack : records w base (get fuel w true stack).
Proof.
  revert stack. induction fuel as [|fuel IH]; intros stack i n s r s' E RC G PE N1 N2.
  - inversion E; congruence.
  - cbn [get] in E. destruct (find_value w i n) as [[[o obj] v]|] eqn:F.
    2: { inversion E; subst. split; [auto|split; [auto|split; [apply grows_refl|]]].
         split; [congruence|]. unfold recq. rewrite F. discriminate. }
    set (rec := js v && recorded (kind_of (item_of w o))) in *.
    set (q := (mod_name (item_of w o), n)) in *.
    set (s1 := if rec then push q s else s) in *.
    assert (RQ : recq w i n = if rec then Some q else None).
    { unfold recq. rewrite F. reflexivity. }
    assert (RC1 : right_cache w s1) by (unfold s1; destruct rec; auto).
    assert (W1 : grows s s1).
    { unfold s1; destruct rec; [|apply grows_refl]. split; [|auto].
      simpl. destruct (requested s); [apply incl_refl|apply incl_tl, incl_refl]. }
    assert (C1 : cache s1 = cache s) by (unfold s1; destruct rec; auto).
    assert (G1 : good w base s1).
    { apply (good_grows w base s); auto. intros. rewrite <- C1. auto. }
    assert (E1 : forall p t l, recq w i n = Some p -> requested s = t :: l -> In (p, t) (deps s1)).
    { intros p t l RP RS. rewrite RQ in RP. unfold s1. destruct rec; [|discriminate].
      inversion RP; subst. simpl. rewrite RS. left; auto. }
    destruct (existsb (key_eqb (o, vid v)) stack).
    { inversion E; congruence. }
    destruct (cached (cache s1) i n) as [u|] eqn:CA.
    { inversion E; subst.
      assert (SS : cache (if rec then pop s1 else s1) = cache s1 /\
                   deps (if rec then pop s1 else s1) = deps s1 /\
                   requested (if rec then pop s1 else s1) = requested s).
      { unfold s1. destruct rec; auto. }
      destruct SS as (SC & SD & SR).
      assert (WW : grows s1 (if rec then pop s1 else s1)).
      { split; [rewrite SD; apply incl_refl|rewrite SC; auto]. }
      split; [|split; [auto|split; [eapply grows_trans; eauto|split]]].
      - apply (good_grows w base s1); auto. rewrite SC. auto.
      - rewrite SC, CA. discriminate.
      - rewrite SD. auto. }
    destruct (run _ (code v i obj) s1) as [out s2] eqn:RU.
    destruct out as [u| |].
    2: { unfold settle in E. destruct (pending s2) eqn:P2; inversion E; subst;
           destruct rec; simpl in PE; congruence. }
    2: { inversion E; congruence. }
    unfold settle in E. destruct (pending s2) eqn:P2.
    { inversion E; subst. destruct rec; simpl in PE; congruence. }
    assert (RR := fun (i : iid) n s r s' A => get_right fuel w true ((o, vid v) :: stack) i n s r s' A).
    destruct (run_records w base _ _ _ _ _ (IH _) RR (get_pending fuel w true _) RU RC1 G1 P2)
      as (G2 & Q2 & W2 & H2).
    inversion E; subst. clear E.
    set (s3 := put_cache i n u s2).
    assert (W3 : grows s2 s3).
    { split; [apply incl_refl|]. intros j m. unfold s3. rewrite cached_put.
      destruct (N.eqb j i && str_eqb m n); [discriminate|auto]. }
    assert (SS : cache (if rec then pop s3 else s3) = cache s3 /\
                 deps (if rec then pop s3 else s3) = deps s3 /\
                 requested (if rec then pop s3 else s3) = requested s).
    { unfold s1 in Q2. destruct rec; simpl; rewrite Q2; auto. }
    destruct SS as (SC & SD & SR).
    assert (W4 : grows s3 (if rec then pop s3 else s3)).
    { split; [rewrite SD; apply incl_refl|rewrite SC; auto]. }
    split; [|split; [auto|split; [|split]]].
    + intros j m IB CJ o' obj' v' F' j' m' PA. rewrite SC in CJ |- *. rewrite SD.
      unfold s3 in CJ. rewrite cached_put in CJ.
      destruct (N.eqb j i && str_eqb m n) eqn:SAME.
      * apply andb_true_iff in SAME. destruct SAME as [S1 S2].
        apply N.eqb_eq in S1. apply str_eqb_eq in S2. subst j m.
        rewrite F in F'. inversion F'; subst o' obj' v'.
        destruct (H2 _ _ PA) as [U1 U2]. split.
        -- intros FN. apply W3. auto.
        -- intros q' p' RQ' RP. rewrite RQ in RQ'. apply W3.
           destruct rec eqn:RE; [|discriminate]. inversion RQ'; subst q'.
           apply (U2 p' q (requested s)); auto.
      * destruct (G2 j m IB CJ _ _ _ F' _ _ PA) as [U1 U2]. split.
        -- intros FN. apply W3. auto.
        -- intros q' p' RQ' RP. apply W3. eauto.
    + eapply grows_trans; [exact W1|]. eapply grows_trans; [exact W2|].
      eapply grows_trans; [exact W3|exact W4].
    + intros _. rewrite SC. unfold s3. rewrite cached_put, N.eqb_refl, str_eqb_refl. discriminate.
    + intros p t l RP RS. rewrite SD. apply W3, W2. eapply E1; eauto.
Qed.

(** ** Which properties are evaluated again *)

Inductive reached (ds : list (qid * qid)) (set : list qid) : qid -> Prop :=
| reached_set q : In q set -> reached ds set q
| reached_dep p q : reached ds set p -> In (p, q) ds -> reached ds set q.

Lemma qid_eqb_spec a b : qid_eqb a b = true <-> a = b.
Proof.
  destruct a as [a1 a2], b as [b1 b2]. unfold qid_eqb; simpl.
  rewrite andb_true_iff. split.
  - intros [A B]. apply str_eqb_eq in A. apply str_eqb_eq in B. subst; auto.
  - intros E. inversion E; subst. split; apply str_eqb_refl.
Qed.

Lemma memq_spec q l : existsb (qid_eqb q) l = true <-> In q l.
Proof.
  rewrite existsb_exists. split.
  - intros (x & A & B). apply qid_eqb_spec in B. subst; auto.
  - intros A. exists q. split; auto. apply qid_eqb_spec; auto.
Qed.

Definition open_edges (ds : list (qid * qid)) (all : list qid) : nat :=
  length (filter (fun d => negb (existsb (qid_eqb (fst d)) all)) ds).

Lemma open_edges_cons q ds all :
  existsb (qid_eqb q) all = false ->
  (open_edges ds (q :: all) + length (filter (fun d : qid * qid => qid_eqb q (fst d)) ds)
   = open_edges ds all)%nat.
Proof.
  intros NI. unfold open_edges. induction ds as [|[a b] ds IH]; simpl; auto.
  simpl in IH. destruct (qid_eqb a q) eqn:E.
  - apply qid_eqb_spec in E. subst a.
    assert (R : qid_eqb q q = true) by (apply qid_eqb_spec; auto).
    rewrite R, NI. simpl. lia.
  - assert (R : qid_eqb q a = false).
    { destruct (qid_eqb q a) eqn:C; auto. apply qid_eqb_spec in C. subst.
      assert (qid_eqb a a = true) by (apply qid_eqb_spec; auto). congruence. }
    rewrite R. simpl. destruct (existsb (qid_eqb a) all); simpl; lia.
Qed.

Lemma to_evaluate_spec fuel queue ds all :
  (length queue + open_edges ds all <= fuel)%nat ->
  exists l, to_evaluate fuel queue ds all = Some l /\
    incl queue l /\ incl all l /\
    ((forall p q, In p all -> In (p, q) ds -> In q all \/ In q queue) ->
     forall p q, In p l -> In (p, q) ds -> In q l) /\
    (forall set, (forall q, In q queue \/ In q all -> reached ds set q) ->
       forall q, In q l -> reached ds set q).
Proof.
  revert queue all. induction fuel as [|fuel IH]; intros queue all L.
  - destruct queue as [|q r]; simpl in L; [|lia]. exists all. simpl.
    split; auto. split; [intros x []|]. split; [apply incl_refl|]. split.
    + intros H p q P D. destruct (H p q P D) as [A|[]]; auto.
    + intros set H q I. apply H; auto.
  - destruct queue as [|q r]; cbn [to_evaluate].
    + exists all. split; auto. split; [intros x []|]. split; [apply incl_refl|]. split.
      * intros H p q P D. destruct (H p q P D) as [A|[]]; auto.
      * intros set H q I. apply H; auto.
    + destruct (existsb (qid_eqb q) all) eqn:E.
      * simpl in L. destruct (IH r all) as (l & A & B & C & D & F); [lia|].
        apply memq_spec in E. exists l. split; auto. split; [|split; [auto|split]].
        -- intros x [<-|X]; auto.
        -- intros H. apply D. intros p x P I. destruct (H p x P I) as [?|[<-|?]]; auto.
        -- intros set H. apply F. intros x [X|X]; apply H; simpl; auto.
      * set (next := map snd (filter (fun d : qid * qid => qid_eqb q (fst d)) ds)).
        assert (NX : forall x, In x next <-> In (q, x) ds).
        { intros x. unfold next. rewrite in_map_iff. split.
          - intros ([a b] & S1 & I). apply filter_In in I. destruct I as [I S2].
            simpl in *. apply qid_eqb_spec in S2. subst; auto.
          - intros I. exists (q, x). split; auto. apply filter_In. split; auto.
            simpl. apply qid_eqb_spec; auto. }
        destruct (IH (r ++ next) (q :: all)) as (l & A & B & C & D & F).
        { rewrite app_length. unfold next. rewrite map_length.
          generalize (open_edges_cons q ds all E). simpl in L. lia. }
        exists l. split; auto. split; [|split; [|split]].
        -- intros x [<-|X]; [apply C; left; auto|apply B, in_or_app; auto].
        -- intros x X. apply C. right; auto.
        -- intros H. apply D. intros p x [<-|P] I.
           ++ right. apply in_or_app. right. apply NX; auto.
           ++ destruct (H p x P I) as [?|[<-|?]]; [left; right; auto|left; left; auto|].
              right. apply in_or_app; auto.
        -- intros set H. apply F. intros x [X|[<-|X]].
           ++ apply in_app_or in X. destruct X as [X|X]; [apply H; left; right; auto|].
              apply NX in X. eapply reached_dep; [|exact X]. apply H. left; left; auto.
           ++ apply H. left; left; auto.
           ++ apply H; auto.
Qed.

(** The properties to evaluate again are exactly those set in the group and
    those that were recorded to depend on them; finding them ends. *)
Theorem to_evaluate_exact set ds :
  exists l, to_evaluate (queue_enough set ds) set ds [] = Some l /\
    forall q, In q l <-> reached ds set q.
Proof.
  destruct (to_evaluate_spec (queue_enough set ds) set ds []) as (l & A & B & C & D & F).
  { unfold queue_enough, open_edges. simpl.
    assert (H : (length (filter (fun _ : qid * qid => true) ds) <= length ds)%nat).
    { clear. induction ds; simpl; lia. }
    lia. }
  exists l. split; auto. intros q. split.
  - apply F. intros x [X|[]]. apply reached_set; auto.
  - induction 1 as [q I|p q R IH I]; [apply B; auto|].
    apply (D (fun p q (X : In p []) => match X with end) p q IH I).
Qed.

(** ** What does not depend on the group's settings is the same in the group *)

Lemma compr_alike w inst h :
  forall pg pp, alike inst pg pp ->
  (forall a b n x, below inst a b -> path w pp b n -> comp h w b n = Some x ->
     exists h', comp h' w a n = Some x) ->
  forall r, compr (comp h w) pp = Some r -> exists h', compr (comp h' w) pg = Some r.
Proof.
  induction 1 as [v| |a b n k l BE AL IH]; intros H r C; cbn [compr] in *.
  - exists O. auto.
  - discriminate.
  - destruct (comp h w b n) as [x|] eqn:CB; [|discriminate].
    destruct (H a b n x BE (path_here w b n l) CB) as [h1 H1].
    destruct (IH x) with (r := r) as [h2 H2]; auto.
    { intros a' b' n' x' BE' P'. apply H; auto. eapply path_later; eauto.
      eapply comp_means; eauto. }
    exists (max h1 h2).
    rewrite (comp_le h1 (max h1 h2) w a n x (Nat.le_max_l _ _) H1).
    apply (compr_le h2); [lia|auto].
Qed.

Lemma group_same w inst names set base s (all : list qid) :
  group_of w inst names set -> good w base s ->
  (forall g m, In (g, m) inst -> In m base) ->
  incl set all ->
  (forall p q, In p all -> In (p, q) (deps s) -> In q all) ->
  forall h g m n a, In (g, m) inst -> ~ In (names m, n) all ->
  (find_value w m n <> None -> cached (cache s) m n <> None) ->
  comp h w m n = Some a -> exists h', comp h' w g n = Some a.
Proof.
  intros GO GD IB IS CL. induction h as [|h IH]; intros g m n a I NA CA C; [discriminate|].
  assert (NS : ~ In (names m, n) set) by (intros X; apply NA, IS; auto).
  cbn [comp] in C. destruct (find_value w m n) as [[[o obj] v]|] eqn:F.
  2: { inversion C; subst. apply property_of_spec in F.
       apply (group_absent _ _ _ _ GO g m n I NS) in F. apply property_of_spec in F.
       exists 1%nat. simpl. rewrite F. auto. }
  destruct (compr (comp h w) (code v m obj)) as [r|] eqn:CR; [|discriminate].
  inversion C; subst a.
  assert (PF := proj2 (property_of_spec _ _ _ _) F).
  destruct (group_alike _ _ _ _ GO g m n o obj v I NS PF) as (o' & obj' & v' & PG & AL).
  apply property_of_spec in PG.
  assert (X : exists h', compr (comp h' w) (code v' g obj') = Some r).
  { destruct (group_names _ _ _ _ GO g m n o obj v I PF) as (it & T & NM & K).
    apply the_item_eq in T. subst it. apply recorded_spec in K.
    destruct (js v) eqn:J.
    2: { destruct (group_variants _ _ _ _ GO g m n o obj v I PF J) as [x E].
         rewrite E in AL, CR. inversion AL; subst. exists O. simpl in *. auto. }
    assert (RQ : recq w m n = Some (names m, n)).
    { unfold recq. rewrite F, J, K. simpl. rewrite NM. auto. }
    apply (compr_alike w inst h _ _ AL); auto.
    intros a b n' x [->|BE] P CB; [exists h; auto|].
    assert (CM : cached (cache s) m n <> None) by (apply CA; discriminate).
    destruct (GD m n (IB _ _ I) CM _ _ _ F _ _ P) as [G1 G2].
    destruct (find_value w b n') as [[[o2 obj2] v2]|] eqn:F2.
    2: { assert (P2 := proj2 (property_of_spec _ _ _ _) F2).
         assert (NB : ~ In (names b, n') set).
         { intros Y. destruct (group_scripts _ _ _ _ GO a b n' BE Y) as [q SQ].
           apply scripted_spec in SQ. unfold recq in SQ. rewrite F2 in SQ. discriminate. }
         apply (group_absent _ _ _ _ GO a b n' BE NB) in P2. apply property_of_spec in P2.
         exists 1%nat. destruct h as [|h]; [discriminate|]. cbn [comp] in CB |- *.
         rewrite F2 in CB. rewrite P2. auto. }
    assert (P2 := proj2 (property_of_spec _ _ _ _) F2).
    destruct (group_names _ _ _ _ GO a b n' o2 obj2 v2 BE P2) as (it2 & T2 & NM2 & K2).
    apply the_item_eq in T2. subst it2. apply recorded_spec in K2.
    destruct (js v2) eqn:J2.
    - assert (RQ2 : recq w b n' = Some (names b, n')).
      { unfold recq. rewrite F2, J2, K2. simpl. rewrite NM2. auto. }
      apply (IH a b n' x); auto.
      + intros Y. apply NA. eapply CL; [exact Y|]. apply G2; auto.
      + intros _. apply G1. discriminate.
    - destruct (group_variants _ _ _ _ GO a b n' o2 obj2 v2 BE P2 J2) as [y E2].
      assert (NB : ~ In (names b, n') set).
      { intros Y. destruct (group_scripts _ _ _ _ GO a b n' BE Y) as [q SQ].
        apply scripted_spec in SQ. unfold recq in SQ. rewrite F2, J2 in SQ. discriminate. }
      destruct (group_alike _ _ _ _ GO a b n' o2 obj2 v2 BE NB P2) as (o3 & obj3 & v3 & P3 & AL3).
      rewrite E2 in AL3. inversion AL3; subst. apply property_of_spec in P3.
      exists 1%nat. destruct h as [|h]; [discriminate|]. cbn [comp] in CB |- *.
      rewrite F2, E2 in CB. rewrite P3. simpl in CB.
      match goal with Y : Ret _ = code _ _ _ |- _ => rewrite <- Y end. auto. }
  destruct X as [h' H']. exists (S h'). cbn [comp]. rewrite PG, H'. auto.
Qed.

(** ** The maps *)

Lemma evaluate_get w i n s v s' :
  evaluate (enough w) w true i n s = (Value v, s') ->
  get (enough w) w true [] i n s = (Found v, s') /\ pending s' = false.
Proof.
  unfold evaluate. destruct (get (enough w) w true [] i n s) as [r s1].
  destruct r as [|x| |]; try destruct (pending s1) eqn:P; intros E; inversion E; subst; auto.
Qed.

Definition ready (w : world) (base : list iid) (s : state) : Prop :=
  right_cache w s /\ good w base s.

Lemma evaluate_ready w base i n s v s' :
  evaluate (enough w) w true i n s = (Value v, s') -> ready w base s ->
  ready w base s' /\ grows s s' /\ means w i n (Some v) /\ cached (cache s') i n <> None.
Proof.
  intros E [RC G]. apply evaluate_get in E. destruct E as [E PE].
  destruct (get_right _ _ _ _ _ _ _ _ _ E RC PE) as (R1 & _ & M).
  destruct (get_records w base _ _ _ _ _ _ _ E RC G PE) as (G1 & _ & W & CA & _);
    try discriminate.
  assert (MM : means w i n (Some v)) by auto.
  split; [split; auto|split; [auto|split; [auto|]]].
  apply CA. apply means_comp in MM. destruct MM as [h MM].
  destruct h as [|h]; [discriminate|]. cbn [comp] in MM.
  destruct (find_value w i n); [discriminate|]. discriminate.
Qed.

Lemma evaluate_props_spec w base m i ns s l s' :
  evaluate_props w m i ns s = (Some l, s') -> ready w base s ->
  ready w base s' /\ grows s s' /\
  (forall q v, In (q, v) l -> exists n, q = (m, n) /\ In n ns /\ means w i n (Some v)) /\
  (forall n, In n ns -> (exists v, In ((m, n), v) l) /\ cached (cache s') i n <> None).
Proof.
  revert s l. induction ns as [|n ns IH]; intros s l E R; cbn [evaluate_props] in E.
  - inversion E; subst. split; [auto|split; [apply grows_refl|split]].
    + intros q v [].
    + intros n [].
  - destruct (evaluate (enough w) w true i n s) as [a s1] eqn:A.
    destruct a as [|v| |]; try discriminate.
    destruct (evaluate_props w m i ns s1) as [[k|] s2] eqn:B; [|discriminate].
    inversion E; subst.
    destruct (evaluate_ready _ _ _ _ _ _ _ A R) as (R1 & W1 & M1 & C1).
    destruct (IH _ _ B R1) as (R2 & W2 & I2 & J2).
    split; [auto|split; [eapply grows_trans; eauto|split]].
    + intros q x [X|X]; [inversion X; subst; exists n; split; [auto|split; [left|]; auto]|].
      destruct (I2 _ _ X) as (n' & Y1 & Y2 & Y3). exists n'. split; [auto|split; [right|]; auto].
    + intros n' [<-|X].
      * split; [exists v; left; auto|apply W2; auto].
      * destruct (J2 _ X) as [[y Y] Z]. split; [exists y; right; auto|auto].
Qed.

Lemma evaluate_modules_spec w base ms s l s' :
  evaluate_modules w ms s = (Some l, s') -> ready w base s ->
  ready w base s' /\ grows s s' /\
  (forall q v, In (q, v) l -> exists m i ns n, In (m, i, ns) ms /\ q = (m, n) /\ In n ns /\
     means w i n (Some v)) /\
  (forall m i ns n, In (m, i, ns) ms -> In n ns ->
     (exists v, In ((m, n), v) l) /\ cached (cache s') i n <> None).
Proof.
  revert s l. induction ms as [|[[m i] ns] ms IH]; intros s l E R; cbn [evaluate_modules] in E.
  - inversion E; subst. split; [auto|split; [apply grows_refl|split]].
    + intros q v [].
    + intros m i ns n [].
  - destruct (evaluate_props w m i ns s) as [[k|] s1] eqn:A; [|discriminate].
    destruct (evaluate_modules w ms s1) as [[l2|] s2] eqn:B; [|discriminate].
    inversion E; subst.
    destruct (evaluate_props_spec _ _ _ _ _ _ _ _ A R) as (R1 & W1 & I1 & J1).
    destruct (IH _ _ B R1) as (R2 & W2 & I2 & J2).
    split; [auto|split; [eapply grows_trans; eauto|split]].
    + intros q v X. apply in_app_or in X. destruct X as [X|X].
      * destruct (I1 _ _ X) as (n & Y1 & Y2 & Y3). exists m, i, ns, n.
        split; [left; auto|auto].
      * destruct (I2 _ _ X) as (m' & i' & ns' & n & Y0 & Y1 & Y2 & Y3).
        exists m', i', ns', n. split; [right; auto|auto].
    + intros m' i' ns' n [X|X] Y.
      * inversion X; subst. destruct (J1 _ Y) as [[v V] Z].
        split; [exists v; apply in_or_app; auto|apply W2; auto].
      * destruct (J2 _ _ _ _ X Y) as [[v V] Z].
        split; [exists v; apply in_or_app; auto|auto].
Qed.

Lemma lookup_q_In m q v : lookup_q m q = Some v -> In (q, v) m.
Proof.
  induction m as [|[p u] m IH]; simpl; [discriminate|].
  destruct (qid_eqb q p) eqn:E; [|auto]. apply qid_eqb_spec in E. subst.
  intros X. inversion X; subst. auto.
Qed.

Lemma lookup_q_app a b q :
  lookup_q (a ++ b) q = match lookup_q a q with Some v => Some v | None => lookup_q b q end.
Proof.
  induction a as [|[p u] a IH]; simpl; auto. destruct (qid_eqb q p); auto.
Qed.

Lemma lookup_q_some m q v : In (q, v) m -> exists u, lookup_q m q = Some u.
Proof.
  induction m as [|[p x] m IH]; simpl; [intros []|].
  intros [X|X].
  - inversion X; subst. assert (E : qid_eqb q q = true) by (apply qid_eqb_spec; auto).
    rewrite E. eauto.
  - destruct (qid_eqb q p); eauto.
Qed.

Lemma lookup_q_none m q : (forall v, ~ In (q, v) m) -> lookup_q m q = None.
Proof.
  intros H. destruct (lookup_q m q) as [v|] eqn:E; auto. apply lookup_q_In in E.
  exfalso. apply (H v); auto.
Qed.

Lemma group_modules_spec w base ms todo cur s l s' :
  NoDup (map (fun e => fst (fst e)) ms) ->
  group_modules w ms todo cur s = (Some l, s') -> ready w base s ->
  ready w base s' /\ grows s s' /\
  (forall m i ns n, In (m, i, ns) ms -> In n ns -> In (m, n) todo ->
     exists v, lookup_q l (m, n) = Some v /\ means w i n (Some v)) /\
  (forall q, (forall m i ns n, In (m, i, ns) ms -> In n ns -> q = (m, n) -> ~ In q todo) ->
     lookup_q l q = lookup_q cur q).
Proof.
  revert cur s. induction ms as [|[[m i] ns] ms IH]; intros cur s ND E R; cbn [group_modules] in E.
  - inversion E; subst. split; [auto|split; [apply grows_refl|split]].
    + intros m i ns n [].
    + auto.
  - destruct (evaluate_props w m i _ s) as [[k|] s1] eqn:A; [|discriminate].
    destruct (evaluate_props_spec _ base _ _ _ _ _ _ A R) as (R1 & W1 & I1 & J1).
    inversion ND as [|x y NI ND']; subst. simpl in NI.
    destruct (IH _ _ ND' E R1) as (R2 & W2 & I2 & J2).
    split; [auto|split; [eapply grows_trans; eauto|split]].
    + intros m' i' ns' n [X|X] IN TD.
      * inversion X; subst m' i' ns'.
        assert (INF : In n (filter (fun n : name => existsb (qid_eqb (m, n)) todo) ns)).
        { apply filter_In. split; auto. apply memq_spec; auto. }
        destruct (J1 _ INF) as [[v V] _].
        assert (L : lookup_q l (m, n) = lookup_q (k ++ cur) (m, n)).
        { apply J2. intros m' i' ns' n' Y _ Z. inversion Z; subst. exfalso. apply NI.
          apply in_map_iff. exists (m', i', ns'). auto. }
        rewrite L, lookup_q_app. destruct (lookup_q_some _ _ _ V) as [u U].
        rewrite U. exists u. split; auto. apply lookup_q_In in U.
        destruct (I1 _ _ U) as (n' & Z1 & Z2 & Z3). inversion Z1; subst. auto.
      * eapply I2; eauto.
    + intros q H. rewrite J2.
      * rewrite lookup_q_app. rewrite lookup_q_none; auto.
        intros v V. destruct (I1 _ _ V) as (n & Z1 & Z2 & Z3).
        apply filter_In in Z2. destruct Z2 as [Z2 Z4]. apply memq_spec in Z4.
        apply (H m i ns n); auto; [left; auto|subst; auto].
      * intros m' i' ns' n X Y Z. eapply H; eauto. right; eauto.
Qed.

(** The product's map and its groups: [done] are the module properties of the
    product, with the map that holds their values. *)
Record product_done (w : world) (base : list iid) (ms : list (str * iid * list name))
  (cur : list (qid * val)) (s : state) : Prop := {
  done_ready : ready w base s;
  done_cached : forall m i ns n, In (m, i, ns) ms -> In n ns -> cached (cache s) i n <> None;
  done_values : forall m i ns n, In (m, i, ns) ms -> In n ns ->
    exists v, lookup_q cur (m, n) = Some v /\ means w i n (Some v) }.

Lemma in_names {A B} (f : A -> B) l x y : NoDup (map f l) -> In x l -> In y l -> f x = f y -> x = y.
Proof.
  induction l as [|z l IH]; simpl; [intros _ []|]. intros ND X Y E.
  inversion ND as [|? ? NI ND']; subst. destruct X as [X|X], Y as [Y|Y].
  - congruence.
  - subst z. exfalso. apply NI. rewrite E. apply in_map; auto.
  - subst z. exfalso. apply NI. rewrite <- E. apply in_map; auto.
  - auto.
Qed.

Lemma product_is_done w base ms s l s' :
  NoDup (map (fun e => fst (fst e)) ms) ->
  (forall i n r, In i base -> ~ In ((i, n), r) (cache s)) -> right_cache w s ->
  evaluate_modules w ms s = (Some l, s') -> product_done w base ms l s'.
Proof.
  intros ND NC RC E.
  assert (R : ready w base s).
  { split; auto. intros i n IB C. exfalso. destruct (cached (cache s) i n) as [r|] eqn:X; [|auto].
    apply cached_first in X. apply first_of_In in X. apply (NC i n r); auto. }
  destruct (evaluate_modules_spec _ _ _ _ _ _ E R) as (R1 & _ & I1 & J1).
  constructor; auto.
  - intros m i ns n X Y. eapply J1; eauto.
  - intros m i ns n X Y. destruct (J1 _ _ _ _ X Y) as [[v V] _].
    destruct (lookup_q_some _ _ _ V) as [u U]. exists u. split; auto.
    apply lookup_q_In in U. destruct (I1 _ _ U) as (m' & i' & ns' & n' & Z0 & Z1 & Z2 & Z3).
    inversion Z1; subst. assert (Q := in_names _ _ _ _ ND X Z0 eq_refl).
    inversion Q; subst. auto.
Qed.

(** The group's modules go with the product's. *)
Definition same_modules (inst : list (iid * iid)) (names : iid -> str)
  (gms pms : list (str * iid * list name)) : Prop :=
  Forall2 (fun g p => fst (fst g) = fst (fst p) /\ snd g = snd p /\
             In (snd (fst g), snd (fst p)) inst /\ names (snd (fst p)) = fst (fst p)) gms pms.

Lemma group_step w base inst names set pms gms cur s l s' :
  group_of w inst names set -> same_modules inst names gms pms ->
  NoDup (map (fun e => fst (fst e)) pms) ->
  (forall g m, In (g, m) inst -> In m base) ->
  product_done w base pms cur s ->
  group_map w gms set cur s = (Some l, s') ->
  (forall m i ns n, In (m, i, ns) gms -> In n ns ->
     exists v, lookup_q l (m, n) = Some v /\ means w i n (Some v)) /\
  product_done w base pms cur s'.
Proof.
  intros GO SM ND IB [RD DC DV] E. unfold group_map in E.
  destruct (to_evaluate_exact set (deps s)) as (todo & T1 & T2). rewrite T1 in E.
  assert (NG : NoDup (map (fun e => fst (fst e)) gms)).
  { replace (map (fun e : str * iid * list name => fst (fst e)) gms)
      with (map (fun e : str * iid * list name => fst (fst e)) pms); auto.
    clear -SM. induction SM as [|g p gs ps (H & _) _ IH]; simpl; auto. congruence. }
  destruct (group_modules_spec _ base _ _ _ _ _ _ NG E RD) as (R1 & W1 & I1 & J1).
  split.
  - intros m i ns n X Y. destruct (existsb (qid_eqb (m, n)) todo) eqn:M.
    + apply memq_spec in M. eapply I1; eauto.
    + assert (NM : ~ In (m, n) todo) by (intros C; apply memq_spec in C; congruence).
      assert (PX : exists p, In (m, p, ns) pms /\ In (i, p) inst /\ names p = m).
      { clear -SM X. induction SM as [|[[gm gi] gn] [[pm pi] pn] gs ps (A & B & C & D) _ IH];
          simpl in *; [destruct X|].
        destruct X as [X|X].
        - inversion X; subst. exists pi. auto.
        - destruct (IH X) as (p & ? & ?). exists p. auto. }
      destruct PX as (p & P1 & P2 & P3).
      destruct (DV _ _ _ _ P1 Y) as (v & V1 & V2). exists v. split.
      * rewrite J1; auto.
      * apply means_comp in V2. destruct V2 as [h V2].
        destruct (group_same w inst names set base s todo GO (proj2 RD) IB) with
          (h := h) (g := i) (m := p) (n := n) (a := Some v) as [h' H']; auto.
        -- intros q Q. apply T2. apply reached_set; auto.
        -- intros a b A B. apply T2. apply T2 in A. eapply reached_dep; eauto.
        -- rewrite P3. auto.
        -- intros _. eapply DC; eauto.
        -- eapply comp_means; eauto.
  - constructor; auto. intros m i ns n X Y. apply W1. eapply DC; eauto.
Qed.

(** ** The module properties of all groups are right *)

(** Evaluating the groups of a product one after the other. *)
Fixpoint all_groups (w : world) (gs : list (list (str * iid * list name) * list qid))
  (cur : list (qid * val)) (s : state) : option (list (list (qid * val))) :=
  match gs with
  | [] => Some []
  | (ms, set) :: r =>
      let '(l, s1) := group_map w ms set cur s in
      match l, all_groups w r cur s1 with
      | Some l, Some ls => Some (l :: ls)
      | _, _ => None
      end
  end.

(** If no value of the product's modules is cached when the product's module
    properties are evaluated, and what the groups set is given by scripts in
    the product, then for each group and each module property the map of the
    group holds the meaning of the property in the group. *)
Theorem group_values_partial w base names pms s cur s1 gs ls :
  NoDup (map (fun e => fst (fst e)) pms) ->
  right_cache w s ->
  (forall i n r, In i base -> ~ In ((i, n), r) (cache s)) ->
  evaluate_modules w pms (start_stage2 s) = (Some cur, s1) ->
  Forall (fun g => exists inst, group_of w inst names (snd g) /\
            same_modules inst names (fst g) pms /\
            (forall a b, In (a, b) inst -> In b base)) gs ->
  all_groups w gs cur s1 = Some ls ->
  Forall2 (fun g l => forall m i ns n, In (m, i, ns) (fst g) -> In n ns ->
             exists v, lookup_q l (m, n) = Some v /\ means w i n (Some v)) gs ls.
Proof.
  intros ND RC NC E F A.
  assert (PD : product_done w base pms cur s1).
  { exact (product_is_done w base pms (start_stage2 s) cur s1 ND NC RC E). }
  clear E NC RC s. revert s1 ls PD A. induction F as [|[gms set] gs (inst & GO & SM & IB) F IH];
    intros s1 ls PD A; simpl in A.
  - inversion A; subst. constructor.
  - destruct (group_map w gms set cur s1) as [l s2] eqn:G.
    destruct l as [l|]; [|discriminate].
    destruct (all_groups w gs cur s2) as [ls'|] eqn:B; [|discriminate].
    inversion A; subst.
    destruct (group_step _ _ _ _ _ _ _ _ _ _ _ GO SM ND IB PD G) as [H PD'].
    constructor; auto. eapply IH; eauto.
Qed.

(** ** Where the module properties of groups are wrong *)

(** A module (1) with the properties [1], which is what [2] is, and [2]; its
    property [3] asks for [1], as a validation script does. The group's
    instance (2) sets [2]. *)
Definition grouped (script : bool) : world :=
  [(1, Item_ Instance [9] [] None
        [([1], Value_ 10 true (fun _ o => Get o [2] same));
         ([2], Value_ 11 script (fun _ _ => Ret (Lit [7])));
         ([3], Value_ 12 true (fun _ o => Get o [1] same))]);
   (2, Item_ Placeholder [9] [1] None
        [([2], Value_ 20 true (fun _ _ => Ret (Lit [8])))])].

Definition grouped_product : list (str * iid * list name) := [([9], 1, [[1]; [2]])].
Definition grouped_group : list (str * iid * list name) := [([9], 2, [[1]; [2]])].

(** The value of the product is not a script but a variant, as it is if it
    comes from the profile or the command line: a property that depends on it
    keeps the product's value in the group. *)
Theorem group_variant_refuted :
  exists w pms gms inst names set cur s1 l s2 m i ns n v u,
    same_modules inst names gms pms /\
    evaluate_modules w pms (start_stage2 empty_state) = (Some cur, s1) /\
    group_map w gms set cur s1 = (Some l, s2) /\
    In (m, i, ns) gms /\ In n ns /\
    lookup_q l (m, n) = Some v /\ means w i n (Some u) /\ v <> u.
Proof.
  exists (grouped false), grouped_product, grouped_group, [(2, 1)], (fun _ => [9]), [([9], [2])].
  do 4 eexists. exists [9], 2, [[1]; [2]], [1], (Lit [7]), (Lit [8]).
  split; [|split; [|split; [|split; [|split; [|split; [|split]]]]]].
  - repeat constructor.
  - vm_compute. reflexivity.
  - vm_compute. reflexivity.
  - left. reflexivity.
  - left. reflexivity.
  - vm_compute. reflexivity.
  - apply (comp_means 3). vm_compute. reflexivity.
  - discriminate.
Qed.

Lemma grouped_props s i n :
  find_value (grouped s) i n =
  if N.eqb i 1 then
    match own (props (item_of (grouped s) 1)) n with Some v => Some (1, 1, v) | None => None end
  else if N.eqb i 2 then
    match own (props (item_of (grouped s) 2)) n with
    | Some v => Some (2, 2, v)
    | None => match own (props (item_of (grouped s) 1)) n with
              | Some v => Some (1, 2, v) | None => None end
    end
  else None.
Proof.
  unfold find_value, search_from, grouped. cbn [item_of].
  destruct (N.eqb_spec i 1) as [->|N1].
  - cbn [N.eqb Pos.eqb is_instance kind_of search protos is_module andb item_of parent].
    destruct (own _ n); reflexivity.
  - destruct (N.eqb_spec i 2) as [->|N2].
    + cbn [N.eqb Pos.eqb is_instance kind_of search protos is_module andb item_of parent].
      destruct (own _ n); [reflexivity|]. destruct (own _ n); reflexivity.
    + cbn [no_item is_instance kind_of search protos is_module andb item_of parent].
      destruct (N.eqb_spec i 1); [congruence|]. destruct (N.eqb_spec i 2); [congruence|].
      reflexivity.
Qed.

(** This group meets what the theorem asks of groups. *)
Lemma grouped_ok : group_of (grouped true) [(2, 1)] (fun _ => [9]) [([9], [2])].
Proof.
  assert (NS : forall n, ~ In ([9], n) [([9] : str, [2] : str)] -> str_eqb n [2] = false).
  { intros n H. destruct (str_eqb n [2]) eqn:E; auto. apply str_eqb_eq in E. subst.
    exfalso. apply H. left. auto. }
  constructor.
  - intros g m n [X|[]] H P. inversion X; subst. apply property_of_spec in P.
    apply property_of_spec. rewrite grouped_props in P |- *. cbn in P |- *.
    rewrite (NS n H) in P |- *.
    destruct (str_eqb n [1]); [discriminate|]. destruct (str_eqb n [3]); [discriminate|auto].
  - intros g m n o obj v [X|[]] H P. inversion X; subst. apply property_of_spec in P.
    rewrite grouped_props in P. cbn in P. rewrite (NS n H) in P.
    destruct (str_eqb n [1]) eqn:E1.
    + inversion P; subst. do 3 eexists. split.
      * apply property_of_spec. rewrite grouped_props. cbn. rewrite (NS n H), E1. reflexivity.
      * cbn. constructor; [right; left; auto|]. intros [x|]; constructor.
    + destruct (str_eqb n [3]) eqn:E3; [|discriminate]. inversion P; subst. do 3 eexists. split.
      * apply property_of_spec. rewrite grouped_props. cbn. rewrite (NS n H), E1, E3. reflexivity.
      * cbn. constructor; [right; left; auto|]. intros [x|]; constructor.
  - intros g m n o obj v [X|[]] P. inversion X; subst. apply property_of_spec in P.
    rewrite grouped_props in P. cbn in P.
    exists (item_of (grouped true) 1). split; [|split; [reflexivity|left; reflexivity]].
    assert (o = 1).
    { destruct (str_eqb n [1]); [inversion P; auto|]. destruct (str_eqb n [2]); [inversion P; auto|].
      destruct (str_eqb n [3]); [inversion P; auto|discriminate]. }
    subst. apply item_of_spec.
  - intros g m n o obj v [X|[]] P J. inversion X; subst. apply property_of_spec in P.
    rewrite grouped_props in P. cbn in P.
    destruct (str_eqb n [1]); [inversion P; subst; discriminate|].
    destruct (str_eqb n [2]); [inversion P; subst; discriminate|].
    destruct (str_eqb n [3]); [inversion P; subst; discriminate|discriminate].
  - intros g m n [X|[]] [Y|[]]. inversion X; inversion Y; subst. exists ([9], [2]).
    apply scripted_spec. vm_compute. reflexivity.
Qed.

(** A validation script has asked for the property before, with the cache
    switched on: its value is still cached when the product's module properties
    are evaluated, so that it is not recorded on what it depends, and it keeps
    the product's value in the group. *)
Theorem group_cached_refuted :
  exists w pms gms inst names set q s0 a0 cur s1 l s2 m i ns n v u,
    group_of w inst names set /\ same_modules inst names gms pms /\
    evaluate (enough w) w true (fst q) (snd q) empty_state = (a0, s0) /\ a0 <> Error /\
    evaluate_modules w pms (start_stage2 s0) = (Some cur, s1) /\
    group_map w gms set cur s1 = (Some l, s2) /\
    In (m, i, ns) gms /\ In n ns /\
    lookup_q l (m, n) = Some v /\ means w i n (Some u) /\ v <> u.
Proof.
  exists (grouped true), grouped_product, grouped_group, [(2, 1)], (fun _ => [9]),
    [([9], [2])], (1, [3]).
  do 6 eexists. exists [9], 2, [[1]; [2]], [1], (Lit [7]), (Lit [8]).
  split; [exact grouped_ok|].
  split; [repeat constructor|].
  split; [vm_compute; reflexivity|].
  split; [discriminate|].
  split; [vm_compute; reflexivity|].
  split; [vm_compute; reflexivity|].
  split; [left; reflexivity|].
  split; [left; reflexivity|].
  split; [vm_compute; reflexivity|].
  split; [apply (comp_means 3); vm_compute; reflexivity|discriminate].
Qed.

Module Demo.
  (** Without the validation script the group's values are right, and the
      dependent property is evaluated again. *)
  Example demo_run :
    exists cur s1, evaluate_modules (grouped true) grouped_product (start_stage2 empty_state) = (Some cur, s1) /\
      lookup_q cur ([9], [1]) = Some (Lit [7]) /\
      all_groups (grouped true) [(grouped_group, [([9], [2])])] cur s1
      = Some [[(([9], [1]), Lit [8]); (([9], [2]), Lit [8]); (([9], [1]), Lit [7]); (([9], [2]), Lit [7])]].
  Proof.
    do 2 eexists. split; [vm_compute; reflexivity|]. split; vm_compute; reflexivity.
  Qed.
  Example demo_right : forall cur s1 ls,
    evaluate_modules (grouped true) grouped_product (start_stage2 empty_state) = (Some cur, s1) ->
    all_groups (grouped true) [(grouped_group, [([9], [2])])] cur s1 = Some ls ->
    Forall2 (fun g l => forall m i ns n, In (m, i, ns) (fst g) -> In n ns ->
               exists v, lookup_q l (m, n) = Some v /\ means (grouped true) i n (Some v))
      [(grouped_group, [([9], [2])])] ls.
  Proof.
    intros cur s1 ls E A.
    apply (group_values_partial (grouped true) [1] (fun _ => [9]) grouped_product empty_state cur s1); auto.
    - repeat constructor. intros [].
    - intros i n r F. inversion F.
    - constructor; [|constructor]. exists [(2, 1)]. split; [exact grouped_ok|split].
      + repeat constructor.
      + intros a b [X|[]]. inversion X; subst. left; auto.
  Qed.
  Example demo_again : to_evaluate 5 [([9], [2])] [(([9], [2]), ([9], [1]))] [] = Some [([9], [1]); ([9], [2])].
  Proof. reflexivity. Qed.
End Demo.

Print Assumptions to_evaluate_exact.
Print Assumptions group_values_partial.
Print Assumptions group_variant_refuted.
Print Assumptions group_cached_refuted.
