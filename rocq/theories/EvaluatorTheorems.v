(** Theorems about the evaluating of properties. *)

From Coq Require Import String Ascii.
From Coq Require Import List Bool NArith Lia Arith.
From Verif Require Import Str EvaluatorModel.
Import ListNotations.
Open Scope N_scope.
Open Scope list_scope.

(** ** Specification: what a property means

    Looking up a name on an item goes along the item and its prototypes; for
    module instances the module's own item ends that walk. If there is nothing,
    the parent is asked in the same way. The meaning of a property is what its
    script gives when each question it asks is answered by the meaning of the
    property asked for. There is no stack, no cache, no state. *)

Inductive first_of {K V : Type} (k : K) (v : V) : list (K * V) -> Prop :=
| first_here r : first_of k v ((k, v) :: r)
| first_later j u r : j <> k -> first_of k v r -> first_of k v ((j, u) :: r).

Definition none_of {K V : Type} (k : K) (l : list (K * V)) : Prop :=
  forall v, ~ In (k, v) l.

Definition the_item (w : world) (i : iid) (it : item) : Prop :=
  first_of i it w \/ (none_of i w /\ it = Item_ Other [] [] None []).

Inductive along (w : world) (n : name) (instance : Prop)
  : list iid -> option (iid * value) -> Prop :=
| along_end : along w n instance [] None
| along_stop o r it :
    the_item w o it -> instance -> kind_of it = ModuleItem ->
    along w n instance (o :: r) None
| along_here o r it v :
    the_item w o it -> ~ (instance /\ kind_of it = ModuleItem) ->
    first_of n v (props it) -> along w n instance (o :: r) (Some (o, v))
| along_next o r it x :
    the_item w o it -> ~ (instance /\ kind_of it = ModuleItem) ->
    none_of n (props it) -> along w n instance r x ->
    along w n instance (o :: r) x.

Definition looked_up (w : world) (i : iid) (n : name) (x : option (iid * value)) : Prop :=
  exists it, the_item w i it /\
    along w n (kind_of it = Instance \/ kind_of it = Placeholder)
          (i :: protos it) x.

Inductive property_of (w : world) (i : iid) (n : name)
  : option (iid * iid * value) -> Prop :=
| prop_own o v : looked_up w i n (Some (o, v)) -> property_of w i n (Some (o, i, v))
| prop_parent it p o v :
    looked_up w i n None -> the_item w i it -> parent it = Some p ->
    looked_up w p n (Some (o, v)) -> property_of w i n (Some (o, p, v))
| prop_none it p :
    looked_up w i n None -> the_item w i it -> parent it = Some p ->
    looked_up w p n None -> property_of w i n None
| prop_orphan it :
    looked_up w i n None -> the_item w i it -> parent it = None ->
    property_of w i n None.

Inductive means (w : world) : iid -> name -> option val -> Prop :=
| means_found i n o obj v r :
    property_of w i n (Some (o, obj, v)) -> gives w (code v i obj) r ->
    means w i n (Some r)
| means_none i n : property_of w i n None -> means w i n None
with gives (w : world) : prog -> val -> Prop :=
| gives_ret v : gives w (Ret v) v
| gives_get i n k a v : means w i n a -> gives w (k a) v -> gives w (Get i n k) v.

Scheme means_mind := Minimality for means Sort Prop
  with gives_mind := Minimality for gives Sort Prop.
Combined Scheme means_gives_ind from means_mind, gives_mind.

(** A value's script does the same whichever item it is reached through. *)
Definition one_meaning (w : world) : Prop :=
  forall i n o obj v i' n' obj' v',
    property_of w i n (Some (o, obj, v)) ->
    property_of w i' n' (Some (o, obj', v')) ->
    vid v = vid v' -> code v i obj = code v' i' obj'.

(** What is in the cache is what the properties mean. *)
Definition right_cache (w : world) (s : state) : Prop :=
  forall i n r, first_of (i, n) r (cache s) -> means w i n (Some r).

(** An answer is the right one. *)
Definition right (w : world) (i : iid) (n : name) (a : answer_) : Prop :=
  match a with
  | Value v => means w i n (Some v)
  | Missing => means w i n None
  | _ => False
  end.

(** ** The lookups of the model are the specified ones *)

Lemma first_of_In {K V} (k : K) (v : V) l : first_of k v l -> In (k, v) l.
Proof. induction 1; simpl; auto. Qed.

Lemma first_of_fun {K V} (k : K) (v u : V) l : first_of k v l -> first_of k u l -> v = u.
Proof.
  intros A; revert u. induction A; intros u' B; inversion B; subst; auto; congruence.
Qed.

Lemma item_of_spec w i : the_item w i (item_of w i).
Proof.
  unfold the_item. induction w as [|[j it] w IH]; simpl.
  - right. split; [intros v []|reflexivity].
  - destruct (N.eqb_spec i j) as [->|NE].
    + left. constructor.
    + destruct IH as [A|[A B]].
      * left. constructor; auto.
      * right. split; auto. intros v [C|C]; [inversion C; congruence|apply (A v C)].
Qed.

Lemma the_item_fun w i a b : the_item w i a -> the_item w i b -> a = b.
Proof.
  intros [A|[A EA]] [B|[B EB]].
  - eapply first_of_fun; eauto.
  - exfalso. apply (B a). apply first_of_In; auto.
  - exfalso. apply (A b). apply first_of_In; auto.
  - congruence.
Qed.

Lemma the_item_eq w i a : the_item w i a -> a = item_of w i.
Proof. intros H. eapply the_item_fun; eauto. apply item_of_spec. Qed.

Lemma own_spec ps n :
  match own ps n with
  | Some v => first_of n v ps
  | None => none_of n ps
  end.
Proof.
  induction ps as [|[m u] ps IH]; simpl.
  - intros v [].
  - destruct (str_eqb n m) eqn:E.
    + apply str_eqb_eq in E. subst. constructor.
    + apply str_eqb_neq in E. destruct (own ps n).
      * constructor; auto.
      * intros v [C|C]; [inversion C; congruence|apply (IH v C)].
Qed.

Lemma own_none ps n : none_of n ps -> own ps n = None.
Proof.
  intros H. generalize (own_spec ps n). destruct (own ps n) as [v|]; auto.
  intros F. exfalso. apply (H v). apply first_of_In; auto.
Qed.

Lemma own_some ps n v : first_of n v ps -> own ps n = Some v.
Proof.
  intros H. generalize (own_spec ps n). destruct (own ps n) as [u|]; intros F.
  - f_equal. eapply first_of_fun; eauto.
  - exfalso. apply (F v). apply first_of_In; auto.
Qed.

Lemma is_instance_spec k :
  is_instance k = true <-> (k = Instance \/ k = Placeholder).
Proof. destruct k; simpl; intuition congruence. Qed.

Lemma is_module_spec k : is_module k = true <-> k = ModuleItem.
Proof. destruct k; simpl; intuition congruence. Qed.

Lemma search_spec w n b (P : Prop) chain x :
  (b = true <-> P) -> along w n P chain x <-> search w b chain n = x.
Proof.
  intros HB. split.
  - induction 1 as [|o r it T PP K|o r it v T NP F|o r it x T NP F A IH]; simpl; auto.
    + apply the_item_eq in T. subst. apply is_module_spec in K.
      rewrite K. apply HB in PP. rewrite PP. reflexivity.
    + apply the_item_eq in T. subst.
      destruct (b && is_module (kind_of (item_of w o))) eqn:E.
      * apply andb_true_iff in E. destruct E as [E1 E2]. apply is_module_spec in E2.
        exfalso. apply NP. split; auto. apply HB; auto.
      * rewrite (own_some _ _ _ F). reflexivity.
    + apply the_item_eq in T. subst.
      destruct (b && is_module (kind_of (item_of w o))) eqn:E.
      * apply andb_true_iff in E. destruct E as [E1 E2]. apply is_module_spec in E2.
        exfalso. apply NP. split; auto. apply HB; auto.
      * rewrite (own_none _ _ F). reflexivity.
  - revert x. induction chain as [|o r IH]; simpl; intros x E.
    + subst. constructor.
    + destruct (b && is_module (kind_of (item_of w o))) eqn:B.
      * apply andb_true_iff in B. destruct B as [E1 E2]. subst.
        eapply along_stop; [apply item_of_spec| |apply is_module_spec; auto].
        apply HB; auto.
      * assert (NP : ~ (P /\ kind_of (item_of w o) = ModuleItem)).
        { intros [C1 C2]. apply HB in C1. apply is_module_spec in C2.
          rewrite C1, C2 in B. discriminate. }
        generalize (own_spec (props (item_of w o)) n).
        destruct (own (props (item_of w o)) n) as [v|]; intros F.
        -- subst. eapply along_here; eauto. apply item_of_spec.
        -- eapply along_next; eauto. apply item_of_spec.
Qed.

Lemma looked_up_spec w i n x : looked_up w i n x <-> search_from w i n = x.
Proof.
  unfold looked_up, search_from. split.
  - intros (it & T & A). apply the_item_eq in T. subst.
    eapply search_spec in A; [exact A|]. apply is_instance_spec.
  - intros A. exists (item_of w i). split; [apply item_of_spec|].
    eapply search_spec; [|exact A]. apply is_instance_spec.
Qed.

Theorem property_of_spec w i n x : property_of w i n x <-> find_value w i n = x.
Proof.
  unfold find_value. split.
  - intros H. inversion H as [o v A|it p o v A T P B|it p A T P B|it A T P]; subst;
      apply looked_up_spec in A; rewrite A.
    + reflexivity.
    + apply the_item_eq in T. subst. rewrite P. apply looked_up_spec in B. rewrite B.
      reflexivity.
    + apply the_item_eq in T. subst. rewrite P. apply looked_up_spec in B. rewrite B.
      reflexivity.
    + apply the_item_eq in T. subst. rewrite P. reflexivity.
  - destruct (search_from w i n) as [[o v]|] eqn:A; intros E.
    + subst. apply prop_own. apply looked_up_spec; auto.
    + destruct (parent (item_of w i)) as [p|] eqn:P.
      * destruct (search_from w p n) as [[o v]|] eqn:B; subst.
        -- eapply prop_parent; eauto using item_of_spec; apply looked_up_spec; auto.
        -- eapply prop_none; eauto using item_of_spec; apply looked_up_spec; auto.
      * subst. eapply prop_orphan; eauto using item_of_spec. apply looked_up_spec; auto.
Qed.

(** ** A reference evaluator *)

Fixpoint compr (ask : iid -> name -> option (option val)) (p : prog) : option val :=
  match p with
  | Ret v => Some v
  | Throw => None
  | Get i n k => match ask i n with Some a => compr ask (k a) | None => None end
  end.

Fixpoint comp (h : nat) (w : world) (i : iid) (n : name) : option (option val) :=
  match h with
  | O => None
  | S h' =>
      match find_value w i n with
      | None => Some None
      | Some (o, obj, v) =>
          match compr (comp h' w) (code v i obj) with
          | Some r => Some (Some r)
          | None => None
          end
      end
  end.

Lemma compr_mono (f g : iid -> name -> option (option val)) p r :
  (forall i n a, f i n = Some a -> g i n = Some a) ->
  compr f p = Some r -> compr g p = Some r.
Proof.
  intros H. induction p as [v| |i n k IH]; simpl; auto.
  destruct (f i n) as [a|] eqn:E; [|discriminate]. rewrite (H _ _ _ E). apply IH.
Qed.

Lemma comp_S h w i n a : comp h w i n = Some a -> comp (S h) w i n = Some a.
Proof.
  revert i n a. induction h as [|h IH]; intros i n a E; [discriminate|].
  cbn [comp] in E. change (comp (S (S h)) w i n) with
    (match find_value w i n with
     | None => Some None
     | Some (o, obj, v) =>
         match compr (comp (S h) w) (code v i obj) with
         | Some r => Some (Some r) | None => None end
     end).
  destruct (find_value w i n) as [[[o obj] v]|]; auto.
  destruct (compr (comp h w) (code v i obj)) as [r|] eqn:R; [|discriminate].
  rewrite (compr_mono _ (comp (S h) w) _ _ IH R). exact E.
Qed.

Lemma comp_le h h' w i n a : (h <= h')%nat -> comp h w i n = Some a -> comp h' w i n = Some a.
Proof. induction 1; auto. intros E. apply comp_S; auto. Qed.

Lemma comp_fun h h' w i n a b : comp h w i n = Some a -> comp h' w i n = Some b -> a = b.
Proof.
  intros A B. apply (comp_le _ (max h h')) in A; [|lia].
  apply (comp_le _ (max h h')) in B; [|lia]. congruence.
Qed.

Lemma compr_le h h' w p r :
  (h <= h')%nat -> compr (comp h w) p = Some r -> compr (comp h' w) p = Some r.
Proof. intros L. apply compr_mono. intros i n a. apply comp_le; auto. Qed.

Theorem means_comp w :
  (forall i n a, means w i n a -> exists h, comp h w i n = Some a) /\
  (forall p v, gives w p v -> exists h, compr (comp h w) p = Some v).
Proof.
  apply means_gives_ind.
  - intros i n o obj v r P _ [h H]. exists (S h). apply property_of_spec in P. simpl.
    rewrite P, H. reflexivity.
  - intros i n P. exists 1%nat. apply property_of_spec in P. simpl. rewrite P. reflexivity.
  - intros v. exists O. reflexivity.
  - intros i n k a v _ [h1 H1] _ [h2 H2]. exists (max h1 h2). simpl.
    rewrite (comp_le h1 (max h1 h2) _ _ _ _ (Nat.le_max_l _ _) H1).
    apply (compr_le h2); [lia|auto].
Qed.

Lemma comp_gives h w :
  (forall i n a, comp h w i n = Some a -> means w i n a) ->
  forall p r, compr (comp h w) p = Some r -> gives w p r.
Proof.
  intros H. induction p as [v| |i n k IH]; simpl; intros r E.
  - inversion E. constructor.
  - discriminate.
  - destruct (comp h w i n) as [a|] eqn:A; [|discriminate].
    econstructor; eauto.
Qed.

Theorem comp_means h w i n a : comp h w i n = Some a -> means w i n a.
Proof.
  revert i n a. induction h as [|h IH]; intros i n a E; [discriminate|].
  simpl in E. destruct (find_value w i n) as [[[o obj] v]|] eqn:P.
  - destruct (compr (comp h w) (code v i obj)) as [r|] eqn:R; [|discriminate].
    inversion E; subst. eapply means_found; [apply property_of_spec; eauto|].
    eapply comp_gives; eauto.
  - inversion E; subst. apply means_none. apply property_of_spec; auto.
Qed.

Lemma means_fun w i n a b : means w i n a -> means w i n b -> a = b.
Proof.
  intros A B. apply means_comp in A. apply means_comp in B.
  destruct A as [h A], B as [h' B]. eapply comp_fun; eauto.
Qed.

Lemma cached_first c i n r : cached c i n = Some r <-> first_of (i, n) r c.
Proof.
  induction c as [|[[j m] v] c IH]; simpl.
  - split; [discriminate|inversion 1].
  - destruct (N.eqb_spec i j) as [->|NE]; simpl.
    + destruct (str_eqb n m) eqn:E.
      * apply str_eqb_eq in E. subst. split.
        -- intros X. inversion X; subst. constructor.
        -- intros X. inversion X; subst; auto. congruence.
      * apply str_eqb_neq in E. split.
        -- intros X. constructor; [congruence|apply IH; auto].
        -- intros X. inversion X; subst; [congruence|apply IH; auto].
    + split.
      * intros X. constructor; [congruence|apply IH; auto].
      * intros X. inversion X; subst; [congruence|apply IH; auto].
Qed.

Lemma right_cache_spec w s :
  right_cache w s <-> forall i n r, cached (cache s) i n = Some r -> means w i n (Some r).
Proof.
  unfold right_cache. split; intros H i n r F; apply H; [apply cached_first|
  apply (proj2 (cached_first _ _ _ _))]; auto.
Qed.

(** ** Evaluating ends *)

Lemma key_eqb_spec a b : key_eqb a b = true <-> a = b.
Proof.
  destruct a as [a1 a2], b as [b1 b2]. unfold key_eqb; simpl.
  rewrite andb_true_iff, !N.eqb_eq. split; [intros [-> ->]; auto|intros E; inversion E; auto].
Qed.

Lemma stack_spec k st : existsb (key_eqb k) st = true <-> In k st.
Proof.
  rewrite existsb_exists. split.
  - intros (x & A & B). apply key_eqb_spec in B. subst; auto.
  - intros A. exists k. split; auto. apply key_eqb_spec; auto.
Qed.

Lemma search_In w b chain n o v :
  search w b chain n = Some (o, v) -> own (props (item_of w o)) n = Some v.
Proof.
  induction chain as [|c chain IH]; simpl; [discriminate|].
  destruct (b && is_module (kind_of (item_of w c))); [discriminate|].
  destruct (own (props (item_of w c)) n) as [u|] eqn:E; auto.
  intros X. inversion X; subst. auto.
Qed.

Lemma find_owner w i n o obj v :
  find_value w i n = Some (o, obj, v) -> own (props (item_of w o)) n = Some v.
Proof.
  unfold find_value, search_from.
  destruct (search w _ (i :: protos (item_of w i)) n) as [[o' v']|] eqn:A.
  - intros X. inversion X; subst. eapply search_In; eauto.
  - destruct (parent (item_of w i)) as [p|]; [|discriminate].
    destruct (search w _ (p :: protos (item_of w p)) n) as [[o' v']|] eqn:B; [|discriminate].
    intros X. inversion X; subst. eapply search_In; eauto.
Qed.

Lemma find_key w i n o obj v :
  find_value w i n = Some (o, obj, v) -> In (o, vid v) (keys w).
Proof.
  intros F. apply find_owner in F.
  generalize (own_spec (props (item_of w o)) n). rewrite F. intros FO.
  apply first_of_In in FO. unfold keys. apply in_flat_map.
  destruct (item_of_spec w o) as [T|[T E]].
  - exists (o, item_of w o). split; [apply first_of_In; auto|]. simpl.
    apply in_map_iff. exists (n, v). auto.
  - rewrite E in FO. destruct FO.
Qed.

Lemma run_ends ask p s :
  (forall i n s, fst (ask i n s) <> OutOfFuel) -> fst (run ask p s) <> Exhausted.
Proof.
  intros H. revert s. induction p as [v| |i n k IH]; simpl; intros s; try discriminate.
  generalize (H i n s). destruct (ask i n s) as [r s1]. simpl.
  destruct r; simpl; auto; congruence.
Qed.

Lemma get_ends fuel w c stack i n s :
  NoDup stack -> incl stack (keys w) -> (length (keys w) < fuel + length stack)%nat ->
  fst (get fuel w c stack i n s) <> OutOfFuel.
Proof.
  revert stack i n s. induction fuel as [|fuel IH]; intros stack i n s ND IN L.
  - apply NoDup_incl_length in IN; auto. lia.
  - cbn [get]. destruct (find_value w i n) as [[[o obj] v]|] eqn:F; [|discriminate].
    destruct (existsb (key_eqb (o, vid v)) stack) eqn:ST; [discriminate|].
    destruct (if c then _ else None); [discriminate|].
    match goal with |- context [run ?a ?p ?x] =>
      assert (NE : fst (run a p x) <> Exhausted); [apply run_ends|destruct (run a p x) as [out s2]]
    end.
    + intros i' n' s'. apply IH.
      * constructor; auto. intros C. apply stack_spec in C. congruence.
      * intros x [<-|X]; auto. eapply find_key; eauto.
      * simpl. lia.
    + simpl in NE. destruct out; try congruence;
        destruct (settle _ s2) as [r s3]; discriminate.
Qed.

(** Every evaluation ends: with as much fuel as there are properties (and one
    more) no evaluation runs out of it, whatever the scripts ask for, with or
    without a cache. *)
Theorem evaluate_ends w c i n s fuel :
  (length (keys w) < fuel)%nat -> fst (evaluate fuel w c i n s) <> NoFuel.
Proof.
  intros L. unfold evaluate.
  generalize (get_ends fuel w c [] i n s (NoDup_nil _) (incl_nil_l _)).
  destruct (get fuel w c [] i n s) as [r s1]. simpl. intros H.
  destruct r; [destruct (pending s1)|destruct (pending s1)| |]; try discriminate.
  intros _. apply H; auto. lia.
Qed.

(** ** Pending errors stay *)

Lemma run_pending ask p s :
  (forall i n s, pending s = true -> pending (snd (ask i n s)) = true) ->
  pending s = true -> pending (snd (run ask p s)) = true.
Proof.
  intros H. revert s. induction p as [v| |i n k IH]; simpl; intros s E; auto.
  generalize (H i n s E). destruct (ask i n s) as [r s1]. simpl. intros E1.
  destruct r; simpl; auto.
Qed.

Lemma push_pending q s : pending (push q s) = pending s.
Proof. reflexivity. Qed.

Lemma settle_pending out s : pending s = true -> pending (snd (settle out s)) = true.
Proof. unfold settle. intros E. rewrite E. exact E. Qed.

Lemma get_pending fuel w c stack i n s :
  pending s = true -> pending (snd (get fuel w c stack i n s)) = true.
Proof.
  revert stack i n s. induction fuel as [|fuel IH]; intros stack i n s E; auto.
  cbn [get]. destruct (find_value w i n) as [[[o obj] v]|]; auto.
  set (rec := js v && recorded (kind_of (item_of w o))).
  set (s1 := if rec then push (mod_name (item_of w o), n) s else s).
  assert (E1 : pending s1 = true) by (unfold s1; destruct rec; auto).
  destruct (existsb (key_eqb (o, vid v)) stack); auto.
  destruct (if c then cached (cache s1) i n else None).
  - destruct rec; auto.
  - match goal with |- context [run ?a ?p s1] =>
      assert (E2 : pending (snd (run a p s1)) = true);
        [apply run_pending; auto|destruct (run a p s1) as [out s2]]
    end. simpl in E2.
    destruct out; auto;
      match goal with |- context [settle ?o s2] =>
        generalize (settle_pending o s2 E2); destruct (settle o s2) as [r s3]
      end; simpl; intros E3; destruct rec, c; auto.
Qed.

(** ** Without errors, what is found is what the property means *)

Lemma run_right w ask p s out s' :
  (forall i n s r s', ask i n s = (r, s') -> right_cache w s -> pending s' = false ->
     right_cache w s' /\
     (r = NotFound -> means w i n None) /\
     (forall v, r = Found v -> means w i n (Some v))) ->
  (forall i n s, pending s = true -> pending (snd (ask i n s)) = true) ->
  run ask p s = (out, s') -> right_cache w s -> pending s' = false ->
  right_cache w s' /\ (forall v, out = Done v -> gives w p v).
Proof.
  intros HA HP. revert s. induction p as [v| |i n k IH]; intros s E RC PE; cbn [run] in E.
  - inversion E; subst. split; auto. intros u X. inversion X; subst. constructor.
  - inversion E; subst. split; auto. intros u X. discriminate.
  - destruct (ask i n s) as [r s1] eqn:A.
    assert (P1 : pending s1 = false).
    { destruct (pending s1) eqn:C; auto. exfalso.
      destruct r as [|v| |];
        try (inversion E; subst; congruence).
      - generalize (run_pending ask (k None) s1 HP C). rewrite E. simpl. congruence.
      - generalize (run_pending ask (k (Some v)) s1 HP C). rewrite E. simpl. congruence. }
    destruct (HA _ _ _ _ _ A RC P1) as (R1 & M0 & M1).
    destruct r as [|v| |].
    + destruct (IH None s1 E R1 PE) as [X Y]. split; auto. intros u U. econstructor; eauto.
    + destruct (IH (Some v) s1 E R1 PE) as [X Y]. split; auto. intros u U. econstructor; eauto.
    + inversion E; subst. split; auto. intros; discriminate.
    + inversion E; subst. split; auto. intros; discriminate.
Qed.

Lemma right_cache_same w s s' : cache s = cache s' -> right_cache w s -> right_cache w s'.
Proof. unfold right_cache. intros ->. auto. Qed.

Lemma right_put w i n r s : means w i n (Some r) -> right_cache w s -> right_cache w (put_cache i n r s).
Proof.
  intros M R j m u F. simpl in F. inversion F; subst; auto.
Qed.

Lemma get_right fuel w c stack i n s r s' :
  get fuel w c stack i n s = (r, s') -> right_cache w s -> pending s' = false ->
  right_cache w s' /\
  (r = NotFound -> means w i n None) /\
  (forall v, r = Found v -> means w i n (Some v)).
Proof.
  revert stack i n s r s'. induction fuel as [|fuel IH]; intros stack i n s r s' E RC PE.
  - inversion E; subst. split; [auto|split; intros; discriminate].
  - cbn [get] in E. destruct (find_value w i n) as [[[o obj] v]|] eqn:F.
    2: { inversion E; subst. split; [auto|split; [|intros; discriminate]].
         intros _. apply means_none. apply property_of_spec; auto. }
    set (rec := js v && recorded (kind_of (item_of w o))) in *.
    set (s1 := if rec then push (mod_name (item_of w o), n) s else s) in *.
    assert (RC1 : right_cache w s1) by (unfold s1; destruct rec; auto).
    destruct (existsb (key_eqb (o, vid v)) stack).
    { inversion E; subst. split; [auto|split; intros; discriminate]. }
    destruct (if c then cached (cache s1) i n else None) as [u|] eqn:CA.
    { inversion E; subst. split; [destruct rec; auto|split; [discriminate|]].
      intros x X. inversion X; subst. destruct c; [|discriminate].
      apply (proj1 (right_cache_spec _ _) RC1); auto. }
    destruct (run _ (code v i obj) s1) as [out s2] eqn:RU.
    assert (PO : pending s' = false -> out <> Exhausted -> pending s2 = false /\ exists u, out = Done u).
    { intros P NE. destruct out; try congruence; unfold settle in E;
        destruct (pending s2) eqn:P2; split; eauto; exfalso;
        destruct rec, c; inversion E; subst; simpl in *; congruence. }
    destruct out as [u| |].
    + destruct (PO PE) as [P2 _]; [discriminate|].
      destruct (run_right w _ _ _ _ _ (IH _) (get_pending fuel w c _) RU RC1 P2) as [R2 G].
      unfold settle in E. rewrite P2 in E.
      assert (M : means w i n (Some u)).
      { eapply means_found; [apply property_of_spec; eauto|auto]. }
      inversion E; subst. split; [|split; [discriminate|]].
      * destruct rec, c; try apply right_put; auto;
          apply (right_put w i n u s2 M R2).
      * intros x X. inversion X; subst. auto.
    + destruct (PO PE) as [P2 [x X]]; discriminate.
    + inversion E; subst. split; [|split; intros; discriminate].
      destruct (run_right w _ _ _ _ _ (IH _) (get_pending fuel w c _) RU RC1 PE) as [R2 G]. auto.
Qed.

(** An evaluation that succeeds gives the meaning of the property, with or
    without a cache, if the cache was right, and leaves the cache right. *)
Theorem evaluate_sound fuel w c i n s a s' :
  evaluate fuel w c i n s = (a, s') -> right_cache w s ->
  a <> Error -> a <> NoFuel ->
  right w i n a /\ right_cache w s' /\ pending s' = false.
Proof.
  unfold evaluate. destruct (get fuel w c [] i n s) as [r s1] eqn:G. intros E RC NE NF.
  destruct r as [|v| |]; try (inversion E; congruence).
  - destruct (pending s1) eqn:P; inversion E; subst; try congruence.
    destruct (get_right _ _ _ _ _ _ _ _ _ G RC P) as (A & B & _). split; [|auto]. apply B; auto.
  - destruct (pending s1) eqn:P; inversion E; subst; try congruence.
    destruct (get_right _ _ _ _ _ _ _ _ _ G RC P) as (A & _ & B). split; [|auto]. apply B; auto.
Qed.

(** ** Properties with a meaning are evaluated to it *)

Definition stack_ok (w : world) (h : nat) (stack : list (iid * N)) : Prop :=
  forall i n o obj v, find_value w i n = Some (o, obj, v) -> In (o, vid v) stack ->
    comp h w i n = None.

Lemma run_complete w h ask p s out s' r :
  (forall i n s x s' a, ask i n s = (x, s') -> x <> OutOfFuel -> comp h w i n = Some a ->
     right_cache w s -> pending s = false ->
     right_cache w s' /\ pending s' = false /\
     x = match a with None => NotFound | Some v => Found v end) ->
  run ask p s = (out, s') -> out <> Exhausted -> compr (comp h w) p = Some r ->
  right_cache w s -> pending s = false ->
  right_cache w s' /\ pending s' = false /\ out = Done r.
Proof.
  intros HA. revert s. induction p as [v| |i n k IH]; intros s E NE C RC PE; cbn [run compr] in *.
  - inversion E; inversion C; subst. auto.
  - discriminate.
  - destruct (comp h w i n) as [a|] eqn:A; [|discriminate].
    destruct (ask i n s) as [x s1] eqn:G.
    assert (NX : x <> OutOfFuel). { intros ->. inversion E. congruence. }
    destruct (HA _ _ _ _ _ _ G NX A RC PE) as (R1 & P1 & X). subst x.
    destruct a as [v|]; eapply IH; eauto.
Qed.

Lemma get_complete w h : one_meaning w -> forall fuel c stack i n s x s' a,
  get fuel w c stack i n s = (x, s') -> x <> OutOfFuel -> comp h w i n = Some a ->
  stack_ok w h stack -> right_cache w s -> pending s = false ->
  right_cache w s' /\ pending s' = false /\
  x = match a with None => NotFound | Some v => Found v end.
Proof.
  intros OM. induction h as [|h IH]; intros fuel c stack i n s x s' a E NX C ST RC PE;
    [discriminate|].
  destruct (comp h w i n) as [b|] eqn:B.
  { assert (a = b) by (eapply comp_fun; eauto). subst b.
    apply (IH fuel c stack i n s x s' a E NX B); [|exact RC|exact PE].
    intros i' n' o obj v F I. specialize (ST _ _ _ _ _ F I).
    destruct (comp h w i' n') eqn:D; auto. apply comp_S in D. congruence. }
  destruct fuel as [|fuel]; [inversion E; congruence|].
  cbn [get] in E. destruct (find_value w i n) as [[[o obj] v]|] eqn:F.
  2: { cbn [comp] in C. rewrite F in C. inversion C; inversion E; subst. auto. }
  set (rec := js v && recorded (kind_of (item_of w o))) in *.
  set (s1 := if rec then push (mod_name (item_of w o), n) s else s) in *.
  assert (RC1 : right_cache w s1) by (unfold s1; destruct rec; auto).
  assert (PE1 : pending s1 = false) by (unfold s1; destruct rec; auto).
  destruct (existsb (key_eqb (o, vid v)) stack) eqn:SK.
  { apply stack_spec in SK. rewrite (ST _ _ _ _ _ F SK) in C. discriminate. }
  destruct (if c then cached (cache s1) i n else None) as [u|] eqn:CA.
  { destruct c; [|discriminate]. inversion E; subst.
    assert (a = Some u).
    { eapply means_fun; [eapply comp_means; eauto|].
      apply (proj1 (right_cache_spec _ _) RC1); auto. }
    subst. destruct rec; auto. }
  cbn [comp] in C. rewrite F in C.
  destruct (compr (comp h w) (code v i obj)) as [r|] eqn:CR; [|discriminate].
  inversion C; subst a.
  destruct (run _ (code v i obj) s1) as [out s2] eqn:RU.
  assert (ST2 : stack_ok w h ((o, vid v) :: stack)).
  { intros i' n' o' obj' v' F' I'. destruct I' as [I'|I'].
    - inversion I'; subst o'. assert (code v i obj = code v' i' obj').
      { eapply OM; try (apply property_of_spec; eauto); auto. }
      destruct h as [|h]; auto. cbn [comp] in B |- *. rewrite F in B. rewrite F'.
      rewrite <- H. exact B.
    - specialize (ST _ _ _ _ _ F' I'). destruct (comp h w i' n') eqn:D; auto.
      apply comp_S in D. congruence. }
  assert (NO : out <> Exhausted). { intros ->. inversion E. congruence. }
  assert (RR : right_cache w s2 /\ pending s2 = false /\ out = Done r).
  { eapply (run_complete w h); eauto. }
  destruct RR as (R2 & P2 & ->). unfold settle in E. rewrite P2 in E.
  inversion E; subst.
  assert (M : means w i n (Some r)).
  { eapply means_found; [apply property_of_spec; eauto|].
    eapply comp_gives; eauto. intros; eapply comp_means; eauto. }
  split; [|split; [destruct rec, c; auto|auto]].
  destruct rec, c; auto; apply (right_put w i n r s2 M R2).
Qed.

(** If no script depends on the item it is reached through, then each property
    that has a meaning is evaluated to it: no error is reported, in particular
    not that it refers to itself. *)
Theorem evaluate_complete_partial w c i n s a :
  one_meaning w -> right_cache w s -> pending s = false -> means w i n a ->
  fst (evaluate (enough w) w c i n s) = match a with Some v => Value v | None => Missing end.
Proof.
  intros OM RC PE M. apply means_comp in M. destruct M as [h M].
  unfold evaluate. destruct (get (enough w) w c [] i n s) as [x s1] eqn:G.
  assert (NX : x <> OutOfFuel).
  { intros ->. generalize (get_ends (enough w) w c [] i n s (NoDup_nil _) (incl_nil_l _)).
    rewrite G. simpl. intros H. apply H; auto. unfold enough. lia. }
  destruct (get_complete w h OM _ _ _ _ _ _ _ _ _ G NX M) as (R & P & ->); auto.
  { intros ? ? ? ? ? ? []. }
  destruct a; simpl; rewrite P; reflexivity.
Qed.

(** ** Series of evaluations *)

(** In a series of evaluations without errors all answers are right, whenever
    the cache is switched on or off. *)
Theorem history_sound w qs s l s' :
  right_cache w s -> evaluate_all w qs s = (l, s') -> ~ In Error l ->
  Forall2 (fun q a => right w (fst (snd q)) (snd (snd q)) a) qs l /\ right_cache w s'.
Proof.
  revert s l. induction qs as [|[c [i n]] qs IH]; intros s l RC E NE; simpl in E.
  - inversion E; subst. split; [constructor|auto].
  - destruct (evaluate (enough w) w c i n s) as [a s1] eqn:A.
    destruct (evaluate_all w qs s1) as [l2 s2] eqn:B. inversion E; subst.
    destruct (evaluate_sound _ _ _ _ _ _ _ _ A RC) as (R1 & R2 & _).
    + intros ->. apply NE. left; auto.
    + generalize (evaluate_ends w c i n s (enough w)). rewrite A. simpl. intros H ->.
      apply H; unfold enough; auto.
    + destruct (IH _ _ R2 B) as [X Y]. { intros C. apply NE. right; auto. }
      split; auto.
Qed.

(** If all properties asked for have a meaning and no script depends on the
    item it is reached through, there are no errors. *)
Theorem history_complete_partial w qs s :
  one_meaning w -> right_cache w s -> pending s = false ->
  Forall (fun q => exists a, means w (fst (snd q)) (snd (snd q)) a) qs ->
  Forall2 (fun q a => right w (fst (snd q)) (snd (snd q)) a) qs (fst (evaluate_all w qs s)).
Proof.
  intros OM. revert s. induction qs as [|[c [i n]] qs IH]; intros s RC PE F; simpl.
  - constructor.
  - inversion F as [|q qs' [a M] F']; subst. simpl in M.
    generalize (evaluate_complete_partial w c i n s a OM RC PE M).
    destruct (evaluate (enough w) w c i n s) as [b s1] eqn:A. simpl. intros ->.
    destruct (evaluate_sound _ _ _ _ _ _ _ _ A RC) as (R1 & R2 & P2);
      [destruct a; discriminate|destruct a; discriminate|].
    specialize (IH s1 R2 P2 F'). destruct (evaluate_all w qs s1) as [l s2]. simpl in *.
    constructor; auto.
Qed.

(** ** Where the evaluator goes wrong *)

Definition same (x : option val) : prog :=
  match x with Some v => Ret v | None => Ret Undef end.
Definition text (s : str) : value := Value_ 0 true (fun _ _ => Ret (Lit s)).

(** A module with the properties a and b, where b is what a is, and a group
    whose a is the product's b. *)
Definition twice : world :=
  [(1, Item_ Instance [1] [] None
        [([1], Value_ 10 true (fun _ _ => Ret (Lit [7])));
         ([2], Value_ 11 true (fun _ o => Get o [1] same))]);
   (2, Item_ Placeholder [1] [1] None
        [([1], Value_ 20 true (fun _ _ => Get 1 [2] same))])].

(** The property has a meaning, but is said to refer to itself. *)
Theorem self_reference_refuted :
  exists w i n v, means w i n (Some v) /\
    fst (evaluate (enough w) w false i n empty_state) = Error.
Proof.
  exists twice, 2, [2], (Lit [7]). split.
  - apply (comp_means 5). vm_compute. reflexivity.
  - vm_compute. reflexivity.
Qed.

(** A script that asks for a property that cannot be evaluated and then for
    one of another item: that one is undefined afterwards. *)
Definition spoiling : world :=
  [(1, Item_ Instance [1] [] None
        [([1], Value_ 10 true (fun _ _ => Throw));
         ([2], Value_ 11 true (fun _ _ => Get 1 [1] (fun _ => Get 2 [3] same)))]);
   (2, Item_ Instance [2] [] None [([3], Value_ 12 true (fun _ _ => Ret (Lit [7])))])].

Theorem error_spoils_refuted :
  exists w i n j m v, means w j m (Some v) /\ v <> Undef /\
    fst (evaluate_all w [(true, (i, n)); (true, (j, m))] empty_state) = [Error; Value Undef].
Proof.
  exists spoiling, 1, [2], 2, [3], (Lit [7]). split; [|split].
  - apply (comp_means 2). vm_compute. reflexivity.
  - discriminate.
  - vm_compute. reflexivity.
Qed.

(** ** Changing properties *)

Inductive may_ask : prog -> iid -> Prop :=
| ask_here i n k : may_ask (Get i n k) i
| ask_later i n k a j : may_ask (k a) j -> may_ask (Get i n k) j.

Inductive depends (mods : iid -> list iid) : iid -> iid -> Prop :=
| depends_self i : depends mods i i
| depends_step i j c : In j (mods i) -> depends mods j c -> depends mods i c.

(** Nothing that the item depends on was changed. *)
Definition untouched (mods : iid -> list iid) (changed : list iid) (i : iid) : Prop :=
  forall c, In c changed -> ~ depends mods i c.

Lemma needs_purge_spec mods changed (rank : iid -> nat) fuel i :
  (forall i j, In j (mods i) -> (rank j < rank i)%nat) -> (rank i <= fuel)%nat ->
  needs_purge fuel mods changed i = false <-> untouched mods changed i.
Proof.
  intros RK. revert i. induction fuel as [|fuel IH]; intros i L; cbn [needs_purge].
  - rewrite orb_false_r. split.
    + intros E c IN D. inversion D; subst.
      * assert (existsb (N.eqb c) changed = true); [|congruence].
        apply existsb_exists. exists c. split; auto. apply N.eqb_refl.
      * apply RK in H. lia.
    + intros U. destruct (existsb (N.eqb i) changed) eqn:E; auto.
      apply existsb_exists in E. destruct E as (c & A & B). apply N.eqb_eq in B. subst.
      exfalso. apply (U c A). constructor.
  - rewrite orb_false_iff. split.
    + intros [E1 E2] c IN D. inversion D; subst.
      * assert (existsb (N.eqb c) changed = true); [|congruence].
        apply existsb_exists. exists c. split; auto. apply N.eqb_refl.
      * assert (Lj : (rank j <= fuel)%nat) by (apply RK in H; lia).
        assert (NJ : needs_purge fuel mods changed j = false).
        { destruct (needs_purge fuel mods changed j) eqn:C; auto.
          assert (existsb (needs_purge fuel mods changed) (mods i) = true); [|congruence].
          apply existsb_exists. eauto. }
        apply (proj1 (IH j Lj) NJ c IN H0).
    + intros U. split.
      * destruct (existsb (N.eqb i) changed) eqn:E; auto.
        apply existsb_exists in E. destruct E as (c & A & B). apply N.eqb_eq in B. subst.
        exfalso. apply (U c A). constructor.
      * destruct (existsb (needs_purge fuel mods changed) (mods i)) eqn:E; auto.
        apply existsb_exists in E. destruct E as (j & A & B).
        assert (Lj : (rank j <= fuel)%nat) by (apply RK in A; lia).
        assert (C : needs_purge fuel mods changed j = false); [|congruence].
        apply IH; auto. intros c IN D. apply (U c IN). econstructor; eauto.
Qed.

Lemma compr_ext f g p :
  (forall i n a, may_ask p i -> f i n = Some a -> g i n = Some a) ->
  forall r, compr f p = Some r -> compr g p = Some r.
Proof.
  induction p as [v| |i n k IH]; simpl; auto. intros H r.
  destruct (f i n) as [a|] eqn:E; [|discriminate].
  rewrite (H _ _ _ (ask_here i n k) E). apply IH. intros j m b A. apply H.
  econstructor; eauto.
Qed.

Lemma dropped_first is c i n r :
  first_of (i, n) r (filter (fun e : (iid * name) * val => negb (existsb (N.eqb (fst (fst e))) is)) c) ->
  first_of (i, n) r c /\ ~ In i is.
Proof.
  induction c as [|[[j m] v] c IH]; simpl; [inversion 1|].
  destruct (existsb (N.eqb j) is) eqn:E; simpl.
  - intros H. destruct (IH H) as [A B]. split; auto. constructor; auto.
    intros X. inversion X; subst. apply existsb_exists in E. destruct E as (x & C & D).
    apply N.eqb_eq in D. subst. auto.
  - intros H. inversion H; subst.
    + split; [constructor|]. intros C.
      assert (existsb (N.eqb j) is = true); [|congruence].
      apply existsb_exists. exists j. split; auto. apply N.eqb_refl.
    + match goal with F : first_of _ _ (filter _ _) |- _ => destruct (IH F) as [A B] end. split; auto. constructor; auto.
Qed.

(** If scripts ask only their own item and the modules of that item, if the
    modules do not depend on themselves, and if only items that depend on
    changed ones have other properties than before, then dropping the caches
    of all items that depend on changed ones makes the cache right again. *)
Theorem purge_right w w' mods changed (rank : iid -> nat) fuel all s :
  (forall i j, In j (mods i) -> (rank j < rank i)%nat) ->
  (forall i, In i all -> (rank i <= fuel)%nat) ->
  (forall i n o obj v j, property_of w i n (Some (o, obj, v)) ->
     may_ask (code v i obj) j -> j = i \/ In j (mods i)) ->
  (forall i n x, untouched mods changed i -> property_of w i n x -> property_of w' i n x) ->
  (forall i n r, In ((i, n), r) (cache s) -> In i all) ->
  right_cache w s -> right_cache w' (purge_meant fuel mods changed all s).
Proof.
  intros RK LE AO SP CA RC i n r F.
  unfold purge_meant, drop_cache in F. simpl in F. apply dropped_first in F.
  destruct F as [F NI].
  assert (U : untouched mods changed i).
  { assert (IA : In i all) by (eapply CA; apply first_of_In; eauto).
    apply (needs_purge_spec mods changed rank fuel); auto.
    destruct (needs_purge fuel mods changed i) eqn:E; auto. exfalso. apply NI.
    apply filter_In. auto. }
  apply RC in F. apply means_comp in F. destruct F as [h F].
  apply (comp_means h).
  clear NI CA RC LE. revert i n U F. generalize (Some r). clear r. induction h as [|h IH];
    intros r i n U F; [discriminate|].
  cbn [comp] in *. destruct (find_value w i n) as [[[o obj] v]|] eqn:E.
  - apply property_of_spec in E. assert (E' := SP _ _ _ U E). apply property_of_spec in E'.
    rewrite E'. destruct (compr (comp h w) (code v i obj)) as [x|] eqn:C; [|discriminate].
    assert (C' : compr (comp h w') (code v i obj) = Some x).
    { apply (compr_ext (comp h w)); auto.
      intros j m a MA CJ. apply IH; auto.
      destruct (AO _ _ _ _ _ _ E MA) as [->|IJ]; auto.
      intros c IC D. apply (U c IC). econstructor; eauto. }
    rewrite C'. auto.
  - apply property_of_spec in E. assert (E' := SP _ _ _ U E). apply property_of_spec in E'.
    rewrite E'. auto.
Qed.

(** Setting a property: the next evaluation gives the new value, whatever has
    been cached, and the cached values of the other items stay. *)
Lemma change_item w i n v : In i (List.map fst w) ->
  item_of (change w i n v) i =
  Item_ (kind_of (item_of w i)) (mod_name (item_of w i)) (protos (item_of w i))
        (parent (item_of w i)) (set_own (props (item_of w i)) n v).
Proof.
  induction w as [|[j it] w IH]; simpl; [intros []|]. intro H.
  destruct (N.eqb_spec i j) as [->|NE]; simpl.
  - rewrite N.eqb_refl. auto.
  - destruct (N.eqb_spec i j); [contradiction|]. apply IH. destruct H; [congruence|auto].
Qed.

Lemma own_set ps n v : own (set_own ps n v) n = Some v.
Proof.
  induction ps as [|[m u] ps IH]; simpl; [rewrite str_eqb_refl; auto|].
  destruct (str_eqb n m) eqn:E; simpl; rewrite E; auto.
Qed.

Theorem set_property_seen w i n v s x :
  In i (List.map fst w) -> (forall obj, code v i obj = Ret x) -> pending s = false ->
  let '(w', s') := set_property w i n v s in
  fst (evaluate (enough w') w' true i n s') = Value x
  /\ forall j m r, j <> i -> (first_of (j, m) r (cache s') <-> first_of (j, m) r (cache s)).
Proof.
  intros IN CD P. unfold set_property. split.
  - assert (F : find_value (change w i n v) i n = Some (i, i, v)).
    { unfold find_value, search_from. cbn [search]. rewrite (change_item w i n v IN). simpl.
      rewrite own_set. destruct (kind_of (item_of w i)); auto. }
    assert (NC : cached (cache (drop_cache [i] s)) i n = None).
    { destruct (cached (cache (drop_cache [i] s)) i n) as [r|] eqn:E; auto.
      apply cached_first, first_of_In in E. simpl in E. apply filter_In in E.
      destruct E as [_ E]. simpl in E. rewrite N.eqb_refl in E. discriminate. }
    unfold evaluate, enough. cbn [get]. rewrite F. cbn [existsb].
    set (b := js v && _). set (s1 := if b then _ else _).
    assert (C1 : cache s1 = cache (drop_cache [i] s)) by (unfold s1; destruct b; auto).
    assert (P1 : pending s1 = false) by (unfold s1; destruct b; auto).
    rewrite C1, NC, CD. clearbody s1. clearbody b. cbn [run settle]. unfold settle. rewrite P1. unfold pop, put_cache. simpl.
    destruct b; simpl; rewrite P1; auto.
  - intros j m r NE. rewrite <- !cached_first. simpl.
    induction (cache s) as [|[[j' m'] r'] c IH]; simpl; [tauto|].
    destruct (N.eqb_spec j' i) as [->|NJ]; simpl.
    + destruct (N.eqb_spec j i); [contradiction|]. simpl. exact IH.
    + destruct (N.eqb j j' && str_eqb m m'); [tauto|]. exact IH.
Qed.

(** Two modules, the second of which asks the first. *)
Definition pair_ (v : str) : world :=
  [(1, Item_ Instance [1] [] None [([1], Value_ 10 true (fun _ _ => Ret (Lit v)))]);
   (2, Item_ Instance [2] [] None [([2], Value_ 11 true (fun _ _ => Get 1 [1] same))])].

Definition pair_mods (i : iid) : list iid := if N.eqb i 2 then [1] else [].

(** A property changes while the cache is on, as in the final merge of module
    properties; what is done to purge the caches leaves the old value of a
    property that depends on it. *)
Theorem purge_refuted :
  exists w mods (rank : iid -> nat) fuel all i n v j m x,
    (forall i j, In j (mods i) -> (rank j < rank i)%nat) /\
    (forall i, In i all -> (rank i <= fuel)%nat) /\
    (forall i n o obj v j, property_of w i n (Some (o, obj, v)) ->
       may_ask (code v i obj) j -> j = i \/ In j (mods i)) /\
    In i all /\ In j all /\
    let s := snd (evaluate (enough w) w true j m empty_state) in
    let '(w', s') := set_property w i n v s in
    means w' j m (Some x) /\
    fst (evaluate (enough w') w' true j m (purge_meant fuel mods [i] all s')) = Value x /\
    fst (evaluate (enough w') w' true j m (purge_done fuel mods [i] all s')) <> Value x.
Proof.
  exists (pair_ [7]), pair_mods, (fun i => if N.eqb i 2 then 1%nat else O), 1%nat, [1; 2],
    1, [1], (Value_ 12 true (fun _ _ => Ret (Lit [8]))), 2, [2], (Lit [8]).
  split; [|split; [|split; [|split; [|split]]]].
  - unfold pair_mods. intros i j. destruct (N.eqb i 2); [|intros []].
    intros [<-|[]]. simpl. lia.
  - intros i [<-|[<-|[]]]; simpl; lia.
  - intros i n o obj v j P MA. apply property_of_spec in P.
    assert (O := find_owner _ _ _ _ _ _ P). simpl in O.
    unfold find_value, search_from in P. simpl in P.
    destruct (N.eqb_spec i 1) as [->|N1]; simpl in P.
    + destruct (str_eqb n [1]); [|discriminate]. inversion P; subst. simpl in MA. inversion MA.
    + destruct (N.eqb_spec i 2) as [->|N2]; simpl in P; [|discriminate].
      destruct (str_eqb n [2]); [|discriminate]. inversion P; subst. simpl in MA.
      inversion MA; subst; [right; left; auto|]. destruct a; simpl in H3; inversion H3.
  - left; auto.
  - right; left; auto.
  - cbn -[evaluate enough]. split; [|split].
    + apply (comp_means 2). vm_compute. reflexivity.
    + vm_compute. reflexivity.
    + vm_compute. discriminate.
Qed.

Module Demo.
  (** The world of two modules meets the assumption on scripts. *)
  Lemma pair_one : one_meaning (pair_ [7]).
  Proof.
    intros i n o obj v i' n' obj' v' A B E. apply property_of_spec in A. apply property_of_spec in B.
    assert (OA := find_owner _ _ _ _ _ _ A). assert (OB := find_owner _ _ _ _ _ _ B).
    cbn in OA, OB.
    destruct (N.eqb_spec o 1) as [->|N1].
    - cbn in OA, OB. destruct (str_eqb n [1]); [|discriminate]. destruct (str_eqb n' [1]); [|discriminate].
      inversion OA; inversion OB; subst. reflexivity.
    - destruct (N.eqb_spec o 2) as [->|N2]; [|discriminate].
      cbn in OA, OB. destruct (str_eqb n [2]); [|discriminate]. destruct (str_eqb n' [2]); [|discriminate].
      inversion OA; inversion OB; subst. reflexivity.
  Qed.
  Example demo_complete :
    fst (evaluate_all (pair_ [7]) [(true, (2, [2])); (false, (1, [1])); (true, (2, [2])); (true, (2, [5]))] empty_state)
    = [Value (Lit [7]); Value (Lit [7]); Value (Lit [7]); Missing].
  Proof. vm_compute. reflexivity. Qed.
  Example demo_means : means (pair_ [7]) 2 [2] (Some (Lit [7])).
  Proof. apply (comp_means 2). reflexivity. Qed.
  Example demo_evaluated : fst (evaluate (enough (pair_ [7])) (pair_ [7]) true 2 [2] empty_state) = Value (Lit [7]).
  Proof.
    apply (evaluate_complete_partial (pair_ [7]) true 2 [2] empty_state (Some (Lit [7])) pair_one);
      [intros i n r F; inversion F|reflexivity|exact demo_means].
  Qed.
  (** Properties that do refer to each other. *)
  Definition circle : world :=
    [(1, Item_ Other [] [] None
          [([1], Value_ 10 true (fun _ o => Get o [2] same)); ([2], Value_ 11 true (fun _ o => Get o [1] same))])].
  Example demo_circle : fst (evaluate (enough circle) circle false 1 [1] empty_state) = Error.
  Proof. reflexivity. Qed.
  (** A name that only the parent has; the module's own item is not looked at for an instance. *)
  Definition family : world :=
    [(1, Item_ Other [] [] None [([1], Value_ 10 true (fun _ _ => Ret (Lit [7])))]);
     (2, Item_ Instance [] [3] (Some 1) []);
     (3, Item_ ModuleItem [] [] None [([2], Value_ 11 true (fun _ _ => Ret (Lit [8])))])].
  Example demo_parent : fst (evaluate_all family [(true, (2, [1])); (true, (2, [2])); (true, (3, [2]))] empty_state)
    = [Value (Lit [7]); Missing; Value (Lit [8])].
  Proof. vm_compute. reflexivity. Qed.
End Demo.

Print Assumptions evaluate_ends.
Print Assumptions evaluate_sound.
Print Assumptions evaluate_complete_partial.
Print Assumptions history_sound.
Print Assumptions history_complete_partial.
Print Assumptions self_reference_refuted.
Print Assumptions error_spoils_refuted.
Print Assumptions purge_right.
Print Assumptions set_property_seen.
Print Assumptions purge_refuted.
