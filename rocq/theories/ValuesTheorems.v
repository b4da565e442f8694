(** Values of properties as rules see them (C116), the types of values (C117), and allowed
    values (C118). *)

From Coq Require Import String Ascii.
From Coq Require Import List Bool Arith NArith ZArith Lia Sorted.
From Verif Require Import Str ValuesModel.
Import ListNotations.
Local Open Scope N_scope.

(* ------------------------------------------------------------------------------------ *)
(** ** Specification *)

(** The value of a property of an object. *)
Fixpoint prop {A} (k : str) (props : list (str * A)) : option A :=
  match props with
  | [] => None
  | (k', v) :: r => if str_dec k k' then Some v else prop k r
  end.

(** The same value for a script: elements of arrays in the same order; properties of
    objects in any order. *)
Inductive same : value -> value -> Prop :=
| Same_undef : same Undef Undef
| Same_null : same Null Null
| Same_bool b : same (Bool b) (Bool b)
| Same_int z : same (Int z) (Int z)
| Same_float f : same (Float f) (Float f)
| Same_text s : same (Text s) (Text s)
| Same_date ms : same (Date ms) (Date ms)
| Same_buffer b : same (Buffer b) (Buffer b)
| Same_arr l l' : Forall2 same l l' -> same (Arr l) (Arr l')
| Same_obj p q :
    (forall k v, prop k p = Some v -> exists w, prop k q = Some w /\ same v w) ->
    (forall k w, prop k q = Some w -> exists v, prop k p = Some v /\ same v w) ->
    same (Obj p) (Obj q).

(** Objects do not have a property twice. *)
Inductive wf : value -> Prop :=
| Wf_undef : wf Undef
| Wf_null : wf Null
| Wf_bool b : wf (Bool b)
| Wf_int z : wf (Int z)
| Wf_float f : wf (Float f)
| Wf_text s : wf (Text s)
| Wf_date ms : wf (Date ms)
| Wf_buffer b : wf (Buffer b)
| Wf_arr l : (forall x, In x l -> wf x) -> wf (Arr l)
| Wf_obj p : NoDup (map fst p) -> (forall k x, In (k, x) p -> wf x) -> wf (Obj p).

(** Values without null, without fractional or large numbers, and without null characters
    in texts and names, at any depth. *)
Inductive kept : value -> Prop :=
| Kept_undef : kept Undef
| Kept_bool b : kept (Bool b)
| Kept_int z : kept (Int z)
| Kept_text s : ~ In 0 s -> kept (Text s)
| Kept_date ms : kept (Date ms)
| Kept_buffer b : kept (Buffer b)
| Kept_arr l : (forall x, In x l -> kept x) -> kept (Arr l)
| Kept_obj p : (forall k x, In (k, x) p -> ~ In 0 k /\ kept x) -> kept (Obj p).

(** Which values belong to a type. *)
Definition texts (l : list value) (ss : list str) : Prop := Forall2 (fun v s => v = Text s) l ss.

Definition has_type (t : ptype) (v : value) : Prop :=
  match t with
  | TUnknown | TAny => True
  | TBool => exists b, v = Bool b
  | TInt => exists z, v = Int z
  | TPath | TText => exists s, v = Text s
  | TPaths | TTexts => exists l ss, v = Arr l /\ texts l ss
  | TAnys => exists l, v = Arr l
  end.

Definition list_type (t : ptype) : Prop := t = TPaths \/ t = TTexts \/ t = TAnys.

(* ------------------------------------------------------------------------------------ *)
(** ** Induction for values and variants *)

Section Induction.
Variable P : value -> Prop.
Hypothesis leaf : forall v, (forall l, v <> Arr l) -> (forall p, v <> Obj p) -> P v.
Hypothesis arr : forall l, (forall x, In x l -> P x) -> P (Arr l).
Hypothesis obj : forall p, (forall k x, In (k, x) p -> P x) -> P (Obj p).

Fixpoint value_ind2 (v : value) : P v :=
  match v with
  | Arr l =>
      arr l ((fix go (l : list value) : forall x, In x l -> P x :=
                match l with
                | [] => fun x F => match F with end
                | y :: r => fun x K => match K with
                                       | or_introl E => eq_ind y P (value_ind2 y) x E
                                       | or_intror K' => go r x K'
                                       end
                end) l)
  | Obj p =>
      obj p ((fix go (l : list (str * value)) : forall k x, In (k, x) l -> P x :=
                match l with
                | [] => fun k x F => match F with end
                | y :: r => fun k x K =>
                    match K with
                    | or_introl E => eq_ind (snd y) P (match y with (_, z) => value_ind2 z end) x
                                            (f_equal snd E)
                    | or_intror K' => go r k x K'
                    end
                end) p)
  | Undef => leaf Undef ltac:(discriminate) ltac:(discriminate)
  | Null => leaf Null ltac:(discriminate) ltac:(discriminate)
  | Bool b => leaf (Bool b) ltac:(discriminate) ltac:(discriminate)
  | Int z => leaf (Int z) ltac:(discriminate) ltac:(discriminate)
  | Float f => leaf (Float f) ltac:(discriminate) ltac:(discriminate)
  | Text s => leaf (Text s) ltac:(discriminate) ltac:(discriminate)
  | Date z => leaf (Date z) ltac:(discriminate) ltac:(discriminate)
  | Buffer b => leaf (Buffer b) ltac:(discriminate) ltac:(discriminate)
  end.
End Induction.

Section Induction2.
Variable P : variant -> Prop.
Hypothesis leaf : forall v, (forall l, v <> VList l) -> (forall p, v <> VMap p) -> P v.
Hypothesis arr : forall l, (forall x, In x l -> P x) -> P (VList l).
Hypothesis obj : forall p, (forall k x, In (k, x) p -> P x) -> P (VMap p).

Fixpoint variant_ind2 (v : variant) : P v :=
  match v with
  | VList l =>
      arr l ((fix go (l : list variant) : forall x, In x l -> P x :=
                match l with
                | [] => fun x F => match F with end
                | y :: r => fun x K => match K with
                                       | or_introl E => eq_ind y P (variant_ind2 y) x E
                                       | or_intror K' => go r x K'
                                       end
                end) l)
  | VMap p =>
      obj p ((fix go (l : list (str * variant)) : forall k x, In (k, x) l -> P x :=
                match l with
                | [] => fun k x F => match F with end
                | y :: r => fun k x K =>
                    match K with
                    | or_introl E => eq_ind (snd y) P (match y with (_, z) => variant_ind2 z end) x
                                            (f_equal snd E)
                    | or_intror K' => go r k x K'
                    end
                end) p)
  | VNull => leaf VNull ltac:(discriminate) ltac:(discriminate)
  | VBool b => leaf (VBool b) ltac:(discriminate) ltac:(discriminate)
  | VInt z => leaf (VInt z) ltac:(discriminate) ltac:(discriminate)
  | VLong z => leaf (VLong z) ltac:(discriminate) ltac:(discriminate)
  | VDouble f => leaf (VDouble f) ltac:(discriminate) ltac:(discriminate)
  | VText s => leaf (VText s) ltac:(discriminate) ltac:(discriminate)
  | VTexts s => leaf (VTexts s) ltac:(discriminate) ltac:(discriminate)
  | VDate z => leaf (VDate z) ltac:(discriminate) ltac:(discriminate)
  | VBytes b => leaf (VBytes b) ltac:(discriminate) ltac:(discriminate)
  end.
End Induction2.

(* ------------------------------------------------------------------------------------ *)
(** ** Maps *)

Lemma ltb_irrefl a : str_ltb a a = false.
Proof. induction a as [|x a IH]; [reflexivity|]. simpl. rewrite N.ltb_irrefl, IH, andb_false_r. reflexivity. Qed.

Lemma ltb_trans a : forall b c, str_ltb a b = true -> str_ltb b c = true -> str_ltb a c = true.
Proof.
  induction a as [|x a IH]; intros [|y b] [|z c] E F; try discriminate; try reflexivity.
  simpl in *. apply orb_true_iff in E. apply orb_true_iff in F. apply orb_true_iff.
  rewrite !andb_true_iff, !N.ltb_lt, !N.eqb_eq in *.
  destruct E as [E|(E1 & E2)]; destruct F as [F|(F1 & F2)]; subst; try (left; lia).
  right. split; [reflexivity|]. exact (IH _ _ E2 F2).
Qed.

Lemma ltb_total a : forall b, a = b \/ str_ltb a b = true \/ str_ltb b a = true.
Proof.
  induction a as [|x a IH]; intros [|y b]; simpl; auto.
  destruct (N.lt_trichotomy x y) as [L|[->|L]].
  - right. left. rewrite (proj2 (N.ltb_lt _ _) L). reflexivity.
  - rewrite N.ltb_irrefl, N.eqb_refl. simpl.
    destruct (IH b) as [->|K]; [left; reflexivity|right; exact K].
  - right. right. rewrite (proj2 (N.ltb_lt _ _) L). reflexivity.
Qed.

Definition sorted {A} (m : list (str * A)) : Prop :=
  StronglySorted (fun a b => str_ltb a b = true) (map fst m).

Lemma insert_keys {A} k (v : A) m : forall x, In x (map fst (map_insert k v m)) -> x = k \/ In x (map fst m).
Proof.
  induction m as [|(k', v') r IH]; intros x K; simpl in K.
  - destruct K as [K|[]]; left; symmetry; exact K.
  - destruct (str_eqb k k') eqn:E.
    + destruct K as [K|K]; [left; symmetry; exact K|right; right; exact K].
    + destruct (str_ltb k k').
      * destruct K as [K|K]; [left; symmetry; exact K|right; exact K].
      * destruct K as [K|K]; [right; left; exact K|].
        destruct (IH x K) as [->|K']; [left; reflexivity|right; right; exact K'].
Qed.

Lemma insert_sorted {A} k (v : A) m : sorted m -> sorted (map_insert k v m).
Proof.
  unfold sorted. induction m as [|(k', v') r IH]; intro Sm.
  - simpl. constructor; constructor.
  - simpl in Sm. inversion Sm as [|? ? Sr Fr]. subst. simpl.
    destruct (str_eqb k k') eqn:E.
    + apply str_eqb_eq in E. subst k'. exact Sm.
    + destruct (str_ltb k k') eqn:L.
      * simpl. constructor; [exact Sm|]. constructor; [exact L|].
        rewrite Forall_forall in *. intros x Ix. exact (ltb_trans _ _ _ L (Fr x Ix)).
      * simpl. constructor; [apply IH; exact Sr|].
        rewrite Forall_forall in *. intros x Ix. apply insert_keys in Ix.
        destruct Ix as [->|Ix]; [|exact (Fr x Ix)].
        destruct (ltb_total k k') as [->|[K|K]]; [|congruence|exact K].
        rewrite str_eqb_refl in E. discriminate E.
Qed.

Lemma sorted_nodup {A} (m : list (str * A)) : sorted m -> NoDup (map fst m).
Proof.
  unfold sorted. induction m as [|(k, v) r IH]; intro Sm; [constructor|].
  simpl in *. inversion Sm as [|? ? Sr Fr]. subst. constructor; [|apply IH; exact Sr].
  intro K. rewrite Forall_forall in Fr. specialize (Fr k K). rewrite ltb_irrefl in Fr. discriminate Fr.
Qed.

Lemma prop_insert {A} k (v : A) m x :
  prop x (map_insert k v m) = if str_dec x k then Some v else prop x m.
Proof.
  induction m as [|(k', v') r IH]; [reflexivity|].
  simpl. destruct (str_eqb k k') eqn:E.
  - apply str_eqb_eq in E. subst k'. simpl. destruct (str_dec x k); reflexivity.
  - destruct (str_ltb k k'); [reflexivity|]. simpl. rewrite IH.
    apply str_eqb_neq in E.
    destruct (str_dec x k') as [->|D]; destruct (str_dec _ k) as [->|D2]; congruence.
Qed.

Lemma prop_set {A} k (v : A) m x :
  prop x (set_prop k v m) = if str_dec x k then Some v else prop x m.
Proof.
  induction m as [|(k', v') r IH]; [reflexivity|].
  simpl. destruct (str_eqb k k') eqn:E.
  - apply str_eqb_eq in E. subst k'. simpl. destruct (str_dec x k); reflexivity.
  - simpl. rewrite IH. apply str_eqb_neq in E.
    destruct (str_dec x k') as [->|D]; destruct (str_dec _ k) as [->|D2]; congruence.
Qed.

Lemma prop_in {A} k (v : A) m : prop k m = Some v -> In (k, v) m.
Proof.
  induction m as [|(k', v') r IH]; intro E; [discriminate E|]. simpl in E.
  destruct (str_dec k k') as [->|D]; [injection E as ->; left; reflexivity|right; auto].
Qed.

Lemma in_prop {A} k (v : A) m : NoDup (map fst m) -> In (k, v) m -> prop k m = Some v.
Proof.
  induction m as [|(k', v') r IH]; intros Nd K; [destruct K|]. simpl in *.
  inversion Nd as [|? ? Nk Nr]. subst.
  destruct K as [E|K].
  - injection E as -> ->. destruct (str_dec k k); congruence.
  - destruct (str_dec k k') as [->|D]; [|auto].
    destruct Nk. apply in_map_iff. exists (k', v). split; [reflexivity|exact K].
Qed.

Lemma set_keys {A} k (v : A) m : forall x, In x (map fst (set_prop k v m)) <-> x = k \/ In x (map fst m).
Proof.
  induction m as [|(k', v') r IH]; intro x; simpl.
  - split; intros [E|[]]; left; symmetry; exact E.
  - destruct (str_eqb k k') eqn:E.
    + apply str_eqb_eq in E. subst k'. simpl. split; intros [K|K]; auto; destruct K; auto.
    + simpl. rewrite IH. tauto.
Qed.

Lemma set_nodup {A} k (v : A) m : NoDup (map fst m) -> NoDup (map fst (set_prop k v m)).
Proof.
  induction m as [|(k', v') r IH]; intro Nd; simpl.
  - constructor; [intros []|constructor].
  - inversion Nd as [|? ? Nk Nr]. subst. destruct (str_eqb k k') eqn:E.
    + apply str_eqb_eq in E. subst k'. exact Nd.
    + simpl. constructor; [|apply IH; exact Nr].
      intro K. apply set_keys in K. destruct K as [->|K]; [rewrite str_eqb_refl in E; discriminate E|].
      contradiction.
Qed.

Lemma set_in {A} k (v : A) m : forall k' x, In (k', x) (set_prop k v m) ->
  (k' = k /\ x = v) \/ In (k', x) m.
Proof.
  induction m as [|(k1, v1) r IH]; intros k' x K; simpl in K.
  - destruct K as [E|[]]. injection E as <- <-. left. split; reflexivity.
  - destruct (str_eqb k k1).
    + destruct K as [E|K]; [injection E as <- <-; left; split; reflexivity|right; right; exact K].
    + destruct K as [E|K]; [right; left; exact E|].
      destruct (IH _ _ K) as [K'|K']; [left; exact K'|right; right; exact K'].
Qed.

(** The two loops over properties. *)
Fixpoint fill (ps : list (str * value)) (m : list (str * variant)) :=
  match ps with
  | [] => m
  | (k, x) :: r => fill r (map_insert k (to_variant x) m)
  end.
Lemma to_variant_obj p : to_variant (Obj p) = VMap (fill p []).
Proof. reflexivity. Qed.

Fixpoint fill2 (ps : list (str * variant)) (o : list (str * value)) :=
  match ps with
  | [] => o
  | (k, x) :: r => fill2 r (set_prop (c_string k) (of_variant x) o)
  end.
Lemma of_variant_map m : of_variant (VMap m) = Obj (fill2 m []).
Proof. reflexivity. Qed.

Lemma fill_sorted ps : forall m, sorted m -> sorted (fill ps m).
Proof. induction ps as [|(k, x) r IH]; intros m Sm; [exact Sm|]. apply IH, insert_sorted, Sm. Qed.

Lemma fill_prop ps : forall m, NoDup (map fst ps) -> forall k,
  prop k (fill ps m) = match prop k ps with Some x => Some (to_variant x) | None => prop k m end.
Proof.
  induction ps as [|(k1, x1) r IH]; intros m Nd k; [reflexivity|].
  simpl in *. inversion Nd as [|? ? Nk Nr]. subst. rewrite (IH _ Nr), prop_insert.
  destruct (str_dec k k1) as [->|D]; [|reflexivity].
  destruct (prop k1 r) as [y|] eqn:E; [|reflexivity].
  exfalso. apply Nk. apply prop_in in E. apply in_map_iff. exists (k1, y). split; [reflexivity|exact E].
Qed.

Lemma fill2_keys ps : forall o k, In k (map fst (fill2 ps o)) ->
  In k (map fst o) \/ exists k', In k' (map fst ps) /\ k = c_string k'.
Proof.
  induction ps as [|(k1, x1) r IH]; intros o k K; [left; exact K|].
  simpl in K. destruct (IH _ _ K) as [K'|(k' & K' & E)].
  - apply set_keys in K'. destruct K' as [->|K']; [right|left; exact K'].
    exists k1. split; [left; reflexivity|reflexivity].
  - right. exists k'. split; [right; exact K'|exact E].
Qed.

Lemma fill2_prop ps : (forall k, In k (map fst ps) -> c_string k = k) ->
  forall o, NoDup (map fst ps) -> forall k,
  prop k (fill2 ps o) = match prop k ps with Some x => Some (of_variant x) | None => prop k o end.
Proof.
  induction ps as [|(k1, x1) r IH]; intros Z o Nd k; [reflexivity|].
  simpl in *. inversion Nd as [|? ? Nk Nr]. subst.
  rewrite (IH (fun k K => Z k (or_intror K)) _ Nr), prop_set, (Z k1 (or_introl eq_refl)).
  destruct (str_dec k k1) as [->|D]; [|reflexivity].
  destruct (prop k1 r) as [y|] eqn:E; [|reflexivity].
  exfalso. apply Nk. apply prop_in in E. apply in_map_iff. exists (k1, y). split; [reflexivity|exact E].
Qed.

Lemma c_string_none s : ~ In 0 (c_string s).
Proof.
  induction s as [|c s IH]; [intros []|]. simpl. destruct (c =? 0) eqn:E; [intros []|].
  apply N.eqb_neq in E. intros [K|K]; [congruence|exact (IH K)].
Qed.

Lemma c_string_id s : ~ In 0 s <-> c_string s = s.
Proof.
  split.
  - induction s as [|c s IH]; intro N0; [reflexivity|]. simpl.
    rewrite (proj2 (N.eqb_neq c 0)) by (intros ->; apply N0; left; reflexivity).
    rewrite IH; [reflexivity|]. intro K. apply N0. right. exact K.
  - intros <-. apply c_string_none.
Qed.

Lemma fill_keys ps k : NoDup (map fst ps) -> (In k (map fst (fill ps [])) <-> In k (map fst ps)).
Proof.
  intro Nd.
  assert (P : prop k (fill ps []) = match prop k ps with Some x => Some (to_variant x) | None => None end)
    by (rewrite (fill_prop ps [] Nd); reflexivity).
  split; intro K; apply in_map_iff in K; destruct K as ((k' & x) & <- & K); simpl in P.
  - apply in_prop in K; [|apply sorted_nodup, fill_sorted; constructor].
    rewrite K in P. destruct (prop k' ps) as [y|] eqn:E; [|discriminate P].
    apply prop_in in E. apply in_map_iff. exists (k', y). split; [reflexivity|exact E].
  - apply (in_prop _ _ _ Nd) in K. rewrite K in P. apply prop_in in P.
    apply in_map_iff. exists (k', to_variant x). split; [reflexivity|exact P].
Qed.

(* ------------------------------------------------------------------------------------ *)
(** ** C116: rules see the values of properties *)

(** Exactly the values without null, floating point numbers and null characters come back
    as what they were. *)
Theorem transfer_exact v : wf v -> (same v (of_variant (to_variant v)) <-> kept v).
Proof.
  induction v as [v Na No|l IH|p IH] using value_ind2; intro W.
  - destruct v; try (destruct (Na l eq_refl)); try (destruct (No props eq_refl)); simpl.
    + split; constructor.
    + split; intro K; inversion K.
    + split; constructor.
    + split; constructor.
    + split; intro K; inversion K.
    + split; intro K.
      * constructor. apply c_string_id. inversion K as [| | | | |s' E1 E2| | | |]. congruence.
      * inversion K as [| | |s' N0| | | |]. subst. rewrite (proj1 (c_string_id s) N0). constructor.
    + split; constructor.
    + split; constructor.
  - assert (Wl : forall x, In x l -> wf x) by (inversion W; assumption). clear W. simpl.
    split; intro K.
    + inversion K as [| | | | | | | |l1 l2 F|]. subst. constructor.
      clear K. revert Wl IH F. induction l as [|y l IHl]; intros Wl IH F x Ix; [destruct Ix|].
      simpl in F. inversion F as [|? ? ? ? F1 F2]. subst.
      destruct Ix as [<-|Ix].
      * apply (IH y (or_introl eq_refl) (Wl y (or_introl eq_refl))). exact F1.
      * apply IHl; [intros; apply Wl; right; assumption|intros; apply IH; [right; assumption|assumption]
                   |exact F2|exact Ix].
    + assert (Kl : forall x, In x l -> kept x) by (inversion K; assumption). clear K.
      constructor. induction l as [|y l IHl]; [constructor|]. simpl. constructor.
      * apply (IH y (or_introl eq_refl) (Wl y (or_introl eq_refl))). apply Kl. left. reflexivity.
      * apply IHl; intros; [apply IH; [right; assumption|assumption]|apply Wl; right; assumption
                           |apply Kl; right; assumption].
  - assert (Nd : NoDup (map fst p)) by (inversion W; assumption).
    assert (Wp : forall k x, In (k, x) p -> wf x) by (inversion W; assumption). clear W.
    rewrite to_variant_obj, of_variant_map.
    assert (Ns : NoDup (map fst (fill p []))) by (apply sorted_nodup, fill_sorted; constructor).
    assert (key : (forall k, In k (map fst p) -> ~ In 0 k) -> forall k,
              prop k (fill2 (fill p []) []) =
              match prop k p with Some x => Some (of_variant (to_variant x)) | None => None end).
    { intros Z k. rewrite fill2_prop; [|intros k' K'; apply c_string_id, Z, fill_keys; assumption|exact Ns].
      rewrite (fill_prop p [] Nd). destruct (prop k p); reflexivity. }
    split; intro K.
    + inversion K as [| | | | | | | | |p1 q1 A1 A2]. subst.
      assert (Z : forall k, In k (map fst p) -> ~ In 0 k).
      { intros k Ik. apply in_map_iff in Ik. destruct Ik as ((k' & x) & <- & Ik). simpl.
        apply (in_prop _ _ _ Nd) in Ik. destruct (A1 _ _ Ik) as (w & E & _).
        apply prop_in in E. assert (Ik' : In k' (map fst (fill2 (fill p []) [])))
          by (apply in_map_iff; exists (k', w); split; [reflexivity|exact E]).
        destruct (fill2_keys _ _ _ Ik') as [[]|(k2 & _ & ->)]. apply c_string_none. }
      constructor. intros k x Ix. split.
      * apply Z. apply in_map_iff. exists (k, x). split; [reflexivity|exact Ix].
      * destruct (A1 k x (in_prop _ _ _ Nd Ix)) as (w & E & Sw).
        rewrite (key Z), (in_prop _ _ _ Nd Ix) in E. injection E as <-.
        apply (IH k x Ix (Wp k x Ix)). exact Sw.
    + assert (Kp : forall k x, In (k, x) p -> ~ In 0 k /\ kept x) by (inversion K; assumption).
      assert (Z : forall k, In k (map fst p) -> ~ In 0 k).
      { intros k Ik. apply in_map_iff in Ik. destruct Ik as ((k' & x) & <- & Ik).
        exact (proj1 (Kp _ _ Ik)). }
      constructor.
      * intros k x E. rewrite (key Z), E. exists (of_variant (to_variant x)). split; [reflexivity|].
        apply prop_in in E. apply (IH k x E (Wp k x E)). exact (proj2 (Kp _ _ E)).
      * intros k w E. rewrite (key Z) in E. destruct (prop k p) as [x|] eqn:Ex; [|discriminate E].
        injection E as <-. exists x. split; [reflexivity|].
        apply prop_in in Ex. apply (IH k x Ex (Wp k x Ex)). exact (proj2 (Kp _ _ Ex)).
Qed.

(** Whatever a variant is, the value made from it is one that is kept from then on. *)
Theorem transfer_stable x : kept (of_variant x) /\ wf (of_variant x).
Proof.
  induction x as [v Na No|l IH|p IH] using variant_ind2.
  - destruct v; try (destruct (Na l eq_refl); fail); try (destruct (No m eq_refl));
      simpl; try (split; constructor; fail).
    + split; constructor. apply c_string_none.
    + split; constructor; intros x Ix; apply in_map_iff in Ix; destruct Ix as (s & <- & _);
        constructor. apply c_string_none.
  - simpl. split; constructor; intros x Ix; apply in_map_iff in Ix; destruct Ix as (y & <- & Iy);
      apply (IH y Iy).
  - rewrite of_variant_map.
    assert (G : forall ps o, (forall k x, In (k, x) ps -> kept (of_variant x) /\ wf (of_variant x)) ->
       (NoDup (map fst o) /\ forall k x, In (k, x) o -> ~ In 0 k /\ kept x /\ wf x) ->
       (NoDup (map fst (fill2 ps o)) /\ forall k x, In (k, x) (fill2 ps o) -> ~ In 0 k /\ kept x /\ wf x)).
    { clear. induction ps as [|(k1, x1) r IHr]; intros o K Ho; [exact Ho|].
      simpl. apply IHr; [intros; apply (K k); right; assumption|].
      destruct Ho as (Nd & Ho). split; [apply set_nodup; exact Nd|].
      intros k x Ix. destruct (set_in _ _ _ _ _ Ix) as [(-> & ->)|Ix']; [|exact (Ho _ _ Ix')].
      split; [apply c_string_none|]. apply (K k1). left. reflexivity. }
    destruct (G p [] IH) as (Nd & H).
    { split; [constructor|intros k x []]. }
    split; constructor; try exact Nd; intros k x Ix; destruct (H k x Ix) as (A1 & A2 & A3); auto.
Qed.

(** The values of lists of texts. *)
Lemma texts_variants l ss : texts l ss -> map to_text (map to_variant l) = ss.
Proof. induction 1 as [|v s l ss E F IH]; [reflexivity|]. simpl. rewrite IH, E. reflexivity. Qed.

Lemma texts_app l ss : texts l ss -> l = map Text ss.
Proof. induction 1 as [|v s l ss E F IH]; [reflexivity|]. simpl. rewrite IH, E. reflexivity. Qed.

Lemma same_texts ss : (forall s, In s ss -> ~ In 0 s) ->
  Forall2 same (map Text ss) (map (fun s => Text (c_string s)) ss).
Proof.
  induction ss as [|s ss IH]; intro Z; [constructor|]. simpl.
  rewrite (proj1 (c_string_id s) (Z s (or_introl eq_refl))). constructor; [constructor|].
  apply IH. intros s' K. apply Z. right. exact K.
Qed.

(** A rule sees what the property has been evaluated to; instead of an undefined list it
    sees an empty one. *)
Theorem rules_see_values_partial t v : has_type t v -> wf v -> kept v -> same v (seen t v).
Proof.
  intros T W K. pose proof (proj2 (transfer_exact v W) K) as R.
  unfold seen, stored. destruct t; simpl in T; try exact R.
  - destruct T as (s & ->). exact R.
  - destruct T as (l & ss & -> & Tx). simpl. rewrite (texts_variants _ _ Tx).
    constructor. pose proof (texts_app _ _ Tx). subst l. apply same_texts.
    inversion K as [| | | | | |l0 Kl|]. subst. intros s Is.
    specialize (Kl (Text s) (in_map Text _ _ Is)). inversion Kl. assumption.
  - destruct T as (l & ss & -> & Tx). simpl. rewrite (texts_variants _ _ Tx).
    constructor. pose proof (texts_app _ _ Tx). subst l. apply same_texts.
    inversion K as [| | | | | |l0 Kl|]. subst. intros s Is.
    specialize (Kl (Text s) (in_map Text _ _ Is)). inversion Kl. assumption.
  - destruct T as (l & ->). exact R.
Qed.

Theorem rules_see_undefined t :
  (list_type t -> seen t Undef = Arr []) /\ (~ list_type t -> seen t Undef = Undef).
Proof.
  unfold list_type. split.
  - intros [->|[->| ->]]; reflexivity.
  - intro N0. destruct t; try reflexivity; destruct N0; tauto.
Qed.

(** Numbers with a fraction and integers that do not fit in 32 bits are undefined in rules
    and commands; even for properties of type int. *)
Theorem rules_see_numbers_refuted : exists t v, wf v /\
  (forall resolve ft base, convert resolve ft base t v = Value_ v) /\ t = TInt /\
  seen t v = Undef /\ ~ same v (seen t v).
Proof.
  exists TInt, (Float 0). split; [constructor|]. split; [reflexivity|]. split; [reflexivity|].
  split; [reflexivity|]. intro K. inversion K.
Qed.

Theorem rules_see_null_refuted : exists v, wf v /\
  (forall resolve ft base, convert resolve ft base TAnys v = Value_ v) /\
  seen TAnys v = Arr [Undef] /\ ~ same v (seen TAnys v).
Proof.
  exists (Arr [Null]). split.
  { constructor. intros x [<-|[]]. constructor. }
  split; [reflexivity|]. split; [reflexivity|].
  intro K. inversion K as [| | | | | | | |l l' F|]. subst. inversion F as [|? ? ? ? F1 F2]. inversion F1.
Qed.

Theorem rules_see_texts_refuted : exists s t, t <> s /\
  (forall resolve ft base, convert resolve ft base TText (Text s) = Value_ (Text s)) /\
  seen TText (Text s) = Text t.
Proof.
  exists [97; 0; 98], [97]. split; [discriminate|]. split; reflexivity.
Qed.

(** Integers of 64 bits that C++ gives to JavaScript are right if they fit in 32 bits. *)
Theorem long_exact z : of_variant (VLong z) = Int z <-> (-2147483648 <= z < 2147483648)%Z.
Proof.
  simpl. unfold wrap32. split.
  - intro E. injection E as E. pose proof (Z.mod_pos_bound (z + 2147483648) 4294967296 ltac:(lia)). lia.
  - intro B. rewrite Z.mod_small by lia. f_equal. lia.
Qed.

(* ------------------------------------------------------------------------------------ *)
(** ** C117: values have the type of the property *)

Section Types.
Variable resolve : str -> str -> str.
Variable float_true : N -> bool.
Notation convert := (convert resolve float_true).
Notation convert_elements := (convert_elements resolve float_true).

(** The paths as they are after the conversion. *)
Definition path_value (base s : str) : str := match base with [] => s | _ => resolve base s end.

Lemma elements_ok base l : forall i ss, texts l ss ->
  elements resolve base i l = Value_ (Arr (map (fun s => Text (path_value base s)) ss)).
Proof.
  induction l as [|v l IH]; intros i ss T; inversion T; subst; [reflexivity|].
  simpl. rewrite (IH (S i) _ H3). reflexivity.
Qed.

(** The first element that is not a text, and what is said about it. *)
Inductive first_bad : list value -> nat -> value -> Prop :=
| Bad_here v l : (forall s, v <> Text s) -> first_bad (v :: l) 0 v
| Bad_later s l i v : first_bad l i v -> first_bad (Text s :: l) (S i) v.

Definition complaint_about (i : nat) (v : value) (e : complaint) : Prop :=
  (v = Undef /\ e = ElementUndefined i) \/ (v = Null /\ e = ElementNull i) \/
  (v <> Undef /\ v <> Null /\ e = ElementNotText i).

Lemma elements_bad base l : forall i j v, first_bad l j v ->
  exists e, elements resolve base i l = Error_ e /\ complaint_about (i + j) v e.
Proof.
  induction l as [|x l IH]; intros i j v B;
    [inversion B|inversion B as [v' l' Nt E1 E2|s l' i' v' B' E1 E2]; subst].
  - replace (i + 0)%nat with i by lia. unfold complaint_about.
    destruct v; try (destruct (Nt _ eq_refl); fail); simpl; eexists; (split; [reflexivity|]); auto;
      right; right; (split; [discriminate|]; split; [discriminate|reflexivity]).
  - destruct (IH (S i) _ _ B') as (e & E & C). exists e. simpl. rewrite E.
    split; [reflexivity|]. replace (i + S i')%nat with (S i + i')%nat by lia. exact C.
Qed.

Lemma texts_or_bad l : (exists ss, texts l ss) \/ exists j v, first_bad l j v.
Proof.
  induction l as [|x l IH]; [left; exists []; constructor|].
  assert (D : (exists s, x = Text s) \/ forall s, x <> Text s).
  { destruct x; try (right; intros; discriminate). left. eexists. reflexivity. }
  destruct D as [(s & ->)|D].
  - destruct IH as [(ss & T)|(j & v & B)].
    + left. exists (s :: ss). constructor; [reflexivity|exact T].
    + right. exists (S j), v. constructor. exact B.
  - right. exists 0%nat, x. constructor. exact D.
Qed.

Lemma texts_fun l a b : texts l a -> texts l b -> a = b.
Proof.
  intro T. revert b. induction T as [|v s l ss E T IH]; intros b U; inversion U; subst; [reflexivity|].
  f_equal; [congruence|auto].
Qed.

(** A single value for a list property is a list of one. *)
Definition listed (v : value) (l : list value) : Prop :=
  v = Arr l \/ ((forall l', v <> Arr l') /\ l = [v]).

Lemma listed_ok v : listed v (as_list v).
Proof. unfold listed. destruct v; simpl; auto; right; (split; [discriminate|reflexivity]). Qed.
Lemma listed_fun v a b : listed v a -> listed v b -> a = b.
Proof. intros [E|(E1 & E2)] [F|(F1 & F2)]; subst; try congruence; exfalso; congruence. Qed.

(** Lists of texts and of paths. *)
Theorem list_value_exact base t v w : v <> Undef -> t = TTexts \/ t = TPaths ->
  (convert base t v = Value_ w <->
   exists l ss, listed v l /\ texts l ss /\
     w = Arr (map (fun s => Text (match t with TPaths => path_value base s | _ => s end)) ss)).
Proof.
  intros U T.
  assert (E : convert base t v = elements resolve (match t with TPaths => base | _ => [] end) 0 (as_list v)).
  { destruct T as [-> | ->]; destruct v; try reflexivity; destruct (U eq_refl). }
  assert (P : forall ss, map (fun s => Text (path_value (match t with TPaths => base | _ => [] end) s)) ss =
                         map (fun s => Text (match t with TPaths => path_value base s | _ => s end)) ss).
  { intro ss. apply map_ext. intro s. destruct T as [-> | ->]; reflexivity. }
  rewrite E. split.
  - intro K. destruct (texts_or_bad (as_list v)) as [(ss & Tx)|(j & x & B)].
    + exists (as_list v), ss. split; [apply listed_ok|]. split; [exact Tx|].
      rewrite (elements_ok _ _ _ _ Tx), P in K. congruence.
    + destruct (elements_bad (match t with TPaths => base | _ => [] end) _ 0 _ _ B) as (e & E2 & _).
      congruence.
  - intros (l & ss & Li & Tx & ->). rewrite <- (listed_fun _ _ _ Li (listed_ok v)).
    rewrite (elements_ok _ _ _ _ Tx), P. reflexivity.
Qed.

(** Otherwise the error tells the first element that is not a text. *)
Theorem list_error_exact base t v e : v <> Undef -> t = TTexts \/ t = TPaths ->
  (convert base t v = Error_ e <->
   exists l i x, listed v l /\ first_bad l i x /\ complaint_about i x e).
Proof.
  intros U T.
  assert (E : convert base t v = elements resolve (match t with TPaths => base | _ => [] end) 0 (as_list v)).
  { destruct T as [-> | ->]; destruct v; try reflexivity; destruct (U eq_refl). }
  assert (C1 : forall i x e1 e2, complaint_about i x e1 -> complaint_about i x e2 -> e1 = e2).
  { unfold complaint_about. intros i x e1 e2 [(A1 & A2)|[(A1 & A2)|(A1 & A2 & A3)]] [(B1 & B2)|[(B1 & B2)|(B1 & B2 & B3)]];
      congruence. }
  assert (B1 : forall l i x j y, first_bad l i x -> first_bad l j y -> i = j /\ x = y).
  { clear. intros l i x j y B. revert j y. induction B as [v l H|s l i v B IH]; intros j y B';
      inversion B' as [v1 l1 Nt E1 E2|s1 l1 i1 v1 B1 E1 E2]; subst.
    - split; reflexivity.
    - destruct (H s1 eq_refl).
    - destruct (Nt s eq_refl).
    - destruct (IH _ _ B1) as (-> & ->). split; reflexivity. }
  rewrite E. split.
  - intro K. destruct (texts_or_bad (as_list v)) as [(ss & Tx)|(j & x & B)].
    + rewrite (elements_ok _ _ _ _ Tx) in K. discriminate K.
    + destruct (elements_bad (match t with TPaths => base | _ => [] end) _ 0 _ _ B) as (e' & E2 & C).
      exists (as_list v), j, x. split; [apply listed_ok|]. split; [exact B|].
      rewrite K in E2. injection E2 as ->. exact C.
  - intros (l & i & x & Li & B & C). rewrite (listed_fun _ _ _ Li (listed_ok v)) in B.
    destruct (elements_bad (match t with TPaths => base | _ => [] end) _ 0 _ _ B) as (e' & E2 & C').
    rewrite E2. f_equal. exact (C1 _ _ _ _ C' C).
Qed.

(** Single texts, paths and numbers. *)
Theorem single_value_exact base v w : v <> Undef ->
  (convert base TText v = Value_ w <-> exists s, v = Text s /\ w = Text s) /\
  (convert base TPath v = Value_ w <-> exists s, v = Text s /\ w = Text (path_value base s)) /\
  (convert base TInt v = Value_ w <-> w = v /\ ((exists z, v = Int z) \/ exists f, v = Float f)) /\
  (convert base TAny v = Value_ w <-> w = v) /\
  (convert base TAnys v = Value_ w <-> exists l, listed v l /\ w = Arr l).
Proof.
  intro U.
  split; [destruct v; simpl; split; intro K; try discriminate K; try (destruct K as (s' & K1 & K2); congruence);
          try congruence; try (eexists; split; [reflexivity|congruence]);
          destruct U; reflexivity|].
  assert (D : (exists s, v = Text s) \/ forall s, v <> Text s)
    by (destruct v; try (right; intros; discriminate); left; eexists; reflexivity).
  split.
  { destruct D as [(s & ->)|Nt].
    - split; [intro K; exists s; simpl in K; injection K as <-; split; reflexivity|].
      intros (s' & K1 & ->). injection K1 as <-. reflexivity.
    - split; [intro K; exfalso|intros (s & E & _); destruct (Nt s E)].
      destruct v; simpl in K; try discriminate K; [destruct (U eq_refl)|destruct (Nt s eq_refl)]. }
  split; [destruct v; simpl; split; intro K; try discriminate K;
          try (destruct K as (K1 & [(z' & K2)|(z' & K2)]); congruence);
          try (split; [congruence|]; first [left; eexists; reflexivity|right; eexists; reflexivity]);
          destruct U; reflexivity|].
  split; [destruct v; simpl; split; intro K; congruence|].
  split.
  - intro K. exists (as_list v). split; [apply listed_ok|].
    destruct v; simpl in *; congruence.
  - intros (l & Li & ->). rewrite (listed_fun _ _ _ Li (listed_ok v)).
    destruct v; simpl; try reflexivity. destruct (U eq_refl).
Qed.

(** What is false: null, false, zero, numbers that are zero or not a number, and the empty
    text. *)
Theorem bool_value_exact base v : v <> Undef ->
  exists b, convert base TBool v = Value_ (Bool b) /\
    (b = false <-> v = Null \/ v = Bool false \/ v = Int 0 \/ v = Text [] \/
                   exists f, v = Float f /\ float_true f = false).
Proof.
  intro U. exists (to_bool float_true v). split; [destruct v; try reflexivity; destruct (U eq_refl)|].
  destruct v as [| |b|z|f|s|ms|b|l|p]; simpl; split; intro K;
    try (destruct (U eq_refl); fail); try discriminate K; try tauto;
    try (destruct K as [K|[K|[K|[K|(f' & K & K2)]]]]; try discriminate K; try congruence).
  - subst b. tauto.
  - apply negb_false_iff, Z.eqb_eq in K. subst z. tauto.
  - injection K as ->. reflexivity.
  - right. right. right. right. exists f. split; [reflexivity|exact K].
  - destruct s; [tauto|discriminate K].
  - injection K as ->. reflexivity.
Qed.

(** Undefined has no type and stays. *)
Theorem undefined_stays base t : convert base t Undef = Value_ Undef.
Proof. reflexivity. Qed.

(** So a value is undefined or has the type of its property; but see below for int. *)
Lemma texts_map (g : str -> str) ss : texts (map (fun s => Text (g s)) ss) (map g ss).
Proof. induction ss as [|s ss IH]; [constructor|]. simpl. constructor; [reflexivity|exact IH]. Qed.

Theorem value_has_type_partial base t v w : convert base t v = Value_ w ->
  w = Undef \/ has_type t w \/ (t = TInt /\ exists f, w = Float f).
Proof.
  intro E. assert (D : v = Undef \/ v <> Undef) by (destruct v; auto; right; discriminate).
  destruct D as [->|U]; [left; simpl in E; congruence|right].
  destruct (single_value_exact base v w U) as (S1 & S2 & S3 & S4 & S5).
  destruct t; simpl.
  - left. exact I.
  - left. destruct (bool_value_exact base v U) as (b' & K & _). exists b'. congruence.
  - apply S3 in E. destruct E as (-> & [K|K]); [left; exact K|right; split; [reflexivity|exact K]].
  - left. apply S2 in E. destruct E as (s' & _ & ->). eexists. reflexivity.
  - left. apply (list_value_exact base TPaths v w U (or_intror eq_refl)) in E.
    destruct E as (l' & ss & _ & _ & ->).
    exists (map (fun s => Text (path_value base s)) ss), (map (path_value base) ss).
    split; [reflexivity|]. apply texts_map.
  - left. apply S1 in E. destruct E as (s' & _ & ->). eexists. reflexivity.
  - left. apply (list_value_exact base TTexts v w U (or_introl eq_refl)) in E.
    destruct E as (l' & ss & _ & _ & ->).
    exists (map (fun s => Text s) ss), (map (fun s => s) ss).
    split; [reflexivity|]. apply (texts_map (fun s => s)).
  - left. exact I.
  - left. apply S5 in E. destruct E as (l' & _ & ->). eexists. reflexivity.
Qed.

(** A conversion of a value that has been converted changes nothing. *)
Theorem convert_idempotent base t v w :
  (forall b s, resolve b (resolve b s) = resolve b s) ->
  convert base t v = Value_ w -> convert base t w = Value_ w.
Proof.
  intros Ri E. assert (D : v = Undef \/ v <> Undef) by (destruct v; auto; right; discriminate).
  destruct D as [->|U]; [simpl in E; injection E as <-; reflexivity|].
  assert (Pi : forall s, path_value base (path_value base s) = path_value base s).
  { intro s. unfold path_value. destruct base; [reflexivity|apply Ri]. }
  destruct (single_value_exact base v w U) as (S1 & S2 & S3 & S4 & S5).
  destruct t.
  - assert (w = v) by (destruct v; simpl in E; congruence). subst w. exact E.
  - destruct (bool_value_exact base v U) as (b' & K & _). rewrite K in E. injection E as <-. reflexivity.
  - pose proof (proj1 S3 E) as (-> & _). exact E.
  - apply S2 in E. destruct E as (s' & _ & ->). 
    change (Value_ (Text (path_value base (path_value base s'))) = Value_ (Text (path_value base s'))).
    rewrite Pi. reflexivity.
  - apply (list_value_exact base TPaths v w U (or_intror eq_refl)) in E.
    destruct E as (l' & ss & _ & _ & ->).
    apply (list_value_exact base TPaths); [discriminate|right; reflexivity|].
    exists (map (fun s => Text (path_value base s)) ss), (map (path_value base) ss).
    split; [left; reflexivity|]. split; [apply texts_map|].
    rewrite map_map. f_equal. apply map_ext. intro s. rewrite Pi. reflexivity.
  - apply S1 in E. destruct E as (s' & _ & ->). reflexivity.
  - apply (list_value_exact base TTexts v w U (or_introl eq_refl)) in E.
    destruct E as (l' & ss & _ & _ & ->).
    apply (list_value_exact base TTexts); [discriminate|left; reflexivity|].
    exists (map (fun s => Text s) ss), (map (fun s => s) ss).
    split; [left; reflexivity|]. split; [apply (texts_map (fun s => s))|].
    rewrite map_map. reflexivity.
  - assert (w = v) by (destruct v; simpl in E; congruence). subst w. exact E.
  - apply S5 in E. destruct E as (l' & _ & ->). reflexivity.
Qed.

(** The parts of a list property that is put together from several places are converted in
    the same way. *)
Theorem parts_converted base t v w :
  (forall b s, resolve b (resolve b s) = resolve b s) ->
  (convert_elements base t v = Value_ w <-> convert base t v = Value_ w).
Proof.
  intros Ri.
  assert (Pi : forall s, resolved resolve base (resolved resolve base s) = resolved resolve base s).
  { intro s. unfold resolved. destruct base; [reflexivity|apply Ri]. }
  destruct t; destruct v; try reflexivity; simpl; rewrite ?Pi; try reflexivity;
    split; intro K; discriminate K.
Qed.

(** Paths are relative to the directory of the file, if there is one for the evaluation, and
    otherwise to that of the product. *)
Theorem paths_resolved base_dir_ product s w :
  convert (base_dir base_dir_ product) TPath (Text s) = Value_ w ->
  (base_dir_ <> [] -> w = Text (resolve base_dir_ s)) /\
  (forall d, base_dir_ = [] -> product = Some d -> d <> [] -> w = Text (resolve d s)) /\
  (base_dir_ = [] -> product = None -> w = Text s).
Proof.
  simpl. intro E. injection E as <-. split; [|split].
  - intro N0. destruct base_dir_; [congruence|]. reflexivity.
  - intros d -> -> N0. simpl. unfold resolved. destruct d; [congruence|reflexivity].
  - intros -> ->. reflexivity.
Qed.

(** An undefined value of a variant (as in a profile) is an empty list for a list
    property. *)
Theorem undefined_variant base t :
  (list_type t -> convert_variant_value resolve float_true base t Undef = Value_ (Arr [])) /\
  (~ list_type t -> convert_variant_value resolve float_true base t Undef = Value_ Undef) /\
  forall v, v <> Undef ->
    convert_variant_value resolve float_true base t v = convert base t v.
Proof.
  unfold list_type. split; [|split].
  - intros [->|[->| ->]]; reflexivity.
  - intro N0. destruct t; try reflexivity; destruct N0; tauto.
  - intros v U. destruct v; try reflexivity. destruct (U eq_refl).
Qed.

End Types.

(** A property of type int can have a number with a fraction, or one that is not a number. *)
Theorem int_values_refuted : exists v, forall resolve ft base,
  convert resolve ft base TInt v = Value_ v /\ v <> Undef /\ ~ has_type TInt v.
Proof.
  exists (Float 0). intros. split; [reflexivity|]. split; [discriminate|].
  intros (z & K). discriminate K.
Qed.

(* ------------------------------------------------------------------------------------ *)
(** ** C118: allowed values *)

(** The texts of a value. *)
Definition texts_of (t : ptype) (v : value) (ss : list str) : Prop :=
  match t with
  | TText => exists s, v = Text s /\ ss = [s]
  | _ => exists l, v = Arr l /\ texts l ss
  end.

(** A value is complained about for each text in it that is not allowed, in order. *)
Theorem allowed_values_exact t allowed v ss :
  t = TText \/ t = TTexts -> texts_of t v ss -> allowed <> [] ->
  let bad := rejected t allowed (stored t v) in
  (forall s, In s bad <-> In s ss /\ ~ In s allowed) /\
  (bad = [] <-> forall s, In s ss -> In s allowed).
Proof.
  intros T X A0 bad.
  assert (E : bad = filter (fun s => negb (existsb (str_eqb s) allowed)) ss).
  { subst bad. unfold rejected.
    assert (C : should_check t allowed = true)
      by (destruct T as [-> | ->]; simpl; destruct allowed; congruence).
    rewrite C. destruct T as [-> | ->]; simpl in X.
    - destruct X as (s & -> & ->). reflexivity.
    - destruct X as (l & -> & X). unfold stored. simpl. rewrite (texts_variants _ _ X). reflexivity. }
  assert (M : forall s, existsb (str_eqb s) allowed = true <-> In s allowed).
  { intro s. rewrite existsb_exists. split.
    - intros (y & I1 & K). apply str_eqb_eq in K. subst y. exact I1.
    - intro I1. exists s. split; [exact I1|apply str_eqb_refl]. }
  assert (B : forall s, In s bad <-> In s ss /\ ~ In s allowed).
  { intro s. rewrite E, filter_In, negb_true_iff, <- not_true_iff_false, M. reflexivity. }
  split; [exact B|]. split.
  - intros Z s Is. destruct (in_dec str_dec s allowed) as [K|K]; [exact K|].
    assert (F : In s bad) by (apply B; split; assumption). rewrite Z in F. destruct F.
  - intro K. destruct bad as [|s r] eqn:Eb; [reflexivity|exfalso].
    destruct (proj1 (B s) (or_introl eq_refl)) as (K1 & K2). exact (K2 (K s K1)).
Qed.

(** An undefined value is always allowed. *)
Theorem allowed_undefined t allowed : rejected t allowed (stored t Undef) = [].
Proof. destruct t; try reflexivity; destruct allowed; reflexivity. Qed.

(** Values of paths are not checked. *)
Theorem allowed_paths_refuted : exists t allowed s, allowed <> [] /\ ~ In s allowed /\
  rejected t allowed (stored t (Text s)) = [].
Proof.
  exists TPath, [[97]], [98]. split; [discriminate|]. split; [intros [K|[]]; discriminate K|reflexivity].
Qed.

(** If no value at all is in the list, all values are allowed. *)
Theorem allowed_none_refuted : exists s, rejected TText [] (stored TText (Text s)) = [] /\ ~ In s [].
Proof. exists [98]. split; [reflexivity|intros []]. Qed.

(* ------------------------------------------------------------------------------------ *)
(** ** Examples *)

Module Demo.
  Definition txt (s : String.string) : str := List.map N_of_ascii (list_ascii_of_string s).
  Arguments txt s%string.

  Definition config : value :=
    Obj [(txt "name", Text (txt "lib")); (txt "list", Arr [Int 1; Bool true; Undef]);
         (txt "date", Date 0)].

  Example config_kept : kept config /\ wf config.
  Proof.
    split.
    - constructor. intros k x [E|[E|[E|[]]]]; injection E as <- <-;
        (split; [simpl; intro K; repeat (destruct K as [K|K]; [discriminate K|]); exact K|]).
      + constructor. simpl. intro K. repeat (destruct K as [K|K]; [discriminate K|]). exact K.
      + constructor. intros x [<-|[<-|[<-|[]]]]; constructor.
      + constructor.
    - constructor.
      + simpl. repeat (constructor; [simpl; intro K; repeat (destruct K as [K|K]; [discriminate K|]); exact K|]).
        constructor.
      + intros k x [E|[E|[E|[]]]]; injection E as <- <-; constructor.
        intros x [<-|[<-|[<-|[]]]]; constructor.
  Qed.

  Example config_transfer : of_variant (to_variant config) =
    Obj [(txt "date", Date 0); (txt "list", Arr [Int 1; Bool true; Undef]);
         (txt "name", Text (txt "lib"))].
  Proof. vm_compute. reflexivity. Qed.

  Example large_number : of_variant (VLong 5000000000) = Int 705032704.
  Proof. vm_compute. reflexivity. Qed.

  Definition join (b s : str) : str := match s with 47 :: _ => s | _ => b ++ 47 :: s end.

  Example paths_demo : convert join (fun _ => true) (txt "/p") TPaths (Arr [Text (txt "a"); Text (txt "/b")])
    = Value_ (Arr [Text (txt "/p/a"); Text (txt "/b")]).
  Proof. vm_compute. reflexivity. Qed.

  Example single_demo : convert join (fun _ => true) [] TTexts (Text (txt "a")) = Value_ (Arr [Text (txt "a")]).
  Proof. vm_compute. reflexivity. Qed.

  Example error_demo : convert join (fun _ => true) [] TTexts (Arr [Text (txt "a"); Null; Undef])
    = Error_ (ElementNull 1).
  Proof. vm_compute. reflexivity. Qed.

  Example join_idempotent : forall s, join (txt "/p") (join (txt "/p") s) = join (txt "/p") s.
  Proof.
    intro s. assert (H : (exists r, join (txt "/p") s = 47 :: r)).
    { unfold join. destruct s as [|c s]; [eexists; reflexivity|].
      destruct (N.eq_dec c 47) as [->|D]; [eexists; reflexivity|].
      exists (txt "p" ++ 47 :: c :: s). destruct c as [|p]; [reflexivity|].
      do 6 (destruct p; try reflexivity; try (destruct D; reflexivity)). }
    destruct H as (r & ->). reflexivity.
  Qed.

  Example allowed_demo :
    rejected TTexts (List.map txt ["a"; "b"]%string)
      (stored TTexts (Arr [Text (txt "a"); Text (txt "c"); Text (txt "b"); Text (txt "d")]))
    = List.map txt ["c"; "d"]%string.
  Proof. vm_compute. reflexivity. Qed.
End Demo.

Print Assumptions transfer_exact.
Print Assumptions transfer_stable.
Print Assumptions rules_see_values_partial.
Print Assumptions long_exact.
Print Assumptions list_value_exact.
Print Assumptions list_error_exact.
Print Assumptions single_value_exact.
Print Assumptions bool_value_exact.
Print Assumptions value_has_type_partial.
Print Assumptions convert_idempotent.
Print Assumptions parts_converted.
Print Assumptions allowed_values_exact.
