(** Property values on the command line (C106 to C108). *)

From Coq Require Import String Ascii.
From Coq Require Import List Bool Arith NArith Lia.
From Verif Require Import Str OverridesModel.
Import ListNotations.
Local Open Scope N_scope.

(** * Specification *)

Definition txt (s : String.string) : str := List.map N_of_ascii (list_ascii_of_string s).
Arguments txt s%string.

(** The value for a key in a list. *)
Definition lookup {V : Type} (k : str) (m : list (str * V)) : option V :=
  option_map snd (find (fun p => str_eqb (fst p) k) m).

Definition dotless (s : str) : Prop := ~ In 46 s.

(** The full name of a property. *)
Definition full (prefix x : str) : str := prefix ++ 46 :: x.

(** The value that the command line has for a property, the prefixes in the order of
    their precedence. *)
Fixpoint wanted (values : list (str * str)) (prefixes : list str) (x : str) : option str :=
  match prefixes with
  | [] => None
  | p :: r => match lookup (full p x) values with Some v => Some v | None => wanted values r x end
  end.

(** An item with the values for these prefixes: those of declared properties, converted
    to their type; everything else is as before. *)
Definition overridden (convert : N -> str -> option str) (values : list (str * str)) (prefixes : list str) (i j : item) : Prop :=
  i_decls j = i_decls i
  /\ forall x,
     (dotless x -> forall ty v, lookup x (i_decls i) = Some ty -> wanted values prefixes x = Some v ->
        convert ty v <> None /\ lookup x (i_props j) = convert ty v)
     /\ (In 46 x \/ lookup x (i_decls i) = None \/ wanted values prefixes x = None -> lookup x (i_props j) = lookup x (i_props i)).

(** The name of an item; if it has none, it gets that of its file. *)
Definition called (i : item) : str := match lookup (txt "name") (i_props i) with Some n => n | None => [] end.
Definition named (file : str) (i j : item) : Prop :=
  i_decls j = i_decls i
  /\ (called i <> [] -> j = i)
  /\ (called i = [] -> forall x, lookup x (i_props j) = if str_dec x (txt "name") then Some file else lookup x (i_props i)).

(** What becomes of a project, a product and a module. *)
Definition project_overridden convert values (u : part) (r : str * item) : Prop :=
  exists mid mid', overridden convert values [txt "project"] (u_item u) mid /\ named (u_file u) mid mid'
    /\ fst r = called mid' /\ overridden convert values [txt "projects." ++ fst r] mid' (snd r).

Definition module_overridden convert values (product : str) (m m' : str * item) : Prop :=
  fst m' = fst m
  /\ overridden convert values
       ([txt "products." ++ full product (fst m)] ++ (if str_dec (fst m) (txt "qbs") then [txt "qbs"] else []) ++ [txt "modules." ++ fst m])
       (snd m) (snd m').

Definition product_overridden convert values (u : part) (r : str * item * list (str * item)) : Prop :=
  let '(n, i, ms) := r in
  exists mid, named (u_file u) (u_item u) mid /\ overridden convert values [txt "products." ++ called mid] mid i
    /\ n = called i /\ Forall2 (module_overridden convert values n) (u_modules u) ms.

(** * Proofs *)

Lemma get_lookup {V : Type} k (m : list (str * V)) : get k m = lookup k m.
Proof.
  unfold lookup. induction m as [|[k' v] m IH]; [reflexivity|]. cbn [get find fst]. destruct (str_eqb k' k); [reflexivity|exact IH].
Qed.

Lemma get_put {V : Type} k k' (v : V) m : get k (put k' v m) = if str_eqb k' k then Some v else get k m.
Proof.
  induction m as [|[a w] m IH]; cbn [put get].
  - destruct (str_eqb k' k); reflexivity.
  - destruct (str_eqb a k') eqn:E.
    + apply str_eqb_eq in E. subst a. cbn [get]. destruct (str_eqb k' k); reflexivity.
    + cbn [get]. destruct (str_eqb a k) eqn:F; [|exact IH]. apply str_eqb_eq in F. subst a.
      destruct (str_eqb k' k) eqn:G; [|reflexivity]. apply str_eqb_eq in G. subst k'. rewrite str_eqb_refl in E. discriminate.
Qed.

Lemma in_put {V : Type} k (v : V) m x : In x (List.map fst (put k v m)) -> x = k \/ In x (List.map fst m).
Proof.
  induction m as [|[a w] m IH]; cbn [put List.map].
  - intros [<-|[]]. left. reflexivity.
  - destruct (str_eqb a k) eqn:E; cbn [List.map fst].
    + intros [<-|H]; [left; reflexivity|right; right; exact H].
    + intros [<-|H]; [right; left; reflexivity|]. destruct (IH H); [left; assumption|right; right; assumption].
Qed.

Lemma put_nodup {V : Type} k (v : V) m : NoDup (List.map fst m) -> NoDup (List.map fst (put k v m)).
Proof.
  induction m as [|[a w] m IH]; cbn [put List.map fst]; intro H; [repeat constructor; tauto|].
  inversion H as [|? ? A1 A2]; subst. destruct (str_eqb a k) eqn:E; cbn [List.map fst].
  - apply str_eqb_eq in E. subst a. constructor; assumption.
  - constructor; [|auto]. intro X. apply in_put in X. destruct X as [->|X]; [rewrite str_eqb_refl in E; discriminate|contradiction].
Qed.

Lemma get_in {V : Type} k (v : V) m : get k m = Some v -> In (k, v) m.
Proof.
  induction m as [|[a w] m IH]; cbn [get]; [discriminate|]. destruct (str_eqb a k) eqn:E; [|intro; right; auto].
  apply str_eqb_eq in E. subst a. intro H. injection H as ->. left. reflexivity.
Qed.
Lemma get_none {V : Type} k (m : list (str * V)) : get k m = None <-> ~ In k (List.map fst m).
Proof.
  induction m as [|[a w] m IH]; cbn [get List.map fst]; [tauto|]. destruct (str_eqb a k) eqn:E.
  - apply str_eqb_eq in E. subst a. split; [discriminate|]. intro H. exfalso. apply H. left. reflexivity.
  - rewrite IH. simpl. split; [|tauto]. intros H [->|X]; [rewrite str_eqb_refl in E; discriminate|contradiction].
Qed.
Lemma in_get {V : Type} k (v : V) m : NoDup (List.map fst m) -> In (k, v) m -> get k m = Some v.
Proof.
  induction m as [|[a w] m IH]; intros H I0; [destruct I0|]. destruct I0 as [E|I1]; cbn [get].
  - injection E as -> ->. rewrite str_eqb_refl. reflexivity.
  - inversion H; subst. destruct (str_eqb a k) eqn:E; [|auto]. apply str_eqb_eq in E. subst a. exfalso. apply H2. apply (in_map fst) in I1. exact I1.
Qed.

(** ** The last dot *)

Lemma split_last_spec s : match split_last s with
  | Some (a, b) => s = full a b /\ dotless b
  | None => dotless s
  end.
Proof.
  induction s as [|c s IH]; cbn [split_last]; [intros []|]. destruct (split_last s) as [[a b]|].
  - destruct IH as [-> D]. split; [reflexivity|exact D].
  - destruct (N.eqb_spec c 46) as [->|NE]; [split; [reflexivity|exact IH]|]. intros [X|X]; [congruence|contradiction].
Qed.

Lemma full_inj a : forall a' x x', dotless x -> dotless x' -> full a x = full a' x' -> a = a' /\ x = x'.
Proof.
  unfold full. induction a as [|c a IH]; intros [|c' a'] x x' D D' E; cbn [app] in E.
  - injection E as ->. auto.
  - injection E as <- E. exfalso. apply D. rewrite E. apply in_or_app. right. left. reflexivity.
  - injection E as -> E. exfalso. apply D'. rewrite <- E. apply in_or_app. right. left. reflexivity.
  - injection E as -> E. destruct (IH a' x x' D D' E) as [-> ->]. auto.
Qed.

Lemma split_full a x : dotless x -> split_last (full a x) = Some (a, x).
Proof.
  intro D. pose proof (split_last_spec (full a x)) as H. destruct (split_last (full a x)) as [[b y]|].
  - destruct H as [E D']. destruct (full_inj _ _ _ _ D D' E) as [-> ->]. reflexivity.
  - exfalso. apply H. apply in_or_app. right. left. reflexivity.
Qed.

(** ** The tree *)

Definition sub (t : tree) (a : str) : list (str * value) := match get a t with Some (Sub m) => m | _ => [] end.

Lemma lookup_snoc (l : list (str * value)) k v y : ~ In k (List.map fst l) ->
  lookup y (l ++ [(k, v)]) = if str_eqb k y then Some v else lookup y l.
Proof.
  rewrite <- !get_lookup. induction l as [|[a w] l IH]; intro H; cbn [app get]; [reflexivity|].
  destruct (str_eqb a y) eqn:E.
  - apply str_eqb_eq in E. subst a. destruct (str_eqb k y) eqn:F; [|reflexivity]. apply str_eqb_eq in F. subst k. exfalso. apply H. left. reflexivity.
  - rewrite IH; [reflexivity|]. intro X. apply H. right. exact X.
Qed.

Definition tree_for (l : list (str * value)) (t : tree) : Prop :=
  (forall a x, dotless x -> get x (sub t a) = lookup (full a x) l)
  /\ (forall a x, In 46 x -> get x (sub t a) = None)
  /\ (forall a, NoDup (List.map fst (sub t a))).

Lemma tree_step l t k v : tree_for l t -> ~ In k (List.map fst l) -> In 46 k -> tree_for (l ++ [(k, v)]) (set_property t k v).
Proof.
  intros (I1 & I2 & I3) NK DK.
  pose proof (split_last_spec k) as S1. unfold set_property. destruct (split_last k) as [[a0 b0]|]; [|contradiction].
  destruct S1 as [-> D0]. fold (sub t a0).
  assert (SUB : forall a, sub (put a0 (Sub (put b0 v (sub t a0))) t) a = if str_eqb a0 a then put b0 v (sub t a0) else sub t a).
  { intro a. unfold sub at 1. rewrite get_put. destruct (str_eqb a0 a); reflexivity. }
  split; [|split].
  + intros a x D. rewrite SUB, lookup_snoc by exact NK. destruct (str_eqb a0 a) eqn:E.
    * apply str_eqb_eq in E. subst a. rewrite get_put. destruct (str_eqb b0 x) eqn:F.
      -- apply str_eqb_eq in F. subst x. rewrite str_eqb_refl. reflexivity.
      -- destruct (str_eqb (full a0 b0) (full a0 x)) eqn:G; [|apply I1; exact D]. apply str_eqb_eq in G.
         destruct (full_inj _ _ _ _ D0 D G) as [_ ->]. rewrite str_eqb_refl in F. discriminate.
    * destruct (str_eqb (full a0 b0) (full a x)) eqn:G; [|apply I1; exact D]. apply str_eqb_eq in G.
      destruct (full_inj _ _ _ _ D0 D G) as [-> _]. rewrite str_eqb_refl in E. discriminate.
  + intros a x D. rewrite SUB. destruct (str_eqb a0 a); [|apply I2; exact D]. rewrite get_put.
    destruct (str_eqb b0 x) eqn:F; [|apply I2; exact D]. apply str_eqb_eq in F. subst x. contradiction.
  + intro a. rewrite SUB. destruct (str_eqb a0 a); [apply put_nodup|]; apply I3.
Qed.

Lemma tree_spec values : NoDup (List.map fst values) -> (forall k, In k (List.map fst values) -> In 46 k) ->
  tree_for values (values_tree values).
Proof.
  unfold values_tree. induction values as [|[k v] l IH] using rev_ind; intros ND DT.
  - split; [reflexivity|]. split; [reflexivity|]. intro a. constructor.
  - rewrite fold_left_app. cbn [fold_left fst snd]. rewrite map_app in ND, DT. cbn [List.map fst] in ND, DT.
    pose proof (NoDup_remove_1 _ _ _ ND) as ND1. rewrite app_nil_r in ND1. pose proof (NoDup_remove_2 _ _ _ ND) as NK. rewrite app_nil_r in NK.
    apply tree_step; [apply IH; [exact ND1|]|exact NK|]; [intros y Y|]; apply DT; apply in_or_app; [left; exact Y|right; left; reflexivity].
Qed.

(** ** Items *)

Section Overrides.
Variable convert : N -> str -> option str.
Variable values : list (str * str).
Hypothesis distinct : NoDup (List.map fst values).
Hypothesis dotted : forall k, In k (List.map fst values) -> In 46 k.

Notation override := (OverridesModel.override convert).
Notation override_all := (OverridesModel.override_all convert).
Notation t := (values_tree values).
Notation over := (overridden convert values).

Lemma override_all_spec prefix m : forall i j e, NoDup (List.map fst m) -> override_all prefix m i = Some (j, e) ->
  i_decls j = i_decls i
  /\ (forall x ty v, get x (i_decls i) = Some ty -> get x m = Some v -> convert ty v <> None /\ get x (i_props j) = convert ty v)
  /\ (forall x, get x (i_decls i) = None \/ get x m = None -> get x (i_props j) = get x (i_props i))
  /\ (forall er, In er e <-> exists x, er = UnknownProperty prefix x /\ get x (i_decls i) = None /\ get x m <> None).
Proof.
  induction m as [|[y w] m IH]; intros i j e ND H; cbn [OverridesModel.override_all] in H.
  - injection H as <- <-. split; [reflexivity|]. split; [discriminate|]. split; [reflexivity|].
    intro er. split; [intros []|]. intros (x & _ & _ & X). cbn in X. congruence.
  - cbn [List.map fst] in ND. inversion ND as [|? ? A1 A2]; subst. pose proof (proj2 (get_none y m) A1) as GY.
    destruct (get y (i_decls i)) as [ty0|] eqn:D.
    + destruct (convert ty0 w) as [w'|] eqn:C; [|discriminate]. destruct (IH _ _ _ A2 H) as (I1 & I2 & I3 & I4).
      cbn [i_decls i_props] in *. split; [exact I1|]. split; [|split].
      * intros x ty v Hx Hv. cbn [get] in Hv. destruct (str_eqb y x) eqn:E; [|eauto]. apply str_eqb_eq in E. subst x.
        injection Hv as <-. rewrite D in Hx. injection Hx as <-. rewrite I3 by (right; exact GY). rewrite get_put, str_eqb_refl.
        split; [intro Z; apply (eq_trans (eq_sym C)) in Z; discriminate|symmetry; exact C].
      * intros x Hx. cbn [get] in Hx. destruct (str_eqb y x) eqn:E.
        -- apply str_eqb_eq in E. subst x. destruct Hx; congruence.
        -- rewrite I3 by tauto. rewrite get_put, E. reflexivity.
      * intro er. rewrite I4. split; intros (x & E1 & E2 & E3); exists x; (split; [exact E1|split; [exact E2|]]); cbn [get] in *.
        -- destruct (str_eqb y x) eqn:E; [discriminate|exact E3].
        -- destruct (str_eqb y x) eqn:E; [|exact E3]. apply str_eqb_eq in E. subst x. congruence.
    + destruct (override_all prefix m i) as [[j' e']|] eqn:O; [|discriminate]. cbn [option_map fst snd] in H. injection H as <- <-.
      destruct (IH _ _ _ A2 O) as (I1 & I2 & I3 & I4). split; [exact I1|]. split; [|split].
      * intros x ty v Hx Hv. cbn [get] in Hv. destruct (str_eqb y x) eqn:E; [|eauto]. apply str_eqb_eq in E. subst x. congruence.
      * intros x Hx. cbn [get] in Hx. destruct (str_eqb y x) eqn:E.
        -- apply str_eqb_eq in E. subst x. apply I3. left. exact D.
        -- apply I3. exact Hx.
      * intro er. cbn [In]. rewrite I4. split.
        -- intros [<-|(x & E1 & E2 & E3)].
           ++ exists y. split; [reflexivity|]. split; [exact D|]. cbn [get]. rewrite str_eqb_refl. discriminate.
           ++ exists x. split; [exact E1|]. split; [exact E2|]. cbn [get]. destruct (str_eqb y x); [discriminate|exact E3].
        -- intros (x & E1 & E2 & E3). cbn [get] in E3. destruct (str_eqb y x) eqn:E; [|right; eauto].
           apply str_eqb_eq in E. subst x. left. symmetry. exact E1.
Qed.

Definition undeclared (key : str) (i : item) (er : error) : Prop :=
  exists x, er = UnknownProperty key x /\ dotless x /\ lookup x (i_decls i) = None /\ lookup (full key x) values <> None.

Lemma override_spec key i j e : override t key i = Some (j, e) ->
  over [key] i j /\ (forall er, In er e <-> undeclared key i er).
Proof.
  intro H. assert (H' : override_all key (sub t key) i = Some (j, e)).
  { unfold OverridesModel.override in H. unfold sub. destruct (get key t) as [[v|m]|]; cbn; exact H. }
  destruct (tree_spec values distinct dotted) as (T1 & T2 & T3). destruct (override_all_spec _ _ _ _ _ (T3 key) H') as (I1 & I2 & I3 & I4).
  split.
  - split; [exact I1|]. intro x. rewrite <- !get_lookup. split.
    + intros D ty v Hx Hv. cbn [wanted] in Hv. apply (I2 x ty v Hx). rewrite T1 by exact D. destruct (lookup (full key x) values); congruence.
    + intro Hx. apply I3. destruct (in_dec N.eq_dec 46 x) as [D|D]; [right; apply T2; exact D|].
      destruct Hx as [Hx|[Hx|Hx]]; [contradiction|left; exact Hx|]. right. rewrite T1 by exact D. cbn [wanted] in Hx. destruct (lookup (full key x) values); congruence.
  - intro er. rewrite I4. split; intros (x & E1 & E2 & E3); exists x.
    + destruct (in_dec N.eq_dec 46 x) as [D|D]; [rewrite T2 in E3 by exact D; congruence|]. rewrite T1 in E3 by exact D. rewrite get_lookup in E2. split; [exact E1|]. auto.
    + destruct E3 as [E3 E4]. rewrite get_lookup. split; [exact E1|]. split; [exact E3|]. rewrite T1 by exact E2. exact E4.
Qed.

Lemma wanted_app p q x : wanted values (p ++ q) x = match wanted values p x with Some v => Some v | None => wanted values q x end.
Proof. induction p as [|a p IH]; [reflexivity|]. cbn [app wanted]. destruct (lookup (full a x) values); [reflexivity|exact IH]. Qed.

Lemma over_compose p q i j k : over p i j -> over q j k -> over (q ++ p) i k.
Proof.
  intros [D1 H1] [D2 H2]. split; [congruence|]. intro x. specialize (H1 x). specialize (H2 x). rewrite D1 in H2.
  destruct H1 as [A1 B1]. destruct H2 as [A2 B2]. rewrite wanted_app. split.
  - intros D ty v Hx Hv. destruct (wanted values q x) as [w|] eqn:Q.
    + injection Hv as <-. exact (A2 D ty w Hx eq_refl).
    + rewrite B2 by auto. exact (A1 D ty v Hx Hv).
  - intro H. rewrite B2, B1; [reflexivity|..].
    + destruct H as [H|[H|H]]; [auto|auto|]. right. right. destruct (wanted values q x); congruence.
    + destruct H as [H|[H|H]]; [auto|auto|]. right. right. destruct (wanted values q x); congruence.
Qed.

Lemma over_nil i : over [] i i.
Proof. split; [reflexivity|]. intro x. split; [discriminate|reflexivity]. Qed.

Lemma bind_some {X Y : Type} (x : option (X * list error)) (f : X -> option (Y * list error)) y e :
  OverridesModel.bind x f = Some (y, e) -> exists a e1 e2, x = Some (a, e1) /\ f a = Some (y, e2) /\ e = e1 ++ e2.
Proof.
  unfold OverridesModel.bind. destruct x as [[a e1]|]; [|discriminate]. destruct (f a) as [[b e2]|] eqn:F; [|discriminate].
  cbn. intro H. injection H as <- <-. exists a, e1, e2. auto.
Qed.

Lemma each_rel {X Y : Type} (f : X -> option (Y * list error)) (R : X -> Y -> Prop) l ys e :
  OverridesModel.each f l = Some (ys, e) -> (forall x y e, In x l -> f x = Some (y, e) -> R x y) -> Forall2 R l ys.
Proof.
  revert ys e. induction l as [|x l IH]; intros ys e H HR; cbn [OverridesModel.each] in H.
  - injection H as <- <-. constructor.
  - apply bind_some in H. destruct H as (y & e1 & e2 & F & H & ->). apply bind_some in H. destruct H as (ys' & e3 & e4 & G & H & ->).
    injection H as <- <-. constructor; [eapply HR; [left; reflexivity|exact F]|]. eapply IH; [exact G|]. intros; eapply HR; [right|]; eassumption.
Qed.

Lemma each_errors {X Y : Type} (f : X -> option (Y * list error)) l ys e :
  OverridesModel.each f l = Some (ys, e) -> forall er, In er e <-> exists x y e0, In x l /\ f x = Some (y, e0) /\ In er e0.
Proof.
  revert ys e. induction l as [|x l IH]; intros ys e H er; cbn [OverridesModel.each] in H.
  - injection H as <- <-. split; [intros []|]. intros (? & ? & ? & [] & _).
  - apply bind_some in H. destruct H as (y & e1 & e2 & F & H & ->). apply bind_some in H. destruct H as (ys' & e3 & e4 & G & H & ->).
    injection H as <- <-. rewrite app_nil_r, in_app_iff, (IH _ _ G er). split.
    + intros [H|(x' & y' & e0 & I1 & I2 & I3)]; [exists x, y, e1; split; [left; reflexivity|auto]|exists x', y', e0; split; [right; exact I1|auto]].
    + intros (x' & y' & e0 & [<-|I1] & I2 & I3); [left; rewrite F in I2; injection I2 as <- <-; exact I3|right; exists x', y', e0; auto].
Qed.

Lemma called_name i : name_of i = called i.
Proof. unfold name_of, called. rewrite get_lookup. reflexivity. Qed.

Lemma with_name_spec file i : named file i (with_name file i).
Proof.
  unfold with_name, named. rewrite called_name. destruct (called i) as [|c r] eqn:C.
  - split; [reflexivity|]. split; [congruence|]. intros _ x. cbn [i_props]. rewrite <- !get_lookup, get_put.
    change name_key with (txt "name"). destruct (str_dec x (txt "name")) as [->|NE]; [rewrite str_eqb_refl; reflexivity|].
    destruct (str_eqb (txt "name") x) eqn:E; [|reflexivity]. apply str_eqb_eq in E. congruence.
  - split; [reflexivity|]. split; [reflexivity|discriminate].
Qed.

Lemma with_name_decls file i : i_decls (with_name file i) = i_decls i.
Proof. unfold with_name. destruct (name_of i); reflexivity. Qed.

Lemma project_spec u r e : override_project convert t u = Some (r, e) ->
  project_overridden convert values u r
  /\ forall er, In er e <-> undeclared (txt "project") (u_item u) er \/ undeclared (txt "projects." ++ fst r) (u_item u) er.
Proof.
  unfold override_project. intro H. apply bind_some in H. destruct H as (i & e1 & e2 & H1 & H & ->).
  apply bind_some in H. destruct H as (j & e3 & e4 & H2 & H & ->). injection H as <- <-. cbn [fst snd].
  destruct (override_spec _ _ _ _ H1) as [O1 E1]. destruct (override_spec _ _ _ _ H2) as [O2 E2]. split.
  - exists i, (with_name (u_file u) i). split; [exact O1|]. split; [apply with_name_spec|]. cbn [fst snd]. rewrite <- called_name. split; [reflexivity|]. exact O2.
  - intro er. rewrite app_nil_r, in_app_iff, E1, E2. change (txt "project") with project_key. change (txt "projects.") with projects_prefix.
    assert (X : forall k, undeclared k (with_name (u_file u) i) er <-> undeclared k (u_item u) er).
    { intro k. unfold undeclared. rewrite with_name_decls, (proj1 O1). tauto. }
    rewrite X. tauto.
Qed.

Lemma module_spec product m r e : override_module convert t product m = Some (r, e) ->
  module_overridden convert values product m r
  /\ forall er, In er e <-> undeclared (txt "modules." ++ fst m) (snd m) er \/ (fst m = txt "qbs" /\ undeclared (txt "qbs") (snd m) er)
       \/ undeclared (txt "products." ++ full product (fst m)) (snd m) er.
Proof.
  destruct m as [name i]. unfold override_module. intro H. apply bind_some in H. destruct H as (i1 & e1 & e2 & H1 & H & ->).
  apply bind_some in H. destruct H as (i2 & e3 & e4 & H2 & H & ->). apply bind_some in H. destruct H as (i3 & e5 & e6 & H3 & H & ->).
  injection H as <- <-. cbn [fst snd].
  destruct (override_spec _ _ _ _ H1) as [O1 E1]. destruct (override_spec _ _ _ _ H3) as [O3 E3].
  assert (Q : over (if str_dec name (txt "qbs") then [txt "qbs"] else []) i1 i2
              /\ forall er, In er e3 <-> name = txt "qbs" /\ undeclared (txt "qbs") i1 er).
  { destruct (str_dec name (txt "qbs")) as [->|NE].
    - change (str_eqb (txt "qbs") qbs_key) with true in H2. cbn iota in H2. destruct (override_spec _ _ _ _ H2) as [O2 E2].
      split; [exact O2|]. intro er. rewrite E2. tauto.
    - destruct (str_eqb name qbs_key) eqn:E; [apply str_eqb_eq in E; exfalso; apply NE; exact E|]. injection H2 as <- <-.
      split; [apply over_nil|]. intro er. split; [intros []|]. intros [X _]. contradiction. }
  destruct Q as [O2 E2]. split.
  - split; [reflexivity|]. cbn [fst snd]. apply (over_compose _ _ _ i2); [|exact O3].
    apply (over_compose _ _ _ i1); [exact O1|exact O2].
  - intro er. rewrite app_nil_r, !in_app_iff, E1, E2, E3. change (txt "modules.") with modules_prefix.
    change (products_prefix ++ product ++ [46] ++ name) with (txt "products." ++ full product name).
    assert (X1 : forall k, undeclared k i1 er <-> undeclared k i er) by (intro k; unfold undeclared; rewrite (proj1 O1); tauto).
    assert (X2 : forall k, undeclared k i2 er <-> undeclared k i er) by (intro k; unfold undeclared; rewrite (proj1 O2), (proj1 O1); tauto).
    rewrite X1, X2. tauto.
Qed.

(** The name of a product before its properties are overridden. *)
Definition initial_name (u : part) : str := called (with_name (u_file u) (u_item u)).

Lemma product_spec u r e : override_product convert t u = Some (r, e) ->
  product_overridden convert values u r
  /\ forall er, In er e <-> undeclared (txt "products." ++ initial_name u) (u_item u) er
       \/ exists m, In m (u_modules u) /\ (undeclared (txt "modules." ++ fst m) (snd m) er \/ (fst m = txt "qbs" /\ undeclared (txt "qbs") (snd m) er)
            \/ undeclared (txt "products." ++ full (fst (fst r)) (fst m)) (snd m) er).
Proof.
  unfold override_product. intro H. apply bind_some in H. destruct H as (i & e1 & e2 & H1 & H & ->).
  apply bind_some in H. destruct H as (ms & e3 & e4 & H2 & H & ->). injection H as <- <-. cbn [fst snd].
  destruct (override_spec _ _ _ _ H1) as [O1 E1]. rewrite called_name in O1, E1, H2. split.
  - exists (with_name (u_file u) (u_item u)). split; [apply with_name_spec|]. split; [exact O1|]. split; [apply called_name|].
    rewrite called_name. eapply each_rel; [exact H2|]. intros m m' e0 _ Hm. eapply module_spec. exact Hm.
  - intro er. rewrite app_nil_r, in_app_iff, E1, (each_errors _ _ _ _ H2 er). change (txt "products.") with products_prefix. unfold initial_name.
    assert (X : forall k, undeclared k (with_name (u_file u) (u_item u)) er <-> undeclared k (u_item u) er).
    { intro k. unfold undeclared. rewrite with_name_decls. tauto. }
    rewrite X, called_name. split; (intros [H|H]; [left; exact H|right]).
    + destruct H as (m & y & e0 & I1 & I2 & I3). exists m. split; [exact I1|]. destruct (module_spec _ _ _ _ I2) as [_ M].
      apply M in I3. exact I3.
    + destruct H as (m & I1 & I2).
      assert (EX : exists y e0, override_module convert t (called i) m = Some (y, e0)).
      { clear - H2 I1. revert ms e3 H2. induction (u_modules u) as [|x l IH]; intros ms e3 H; [destruct I1|]. cbn [OverridesModel.each] in H.
        apply bind_some in H. destruct H as (y & a & b & F & H & ->). apply bind_some in H. destruct H as (ys & c & d & G & H & ->).
        destruct I1 as [->|I1]; [eauto|]. eapply IH; eauto. }
      destruct EX as (y & e0 & I3). exists m, y, e0. split; [exact I1|]. split; [exact I3|]. apply (module_spec _ _ _ _ I3). exact I2.
Qed.

(** C106. Each project, product and module gets exactly the values that the command line has
    for it: for a project, those for its name, then those for all projects; for a module
    of a product, those for this product, then (for qbs) those without prefix, then
    those for all products. *)
Theorem overrides_exact projects products js ds errors :
  resolve convert values projects products = Some ((js, ds), errors) ->
  Forall2 (project_overridden convert values) projects js /\ Forall2 (product_overridden convert values) products ds.
Proof.
  unfold resolve. intro H. apply bind_some in H. destruct H as (_ & e1 & e2 & _ & H & ->).
  apply bind_some in H. destruct H as (js' & e3 & e4 & H1 & H & ->). apply bind_some in H. destruct H as (ds' & e5 & e6 & H2 & H & ->).
  injection H as <- <- <-. split; [eapply each_rel; [exact H1|]|eapply each_rel; [exact H2|]]; intros u r e _ Hu.
  - eapply project_spec. exact Hu.
  - eapply product_spec. exact Hu.
Qed.

Lemma resolve_errors projects products js ds errors er :
  resolve convert values projects products = Some ((js, ds), errors) ->
  (In er errors <-> In er (key_errors values)
     \/ (exists u r, In u projects /\ In r js /\ project_overridden convert values u r
           /\ (undeclared (txt "project") (u_item u) er \/ undeclared (txt "projects." ++ fst r) (u_item u) er))
     \/ (exists u r, In u products /\ In r ds /\ product_overridden convert values u r
           /\ (undeclared (txt "products." ++ initial_name u) (u_item u) er
               \/ exists m, In m (u_modules u) /\ (undeclared (txt "modules." ++ fst m) (snd m) er \/ (fst m = txt "qbs" /\ undeclared (txt "qbs") (snd m) er)
                    \/ undeclared (txt "products." ++ full (fst (fst r)) (fst m)) (snd m) er)))
     \/ In er (project_errors values (List.map fst js)) \/ In er (product_errors values (List.map (fun d => fst (fst d)) ds))).
Proof.
  unfold resolve. intro H. apply bind_some in H. destruct H as (q & e1 & e2 & H0 & H & ->). injection H0 as _ <-.
  apply bind_some in H. destruct H as (js' & e3 & e4 & H1 & H & ->). apply bind_some in H. destruct H as (ds' & e5 & e6 & H2 & H & ->).
  injection H as <- <- <-. rewrite !in_app_iff.
  assert (G : forall {X Y : Type} (f : X -> option (Y * list error)) l ys e, OverridesModel.each f l = Some (ys, e) ->
            (In er e <-> exists x y e0, In x l /\ In y ys /\ f x = Some (y, e0) /\ In er e0)).
  { intros X Y f. induction l as [|x l IH]; intros ys e H; cbn [OverridesModel.each] in H.
    - injection H as <- <-. split; [intros []|]. intros (? & ? & ? & [] & _).
    - apply bind_some in H. destruct H as (y & a & b & F & H & ->). apply bind_some in H. destruct H as (ys' & c & d & K & H & ->).
      injection H as <- <-. rewrite app_nil_r, in_app_iff, (IH _ _ K). split.
      + intros [H|(x' & y' & e0 & I1 & I2 & I3 & I4)]; [exists x, y, a; repeat split; auto; left; reflexivity|exists x', y', e0; repeat split; auto; right; assumption].
      + intros (x' & y' & e0 & [<-|I1] & I2 & I3 & I4); [left; rewrite F in I3; injection I3 as <- <-; exact I4|].
        right. destruct I2 as [<-|I2]; [|exists x', y', e0; auto].
        assert (EX : exists z, In z ys' /\ f x' = Some (z, e0)).
        { clear - K I1 I3. revert ys' c K. induction l as [|w l IH]; intros ys c K; [destruct I1|]. cbn [OverridesModel.each] in K.
          apply bind_some in K. destruct K as (z & a & b & F & K & ->). apply bind_some in K. destruct K as (zs & c' & d & K' & K & ->). injection K as <- <-.
          destruct I1 as [->|I1].
          - rewrite F in I3. injection I3 as <- <-. exists z. split; [left; reflexivity|exact F].
          - destruct (IH I1 _ _ K') as (z' & Z1 & Z2). exists z'. split; [right; exact Z1|exact Z2]. }
        destruct EX as (z & Z1 & Z2). exists x', z, e0. auto. }
  rewrite (G _ _ _ _ _ _ H1), (G _ _ _ _ _ _ H2).
  assert (P1 : (exists x y e0, In x projects /\ In y js' /\ override_project convert t x = Some (y, e0) /\ In er e0)
     <-> exists u r, In u projects /\ In r js' /\ project_overridden convert values u r
           /\ (undeclared (txt "project") (u_item u) er \/ undeclared (txt "projects." ++ fst r) (u_item u) er)).
  { split.
    - intros (u & r & e0 & I1 & I2 & I3 & I4). exists u, r. destruct (project_spec _ _ _ I3) as [A1 A2]. apply A2 in I4. auto.
    - intros (u & r & I1 & I2 & I3 & I4).
      assert (EX : exists y e0, In y js' /\ override_project convert t u = Some (y, e0)).
      { clear - H1 I1. revert js' e3 H1. induction projects as [|w l IH]; intros ys c K; [destruct I1|]. cbn [OverridesModel.each] in K.
        apply bind_some in K. destruct K as (z & a & b & F & K & ->). apply bind_some in K. destruct K as (zs & c' & d & K' & K & ->). injection K as <- <-.
        destruct I1 as [->|I1]; [exists z, a; split; [left; reflexivity|exact F]|]. destruct (IH I1 _ _ K') as (z' & e' & Z1 & Z2). exists z', e'. split; [right; exact Z1|exact Z2]. }
      destruct EX as (y & e0 & I5 & I6). exists u, y, e0. split; [exact I1|]. split; [exact I5|]. split; [exact I6|].
      destruct (project_spec _ _ _ I6) as [A1 A2]. apply A2.
      (* the name of the project is determined *)
      assert (NM : fst r = fst y).
      { clear - I3 A1. destruct I3 as (m1 & m1' & O1 & N1 & F1 & _). destruct A1 as (m2 & m2' & O2 & N2 & F2 & _).
        assert (P : forall x, lookup x (i_props m1) = lookup x (i_props m2)).
        { intro x. destruct O1 as [_ O1]. destruct O2 as [_ O2]. destruct (O1 x) as [A1 B1]. destruct (O2 x) as [A2 B2].
          destruct (in_dec N.eq_dec 46 x) as [D|D]; [rewrite B1, B2 by auto; reflexivity|].
          destruct (lookup x (i_decls (u_item u))) as [ty|] eqn:E; [|rewrite B1, B2 by auto; reflexivity].
          destruct (wanted values [txt "project"] x) as [v|] eqn:W; [|rewrite B1, B2 by auto; reflexivity].
          destruct (A1 D ty v eq_refl eq_refl) as [_ ->]. destruct (A2 D ty v eq_refl eq_refl) as [_ ->]. reflexivity. }
        assert (C : called m1 = called m2) by (unfold called; rewrite P; reflexivity).
        rewrite F1, F2. destruct N1 as (_ & N1 & N1'). destruct N2 as (_ & N2 & N2'). destruct (called m1) as [|c s] eqn:C1.
        - assert (X : forall m, (forall x, lookup x (i_props m) = if str_dec x (txt "name") then Some (u_file u) else lookup x (i_props m1)) -> called m = u_file u).
          { intros m Hm. unfold called. rewrite Hm. destruct (str_dec (txt "name") (txt "name")); [reflexivity|congruence]. }
          rewrite (X m1' (N1' eq_refl)). symmetry. apply X. intro x. rewrite (N2' (eq_sym C)). destruct (str_dec x (txt "name")); [reflexivity|]. symmetry. apply P.
        - rewrite (N1 ltac:(discriminate)), (N2 ltac:(rewrite <- C; discriminate)). congruence. }
      rewrite NM in I4. exact I4. }
  assert (P2 : (exists x y e0, In x products /\ In y ds' /\ override_product convert t x = Some (y, e0) /\ In er e0)
     <-> exists u r, In u products /\ In r ds' /\ product_overridden convert values u r
           /\ (undeclared (txt "products." ++ initial_name u) (u_item u) er
               \/ exists m, In m (u_modules u) /\ (undeclared (txt "modules." ++ fst m) (snd m) er \/ (fst m = txt "qbs" /\ undeclared (txt "qbs") (snd m) er)
                    \/ undeclared (txt "products." ++ full (fst (fst r)) (fst m)) (snd m) er))).
  { split.
    - intros (u & r & e0 & I1 & I2 & I3 & I4). exists u, r. destruct (product_spec _ _ _ I3) as [A1 A2]. apply A2 in I4. auto.
    - intros (u & r & I1 & I2 & I3 & I4).
      assert (EX : exists y e0, In y ds' /\ override_product convert t u = Some (y, e0)).
      { clear - H2 I1. revert ds' e5 H2. induction products as [|w l IH]; intros ys c K; [destruct I1|]. cbn [OverridesModel.each] in K.
        apply bind_some in K. destruct K as (z & a & b & F & K & ->). apply bind_some in K. destruct K as (zs & c' & d & K' & K & ->). injection K as <- <-.
        destruct I1 as [->|I1]; [exists z, a; split; [left; reflexivity|exact F]|]. destruct (IH I1 _ _ K') as (z' & e' & Z1 & Z2). exists z', e'. split; [right; exact Z1|exact Z2]. }
      destruct EX as (y & e0 & I5 & I6). exists u, y, e0. split; [exact I1|]. split; [exact I5|]. split; [exact I6|].
      destruct (product_spec _ _ _ I6) as [A1 A2]. apply A2.
      assert (NM : fst (fst r) = fst (fst y)).
      { clear - I3 A1. destruct r as [[n i] ms]. destruct y as [[n' i'] ms']. cbn [fst].
        destruct I3 as (m1 & N1 & O1 & -> & _). destruct A1 as (m2 & N2 & O2 & -> & _).
        assert (Q : (forall x, lookup x (i_props m1) = lookup x (i_props m2)) /\ i_decls m1 = i_decls m2).
        { destruct N1 as (D1 & N1 & N1'). destruct N2 as (D2 & N2 & N2'). split; [|congruence]. intro x. destruct (called (u_item u)) as [|c s].
          - rewrite (N1' eq_refl), (N2' eq_refl). reflexivity.
          - rewrite (N1 ltac:(discriminate)), (N2 ltac:(discriminate)). reflexivity. }
        destruct Q as [Q1 Q2]. assert (C : called m1 = called m2) by (unfold called; rewrite Q1; reflexivity).
        unfold called at 1 2. f_equal. rewrite C in O1. destruct O1 as [_ O1]. destruct O2 as [_ O2].
        destruct (O1 (txt "name")) as [A1 B1]. destruct (O2 (txt "name")) as [A2 B2]. rewrite Q2, Q1 in *.
        destruct (lookup (txt "name") (i_decls m2)) as [ty|] eqn:E; [|rewrite B1, B2 by auto; reflexivity].
        destruct (wanted values [txt "products." ++ called m2] (txt "name")) as [v|] eqn:W; [|rewrite B1, B2 by auto; reflexivity].
        assert (DN : dotless (txt "name")) by (unfold dotless; cbn; intuition discriminate).
        destruct (A1 DN ty v eq_refl eq_refl) as [_ ->]. destruct (A2 DN ty v eq_refl eq_refl) as [_ ->]. reflexivity. }
      rewrite NM in I4. exact I4. }
  rewrite P1, P2. tauto.
Qed.

(** Only a value that cannot be converted to the declared type ends everything. *)
Lemma override_all_fails prefix m i : override_all prefix m i = None ->
  exists x v ty, In (x, v) m /\ lookup x (i_decls i) = Some ty /\ convert ty v = None.
Proof.
  revert i. induction m as [|[y w] m IH]; intros i H; cbn [OverridesModel.override_all] in H; [discriminate|].
  destruct (get y (i_decls i)) as [ty|] eqn:D.
  - destruct (convert ty w) as [w'|] eqn:C; [|exists y, w, ty; rewrite <- get_lookup; split; [left; reflexivity|auto]].
    destruct (IH _ H) as (x & v & ty' & I1 & I2 & I3). exists x, v, ty'. split; [right; exact I1|auto].
  - destruct (override_all prefix m i) as [p|] eqn:O; [discriminate|]. destruct (IH _ O) as (x & v & ty' & I1 & I2 & I3). exists x, v, ty'. split; [right; exact I1|auto].
Qed.

Definition inconvertible (i : item) : Prop :=
  exists k x v ty, lookup (full k x) values = Some v /\ dotless x /\ lookup x (i_decls i) = Some ty /\ convert ty v = None.

Lemma override_fails key i : override t key i = None -> inconvertible i.
Proof.
  intro H. assert (H' : override_all key (sub t key) i = None).
  { unfold OverridesModel.override in H. unfold sub. destruct (get key t) as [[v|m]|]; cbn; [discriminate|exact H|discriminate]. }
  apply override_all_fails in H'. destruct H' as (x & v & ty & I1 & I2 & I3).
  destruct (tree_spec values distinct dotted) as (T1 & T2 & T3). apply (in_get _ _ _ (T3 key)) in I1.
  destruct (in_dec N.eq_dec 46 x) as [D|D]; [rewrite T2 in I1 by exact D; discriminate|]. rewrite T1 in I1 by exact D. exists key, x, v, ty. auto.
Qed.

Lemma inconvertible_same i j : i_decls j = i_decls i -> inconvertible j -> inconvertible i.
Proof. intros E (k & x & v & ty & H1 & H2 & H3 & H4). exists k, x, v, ty. rewrite <- E. auto. Qed.

Lemma bind_none {X Y : Type} (x : option (X * list error)) (f : X -> option (Y * list error)) :
  OverridesModel.bind x f = None -> x = None \/ exists a e, x = Some (a, e) /\ f a = None.
Proof.
  unfold OverridesModel.bind. destruct x as [[a e]|]; [|auto]. destruct (f a) as [p|] eqn:F; [discriminate|]. intros _. right. exists a, e. auto.
Qed.
Lemma each_none {X Y : Type} (f : X -> option (Y * list error)) l : OverridesModel.each f l = None -> exists x, In x l /\ f x = None.
Proof.
  induction l as [|x l IH]; cbn [OverridesModel.each]; [discriminate|]. intro H. apply bind_none in H.
  destruct H as [H|(a & e & _ & H)]; [exists x; split; [left; reflexivity|exact H]|]. apply bind_none in H.
  destruct H as [H|(ys & e' & _ & H)]; [|discriminate]. destruct (IH H) as (y & I1 & I2). exists y. split; [right; exact I1|exact I2].
Qed.

Theorem only_conversion_fails projects products :
  resolve convert values projects products = None ->
  exists u i, (In u projects /\ i = u_item u \/ In u products /\ (i = u_item u \/ In i (List.map snd (u_modules u)))) /\ inconvertible i.
Proof.
  unfold resolve. intro H. apply bind_none in H. destruct H as [H|(q & e & _ & H)]; [discriminate|].
  apply bind_none in H. destruct H as [H|(js & e1 & _ & H)].
  - apply each_none in H. destruct H as (u & I1 & H). exists u, (u_item u). split; [left; auto|].
    unfold override_project in H. apply bind_none in H. destruct H as [H|(i & e1 & O & H)]; [exact (override_fails _ _ H)|].
    apply bind_none in H. destruct H as [H|(j & e2 & _ & H)]; [|discriminate]. apply override_fails in H.
    destruct (override_spec _ _ _ _ O) as [[D _] _]. apply (inconvertible_same _ (with_name (u_file u) i)); [rewrite with_name_decls; exact D|exact H].
  - apply bind_none in H. destruct H as [H|(ds & e2 & _ & H)]; [|discriminate].
    apply each_none in H. destruct H as (u & I1 & H). exists u. unfold override_product in H. apply bind_none in H. destruct H as [H|(i & e2 & O & H)].
    + exists (u_item u). split; [right; auto|]. apply override_fails in H. eapply inconvertible_same; [|exact H]. apply with_name_decls.
    + apply bind_none in H. destruct H as [H|(ms & e3 & _ & H)]; [|discriminate]. apply each_none in H. destruct H as ([n m] & I2 & H).
      exists m. split; [right; split; [exact I1|right; apply (in_map snd) in I2; exact I2]|].
      unfold override_module in H. apply bind_none in H. destruct H as [H|(i1 & e3 & O1 & H)]; [exact (override_fails _ _ H)|].
      destruct (override_spec _ _ _ _ O1) as [[D1 _] _].
      apply bind_none in H. destruct H as [H|(i2 & e4 & O2 & H)].
      * destruct (str_eqb n qbs_key); [|discriminate]. apply (inconvertible_same _ i1 D1). exact (override_fails _ _ H).
      * apply bind_none in H. destruct H as [H|(i3 & e5 & _ & H)]; [|discriminate]. apply (inconvertible_same _ i2); [|exact (override_fails _ _ H)].
        destruct (str_eqb n qbs_key); [|injection O2 as <- _; exact D1]. destruct (override_spec _ _ _ _ O2) as [[D2 _] _]. congruence.
Qed.

(** ** Keys *)

Definition heads : list str := [txt "project."; txt "projects."; txt "products."; txt "modules."; txt "moduleProviders."; txt "qbs."].

Lemma starts_app (p r : str) : starts_with p (p ++ r) = true.
Proof. apply starts_with_spec. exists r. reflexivity. Qed.

Lemma known_spec k : known_key k = true <-> exists h r, In h heads /\ k = h ++ r.
Proof.
  unfold known_key. rewrite existsb_exists. split.
  - intros (p & I1 & S1). apply starts_with_spec in S1. destruct S1 as [r E]. exists (p ++ [46]), r. split; [|exact E].
    change heads with (List.map (fun p => p ++ [46]) [project_key; removelast projects_prefix; removelast products_prefix; removelast modules_prefix; providers_key; qbs_key]).
    apply in_map_iff. exists p. auto.
  - intros (h & r & I1 & ->).
    change heads with (List.map (fun p => p ++ [46]) [project_key; removelast projects_prefix; removelast products_prefix; removelast modules_prefix; providers_key; qbs_key]) in I1.
    apply in_map_iff in I1. destruct I1 as (p & <- & I1). exists p. split; [exact I1|apply starts_app].
Qed.

Lemma skip_app (p r : str) : skipn (length p) (p ++ r) = r.
Proof. rewrite skipn_app, skipn_all, Nat.sub_diag. reflexivity. Qed.

Lemma extract_full p n x : dotless x -> extract p (p ++ full n x) = n.
Proof.
  intro D. unfold extract. rewrite starts_app. replace (p ++ full n x) with (full (p ++ n) x) by (unfold full; rewrite <- app_assoc; reflexivity).
  rewrite split_full by exact D. rewrite app_length. destruct (Nat.ltb_spec (length p + length n) (length p)); [lia|]. apply skip_app.
Qed.

Lemma before_full n r : dotless n -> before_dot (full n r) = n.
Proof.
  unfold full. induction n as [|c n IH]; intro D; cbn [app before_dot]; [reflexivity|].
  destruct (N.eqb_spec c 46) as [->|NE]; [exfalso; apply D; left; reflexivity|]. f_equal. apply IH. intro X. apply D. right. exact X.
Qed.
Lemma before_dotless n : dotless n -> before_dot n = n.
Proof.
  induction n as [|c n IH]; intro D; cbn [before_dot]; [reflexivity|].
  destruct (N.eqb_spec c 46) as [->|NE]; [exfalso; apply D; left; reflexivity|]. f_equal. apply IH. intro X. apply D. right. exact X.
Qed.

(** What stands between the prefix and the last dot, for any rest with a dot. *)
Lemma extract_some p n r : n <> [] -> dotless n -> extract p (p ++ full n r) <> [] /\ before_dot (extract p (p ++ full n r)) = n.
Proof.
  intros NE D. pose proof (split_last_spec r) as S1. destruct (split_last r) as [[a x]|] eqn:R.
  - destruct S1 as [-> DX]. replace (full n (full a x)) with (full (full n a) x) by (unfold full; rewrite <- app_assoc; reflexivity).
    rewrite extract_full by exact DX. split; [|apply before_full; exact D]. destruct n; [contradiction|discriminate].
  - rewrite extract_full by exact S1. split; [exact NE|]. apply before_dotless. exact D.
Qed.

Lemma other_head (p q : str) k : starts_with p (q ++ k) = true -> forall n, (n < length p)%nat -> (n < length q)%nat -> nth n p 0 = nth n q 0.
Proof.
  intro H. apply starts_with_spec in H. destruct H as [r E]. intros n L1 L2.
  rewrite <- (app_nth1 p r 0 L1), <- (app_nth1 q k 0 L2). f_equal. symmetry. exact E.
Qed.

Lemma not_projects q k : (exists n, (n < length projects_prefix)%nat /\ (n < length q)%nat /\ nth n projects_prefix 0 <> nth n q 0) -> project_name (q ++ k) = [].
Proof.
  intros (n & L1 & L2 & NE). unfold project_name, extract. destruct (starts_with projects_prefix (q ++ k)) eqn:E; [|reflexivity].
  exfalso. apply NE. eapply other_head; eassumption.
Qed.
Lemma not_products q k : (exists n, (n < length products_prefix)%nat /\ (n < length q)%nat /\ nth n products_prefix 0 <> nth n q 0) -> extract products_prefix (q ++ k) = [].
Proof.
  intros (n & L1 & L2 & NE). unfold extract. destruct (starts_with products_prefix (q ++ k)) eqn:E; [|reflexivity].
  exfalso. apply NE. eapply other_head; eassumption.
Qed.

Lemma lookup_given k v : In (k, v) values -> lookup k values <> None.
Proof. intro H. rewrite <- get_lookup. rewrite (in_get _ _ _ distinct H). discriminate. Qed.

Lemma forall2_in_l {X Y : Type} (R : X -> Y -> Prop) l l' x : Forall2 R l l' -> In x l -> exists y, In y l' /\ R x y.
Proof. intro F. induction F as [|a b l l' H F IH]; intros [].
  - subst a. exists b. split; [left; reflexivity|exact H].
  - destruct (IH H0) as (y & I1 & I2). exists y. split; [right; exact I1|exact I2].
Qed.

Lemma existsb_no (n : str) names : ~ In n names -> existsb (str_eqb n) names = false.
Proof.
  intro H. destruct (existsb (str_eqb n) names) eqn:E; [|reflexivity]. apply existsb_exists in E. destruct E as (m & I1 & E). apply str_eqb_eq in E. subst m. contradiction.
Qed.

(** C107. What is wrong with the keys is reported: *)
Theorem wrong_overrides_reported projects products js ds errors k v :
  resolve convert values projects products = Some ((js, ds), errors) -> In (k, v) values ->
  (* a key that begins with none of the known words, *)
  ((forall h r, In h heads -> k <> h ++ r) -> In (UnknownKey k) errors)
  (* a project that does not exist, *)
  /\ (forall n x, k = txt "projects." ++ full n x -> dotless x -> n <> [] -> ~ In n (List.map fst js) -> In (UnknownProject n) errors)
  (* a product that does not exist, *)
  /\ (forall n r, k = txt "products." ++ full n r -> dotless n -> n <> [] -> ~ In n (List.map (fun d => fst (fst d)) ds) -> In (UnknownProduct n) errors)
  (* and a property that is not declared in a project, in a product, in a module. *)
  /\ (forall prefix x, k = full prefix x -> dotless x ->
      (prefix = txt "project" /\ (exists u, In u projects /\ lookup x (i_decls (u_item u)) = None)
       \/ (exists r, In r js /\ prefix = txt "projects." ++ fst r /\ lookup x (i_decls (snd r)) = None)
       \/ (exists u, In u products /\ prefix = txt "products." ++ initial_name u /\ lookup x (i_decls (u_item u)) = None)
       \/ (exists r m, In r ds /\ In m (snd r) /\ lookup x (i_decls (snd m)) = None
            /\ (prefix = txt "modules." ++ fst m \/ (fst m = txt "qbs" /\ prefix = txt "qbs") \/ prefix = txt "products." ++ full (fst (fst r)) (fst m))))
      -> In (UnknownProperty prefix x) errors).
Proof.
  intros H IV. destruct (overrides_exact _ _ _ _ _ H) as [F1 F2]. split; [|split; [|split]].
  - intro K. apply (resolve_errors _ _ _ _ _ _ H). left. apply in_flat_map. exists (k, v). split; [exact IV|]. cbn [fst].
    destruct (known_key k) eqn:E; [|left; reflexivity]. apply known_spec in E. destruct E as (h & r & I1 & ->). exfalso. exact (K h r I1 eq_refl).
  - intros n x -> D NE NI. apply (resolve_errors _ _ _ _ _ _ H). right. right. right. left. apply in_flat_map. eexists. split; [exact IV|]. cbn [fst].
    unfold project_name. change (txt "projects.") with projects_prefix. rewrite extract_full by exact D. destruct n as [|c n]; [contradiction|].
    rewrite (proj2 (known_spec _)) by (exists (txt "projects."), (full (c :: n) x); split; [right; left; reflexivity|reflexivity]).
    rewrite existsb_no by exact NI. left. reflexivity.
  - intros n r -> D NE NI. apply (resolve_errors _ _ _ _ _ _ H). right. right. right. right. apply in_flat_map. eexists. split; [exact IV|]. cbn [fst].
    change (txt "products.") with products_prefix. unfold product_name.
    assert (PN : project_name (products_prefix ++ full n r) = []).
    { apply not_projects. exists 4%nat. cbn. repeat split; lia. }
    rewrite PN. destruct (extract_some products_prefix n r NE D) as [X1 ->]. destruct (extract products_prefix (products_prefix ++ full n r)); [contradiction|].
    rewrite (proj2 (known_spec _)) by (exists (txt "products."), (full n r); split; [right; right; left; reflexivity|reflexivity]).
    match goal with |- In _ (if _ && negb ?b then _ else _) => assert (B : b = false) end; [|rewrite B; left; reflexivity].
    match goal with |- ?b = false => destruct b eqn:B; [|reflexivity] end. apply existsb_exists in B. destruct B as (m & I1 & B). apply andb_true_iff in B.
    destruct B as [B _]. apply str_eqb_eq in B. subst m. contradiction.
  - intros prefix x -> D C. pose proof (lookup_given _ _ IV) as G. apply (resolve_errors _ _ _ _ _ _ H). destruct C as [[-> (u & I1 & U)]|[(r & I1 & -> & U)|[(u & I1 & -> & U)|(r & m & I1 & I2 & U & C)]]].
    + right. left. destruct (forall2_in_l _ _ _ _ F1 I1) as (r & I2 & P). exists u, r. split; [exact I1|]. split; [exact I2|]. split; [exact P|].
      left. exists x. auto.
    + right. left. assert (FX : exists u, In u projects /\ project_overridden convert values u r).
      { clear - F1 I1. induction F1 as [|a b l l' Hab F IH]; [destruct I1|]. destruct I1 as [->|I1]; [exists a; split; [left; reflexivity|exact Hab]|].
        destruct (IH I1) as (u & A1 & A2). exists u. split; [right; exact A1|exact A2]. }
      destruct FX as (u & I2 & P). exists u, r. split; [exact I2|]. split; [exact I1|]. split; [exact P|]. right. exists x. split; [reflexivity|]. split; [exact D|].
      split; [|exact G]. destruct P as (m1 & m2 & [O1 _] & (O2 & _) & _ & O3 & _). congruence.
    + right. right. left. destruct (forall2_in_l _ _ _ _ F2 I1) as (r & I2 & P). exists u, r. split; [exact I1|]. split; [exact I2|]. split; [exact P|].
      left. exists x. auto.
    + right. right. left. assert (FX : exists u, In u products /\ product_overridden convert values u r).
      { clear - F2 I1. induction F2 as [|a b l l' Hab F IH]; [destruct I1|]. destruct I1 as [->|I1]; [exists a; split; [left; reflexivity|exact Hab]|].
        destruct (IH I1) as (u & A1 & A2). exists u. split; [right; exact A1|exact A2]. }
      destruct FX as (u & I3 & P). exists u, r. split; [exact I3|]. split; [exact I1|]. split; [exact P|]. right.
      destruct r as [[n i] ms]. cbn [fst snd] in *. destruct P as (mid & _ & _ & _ & F3).
      assert (FY : exists m0, In m0 (u_modules u) /\ module_overridden convert values n m0 m).
      { clear - F3 I2. induction F3 as [|a b l l' Hab F IH]; [destruct I2|]. destruct I2 as [->|I2]; [exists a; split; [left; reflexivity|exact Hab]|].
        destruct (IH I2) as (u1 & A1 & A2). exists u1. split; [right; exact A1|exact A2]. }
      destruct FY as (m0 & I4 & E1 & O & _). rewrite E1 in C. rewrite O in U. exists m0. split; [exact I4|].
      destruct C as [->|[[Q ->]| ->]]; [left|right; left; split; [exact Q|]|right; right]; exists x; auto.
Qed.

(** Also if the name of the property is missing. *)
Theorem wrong_names_reported projects products js ds errors n v :
  resolve convert values projects products = Some ((js, ds), errors) -> dotless n -> n <> [] ->
  (In (txt "projects." ++ n, v) values -> ~ In n (List.map fst js) -> In (UnknownProject n) errors)
  /\ (In (txt "products." ++ n, v) values -> ~ In n (List.map (fun d => fst (fst d)) ds) -> In (UnknownProduct n) errors).
Proof.
  intros H D NE.
  assert (X : forall p a, p = a ++ [46] -> extract p (p ++ n) = n).
  { intros p a ->. unfold extract. rewrite starts_app. replace ((a ++ [46]) ++ n) with (full a n) by (unfold full; rewrite <- app_assoc; reflexivity).
    rewrite split_full by exact D. rewrite app_length. cbn [length]. destruct (Nat.ltb_spec (length a) (length a + 1)); [|lia].
    replace (full a n) with ((a ++ [46]) ++ n) by (unfold full; rewrite <- app_assoc; reflexivity). replace (length a + 1)%nat with (length (a ++ [46])) by (rewrite app_length; reflexivity). apply skip_app. }
  split; intros IV NI; apply (resolve_errors _ _ _ _ _ _ H); right; right; right; [left|right]; apply in_flat_map; eexists; (split; [exact IV|]); cbn [fst].
  - unfold project_name. change (txt "projects.") with projects_prefix. rewrite (X projects_prefix (removelast projects_prefix)) by reflexivity.
    destruct n as [|c n]; [contradiction|].
    rewrite (proj2 (known_spec _)) by (exists (txt "projects."), (c :: n); split; [right; left; reflexivity|reflexivity]).
    rewrite existsb_no by exact NI. left. reflexivity.
  - change (txt "products.") with products_prefix. unfold product_name.
    rewrite not_projects by (exists 4%nat; cbn; repeat split; lia).
    rewrite (X products_prefix (removelast products_prefix)) by reflexivity. rewrite before_dotless by exact D.
    destruct n as [|c n]; [contradiction|].
    rewrite (proj2 (known_spec _)) by (exists (txt "products."), (c :: n); split; [right; right; left; reflexivity|reflexivity]).
    match goal with |- In _ (if _ && negb ?b then _ else _) => assert (B : b = false) end; [|rewrite B; left; reflexivity].
    match goal with |- ?b = false => destruct b eqn:B; [|reflexivity] end. apply existsb_exists in B. destruct B as (m & I1 & B). apply andb_true_iff in B.
    destruct B as [B _]. apply str_eqb_eq in B. subst m. contradiction.
Qed.

(** A key that is right: the project or the product exists, and the property is declared
    wherever the value is for. *)
Definition right_key (projects products : list part) (js : list (str * item)) (ds : list (str * item * list (str * item))) (k : str) : Prop :=
  exists x, dotless x /\
  ((k = txt "project." ++ x /\ (forall u, In u projects -> lookup x (i_decls (u_item u)) <> None))
   \/ (exists n, k = txt "projects." ++ full n x /\ In n (List.map fst js) /\ (forall r, In r js -> fst r = n -> lookup x (i_decls (snd r)) <> None))
   \/ (exists n, k = txt "products." ++ full n x /\ dotless n /\ In n (List.map (fun d => fst (fst d)) ds)
        /\ (forall u, In u products -> initial_name u = n -> lookup x (i_decls (u_item u)) <> None))
   \/ (exists n m, k = txt "products." ++ full n (full m x) /\ dotless n /\ In n (List.map (fun d => fst (fst d)) ds)
        /\ (forall r i, In r ds -> fst (fst r) = n -> In (m, i) (snd r) -> lookup x (i_decls i) <> None))
   \/ (exists m, k = txt "modules." ++ full m x /\ (forall r i, In r ds -> In (m, i) (snd r) -> lookup x (i_decls i) <> None))
   \/ (k = txt "qbs." ++ x /\ (forall r i, In r ds -> In (txt "qbs", i) (snd r) -> lookup x (i_decls i) <> None))
   \/ (exists r, k = txt "moduleProviders." ++ full r x)).

Lemma prefix_cut (p q r s : str) n : p ++ r = q ++ s -> (n < length p)%nat -> (n < length q)%nat -> nth n p 0 = nth n q 0.
Proof. intros E L1 L2. rewrite <- (app_nth1 p r 0 L1), <- (app_nth1 q s 0 L2). f_equal. exact E. Qed.

Ltac cut_at n E := exfalso; pose proof (prefix_cut _ _ _ _ n E ltac:(cbn; lia) ltac:(cbn; lia)) as CUT; vm_compute in CUT; discriminate CUT.

Lemma dotless_left a b x y : dotless a -> dotless b -> full a x = full b y -> a = b /\ x = y.
Proof.
  unfold full. revert b. induction a as [|c a IH]; intros [|c' b] D D' E; cbn [app] in E.
  - injection E as ->. auto.
  - injection E as <- E. exfalso. apply D'. left. reflexivity.
  - injection E as -> E. exfalso. apply D. left. reflexivity.
  - injection E as -> E. destruct (IH b) as [-> ->]; auto; intro X; [apply D|apply D']; right; exact X.
Qed.

Lemma same_end p q x y : dotless x -> dotless y -> full p x = full q y -> p = q /\ x = y.
Proof. intros D D' E. exact (full_inj _ _ _ _ D D' E). Qed.

(** Right overrides are accepted. Missing: product names with dots. *)
Theorem right_overrides_accepted_partial projects products js ds errors :
  resolve convert values projects products = Some ((js, ds), errors) ->
  (forall k, In k (List.map fst values) -> right_key projects products js ds k) ->
  (forall u, In u products -> dotless (initial_name u)) -> (forall r, In r ds -> dotless (fst (fst r))) ->
  errors = [].
Proof.
  intros H RK DN DS. destruct (overrides_exact _ _ _ _ _ H) as [F1 F2].
  destruct errors as [|er errors]; [reflexivity|]. exfalso.
  assert (IE : In er (er :: errors)) by (left; reflexivity). apply (resolve_errors _ _ _ _ _ _ H) in IE.
  assert (GV : forall k, lookup k values <> None -> right_key projects products js ds k).
  { intros k G. apply RK. rewrite <- get_lookup in G. destruct (in_dec str_dec k (List.map fst values)) as [I1|I1]; [exact I1|]. apply get_none in I1. contradiction. }
  destruct IE as [IE|[IE|[IE|[IE|IE]]]].
  - unfold key_errors in IE. apply in_flat_map in IE. destruct IE as ([k v] & I1 & I2). cbn [fst] in I2.
    rewrite (proj2 (known_spec k)) in I2; [destruct I2|]. destruct (RK k (in_map fst _ _ I1)) as (x & D & C).
    destruct C as [[-> _]|[(n & -> & _)|[(n & -> & _)|[(n & m & -> & _)|[(m & -> & _)|[[-> _]|(r & ->)]]]]]]; eexists _, _; (split; [|reflexivity]); cbn; tauto.
  - destruct IE as (u & r & I1 & I2 & P & [(x & -> & D & U & G)|(x & -> & D & U & G)]).
    + destruct (GV _ G) as (y & D' & C). change (full (txt "project") x) with (txt "project." ++ x) in C.
      destruct C as [[E C]|[(n & E & _)|[(n & E & _)|[(n & m & E & _)|[(m & E & _)|[[E _]|(q & E)]]]]]].
      * apply app_inv_head in E. subst y. exact (C u I1 U).
      * cut_at 7%nat E.
      * cut_at 4%nat E.
      * cut_at 4%nat E.
      * cut_at 0%nat E.
      * cut_at 0%nat E.
      * cut_at 0%nat E.
    + destruct (GV _ G) as (y & D' & C).
      assert (UD : lookup x (i_decls (snd r)) = None) by (destruct P as (m1 & m2 & [O1 _] & (O2 & _) & _ & O3 & _); congruence).
      replace (full (txt "projects." ++ fst r) x) with (txt "projects." ++ full (fst r) x) in C by (unfold full; rewrite <- app_assoc; reflexivity).
      destruct C as [[E C]|[(n & E & I3 & C)|[(n & E & _)|[(n & m & E & _)|[(m & E & _)|[[E _]|(q & E)]]]]]].
      * cut_at 7%nat E.
      * apply app_inv_head in E. destruct (same_end _ _ _ _ D D' E) as [<- <-]. exact (C r I2 eq_refl UD).
      * cut_at 4%nat E.
      * cut_at 4%nat E.
      * cut_at 0%nat E.
      * cut_at 0%nat E.
      * cut_at 0%nat E.
  - destruct IE as (u & r & I1 & I2 & P & [(x & -> & D & U & G)|(m0 & I3 & IE)]).
    + destruct (GV _ G) as (y & D' & C).
      replace (full (txt "products." ++ initial_name u) x) with (txt "products." ++ full (initial_name u) x) in C by (unfold full; rewrite <- app_assoc; reflexivity).
      destruct C as [[E C]|[(n & E & I3 & C)|[(n & E & _ & _ & C)|[(n & m & E & DD & _)|[(m & E & _)|[[E _]|(q & E)]]]]]].
      * cut_at 4%nat E.
      * cut_at 4%nat E.
      * apply app_inv_head in E. destruct (same_end _ _ _ _ D D' E) as [<- <-]. exact (C u I1 eq_refl U).
      * apply app_inv_head in E. destruct (dotless_left _ _ _ _ (DN u I1) DD E) as [_ E2]. apply D. rewrite E2. apply in_or_app. right. left. reflexivity.
      * cut_at 0%nat E.
      * cut_at 0%nat E.
      * cut_at 0%nat E.
    + (* the module in the result *)
      assert (FM : exists m1, In m1 (snd r) /\ module_overridden convert values (fst (fst r)) m0 m1).
      { destruct r as [[n i] ms]. destruct P as (mid & _ & _ & _ & F3). exact (forall2_in_l _ _ _ _ F3 I3). }
      destruct FM as ([mn mi] & I4 & EN & O & _). cbn [fst snd] in EN, O. subst mn.
      destruct IE as [(x & -> & D & U & G)|[[Q (x & -> & D & U & G)]|(x & -> & D & U & G)]]; destruct (GV _ G) as (y & D' & C).
      * replace (full (txt "modules." ++ fst m0) x) with (txt "modules." ++ full (fst m0) x) in C by (unfold full; rewrite <- app_assoc; reflexivity).
        destruct C as [[E C]|[(n & E & _)|[(n & E & _)|[(n & m & E & _)|[(m & E & C)|[[E _]|(q & E)]]]]]].
        -- cut_at 0%nat E.
        -- cut_at 0%nat E.
        -- cut_at 0%nat E.
        -- cut_at 0%nat E.
        -- apply app_inv_head in E. destruct (same_end _ _ _ _ D D' E) as [<- <-]. apply (C r mi I2 I4). congruence.
        -- cut_at 0%nat E.
        -- cut_at 6%nat E.
      * change (full (txt "qbs") x) with (txt "qbs." ++ x) in C. rewrite Q in I4.
        destruct C as [[E C]|[(n & E & _)|[(n & E & _)|[(n & m & E & _)|[(m & E & _)|[[E C]|(q & E)]]]]]].
        -- cut_at 0%nat E.
        -- cut_at 0%nat E.
        -- cut_at 0%nat E.
        -- cut_at 0%nat E.
        -- cut_at 0%nat E.
        -- apply app_inv_head in E. subst y. apply (C r mi I2 I4). congruence.
        -- cut_at 0%nat E.
      * replace (full (txt "products." ++ full (fst (fst r)) (fst m0)) x) with (txt "products." ++ full (full (fst (fst r)) (fst m0)) x) in C
          by (unfold full; rewrite <- !app_assoc; reflexivity).
        destruct C as [[E C]|[(n & E & _)|[(n & E & DD & _ & C)|[(n & m & E & DD & _ & C)|[(m & E & _)|[[E _]|(q & E)]]]]]].
        -- cut_at 4%nat E.
        -- cut_at 4%nat E.
        -- apply app_inv_head in E. destruct (same_end _ _ _ _ D D' E) as [<- _]. apply DD. apply in_or_app. right. left. reflexivity.
        -- apply app_inv_head in E. replace (full (full (fst (fst r)) (fst m0)) x) with (full (fst (fst r)) (full (fst m0) x)) in E by (unfold full; rewrite <- !app_assoc; reflexivity).
           destruct (dotless_left _ _ _ _ (DS r I2) DD E) as [E1 E2]. destruct (same_end _ _ _ _ D D' E2) as [<- <-]. apply (C r mi I2 E1 I4). congruence.
        -- cut_at 0%nat E.
        -- cut_at 0%nat E.
        -- cut_at 0%nat E.
  - unfold project_errors in IE. apply in_flat_map in IE. destruct IE as ([k v] & I1 & I2). cbn [fst] in I2.
    destruct (RK k (in_map fst _ _ I1)) as (x & D & C).
    assert (PN : project_name k = [] \/ In (project_name k) (List.map fst js)).
    { destruct C as [[-> _]|[(n & -> & I3 & _)|[(n & -> & _)|[(n & m & -> & _)|[(m & -> & _)|[[-> _]|(r & ->)]]]]]].
      - left. apply not_projects. exists 7%nat. cbn. repeat split; lia.
      - right. unfold project_name. change (txt "projects.") with projects_prefix. rewrite extract_full by exact D. exact I3.
      - left. apply not_projects. exists 4%nat. cbn. repeat split; lia.
      - left. apply not_projects. exists 4%nat. cbn. repeat split; lia.
      - left. apply not_projects. exists 0%nat. cbn. repeat split; lia.
      - left. apply not_projects. exists 0%nat. cbn. repeat split; lia.
      - left. apply not_projects. exists 0%nat. cbn. repeat split; lia. }
    destruct PN as [PN|PN]; [rewrite PN in I2; destruct I2|]. destruct (project_name k) as [|c n]; [destruct I2|].
    assert (EX : existsb (str_eqb (c :: n)) (List.map fst js) = true) by (apply existsb_exists; exists (c :: n); split; [exact PN|apply str_eqb_refl]).
    rewrite EX in I2. rewrite andb_false_r in I2. destruct I2.
  - unfold product_errors in IE. apply in_flat_map in IE. destruct IE as ([k v] & I1 & I2). cbn [fst] in I2.
    destruct (RK k (in_map fst _ _ I1)) as (x & D & C).
    assert (PN : extract products_prefix k = [] \/ In (product_name k) (List.map (fun d => fst (fst d)) ds)).
    { destruct C as [[-> _]|[(n & -> & I3 & _)|[(n & -> & DD & I3 & _)|[(n & m & -> & DD & I3 & _)|[(m & -> & _)|[[-> _]|(r & ->)]]]]]].
      - left. apply not_products. exists 4%nat. cbn. repeat split; lia.
      - left. apply not_products. exists 4%nat. cbn. repeat split; lia.
      - right. unfold product_name. rewrite not_projects by (exists 4%nat; cbn; repeat split; lia).
        change (txt "products.") with products_prefix. rewrite extract_full by exact D. rewrite before_dotless by exact DD. exact I3.
      - right. unfold product_name. rewrite not_projects by (exists 4%nat; cbn; repeat split; lia).
        change (txt "products.") with products_prefix. replace (full n (full m x)) with (full (full n m) x) by (unfold full; rewrite <- app_assoc; reflexivity).
        rewrite extract_full by exact D. rewrite before_full by exact DD. exact I3.
      - left. apply not_products. exists 0%nat. cbn. repeat split; lia.
      - left. apply not_products. exists 0%nat. cbn. repeat split; lia.
      - left. apply not_products. exists 0%nat. cbn. repeat split; lia. }
    destruct PN as [PN|PN]; [rewrite PN in I2; destruct I2|]. destruct (extract products_prefix k) as [|c n]; [destruct I2|].
    destruct (project_name k); [|destruct I2]. cbn zeta in I2.
    match type of I2 with In _ (if _ && negb ?b then _ else _) => assert (B : b = true) end.
    { apply existsb_exists. exists (product_name k). split; [exact PN|]. rewrite str_eqb_refl. reflexivity. }
    rewrite B in I2. rewrite andb_false_r in I2. destruct I2.
Qed.

End Overrides.

(** ** What does not hold *)

Definition plain (_ : N) (v : str) : option str := Some v.
Definition item_of (props : list (str * str)) : item := Item (List.map (fun p => (fst p, 0)) ((txt "name", []) :: props)) props.

(** One key can be for two properties: of a product whose name has a dot, and of a
    module of another product. *)
Theorem one_property_refuted : exists values projects products js i i' m m' others errors,
  NoDup (List.map fst values) /\ length values = 1%nat
  /\ resolve plain values projects products = Some ((js, [(txt "a.b", i, []); (txt "a", others, [(txt "b", m)])]), errors)
  /\ (exists u1 u2, products = [u1; u2] /\ i' = u_item u1 /\ u_modules u2 = [(txt "b", m')])
  /\ lookup (txt "c") (i_props i') = Some (txt "old") /\ lookup (txt "c") (i_props i) = Some (txt "new")
  /\ lookup (txt "c") (i_props m') = Some (txt "old") /\ lookup (txt "c") (i_props m) = Some (txt "new").
Proof.
  exists [(txt "products.a.b.c", txt "new")], [],
    [Part (txt "f") (item_of [(txt "name", txt "a.b"); (txt "c", txt "old")]) [];
     Part (txt "g") (item_of [(txt "name", txt "a")]) [(txt "b", item_of [(txt "c", txt "old")])]].
  do 7 eexists. split; [repeat constructor; simpl; tauto|]. split; [reflexivity|]. split; [vm_compute; reflexivity|].
  split; [eexists _, _; split; [reflexivity|split; [reflexivity|vm_compute; reflexivity]]|]. vm_compute. auto.
Qed.

(** The prefix for the top-level project also reaches the projects in it. *)
Theorem top_level_only_refuted : exists values projects r1 r2 errors,
  List.map fst values = [txt "project.x"] /\ length projects = 2%nat
  /\ resolve plain values projects [] = Some (([r1; r2], []), errors)
  /\ (forall u, In u projects -> lookup (txt "x") (i_props (u_item u)) = Some (txt "old"))
  /\ lookup (txt "x") (i_props (snd r2)) = Some (txt "new").
Proof.
  exists [(txt "project.x", txt "new")],
    [Part (txt "f") (item_of [(txt "name", txt "top"); (txt "x", txt "old")]) []; Part (txt "g") (item_of [(txt "name", txt "sub"); (txt "x", txt "old")]) []].
  do 3 eexists. split; [reflexivity|]. split; [reflexivity|]. split; [vm_compute; reflexivity|].
  split; [intros u [<-|[<-|[]]]; reflexivity|]. reflexivity.
Qed.

(** A property of the top-level project that a project in it does not have is an error. *)
Theorem top_level_property_refuted : exists values projects js errors,
  List.map fst values = [txt "project.x"]
  /\ (exists top rest, projects = top :: rest /\ lookup (txt "x") (i_decls (u_item top)) <> None)
  /\ resolve plain values projects [] = Some ((js, []), errors) /\ errors = [UnknownProperty (txt "project") (txt "x")].
Proof.
  exists [(txt "project.x", txt "new")],
    [Part (txt "f") (item_of [(txt "name", txt "top"); (txt "x", txt "old")]) []; Part (txt "g") (item_of [(txt "name", txt "sub")]) []].
  do 2 eexists. split; [reflexivity|]. split; [eexists _, _; split; [reflexivity|vm_compute; discriminate]|]. split; [vm_compute; reflexivity|]. reflexivity.
Qed.

(** A value for an existing property of an existing product is an error, because its name
    has a dot. *)
Theorem dotted_product_refuted : exists values u i errors,
  values = [(txt "products.a.b.c", txt "new")] /\ initial_name u = txt "a.b" /\ lookup (txt "c") (i_decls (u_item u)) <> None
  /\ resolve plain values [] [u] = Some (([], [(txt "a.b", i, [])]), errors)
  /\ lookup (txt "c") (i_props i) = Some (txt "new") /\ errors = [UnknownProduct (txt "a")].
Proof.
  exists [(txt "products.a.b.c", txt "new")], (Part (txt "f") (item_of [(txt "name", txt "a.b"); (txt "c", txt "old")]) []).
  do 2 eexists. split; [reflexivity|]. split; [reflexivity|]. split; [vm_compute; discriminate|]. split; [vm_compute; reflexivity|]. split; reflexivity.
Qed.

(** Giving a product another name is an error. *)
Theorem renamed_product_refuted : exists values u i errors,
  values = [(txt "products.p.name", txt "q")] /\ initial_name u = txt "p" /\ lookup (txt "name") (i_decls (u_item u)) <> None
  /\ resolve plain values [] [u] = Some (([], [(txt "q", i, [])]), errors) /\ errors = [UnknownProduct (txt "p")].
Proof.
  exists [(txt "products.p.name", txt "q")], (Part (txt "f") (item_of [(txt "name", txt "p")]) []).
  do 2 eexists. split; [reflexivity|]. split; [reflexivity|]. split; [vm_compute; discriminate|]. split; [vm_compute; reflexivity|]. reflexivity.
Qed.

(** A module that does not exist, and a key without a property, are not noticed. *)
Theorem wrong_overrides_refuted : exists values u,
  List.map fst values = [txt "modules.nosuch.x"; txt "products.p.nosuch.x"; txt "products.p"] /\ u_modules u = []
  /\ exists ds, resolve plain values [] [u] = Some (([], ds), []) /\ (forall d x, In d ds -> lookup x (i_props (snd (fst d))) = lookup x (i_props (u_item u)) /\ snd d = []).
Proof.
  exists [(txt "modules.nosuch.x", txt "1"); (txt "products.p.nosuch.x", txt "1"); (txt "products.p", txt "1")],
    (Part (txt "f") (item_of [(txt "name", txt "p")]) []).
  split; [reflexivity|]. split; [reflexivity|]. eexists. split; [vm_compute; reflexivity|]. intros d x [<-|[]]. split; reflexivity.
Qed.

(** ** The trees of the parameters *)

(** What is read from parameters whose trees are not computed yet. *)
Definition fresh (s : params) : params := Params (p_overridden s) (p_config s) [] [] [].

Fixpoint states (ops : list operation) (s : params) : params :=
  match ops with [] => s | o :: r => states r (fst (perform o s)) end.

(** Does an operation follow that changes the configuration, after the final one was read
    and without setting anything in between? *)
Fixpoint expands_late (read : bool) (ops : list operation) : bool :=
  match ops with
  | [] => false
  | Expand _ :: r => read || expands_late read r
  | ReadFinal :: r => expands_late true r
  | SetOverridden _ :: r | SetProfile :: r => expands_late false r
  | _ :: r => expands_late read r
  end.

Definition trees_current (read : bool) (s : params) : Prop :=
  (p_config_tree s = [] \/ p_config_tree s = values_tree (p_config s))
  /\ (p_overridden_tree s = [] \/ p_overridden_tree s = values_tree (p_overridden s))
  /\ (p_final_tree s = [] \/ (read = true /\ p_final_tree s = values_tree (final_values (p_config s) (p_overridden s)))).

Lemma provide_current v t' : t' = [] \/ t' = values_tree v -> provide v t' = values_tree v.
Proof. intros [->| ->]; [reflexivity|]. unfold provide. destruct (values_tree v); reflexivity. Qed.

Definition base_current (s : params) : Prop :=
  (p_config_tree s = [] \/ p_config_tree s = values_tree (p_config s))
  /\ (p_overridden_tree s = [] \/ p_overridden_tree s = values_tree (p_overridden s)).

Lemma base_step o s : base_current s -> base_current (fst (perform o s)).
Proof.
  intros [B1 B2]. destruct o as [v| |c| | |]; unfold base_current; cbn [perform fst p_config_tree p_config p_overridden_tree p_overridden].
  - split; [exact B1|left; reflexivity].
  - split; [left; reflexivity|exact B2].
  - destruct (values_eqb (p_config s) c); cbn; [split; assumption|]. split; [left; reflexivity|exact B2].
  - split; [right; apply provide_current; exact B1|exact B2].
  - split; [exact B1|right; apply provide_current; exact B2].
  - split; assumption.
Qed.

Lemma base_states ops : forall s, base_current s -> base_current (states ops s).
Proof. induction ops as [|o ops IH]; intros s B; [exact B|]. apply IH. apply base_step. exact B. Qed.

(** C108. After any operations, the configuration and the overridden values are read as
    they are. *)
Theorem trees_read_current ops overridden config o :
  o = ReadConfig \/ o = ReadOverridden ->
  let s := states ops (Params overridden config [] [] []) in
  snd (perform o s) = snd (perform o (fresh s)).
Proof.
  intros HO s. assert (B : base_current s) by (apply base_states; split; left; reflexivity).
  destruct B as [B1 B2]. destruct HO as [->| ->]; cbn [perform snd fresh p_config p_config_tree p_overridden p_overridden_tree]; f_equal;
    apply provide_current; assumption.
Qed.

Lemma final_states ops : forall read s, trees_current read s -> expands_late read ops = false ->
  exists read', trees_current read' (states ops s).
Proof.
  induction ops as [|o ops IH]; intros read s C E; [exists read; exact C|]. cbn [states].
  destruct C as (C1 & C2 & C3). destruct (base_step o s (conj C1 C2)) as [B1 B2].
  destruct o as [v| |c| | |]; cbn [expands_late] in E.
  - apply (IH false); [|exact E]. split; [exact B1|]. split; [exact B2|]. left. reflexivity.
  - apply (IH false); [|exact E]. split; [exact B1|]. split; [exact B2|]. left. reflexivity.
  - apply orb_false_iff in E. destruct E as [-> E]. apply (IH false); [|exact E]. split; [exact B1|]. split; [exact B2|].
    destruct C3 as [C3|[X _]]; [|discriminate]. left. cbn [perform fst]. destruct (values_eqb (p_config s) c); exact C3.
  - apply (IH read); [|exact E]. split; [exact B1|]. split; [exact B2|]. exact C3.
  - apply (IH read); [|exact E]. split; [exact B1|]. split; [exact B2|]. exact C3.
  - apply (IH true); [|exact E]. split; [exact B1|]. split; [exact B2|]. right. split; [reflexivity|].
    cbn [perform fst p_final_tree p_config p_overridden]. apply provide_current. destruct C3 as [C3|[_ C3]]; auto.
Qed.

(** The final configuration, unless the configuration is expanded after it was read. *)
Theorem final_read_current_partial ops overridden config :
  expands_late false ops = false ->
  let s := states ops (Params overridden config [] [] []) in
  snd (perform ReadFinal s) = snd (perform ReadFinal (fresh s)).
Proof.
  intros E s. destruct (final_states ops false (Params overridden config [] [] [])) as (read & _ & _ & C3); [|exact E|].
  - split; [left; reflexivity|]. split; left; reflexivity.
  - fold s in C3. cbn [perform snd fresh p_config p_overridden p_final_tree]. f_equal. apply provide_current. destruct C3 as [C3|[_ C3]]; auto.
Qed.

(** In general it is the one of before. *)
Theorem final_read_refuted : exists ops overridden config,
  let s := states ops (Params overridden config [] [] []) in
  snd (perform ReadFinal s) <> snd (perform ReadFinal (fresh s)).
Proof.
  exists [ReadFinal; Expand [(txt "qbs.x", txt "2")]], [], [(txt "qbs.x", txt "1")]. vm_compute. discriminate.
Qed.

(** What is in the final configuration: the overridden values, then those of the
    configuration. *)
Theorem final_values_exact ops overridden config k :
  NoDup (List.map fst overridden) ->
  (forall o, In o ops -> match o with SetOverridden _ | SetProfile | Expand _ => False | _ => True end) ->
  let s := states ops (Params overridden config [] [] []) in
  NoDup (List.map fst config) -> (forall a, In a (List.map fst config) \/ In a (List.map fst overridden) -> In 46 a) ->
  forall a x, k = full a x -> dotless x ->
  exists t, snd (perform ReadFinal s) = Some t
    /\ (match lookup a t with Some (Sub m) => lookup x m | _ => None end)
       = match lookup k overridden with Some v => Some v | None => lookup k config end.
Proof.
  intros NO RO s NC DT a x -> D.
  assert (K : p_overridden s = overridden /\ p_config s = config /\ trees_current true s).
  { assert (G : forall ops s0, (forall o, In o ops -> match o with SetOverridden _ | SetProfile | Expand _ => False | _ => True end) ->
             trees_current true s0 -> p_overridden (states ops s0) = p_overridden s0 /\ p_config (states ops s0) = p_config s0 /\ trees_current true (states ops s0)).
    { clear. induction ops as [|o ops IH]; intros s0 RO C; [auto|]. cbn [states].
      assert (C' : trees_current true (fst (perform o s0)) /\ p_overridden (fst (perform o s0)) = p_overridden s0 /\ p_config (fst (perform o s0)) = p_config s0).
      { pose proof (RO o (or_introl eq_refl)) as R. destruct C as (C1 & C2 & C3). destruct (base_step o s0 (conj C1 C2)) as [B1 B2].
        destruct o as [v| |c| | |]; try contradiction; (split; [|split; reflexivity]); (split; [exact B1|]); (split; [exact B2|]); [exact C3|exact C3|].
        right. split; [reflexivity|]. apply provide_current. destruct C3 as [C3|[_ C3]]; auto. }
      destruct C' as (C' & E1 & E2). destruct (IH (fst (perform o s0))) as (A1 & A2 & A3); [intros o' I'; apply RO; right; exact I'|exact C'|].
      split; [congruence|]. split; [congruence|]. exact A3. }
    apply G; [exact RO|]. split; [left; reflexivity|]. split; left; reflexivity. }
  destruct K as (K1 & K2 & _ & _ & K3).
  assert (FV : forall l c, NoDup (List.map fst l) -> NoDup (List.map fst c) ->
            NoDup (List.map fst (final_values c l)) /\ (forall y, In y (List.map fst (final_values c l)) -> In y (List.map fst c) \/ In y (List.map fst l))
            /\ forall y, get y (final_values c l) = match get y l with Some v => Some v | None => get y c end).
  { clear. unfold final_values. induction l as [|[y v] l IH]; intros c N1 N2; cbn [fold_left fst snd].
    - split; [exact N2|]. split; [tauto|]. intro. reflexivity.
    - cbn [List.map fst] in N1. inversion N1 as [|? ? A1 A2]; subst. destruct (IH (put y v c) A2 (put_nodup _ _ _ N2)) as (I1 & I2 & I3).
      split; [exact I1|]. split.
      + intros z Z. destruct (I2 z Z) as [Z1|Z1]; [apply in_put in Z1; destruct Z1 as [->|Z1]; [right; left; reflexivity|left; exact Z1]|right; right; exact Z1].
      + intro z. rewrite I3, get_put. cbn [get]. destruct (str_eqb y z) eqn:E; [|reflexivity]. apply str_eqb_eq in E. subst z. apply get_none in A1. rewrite A1. reflexivity. }
  destruct (FV overridden config NO NC) as (V1 & V2 & V3).
  exists (values_tree (final_values config overridden)). cbn [perform snd]. rewrite K1, K2 in *. split; [f_equal; apply provide_current; destruct K3 as [K3|[_ K3]]; auto|].
  destruct (tree_spec (final_values config overridden) V1) as (T1 & _ & _); [intros y Y; apply DT; apply V2; exact Y|].
  specialize (T1 a x D). rewrite <- !get_lookup in *. rewrite V3 in T1. rewrite <- T1. unfold sub.
  destruct (get a (values_tree (final_values config overridden))) as [[v|m]|]; try reflexivity. rewrite get_lookup. reflexivity.
Qed.

(** * Examples *)

Module Demo.

Definition values := [(txt "project.version", txt "2"); (txt "projects.top.debug", txt "1"); (txt "products.app.files", txt "f");
  (txt "modules.cpp.optimization", txt "fast"); (txt "products.app.cpp.optimization", txt "small"); (txt "qbs.arch", txt "arm")].
Definition projects := [Part (txt "top.qbs") (item_of [(txt "name", txt "top"); (txt "version", txt "1"); (txt "debug", txt "0")]) []].
Definition modules := [(txt "cpp", item_of [(txt "optimization", txt "none")]); (txt "qbs", item_of [(txt "arch", txt "x86")])].
Definition products := [Part (txt "app.qbs") (item_of [(txt "name", txt "app"); (txt "files", txt "e")]) modules;
                        Part (txt "lib") (item_of [(txt "files", txt "e")]) modules].

Example ex_resolved : exists js ds, resolve plain values projects products = Some ((js, ds), [])
  /\ List.map (fun d => fst (fst d)) ds = [txt "app"; txt "lib"]
  /\ List.map (fun d => List.map (fun m => lookup (txt "optimization") (i_props (snd m))) (snd d)) ds
     = [[Some (txt "small"); None]; [Some (txt "fast"); None]].
Proof. eexists _, _. split; [vm_compute; reflexivity|]. split; vm_compute; reflexivity. Qed.

Example ex_hypotheses : NoDup (List.map fst values) /\ (forall k, In k (List.map fst values) -> In 46 k).
Proof.
  split; [repeat constructor; vm_compute; intuition discriminate|]. intros k H. cbn in H.
  decompose [or] H; subst; try contradiction; vm_compute; tauto.
Qed.

Example ex_wrong : exists js ds, resolve plain [(txt "cpp.x", txt "1"); (txt "projects.nosuch.x", txt "1"); (txt "products.nosuch.x", txt "1"); (txt "products.app.y", txt "1")] projects products
  = Some ((js, ds), [UnknownKey (txt "cpp.x"); UnknownProperty (txt "products.app") (txt "y"); UnknownProject (txt "nosuch"); UnknownProduct (txt "nosuch")]).
Proof. eexists _, _. vm_compute. reflexivity. Qed.

Example ex_no_property : exists js ds, resolve plain [(txt "projects.nosuch", txt "1"); (txt "products.other", txt "1")] projects products
  = Some ((js, ds), [UnknownProject (txt "nosuch"); UnknownProduct (txt "other")]).
Proof. eexists _, _. vm_compute. reflexivity. Qed.

Example ex_right : exists js ds, resolve plain values projects products = Some ((js, ds), [])
  /\ (forall k, In k (List.map fst values) -> right_key projects products js ds k)
  /\ (forall u, In u products -> dotless (initial_name u)) /\ (forall r, In r ds -> dotless (fst (fst r))).
Proof.
  eexists _, _. split; [vm_compute; reflexivity|]. split; [|split].
  - intros k H. cbn in H. decompose [or] H; subst; try contradiction; clear H.
    + exists (txt "version"). split; [vm_compute; intuition discriminate|]. left. split; [reflexivity|]. intros u [<-|[]]. vm_compute. discriminate.
    + exists (txt "debug"). split; [vm_compute; intuition discriminate|]. right. left. exists (txt "top"). split; [reflexivity|]. split; [left; reflexivity|].
      intros r [<-|[]] _. vm_compute. discriminate.
    + exists (txt "files"). split; [vm_compute; intuition discriminate|]. right. right. left. exists (txt "app"). split; [reflexivity|].
      split; [vm_compute; intuition discriminate|]. split; [left; reflexivity|]. intros u [<-|[<-|[]]] _; vm_compute; discriminate.
    + exists (txt "optimization"). split; [vm_compute; intuition discriminate|]. right. right. right. right. left. exists (txt "cpp"). split; [reflexivity|].
      intros r i [<-|[<-|[]]] [E|[E|[]]]; vm_compute in E; first [discriminate E|injection E as <-; vm_compute; discriminate].
    + exists (txt "optimization"). split; [vm_compute; intuition discriminate|]. right. right. right. left. exists (txt "app"), (txt "cpp"). split; [reflexivity|].
      split; [vm_compute; intuition discriminate|]. split; [left; reflexivity|].
      intros r i [<-|[<-|[]]] _ [E|[E|[]]]; vm_compute in E; first [discriminate E|injection E as <-; vm_compute; discriminate].
    + exists (txt "arch"). split; [vm_compute; intuition discriminate|]. right. right. right. right. right. left. split; [reflexivity|].
      intros r i [<-|[<-|[]]] [E|[E|[]]]; vm_compute in E; first [discriminate E|injection E as <-; vm_compute; discriminate].
  - intros u [<-|[<-|[]]]; vm_compute; intuition discriminate.
  - intros r [<-|[<-|[]]]; vm_compute; intuition discriminate.
Qed.

Example ex_inconvertible : resolve (fun ty v => if str_dec v (txt "x") then None else Some v) [(txt "products.app.files", txt "x")] projects products = None.
Proof. vm_compute. reflexivity. Qed.

Example ex_read : expands_late false [Expand [(txt "qbs.x", txt "1")]; ReadFinal; ReadConfig; SetOverridden [(txt "qbs.x", txt "2")]; Expand []; ReadFinal] = false.
Proof. reflexivity. Qed.

Example ex_final : snd (perform ReadFinal (states [ReadFinal] (Params [(txt "qbs.x", txt "2")] [(txt "qbs.x", txt "1"); (txt "qbs.y", txt "3")] [] [] [])))
  = Some [(txt "qbs", Sub [(txt "x", txt "2"); (txt "y", txt "3")])].
Proof. vm_compute. reflexivity. Qed.

End Demo.

Print Assumptions overrides_exact.
Print Assumptions only_conversion_fails.
Print Assumptions wrong_overrides_reported.
Print Assumptions wrong_names_reported.
Print Assumptions right_overrides_accepted_partial.
Print Assumptions one_property_refuted.
Print Assumptions top_level_only_refuted.
Print Assumptions top_level_property_refuted.
Print Assumptions dotted_product_refuted.
Print Assumptions renamed_product_refuted.
Print Assumptions wrong_overrides_refuted.
Print Assumptions trees_read_current.
Print Assumptions final_read_current_partial.
Print Assumptions final_read_refuted.
Print Assumptions final_values_exact.
