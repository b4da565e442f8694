(** Which job limits a product has (C126), and reading them from the command line (C127). *)
From Coq Require Import List Bool NArith ZArith Lia.
From Verif Require Import Str JobLimitsModel JobLimitsTheorems JobItemsModel.
Import ListNotations.
Local Open Scope Z_scope.

(** ** Specification *)
(** The numbers given for a pool by the active items of a list. *)
Inductive gives : list limit_item -> str -> list Z -> Prop :=
| gives_nil p : gives [] p []
| gives_this pool n its l : gives its pool l -> gives ({| li_condition := true; li_pool := pool; li_count := Some n |} :: its) pool (n :: l)
| gives_other it its pool l : li_condition it = false \/ li_pool it <> pool -> gives its pool l -> gives (it :: its) pool l.
(** The documentation: the most restrictive one is chosen, that is, the one with the lowest number greater than zero;
    zero means unlimited (as many as an int can be). *)
Inductive chosen : list Z -> option Z -> Prop :=
| chosen_none : chosen [] None
| chosen_least l n : In n l -> 0 < n -> (forall k, In k l -> 0 < k -> n <= k) -> chosen l (Some n)
| chosen_unlimited l : l <> [] -> (forall k, In k l -> k = 0) -> chosen l (Some 2147483647).
(** No zero comes after a positive number. *)
Definition zeros_first (l : list Z) : Prop := exists z p, l = z ++ p /\ Forall (fun n => n = 0) z /\ Forall (fun n => 0 < n) p.
Fixpoint first_of (l : list (option Z)) : option Z :=
  match l with [] => None | Some x :: _ => Some x | None :: r => first_of r end.
Definition sane (it : limit_item) : Prop :=
  li_condition it = true -> li_pool it <> [] /\ exists n, li_count it = Some n /\ 0 <= n <= 2147483647.

(** ** Items *)
Lemma transform_nonneg n : 0 <= n <= int_max -> transform_limit n = if n =? 0 then int_max else n.
Proof. intros H. unfold transform_limit. destruct (n =? 0) eqn:E; [reflexivity|]. destruct (n <? -1) eqn:F; [apply Z.ltb_lt in F; lia|reflexivity]. Qed.
Definition item_step (old n : Z) : Z := if (old =? -1) || (n <? old) then transform_limit n else old.
Lemma resolve_item_get ls it ls' pool : resolve_item ls it = Some ls' ->
  get_limit ls' pool =
  if li_condition it && str_eqb (li_pool it) pool then match li_count it with Some n => item_step (get_limit ls pool) n | None => get_limit ls pool end
  else get_limit ls pool.
Proof.
  unfold resolve_item. destruct (li_condition it); cbn [negb andb]; [|intros [= <-]; reflexivity].
  destruct (li_pool it) as [|x p] eqn:P; [discriminate|]. destruct (li_count it) as [n|]; [|discriminate]. destruct (n <? 0); [discriminate|].
  intros H. destruct (str_eqb (x :: p) pool) eqn:E.
  - apply str_eqb_eq in E. subst pool. unfold item_step. destruct (_ || _); injection H as <-; [|reflexivity]. unfold job_limit. apply get_set_same.
  - destruct (_ || _); injection H as <-; [|reflexivity]. unfold job_limit. apply get_set_other. now apply str_eqb_neq.
Qed.
Lemma resolve_item_nodup ls it ls' : NoDup (map fst ls) -> resolve_item ls it = Some ls' -> NoDup (map fst ls').
Proof.
  unfold resolve_item. intros D. destruct (negb _); [intros [= <-]; exact D|]. destruct (li_pool it); [discriminate|]. destruct (li_count it); [|discriminate].
  destruct (_ <? 0); [discriminate|]. destruct (_ || _); intros [= <-]; [apply set_nodup; exact D|exact D].
Qed.
Lemma resolve_items_nodup its : forall ls ls', NoDup (map fst ls) -> resolve_items ls its = Some ls' -> NoDup (map fst ls').
Proof.
  induction its as [|it its IH]; intros ls ls' D H; cbn [resolve_items] in H; [now injection H as <-|].
  destruct (resolve_item ls it) as [l1|] eqn:E; [|discriminate]. exact (IH _ _ (resolve_item_nodup _ _ _ D E) H).
Qed.
Lemma items_get its pool l : gives its pool l -> forall ls ls', resolve_items ls its = Some ls' ->
  get_limit ls' pool = fold_left item_step l (get_limit ls pool).
Proof.
  induction 1 as [p|pool n its l G IH|it its pool l D G IH]; intros ls ls' H; cbn [resolve_items] in H; [now injection H as <-| |].
  - destruct (resolve_item ls _) as [l1|] eqn:E; [|discriminate]. rewrite (IH _ _ H). apply (resolve_item_get _ _ _ pool) in E. cbn [li_condition li_pool li_count andb] in E.
    rewrite str_eqb_refl in E. cbn [fold_left]. now rewrite E.
  - destruct (resolve_item ls it) as [l1|] eqn:E; [|discriminate]. rewrite (IH _ _ H). apply (resolve_item_get _ _ _ pool) in E. f_equal. rewrite E.
    destruct D as [D|D]; [now rewrite D|]. apply str_eqb_neq in D. now rewrite D, andb_false_r.
Qed.
Lemma sane_item ls it : sane it <-> (exists ls', resolve_item ls it = Some ls') /\ (li_condition it = true -> forall n, li_count it = Some n -> n <= 2147483647).
Proof.
  unfold sane, resolve_item. destruct (li_condition it); cbn [negb]; [|split; [intros _; split; [now exists ls|discriminate]|discriminate]].
  destruct (li_pool it) as [|x p]; [split; [intros H; destruct (H eq_refl); congruence|intros [[ls' H] _]; discriminate]|].
  destruct (li_count it) as [n|]; [|split; [intros H; destruct (H eq_refl) as [_ (n & H1 & _)]; discriminate|intros [[ls' H] _]; discriminate]].
  destruct (n <? 0) eqn:E.
  - apply Z.ltb_lt in E. split; [intros H; destruct (H eq_refl) as [_ (k & [= <-] & H1)]; lia|intros [[ls' H] _]; discriminate].
  - apply Z.ltb_ge in E. split.
    + intros H. destruct (H eq_refl) as [_ (k & [= <-] & H1)]. split; [destruct (_ || _); eexists; reflexivity|]. intros _ m [= <-]. lia.
    + intros [_ H] _. split; [discriminate|]. exists n. split; [reflexivity|]. specialize (H eq_refl n eq_refl). lia.
Qed.
Lemma sane_items its : Forall sane its -> forall ls, exists ls', resolve_items ls its = Some ls'.
Proof.
  induction 1 as [|it its H _ IH]; intros ls; [now exists ls|]. cbn [resolve_items]. apply (sane_item ls) in H. destruct H as [[l1 ->] _]. apply IH.
Qed.
Lemma gives_sane its pool l : gives its pool l -> Forall sane its -> Forall (fun n => 0 <= n <= 2147483647) l.
Proof.
  induction 1; intros S; [constructor| |].
  - inversion S; subst. constructor; [|now apply IHgives]. destruct (H2 eq_refl) as [_ (k & [= <-] & K)]. exact K.
  - inversion S; subst. now apply IHgives.
Qed.
Theorem gives_total its pool : Forall sane its -> exists l, gives its pool l.
Proof.
  induction 1 as [|it its S _ (l & IH)]; [now exists []; constructor|]. destruct it as [c p n]. destruct c.
  - destruct (str_dec p pool) as [->|Q]; [|exists l; apply gives_other; [now right|exact IH]].
    destruct (S eq_refl) as [_ (k & E & _)]. cbn in E. subst n. exists (k :: l). now constructor.
  - exists l. apply gives_other; [now left|exact IH].
Qed.
Lemma chosen_total l : Forall (fun n => 0 <= n) l -> exists o, chosen l o.
Proof.
  induction 1 as [|n l H _ (o & IH)]; [exists None; constructor|]. destruct (Z.eq_dec n 0) as [->|Q].
  - destruct IH as [|l m A B C|l A B].
    + exists (Some 2147483647). apply chosen_unlimited; [discriminate|]. intros k [<-|[]]. reflexivity.
    + exists (Some m). apply chosen_least; [now right|exact B|]. intros k [<-|K] P; [lia|now apply C].
    + exists (Some 2147483647). apply chosen_unlimited; [discriminate|]. intros k [<-|K]; [reflexivity|now apply B].
  - destruct IH as [|l m A B C|l A B].
    + exists (Some n). apply chosen_least; [now left|lia|]. intros k [<-|[]] _. lia.
    + destruct (Z.le_gt_cases n m).
      * exists (Some n). apply chosen_least; [now left|lia|]. intros k [<-|K] P; [lia|]. specialize (C k K P). lia.
      * exists (Some m). apply chosen_least; [now right|exact B|]. intros k [<-|K] P; [lia|now apply C].
    + exists (Some n). apply chosen_least; [now left|lia|]. intros k [<-|K] P; [lia|]. specialize (B k K). lia.
Qed.
Lemma chosen_fun l o o' : chosen l o -> chosen l o' -> o = o'.
Proof.
  intros [|l0 n A B C|l0 A B] H; inversion H as [|l1 n' A' B' C'|l1 A' B']; subst; try reflexivity; try contradiction.
  - f_equal. specialize (C n' A' B'). specialize (C' n A B). lia.
  - specialize (B' n A). lia.
  - specialize (B n' A'). lia.
Qed.

(** *** One level *)
Lemma step_pos old n : 0 < n -> (old = -1 \/ 0 < old) -> item_step old n = if (old =? -1) then n else Z.min old n.
Proof.
  intros H O. unfold item_step, transform_limit. rewrite (proj2 (Z.eqb_neq n 0)) by lia. rewrite (proj2 (Z.ltb_ge n (-1))) by lia.
  destruct (Z.eqb_spec old (-1)) as [->|Q]; [reflexivity|]. cbn [orb]. destruct (Z.ltb_spec n old); lia.
Qed.
Definition least (old : Z) (l : list Z) (r : Z) : Prop :=
  (l = [] /\ r = old) \/ (l <> [] /\ 0 < r /\ (In r l \/ (r = old /\ old <> -1)) /\ (forall k, In k l -> r <= k) /\ (old = -1 \/ r <= old)).
Lemma fold_pos l : Forall (fun n => 0 < n) l -> forall old, (old = -1 \/ 0 < old) -> least old l (fold_left item_step l old).
Proof.
  induction 1 as [|n l H F IH]; intros old O; [now left|]. right. cbn [fold_left]. rewrite step_pos by assumption. split; [discriminate|].
  destruct (Z.eqb_spec old (-1)) as [->|Q].
  - destruct (IH n (or_intror H)) as [[-> ->]|(A & B & C & D & E)]; cbn [fold_left].
    + split; [exact H|]. split; [now left; left|]. split; [intros k [<-|[]]; lia|now left].
    + split; [exact B|]. split; [destruct C as [C|[C _]]; left; [now right|left; congruence]|]. split; [|now left].
      intros k [<-|K]; [destruct E; lia|now apply D].
  - destruct O as [O|O]; [congruence|]. assert (M : 0 < Z.min old n) by lia. destruct (IH _ (or_intror M)) as [[-> ->]|(A & B & C & D & E)]; cbn [fold_left].
    + split; [exact M|]. split; [|split; [intros k [<-|[]]; lia|right; lia]]. destruct (Z.min_spec old n) as [[_ ->]|[_ ->]]; [right; split; [reflexivity|lia]|left; now left].
    + split; [exact B|]. split.
      * destruct C as [C|[C _]]; [left; now right|]. rewrite C. destruct (Z.min_spec old n) as [[_ ->]|[_ ->]]; [right; split; [reflexivity|lia]|left; now left].
      * split; [|right; lia]. intros k [<-|K]; [lia|now apply D].
Qed.
Lemma fold_zero l : Forall (fun n => n = 0) l -> l <> [] -> fold_left item_step l (-1) = 2147483647.
Proof.
  intros F N. destruct l as [|n l]; [congruence|]. inversion F; subst. cbn [fold_left]. change (item_step (-1) 0) with 2147483647. clear F N.
  induction H2 as [|k l -> _ IH]; [reflexivity|]. cbn [fold_left]. change (item_step 2147483647 0) with 2147483647. exact IH.
Qed.
Lemma level l o : Forall (fun n => 0 <= n <= 2147483647) l -> zeros_first l -> chosen l o -> fold_left item_step l (-1) = limit_of o.
Proof.
  intros B (z & p & -> & Z0 & P) C. rewrite fold_left_app. destruct p as [|x p].
  - rewrite app_nil_r in *. cbn [fold_left]. destruct z as [|y z].
    + inversion C; subst; [reflexivity|destruct H|congruence].
    + rewrite fold_zero by (assumption || discriminate). inversion C as [|l0 n A Bn _|]; subst; [|reflexivity]. exfalso. rewrite Forall_forall in Z0. apply Z0 in A. lia.
  - assert (Hz : fold_left item_step z (-1) = -1 \/ fold_left item_step z (-1) = 2147483647).
    { destruct z as [|y z]; [now left|right]. apply fold_zero; [exact Z0|discriminate]. }
    set (old := fold_left item_step z (-1)) in *. assert (O : old = -1 \/ 0 < old) by (destruct Hz as [->| ->]; lia).
    destruct (fold_pos _ P old O) as [[X _]|(_ & R0 & R1 & R2 & R3)]; [discriminate|]. set (r := fold_left item_step (x :: p) old) in *.
    assert (In r (x :: p)).
    { destruct R1 as [R1|[R1 R4]]; [exact R1|]. destruct Hz as [Hz|Hz]; [congruence|]. left. rewrite Forall_app in B. destruct B as [_ B]. inversion B; subst.
      specialize (R2 x (or_introl eq_refl)). lia. }
    apply (chosen_fun (z ++ x :: p) (Some r) o) in C; [now rewrite <- C|]. apply chosen_least; [apply in_or_app; now right|exact R0|].
    intros k K Kp. apply in_app_or in K. destruct K as [K|K]; [rewrite Forall_forall in Z0; apply Z0 in K; lia|now apply R2].
Qed.

(** *** Modules *)
Definition mod_step (old n : Z) : Z := if n =? -1 then old else if (old =? -1) || (n <? old) then n else old.
Lemma merge_get ls pool : forall acc, NoDup (map fst ls) -> Forall (fun l => 0 < snd l) ls ->
  get_limit (merge_module acc ls) pool = mod_step (get_limit acc pool) (get_limit ls pool).
Proof.
  unfold merge_module. induction ls as [|[p n] ls IH]; intros acc D F; [reflexivity|]. inversion D; subst. inversion F as [|? ? F1 F2]; subst. cbn [fold_left fst snd] in *.
  rewrite IH by assumption. cbn [get_limit fst snd]. destruct (str_eqb p pool) eqn:E.
  - apply str_eqb_eq in E. subst p. rewrite (get_notin ls) by assumption. unfold mod_step at 1. cbn [Z.eqb]. unfold mod_step.
    rewrite (proj2 (Z.eqb_neq n (-1))) by lia. destruct (_ || _); [apply get_set_same|reflexivity].
  - f_equal. destruct (_ || _); [|reflexivity]. apply get_set_other. now apply str_eqb_neq.
Qed.
Lemma merge_nodup ls : forall acc, NoDup (map fst acc) -> NoDup (map fst (merge_module acc ls)).
Proof.
  unfold merge_module. induction ls as [|[p n] ls IH]; intros acc D; [exact D|]. cbn [fold_left fst snd]. apply IH. destruct (_ || _); [now apply set_nodup|exact D].
Qed.
Lemma set_forall (P : str * Z -> Prop) ls l : Forall P ls -> P l -> Forall P (set_limit ls l).
Proof.
  induction 1 as [|c ls H F IH]; intros L; cbn [set_limit]; [now constructor|]. destruct (str_eqb _ _); [constructor; [destruct (_ =? _); assumption|exact F]|].
  constructor; [exact H|now apply IH].
Qed.
Lemma resolve_items_pos its : forall ls ls', Forall sane its -> Forall (fun l => 0 < snd l) ls -> resolve_items ls its = Some ls' -> Forall (fun l => 0 < snd l) ls'.
Proof.
  induction its as [|it its IH]; intros ls ls' S F H; cbn [resolve_items] in H; [now injection H as <-|]. inversion S as [|? ? S1 S2]; subst.
  destruct (resolve_item ls it) as [l1|] eqn:E; [|discriminate]. apply (IH l1 ls' S2); [|exact H]. unfold resolve_item in E.
  destruct (li_condition it) eqn:C; cbn [negb] in E; [|now injection E as <-]. destruct (S1 C) as [_ (n & N1 & N2)]. rewrite N1 in E. destruct (li_pool it); [discriminate|].
  destruct (n <? 0); [discriminate|]. destruct (_ || _); injection E as <-; [|exact F]. apply set_forall; [exact F|]. cbn [job_limit snd].
  rewrite transform_nonneg by exact N2. destruct (Z.eqb_spec n 0); [reflexivity|lia].
Qed.
(** What all modules that are present give. *)
Inductive mods_give : list (bool * list limit_item) -> str -> list Z -> Prop :=
| mods_nil p : mods_give [] p []
| mods_absent its r p l : mods_give r p l -> mods_give ((false, its) :: r) p l
| mods_present its r p l1 l2 : gives its p l1 -> zeros_first l1 -> mods_give r p l2 -> mods_give ((true, its) :: r) p (l1 ++ l2).

Lemma chosen_app l1 l2 o1 o2 : chosen l1 o1 -> chosen l2 o2 -> Forall (fun n => 0 <= n <= 2147483647) (l1 ++ l2) ->
  forall o, chosen (l1 ++ l2) o -> limit_of o = mod_step (limit_of o1) (limit_of o2).
Proof.
  intros H1 H2 B o H. assert (Bd : forall k, In k (l1 ++ l2) -> 0 <= k <= 2147483647) by now apply Forall_forall.
  unfold mod_step.
  destruct H2 as [|l2 n2 A2 B2 C2|l2 A2 B2]; cbn [limit_of]; rewrite ?app_nil_r in *.
  - cbn [Z.eqb]. now rewrite (chosen_fun _ _ _ H H1).
  - rewrite (proj2 (Z.eqb_neq n2 (-1))) by lia. destruct H1 as [|l1 n1 A1 B1 C1|l1 A1 B1]; cbn [limit_of].
    + cbn [app] in H. rewrite Z.eqb_refl. cbn [orb]. assert (X : chosen l2 (Some n2)) by now apply chosen_least. now rewrite (chosen_fun _ _ _ H X).
    + rewrite (proj2 (Z.eqb_neq n1 (-1))) by lia. cbn [orb].
      assert (X : chosen (l1 ++ l2) (Some (if n2 <? n1 then n2 else n1))).
      { destruct (Z.ltb_spec n2 n1); apply chosen_least; try lia; try (apply in_or_app; auto);
        intros k K P; apply in_app_or in K; destruct K as [K|K]; try (specialize (C1 k K P); lia); specialize (C2 k K P); lia. }
      now rewrite (chosen_fun _ _ _ H X).
    + cbn [Z.eqb orb]. assert (X : chosen (l1 ++ l2) (Some n2)).
      { apply chosen_least; [apply in_or_app; now right|exact B2|]. intros k K P. apply in_app_or in K. destruct K as [K|K]; [specialize (B1 k K); lia|now apply C2]. }
      rewrite (chosen_fun _ _ _ H X). cbn [limit_of]. destruct (Z.ltb_spec n2 2147483647); [reflexivity|].
      assert (n2 <= 2147483647) by (apply Bd, in_or_app; now right). lia.
  - cbn [Z.eqb]. destruct H1 as [|l1 n1 A1 B1 C1|l1 A1 B1]; cbn [limit_of].
    + cbn [app] in H. rewrite Z.eqb_refl. cbn [orb]. assert (X : chosen l2 (Some 2147483647)) by now apply chosen_unlimited. now rewrite (chosen_fun _ _ _ H X).
    + rewrite (proj2 (Z.eqb_neq n1 (-1))) by lia. cbn [orb]. rewrite (proj2 (Z.ltb_ge 2147483647 n1)) by (apply Bd, in_or_app; now left).
      assert (X : chosen (l1 ++ l2) (Some n1)).
      { apply chosen_least; [apply in_or_app; now left|exact B1|]. intros k K P. apply in_app_or in K. destruct K as [K|K]; [now apply C1|specialize (B2 k K); lia]. }
      now rewrite (chosen_fun _ _ _ H X).
    + cbn [orb Z.ltb Z.compare]. assert (X : chosen (l1 ++ l2) (Some 2147483647)).
      { apply chosen_unlimited; [destruct l1; [congruence|discriminate]|]. intros k K. apply in_app_or in K. destruct K; auto. }
      rewrite (chosen_fun _ _ _ H X). reflexivity.
Qed.
Lemma mods_bounds mods pool l : mods_give mods pool l -> Forall (fun m => Forall sane (snd m)) mods -> Forall (fun n => 0 <= n <= 2147483647) l.
Proof.
  induction 1; intros S; [constructor|inversion S; auto|]. inversion S; subst. apply Forall_app. split; [|auto]. exact (gives_sane _ _ _ H H4).
Qed.
Lemma mods_get mods pool l : mods_give mods pool l -> forall pre o0 acc ms, Forall (fun m => Forall sane (snd m)) mods ->
  NoDup (map fst acc) -> Forall (fun n => 0 <= n <= 2147483647) pre -> chosen pre o0 -> get_limit acc pool = limit_of o0 -> resolve_mods acc mods = Some ms ->
  NoDup (map fst ms) /\ forall o, chosen (pre ++ l) o -> get_limit ms pool = limit_of o.
Proof.
  induction 1 as [p|its r p l G IH|its r p l1 l2 G1 Z1 G2 IH]; intros pre o0 acc ms S D B C E H; cbn [resolve_mods] in H.
  - injection H as <-. split; [exact D|]. intros o. rewrite app_nil_r. intros Co. now rewrite E, (chosen_fun _ _ _ C Co).
  - inversion S; subst. eapply IH; eassumption.
  - inversion S as [|? ? S1 S2]; subst. cbn [snd] in S1. destruct (resolve_items [] its) as [ls|] eqn:R; [|discriminate].
    pose proof (gives_sane _ _ _ G1 S1) as B1. assert (B1' : Forall (fun n => 0 <= n) l1) by (eapply Forall_impl; [|exact B1]; cbn; lia).
    destruct (chosen_total _ B1') as [o1 C1].
    assert (L1 : get_limit ls p = limit_of o1) by (rewrite (items_get _ _ _ G1 [] ls R); cbn [get_limit]; now apply level).
    assert (Bp : Forall (fun n => 0 <= n <= 2147483647) (pre ++ l1)) by (apply Forall_app; now split).
    assert (Bp' : Forall (fun n => 0 <= n) (pre ++ l1)) by (eapply Forall_impl; [|exact Bp]; cbn; lia).
    destruct (chosen_total _ Bp') as [o2 C2].
    rewrite app_assoc. apply (IH (pre ++ l1) o2 (merge_module acc ls)); try assumption.
    + now apply merge_nodup.
    + rewrite merge_get; [rewrite E, L1; symmetry; now apply (chosen_app pre l1 o0 o1)|exact (resolve_items_nodup its [] ls (NoDup_nil _) R)|].
      exact (resolve_items_pos its [] ls S1 (Forall_nil _) R).
Qed.
Lemma missing_get ms pool : forall ls, NoDup (map fst ms) -> get_limit (add_missing ls ms) pool = if get_limit ls pool =? -1 then get_limit ms pool else get_limit ls pool.
Proof.
  unfold add_missing. induction ms as [|[p n] ms IH]; intros ls D; cbn [fold_left fst].
  - cbn [get_limit]. destruct (Z.eqb_spec (get_limit ls pool) (-1)); congruence.
  - inversion D; subst. rewrite IH by assumption. cbn [get_limit fst snd]. destruct (str_eqb p pool) eqn:E.
    + apply str_eqb_eq in E. subst p. rewrite (get_notin ms) by assumption. destruct (Z.eqb_spec (get_limit ls pool) (-1)) as [Q|Q].
      * rewrite get_set_same. destruct (n =? -1) eqn:X; [apply Z.eqb_eq in X; congruence|reflexivity].
      * rewrite (proj2 (Z.eqb_neq _ _) Q). reflexivity.
    + assert (X : get_limit (if get_limit ls p =? -1 then set_limit ls (p, n) else ls) pool = get_limit ls pool).
      { destruct (_ =? _); [|reflexivity]. apply get_set_other. now apply str_eqb_neq. }
      now rewrite X.
Qed.
Lemma chosen_pos l o x : chosen l o -> o = Some x -> x <> -1.
Proof. intros [|l0 n A B C|l0 A B] [= <-]; lia. Qed.
Lemma projects_get ps : forall acc lss pool os, NoDup (map fst acc) -> Forall (fun its => Forall sane its) ps -> resolve_projects ps = Some lss ->
  Forall2 (fun its o => exists l, gives its pool l /\ zeros_first l /\ chosen l o) ps os ->
  NoDup (map fst (fold_left (fun acc q => update q acc) lss acc)) /\
  forall o0, (forall x, o0 = Some x -> x <> -1) -> get_limit acc pool = limit_of o0 ->
    get_limit (fold_left (fun acc q => update q acc) lss acc) pool = limit_of (first_of (o0 :: os)).
Proof.
  induction ps as [|its ps IH]; intros acc lss pool os D S H F; inversion F as [|? o ? os' (l & G & Z0 & C) F']; subst; cbn [resolve_projects] in H.
  - injection H as <-. split; [exact D|]. intros [x|] _ E; exact E.
  - inversion S as [|? ? S1 S2]; subst. destruct (resolve_items [] its) as [ls|] eqn:R; [|discriminate].
    destruct (resolve_projects ps) as [lss'|] eqn:R'; [|discriminate]. injection H as <-. cbn [fold_left].
    pose proof (resolve_items_nodup its [] ls (NoDup_nil _) R) as D1.
    assert (L1 : get_limit ls pool = limit_of o) by (rewrite (items_get _ _ _ G [] ls R); cbn [get_limit]; apply level; [exact (gives_sane _ _ _ G S1)|exact Z0|exact C]).
    destruct (IH (update ls acc) lss' pool os' (update_nodup _ _ D1 D) S2 eq_refl F') as [IH1 IH2]. split; [exact IH1|]. intros o0 N0 E.
    assert (X : get_limit (update ls acc) pool = limit_of (or_else o0 o)).
    { rewrite get_update by exact D. rewrite E, L1. apply limit_or. destruct o0 as [x|]; [now apply N0|exact Logic.I]. }
    rewrite (IH2 (or_else o0 o)); [destruct o0 as [x|]; reflexivity| |exact X].
    intros x Hx. destruct o0 as [y|]; cbn [or_else] in Hx; [now apply N0|]. exact (chosen_pos _ _ _ C Hx).
Qed.

(** ** C126 *)
(** The documentation: limits of products have the highest precedence, those of modules the lowest, and those of
    sub-projects precede those of their parents.  Missing for the full statement: a zero that comes after a positive
    number for the same pool in one product, project or module, see below. *)
Theorem product_job_limits_partial product projects mods pool l o os lm om ls :
  Forall sane product -> Forall (Forall sane) projects -> Forall (fun m => Forall sane (snd m)) mods ->
  gives product pool l -> zeros_first l -> chosen l o ->
  Forall2 (fun its o => exists l, gives its pool l /\ zeros_first l /\ chosen l o) projects os ->
  mods_give mods pool lm -> chosen lm om ->
  product_limits product projects mods = Some ls ->
  get_limit ls pool = match first_of (o :: os ++ [om]) with Some n => n | None => -1 end.
Proof.
  intros S1 S2 S3 G Z0 C F Gm Cm H. unfold product_limits in H.
  destruct (resolve_items [] product) as [p|] eqn:R1; [|discriminate]. destruct (resolve_projects projects) as [lss|] eqn:R2; [|discriminate].
  destruct (resolve_mods [] mods) as [ms|] eqn:R3; [|discriminate]. injection H as <-.
  assert (Lp : get_limit p pool = limit_of o) by (rewrite (items_get _ _ _ G [] p R1); cbn [get_limit]; apply level; [exact (gives_sane _ _ _ G S1)|exact Z0|exact C]).
  destruct (projects_get projects p lss pool os (resolve_items_nodup product [] p (NoDup_nil _) R1) S2 R2 F) as [_ P].
  specialize (P o (fun x => chosen_pos _ _ x C) Lp).
  destruct (mods_get _ _ _ Gm [] None [] ms S3 (NoDup_nil _) (Forall_nil _) chosen_none eq_refl R3) as [Dm M]. specialize (M om Cm).
  rewrite missing_get by exact Dm. rewrite P, M. rewrite limit_or.
  - change (limit_of ?x) with (match x with Some n => n | None => -1 end). replace (first_of (o :: os ++ [om])) with (or_else (first_of (o :: os)) om); [reflexivity|].
    clear. destruct o as [x|]; [reflexivity|]. cbn [first_of]. induction os as [|[x|] os IH]; [destruct om; reflexivity|reflexivity|exact IH].
  - assert (X : forall os ps, Forall2 (fun its o => exists l, gives its pool l /\ zeros_first l /\ chosen l o) ps os -> match first_of os with Some n => n <> -1 | None => True end).
    { clear. induction os as [|[x|] os IH]; intros ps F; inversion F as [|? ? ? ? (l & _ & _ & C) F']; subst; [exact Logic.I|exact (chosen_pos _ _ _ C eq_refl)|exact (IH _ F')]. }
    destruct o as [x|]; [exact (chosen_pos _ _ _ C eq_refl)|]. exact (X _ _ F).
Qed.
(** There is a result exactly if every active item of the product, its projects and the modules that are present has
    a pool and a number that is not negative. *)
Lemma items_ok its : (forall it n, In it its -> li_count it = Some n -> n <= 2147483647) -> forall ls, (exists ls', resolve_items ls its = Some ls') <-> Forall sane its.
Proof.
  intros B ls. split; [|intros H; now apply sane_items]. revert ls. induction its as [|it its IH]; intros ls [ls' H]; [constructor|]. cbn [resolve_items] in H.
  destruct (resolve_item ls it) as [l1|] eqn:E; [|discriminate]. constructor.
  - apply (sane_item ls). split; [now exists l1|]. intros _ n N1. exact (B it n (or_introl eq_refl) N1).
  - apply (IH (fun it n I1 => B it n (or_intror I1)) l1). now exists ls'.
Qed.
Theorem product_job_limits_errors product projects mods :
  (forall it n, In it (product ++ concat projects ++ concat (map snd mods)) -> li_count it = Some n -> n <= 2147483647) ->
  (product_limits product projects mods <> None <->
   Forall sane product /\ Forall (Forall sane) projects /\ Forall (fun m => fst m = true -> Forall sane (snd m)) mods).
Proof.
  intros B. unfold product_limits.
  assert (P1 : (exists r, resolve_items [] product = Some r) <-> Forall sane product).
  { apply items_ok. intros it n I1. apply (B it n). apply in_or_app. now left. }
  assert (P2 : (exists r, resolve_projects projects = Some r) <-> Forall (Forall sane) projects).
  { assert (B2 : forall it n, In it (concat projects) -> li_count it = Some n -> n <= 2147483647) by (intros it n I1; apply (B it n); apply in_or_app; right; apply in_or_app; now left).
    clear - B2. induction projects as [|p ps IH]; [split; [constructor|intros _; now exists []]|]. cbn [resolve_projects concat] in *.
    assert (Q : (exists r, resolve_items [] p = Some r) <-> Forall sane p) by (apply items_ok; intros it n I1; apply B2, in_or_app; now left).
    specialize (IH (fun it n I1 => B2 it n (in_or_app p _ it (or_intror I1)))). split.
    - intros [r H]. destruct (resolve_items [] p) as [a|]; [|discriminate]. destruct (resolve_projects ps) as [b|]; [|discriminate].
      constructor; [apply Q; now exists a|apply IH; now exists b].
    - intros H. inversion H; subst. destruct (proj2 Q H2) as [a ->]. destruct (proj2 IH H3) as [b ->]. eexists. reflexivity. }
  assert (P3 : (exists r, resolve_mods [] mods = Some r) <-> Forall (fun m => fst m = true -> Forall sane (snd m)) mods).
  { assert (B3 : forall it n, In it (concat (map snd mods)) -> li_count it = Some n -> n <= 2147483647) by (intros it n I1; apply (B it n); apply in_or_app; right; apply in_or_app; now right).
    clear - B3. generalize (@nil (str * Z)) as acc. induction mods as [|[c its] ms IH]; intros acc; [split; [constructor|intros _; now exists acc]|].
    cbn [resolve_mods concat map snd] in *. specialize (IH (fun it n I1 => B3 it n (in_or_app its _ it (or_intror I1)))). destruct c.
    - assert (Q : (exists r, resolve_items [] its = Some r) <-> Forall sane its) by (apply items_ok; intros it n I1; apply B3, in_or_app; now left). split.
      + intros [r H]. destruct (resolve_items [] its) as [a|] eqn:E; [|discriminate]. constructor; [intros _; apply Q; now exists a|apply (IH (merge_module acc a)); now exists r].
      + intros H. inversion H as [|? ? H1 H2]; subst. destruct (proj2 Q (H1 eq_refl)) as [a ->]. now apply IH.
    - rewrite IH. split; [intros H; constructor; [discriminate|exact H]|intros H; now inversion H]. }
  rewrite <- P1, <- P2, <- P3. destruct (resolve_items [] product) as [a|]; [|split; [congruence|intros [[r H] _]; discriminate]].
  destruct (resolve_projects projects) as [b|]; [|split; [congruence|intros (_ & [r H] & _); discriminate]].
  destruct (resolve_mods [] mods) as [c|]; [|split; [congruence|intros (_ & _ & [r H]); discriminate]].
  split; [intros _; repeat split; eexists; reflexivity|discriminate].
Qed.
(** Numbers of items that are not active, of modules that are not present, and for other pools do not matter, by the
    definition of [gives] and [mods_give].  But a zero that comes later overrides a limit of the same level. *)
Theorem product_job_limits_refuted : exists product pool l o ls, Forall sane product /\ gives product pool l /\ chosen l (Some o) /\
  product_limits product [] [] = Some ls /\ get_limit ls pool <> o /\ get_limit ls pool = 2147483647.
Proof.
  set (it := fun n => {| li_condition := true; li_pool := [108%N]; li_count := Some n |}).
  exists [it 2; it 0], [108%N], [2; 0], 2. eexists. split; [|split; [|split]].
  - constructor; [|constructor; [|constructor]]; intros _; (split; [discriminate|]; eexists; split; [reflexivity|lia]).
  - repeat constructor.
  - apply chosen_least; [now left|lia|]. intros k [<-|[<-|[]]]; lia.
  - split; [reflexivity|]. split; [discriminate|reflexivity].
Qed.

(** ** C127: the option *)
(** A list of limits as the user writes it. *)
Fixpoint written (l : list (str * str)) : str :=
  match l with
  | [] => []
  | [(p, n)] => p ++ 58%N :: n
  | (p, n) :: r => p ++ 58%N :: n ++ 44%N :: written r
  end.
Definition plain_pool (p : str) : Prop := p <> [] /\ ~ In 44%N p /\ ~ In 58%N p.
Definition a_number (to_int : str -> option Z) (n : str) (z : Z) : Prop := n <> [] /\ ~ In 44%N n /\ to_int n = Some z.

Lemma split_plain c w : ~ In c w -> split_at c w = [w].
Proof.
  induction w as [|x w IH]; intros H; [reflexivity|]. cbn [split_at]. rewrite (proj2 (N.eqb_neq x c)) by (intros ->; apply H; now left).
  rewrite IH; [reflexivity|]. intros X. apply H. now right.
Qed.
Lemma split_cons c w r : ~ In c w -> split_at c (w ++ c :: r) = w :: split_at c r.
Proof.
  induction w as [|x w IH]; intros H; cbn [app split_at]; [now rewrite N.eqb_refl|]. rewrite (proj2 (N.eqb_neq x c)) by (intros ->; apply H; now left).
  rewrite IH; [reflexivity|]. intros X. apply H. now right.
Qed.
Lemma split_inv c s : exists w ws, split_at c s = w :: ws /\ ~ In c w /\ (ws = [] -> s = w) /\ (ws <> [] -> exists r, s = w ++ c :: r /\ split_at c r = ws).
Proof.
  induction s as [|x s (w & ws & E & H1 & H2 & H3)].
  - exists [], []. repeat split; auto. congruence.
  - cbn [split_at]. destruct (N.eqb_spec x c) as [->|Q].
    + exists [], (split_at c s). split; [reflexivity|]. split; [intros []|]. split; [intros X; rewrite X in E; discriminate|]. intros _. exists s. now split.
    + rewrite E. exists (x :: w), ws. split; [reflexivity|]. split; [intros [X|X]; [congruence|now apply H1]|]. split; [intros X; now rewrite (H2 X)|].
      intros X. destruct (H3 X) as (r & -> & R). now exists r.
Qed.
Lemma cut_at c p n : ~ In c p -> cut c (p ++ c :: n) = Some (p, n).
Proof.
  induction p as [|x p IH]; intros H; cbn [app cut]; [now rewrite N.eqb_refl|]. rewrite (proj2 (N.eqb_neq x c)) by (intros ->; apply H; now left).
  rewrite IH; [reflexivity|]. intros X. apply H. now right.
Qed.
Lemma cut_inv c s : forall a b, cut c s = Some (a, b) -> s = a ++ c :: b /\ ~ In c a.
Proof.
  induction s as [|x s IH]; intros a b H; [discriminate|]. cbn [cut] in H. destruct (N.eqb_spec x c) as [->|Q]; [injection H as <- <-; split; [reflexivity|intros []]|].
  destruct (cut c s) as [[a' b']|]; [|discriminate]. injection H as <- <-. destruct (IH a' b' eq_refl) as [-> H]. split; [reflexivity|]. intros [X|X]; [congruence|now apply H].
Qed.
(** What is written as documented is read, and nothing else: then the limits are those given, in this order (a
    later one for the same pool counts, see [asked] in JobLimitsTheorems.v). *)
Theorem limits_option_exact to_int s r : parse_option to_int [] s = Some r <->
  exists (l : list (str * str)) (zs : list Z), l <> [] /\ s = written l /\ Forall (fun pn => plain_pool (fst pn)) l /\
    Forall2 (fun pn z => a_number to_int (snd pn) z) l zs /\ r = made (combine (map fst l) zs).
Proof.
  unfold parse_option.
  assert (M : forall l (zs : list Z) acc, length l = length zs -> Forall2 (fun pn z => a_number to_int (snd pn) z) l zs -> Forall (fun pn => plain_pool (fst pn)) l ->
    parse_limits to_int acc (map (fun pn => fst pn ++ 58%N :: snd pn) l) = Some (fold_left (fun ls c => set_limit ls (job_limit (fst c) (snd c))) (combine (map fst l) zs) acc)).
  { induction l as [|[p n] l IH]; intros zs acc L F P; inversion F as [|? z ? zs' (N1 & N2 & N3) F']; subst; [reflexivity|].
    inversion P as [|? ? (P1 & P2 & P3) P']; subst. cbn [map fst snd combine fold_left parse_limits] in *.
    rewrite (cut_at 58%N p n P3). destruct p as [|x p]; [congruence|]. destruct n as [|y n]; [congruence|].
    rewrite N3. apply IH; [now injection L|exact F'|exact P']. }
  assert (W : forall l, l <> [] -> Forall (fun pn => plain_pool (fst pn) /\ ~ In 44%N (snd pn)) l -> split_at 44 (written l) = map (fun pn => fst pn ++ 58%N :: snd pn) l).
  { induction l as [|[p n] l IH]; intros H P; [congruence|]. inversion P as [|? ? [(P1 & P2 & P3) P4] P']; subst. cbn [fst snd] in *.
    assert (Q : ~ In 44%N (p ++ 58%N :: n)) by (intros X; apply in_app_or in X; destruct X as [X|[X|X]]; [auto|discriminate|auto]).
    destruct l as [|[p' n'] l].
    - cbn [written map fst snd]. now apply split_plain.
    - change (written ((p, n) :: (p', n') :: l)) with (p ++ 58%N :: n ++ 44%N :: written ((p', n') :: l)).
      replace (p ++ 58%N :: n ++ 44%N :: written ((p', n') :: l)) with ((p ++ 58%N :: n) ++ 44%N :: written ((p', n') :: l)) by (rewrite <- app_assoc; reflexivity).
      rewrite (split_cons 44%N _ _ Q). cbn [map fst snd] in *. f_equal. apply IH; [discriminate|exact P']. }
  split.
  - assert (Inv : forall ws acc, parse_limits to_int acc ws = Some r -> Forall (fun w => ~ In 44%N w) ws ->
      exists l zs, ws = map (fun pn => fst pn ++ 58%N :: snd pn) l /\ Forall (fun pn => plain_pool (fst pn)) l /\ Forall2 (fun pn z => a_number to_int (snd pn) z) l zs).
    { induction ws as [|w ws IH]; intros acc H P; [exists [], []; repeat constructor|]. inversion P as [|? ? P1 P2]; subst. cbn [parse_limits] in H.
      destruct (cut 58 w) as [[[|x p] [|y n]]|] eqn:C; try discriminate. destruct (to_int (y :: n)) as [z|] eqn:T; [|discriminate].
      apply cut_inv in C. destruct C as [-> C]. destruct (IH _ H P2) as (l & zs & -> & L1 & L2). exists ((x :: p, y :: n) :: l), (z :: zs). split; [reflexivity|]. split.
      - constructor; [|exact L1]. split; [discriminate|]. split; [|exact C]. intros X. apply P1, in_or_app. now left.
      - constructor; [|exact L2]. split; [discriminate|]. split; [|exact T]. intros X. apply P1, in_or_app. right. now right. }
    intros H. assert (Sp : Forall (fun w => ~ In 44%N w) (split_at 44 s)).
    { clear. enough (G : forall k s, (length s <= k)%nat -> Forall (fun w => ~ In 44%N w) (split_at 44 s)) by (now apply (G (length s))).
      induction k as [|k IH]; intros t L; destruct (split_inv 44 t) as (w & ws & E & H1 & H2 & H3); rewrite E; constructor; try exact H1.
      - destruct ws as [|w' ws]; [constructor|]. destruct (H3 ltac:(discriminate)) as (r & -> & _). rewrite app_length in L. cbn in L. lia.
      - destruct ws as [|w' ws]; [constructor|]. destruct (H3 ltac:(discriminate)) as (r & -> & R). rewrite <- R. apply IH. rewrite app_length in L. cbn in L. lia. }
    destruct (Inv _ _ H Sp) as (l & zs & E & L1 & L2). exists l, zs.
    assert (Nn : l <> []) by (intros ->; destruct (split_inv 44 s) as (w & ws & E' & _); rewrite E' in E; discriminate).
    assert (Len : length l = length zs) by (clear - L2; induction L2; cbn; congruence).
    split; [exact Nn|]. split; [|split; [exact L1|split; [exact L2|]]].
    + assert (LL : Forall (fun pn => plain_pool (fst pn) /\ ~ In 44%N (snd pn)) l).
      { clear - L1 L2. induction L2 as [|pn z l zs (A & B & C) L2 IH]; [constructor|]. inversion L1; subst. constructor; [now split|now apply IH]. }
      clear - E Nn LL. revert s E. induction l as [|[p n] l IH]; intros s E; [congruence|]. cbn [map fst snd] in E. destruct (split_inv 44 s) as (w & ws & E' & H1 & H2 & H3).
      rewrite E' in E. injection E as Ew Ews. destruct l as [|[p' n'] l].
      * cbn in Ews. rewrite (H2 Ews). exact Ew.
      * destruct (H3 ltac:(rewrite Ews; discriminate)) as (r & -> & R). rewrite Ews in R. inversion LL; subst. rewrite (IH ltac:(discriminate) H5 r R).
        change (written ((p, n) :: (p', n') :: l)) with (p ++ 58%N :: n ++ 44%N :: written ((p', n') :: l)). rewrite <- app_assoc. reflexivity.
    + rewrite E, (M l zs [] Len L2 L1) in H. injection H as <-. reflexivity.
  - intros (l & zs & Nn & -> & L1 & L2 & ->). assert (Len : length l = length zs) by (clear - L2; induction L2; cbn; congruence).
    rewrite W; [exact (M l zs [] Len L2 L1)|exact Nn|].
    clear - L1 L2. induction L2 as [|pn z l zs (A & B & C) L2 IH]; [constructor|]. inversion L1; subst. constructor; [now split|now apply IH].
Qed.
(** A negative number is accepted by the option, and means no limit. *)
Theorem limits_option_negative_refuted : exists (to_int : str -> option Z) s n ls, to_int n = Some (-1) /\ s = [108%N] ++ 58%N :: n /\
  parse_option to_int [] s = Some ls /\ get_limit ls [108%N] = -1.
Proof.
  exists (fun _ => Some (-1)), [108; 58; 45; 49]%N, [45; 49]%N. eexists. split; [reflexivity|]. split; [reflexivity|]. split; reflexivity.
Qed.

Module Demo.
  Definition it (c : bool) (p : N) (n : Z) := {| li_condition := c; li_pool := [p]; li_count := Some n |}.
  (** Limits for the pools 1, 2 and 3 in a product, its project, the parent project, and two modules. *)
  Definition prod := [it true 1 4; it false 1 1; it true 1 3].
  Definition projs := [[it true 2 7]; [it true 2 2; it true 1 1]].
  Definition mods := [(true, [it true 3 0; it true 3 9]); (false, [it true 3 1]); (true, [it true 3 5; it true 2 1])].
  Example all_levels : option_map (fun ls => map (fun p => get_limit ls [p]) [1; 2; 3; 4]%N) (product_limits prod projs mods) = Some [3; 7; 5; -1].
  Proof. reflexivity. Qed.
  Example sane_all : Forall sane prod /\ Forall (Forall sane) projs /\ Forall (fun m => Forall sane (snd m)) mods.
  Proof.
    assert (X : forall c p n, 0 <= n <= 9 -> sane (it c p n)) by (intros c p n H _; split; [discriminate|]; exists n; split; [reflexivity|lia]).
    split; [|split]; repeat (apply Forall_cons || apply Forall_nil || (apply X; lia)).
  Qed.
  Example mods_three : mods_give mods [3%N] [0; 9; 5] /\ chosen [0; 9; 5] (Some 5).
  Proof.
    split.
    - apply (mods_present _ _ _ [0; 9] [5]).
      + repeat constructor.
      + exists [0], [9]. repeat constructor.
      + apply mods_absent. apply (mods_present _ _ _ [5] []); [|exists [], [5]; repeat constructor|constructor].
        apply gives_this. apply gives_other; [right; discriminate|constructor].
    - apply chosen_least; [now right; right; left|lia|]. intros k [<-|[<-|[<-|[]]]]; lia.
  Qed.
  Example no_pool : product_limits [{| li_condition := true; li_pool := []; li_count := Some 1 |}] [] [] = None.
  Proof. reflexivity. Qed.
  Definition digit (s : str) : option Z := match s with [d] => if N.leb 48 d && N.leb d 57 then Some (Z.of_N (d - 48)) else None | _ => None end.
  Example two_pools : parse_option digit [] [97; 58; 52; 44; 98; 98; 58; 50]%N = Some [([97%N], 4); ([98%N; 98%N], 2)].
  Proof. reflexivity. Qed.
  Example two_pools_written : written [([97%N], [52%N]); ([98%N; 98%N], [50%N])] = [97; 58; 52; 44; 98; 98; 58; 50]%N.
  Proof. reflexivity. Qed.
  Example missing_number : parse_option digit [] [97; 58]%N = None.
  Proof. reflexivity. Qed.
End Demo.

Print Assumptions gives_total.
Print Assumptions product_job_limits_partial.
Print Assumptions product_job_limits_errors.
Print Assumptions product_job_limits_refuted.
Print Assumptions limits_option_exact.
Print Assumptions limits_option_negative_refuted.
