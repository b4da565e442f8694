(** What users can rely on when items inherit from items of other files: which value a
    property gets and what base stands for, which bindings are refused, what read-only
    means, and where children end up. *)
From Coq Require Import List NArith Bool Arith Lia.
From Verif Require Import InheritModel.
Import ListNotations.
Local Open Scope N_scope.

(** * Specification *)

(** What a member says: a name of one or several parts, and a text. *)
Definition says (m : member) : list N * source :=
  match m with
  | Declares n _ None => ([n], NoText)
  | Declares n _ (Some s) => ([n], Written s)
  | Binds front last s => (front ++ [last], Written s)
  end.

Definition same_path (p q : list N) : bool := if list_eq_dec N.eq_dec p q then true else false.

(** The last member for a name. *)
Fixpoint last_said (p : list N) (ms : list member) : option source :=
  match ms with
  | [] => None
  | m :: r =>
      match last_said p r with
      | Some s => Some s
      | None => if same_path (fst (says m)) p then Some (snd (says m)) else None
      end
  end.

(** The conditional values for a name, in the order of the file, those for otherwise at the
    end. *)
Definition hits (p : list N) (bs : list (option N * list member)) : list (option N * source) :=
  flat_map (fun b => match last_said p (snd b) with Some s => [(fst b, s)] | None => [] end) bs.

Definition conditional {X} (a : option N * X) : bool :=
  match fst a with Some _ => true | None => false end.

Definition conditionals (p : list N) (bs : list (option N * list member))
    : list (option N * source) :=
  filter conditional (hits p bs) ++ filter (fun a => negb (conditional a)) (hits p bs).

(** One file adds a layer to the value of the files below it, or leaves it alone. *)
Definition layer (p : list N) (l : level) (below : option jsval) : option jsval :=
  match last_said p (lmembers l), conditionals p (lblocks l) with
  | None, [] => below
  | o, alts =>
      Some (J (match o with Some s => s | None => PassBase end)
              (map (fun a => (fst a, snd a, below)) alts) below)
  end.

Fixpoint initial (bs : list (N * declaration * N)) (p : list N) : option jsval :=
  match bs with
  | [] => None
  | ((n, _), v) :: r => if same_path [n] p then Some (J (Builtin v) [] None) else initial r p
  end.

(** The value of a property in an item that inherits from [ups], nearest first. *)
Fixpoint expected (bs : list (N * declaration * N)) (l : level) (ups : list level)
    (p : list N) : option jsval :=
  match ups with
  | [] => match layer p l None with Some v => Some v | None => initial bs p end
  | u :: r => layer p l (expected bs u r p)
  end.

(** Names in the same file, none of which is the beginning of the other. *)
Definition begins (p q : list N) : Prop := exists t, q = p ++ t.
Definition apart (p q : list N) : Prop := p = q \/ (~ begins p q /\ ~ begins q p).

Definition said (l : level) : list (list N) :=
  map (fun m => fst (says m)) (lmembers l ++ concat (map snd (lblocks l))).

(** What an item holds under a name. *)
Fixpoint value_at (p : list N) (ps : props) : option jsval :=
  match p with
  | [] => None
  | x :: r =>
      match r with
      | [] => match pick x ps with Some (Js v) => Some v | _ => None end
      | _ => match pick x ps with Some (Sub q) => value_at r q | _ => None end
      end
  end.

Definition builtin_names (bs : list (N * declaration * N)) : list N :=
  map (fun b => fst (fst b)) bs.

(** * Proofs *)

Lemma pick_enter_same {X} : forall n (v : X) ps, pick n (enter n v ps) = Some v.
Proof.
  induction ps as [|[m w] r IH]; cbn.
  - rewrite N.eqb_refl. reflexivity.
  - destruct (m =? n) eqn:E; cbn.
    + rewrite N.eqb_refl. reflexivity.
    + rewrite E. exact IH.
Qed.

Lemma pick_enter_other {X} : forall n k (v : X) ps, n <> k ->
  pick k (enter n v ps) = pick k ps.
Proof.
  intros n k v ps D. induction ps as [|[m w] r IH]; cbn.
  - destruct (N.eqb_spec n k); [contradiction|reflexivity].
  - destruct (N.eqb_spec m n) as [Q|Q]; cbn.
    + subst m. destruct (N.eqb_spec n k); [contradiction|reflexivity].
    + destruct (m =? k); [reflexivity|exact IH].
Qed.

Lemma pick_in {X} : forall n (v : X) ps, pick n ps = Some v -> In n (map fst ps).
Proof.
  induction ps as [|[m w] r IH]; cbn; intros E; [discriminate|].
  destruct (N.eqb_spec m n) as [Q|Q]; [now left|right; apply IH; exact E].
Qed.

Lemma pick_none {X} : forall n (ps : list (N * X)), ~ In n (map fst ps) -> pick n ps = None.
Proof.
  intros n ps H. destruct (pick n ps) eqn:E; [|reflexivity].
  elim H. eapply pick_in. exact E.
Qed.

Lemma enter_names {X} : forall n (v : X) ps k,
  In k (map fst (enter n v ps)) <-> k = n \/ In k (map fst ps).
Proof.
  intros n v ps k. induction ps as [|[m w] r IH]; cbn; [intuition congruence|].
  destruct (N.eqb_spec m n) as [Q|Q]; cbn; [subst m; intuition congruence|].
  rewrite IH. intuition congruence.
Qed.

Lemma enter_nodup {X} : forall n (v : X) ps, NoDup (map fst ps) -> NoDup (map fst (enter n v ps)).
Proof.
  intros n v ps. induction ps as [|[m w] r IH]; cbn; intros H.
  - constructor; [intros []|constructor].
  - inversion H as [|? ? H1 H2]; subst.
    destruct (N.eqb_spec m n) as [Q|Q]; cbn.
    + subst m. constructor; assumption.
    + constructor; [|apply IH; exact H2].
      rewrite enter_names. intros [Q2|Q2]; [congruence|contradiction].
Qed.

Inductive neat : props -> Prop :=
  Neat : forall ps, NoDup (map fst ps) -> (forall k q, pick k ps = Some (Sub q) -> neat q) ->
    neat ps.

Lemma neat_nil : neat [].
Proof. constructor; [constructor|intros k q E; discriminate E]. Qed.

Definition neat_value (v : pval) : Prop := match v with Js _ => True | Sub q => neat q end.

Lemma neat_enter : forall k v ps, neat ps -> neat_value v -> neat (enter k v ps).
Proof.
  intros k v ps H Hv. inversion H as [ps' H1 H2]; subst.
  constructor; [apply enter_nodup; exact H1|].
  intros j q E. destruct (N.eq_dec k j) as [Q|Q].
  - subst j. rewrite pick_enter_same in E. inversion E; subst v. exact Hv.
  - rewrite pick_enter_other in E by exact Q. eapply H2. exact E.
Qed.

(** The name is free or has a plain value, and the names in front of it are items. *)
Fixpoint free (p : list N) (ps : props) : Prop :=
  match p with
  | [] => False
  | x :: r =>
      match r with
      | [] => match pick x ps with Some (Sub _) => False | _ => True end
      | _ => match pick x ps with
             | None => True
             | Some (Sub q) => free r q
             | Some (Js _) => False
             end
      end
  end.

Lemma free_nil : forall p, p <> [] -> free p [].
Proof. intros [|x [|y r]] H; [contradiction| exact Logic.I | exact Logic.I]. Qed.

Lemma value_nil : forall p, value_at p [] = None.
Proof. intros [|x [|y r]]; reflexivity. Qed.

Lemma apart_tail : forall x p q, apart (x :: p) (x :: q) -> apart p q.
Proof.
  intros x p q [E|[A B]].
  - left. congruence.
  - right. split; intros [t E].
    + apply A. exists t. cbn. now rewrite E.
    + apply B. exists t. cbn. now rewrite E.
Qed.

Lemma apart_sym : forall p q, apart p q -> apart q p.
Proof. intros p q [E|[A B]]; [left; congruence|right; split; assumption]. Qed.

Lemma same_path_refl : forall p, same_path p p = true.
Proof. intros p. unfold same_path. destruct (list_eq_dec N.eq_dec p p); congruence. Qed.

Lemma same_path_true : forall p q, same_path p q = true -> p = q.
Proof. intros p q. unfold same_path. destruct (list_eq_dec N.eq_dec p q); congruence. Qed.

Lemma same_path_cons : forall x p q, same_path (x :: p) (x :: q) = same_path p q.
Proof.
  intros x p q. unfold same_path.
  destruct (list_eq_dec N.eq_dec (x :: p) (x :: q)); destruct (list_eq_dec N.eq_dec p q);
    congruence.
Qed.

Lemma same_path_heads : forall x y p q, x <> y -> same_path (x :: p) (y :: q) = false.
Proof.
  intros x y p q D. unfold same_path.
  destruct (list_eq_dec N.eq_dec (x :: p) (y :: q)); congruence.
Qed.

(** Entering at another first name changes nothing. *)
Lemma enter_elsewhere : forall x y r v ps, y <> x ->
  (free (x :: r) ps -> free (x :: r) (enter y v ps)) /\
  value_at (x :: r) (enter y v ps) = value_at (x :: r) ps.
Proof.
  intros x y r v ps D. cbn [free value_at]. rewrite pick_enter_other by exact D.
  split; [intros H; exact H|reflexivity].
Qed.

(** Entering a plain value under a single name. *)
Lemma enter_plain : forall p n v ps, p <> [] -> apart p [n] -> free p ps ->
  free p (enter n (Js v) ps) /\
  value_at p (enter n (Js v) ps) = if same_path [n] p then Some v else value_at p ps.
Proof.
  intros p n v ps Hp A F. destruct p as [|x r]; [contradiction|].
  destruct (N.eq_dec n x) as [Q|Q].
  - subst x. destruct r as [|y r].
    + rewrite same_path_refl. cbn [free value_at]. rewrite pick_enter_same. split; [exact Logic.I|reflexivity].
    + exfalso. destruct A as [E|[_ B]]; [discriminate E|]. apply B. exists (y :: r). reflexivity.
  - rewrite same_path_heads by exact Q.
    destruct (enter_elsewhere x n r (Js v) ps Q) as [E1 E2]. split; [apply E1; exact F|exact E2].
Qed.

Lemma value_cons : forall x r ps, r <> [] ->
  value_at (x :: r) ps = match pick x ps with Some (Sub q) => value_at r q | _ => None end.
Proof. intros x [|y r] ps H; [contradiction|reflexivity]. Qed.

Lemma free_cons : forall x r ps, r <> [] ->
  free (x :: r) ps = match pick x ps with
             | None => True
             | Some (Sub q) => free r q
             | Some (Js _) => False
             end.
Proof. intros x [|y r] ps H; [contradiction|reflexivity]. Qed.

Lemma bind_at_spec : forall f last s ps ps' p, bind_at f last s ps = Got ps' -> p <> [] ->
  apart p (f ++ [last]) -> free p ps ->
  free p ps' /\
  value_at p ps' = if same_path (f ++ [last]) p then Some (J s [] None) else value_at p ps.
Proof.
  induction f as [|y f IH]; intros last s ps ps' p E Hp A F; cbn [bind_at app] in *.
  - destruct (holds_name last ps); [discriminate|]. inversion E; subst ps'.
    apply enter_plain; assumption.
  - destruct p as [|x r]; [contradiction|].
    destruct (N.eq_dec y x) as [Q|Q].
    + subst x. rewrite same_path_cons.
      assert (Hr : r <> []).
      { intros ->. destruct A as [A|[A _]]; [destruct f; discriminate A|].
        apply A. exists (f ++ [last]). reflexivity. }
      apply apart_tail in A.
      rewrite free_cons in F by exact Hr.
      destruct (pick y ps) as [[v|q0]|] eqn:P; [discriminate| |].
      * destruct (bind_at f last s q0) as [q|] eqn:B; [|discriminate].
        cbn [bind] in E. inversion E; subst ps'.
        rewrite free_cons, value_cons, value_cons, pick_enter_same, P by exact Hr.
        exact (IH _ _ _ _ r B Hr A F).
      * destruct (bind_at f last s []) as [q|] eqn:B; [|discriminate].
        cbn [bind] in E. inversion E; subst ps'.
        rewrite free_cons, value_cons, value_cons, pick_enter_same, P by exact Hr.
        destruct (IH _ _ _ _ r B Hr A (free_nil r Hr)) as [F' V'].
        split; [exact F'|]. rewrite V', value_nil. reflexivity.
    + rewrite same_path_heads by exact Q.
      assert (exists v, ps' = enter y v ps) as [v ->].
      { destruct (pick y ps) as [[v|q0]|]; [discriminate| |].
        - destruct (bind_at f last s q0); [|discriminate]. inversion E. eexists; reflexivity.
        - destruct (bind_at f last s []); [|discriminate]. inversion E. eexists; reflexivity. }
      destruct (enter_elsewhere x y r v ps Q) as [E1 E2]. split; [apply E1; exact F|exact E2].
Qed.

Lemma bind_at_neat : forall f last s ps ps', bind_at f last s ps = Got ps' -> neat ps -> neat ps'.
Proof.
  induction f as [|y f IH]; intros last s ps ps' E H; cbn [bind_at] in E.
  - destruct (holds_name last ps); [discriminate|]. inversion E.
    apply neat_enter; [exact H|exact Logic.I].
  - destruct (pick y ps) as [[v|q0]|] eqn:P; [discriminate| |].
    + destruct (bind_at f last s q0) as [q|] eqn:B; [|discriminate]. inversion E.
      apply neat_enter; [exact H|]. inversion H as [? _ H2]; subst.
      exact (IH _ _ _ _ B (H2 _ _ P)).
    + destruct (bind_at f last s []) as [q|] eqn:B; [|discriminate]. inversion E.
      apply neat_enter; [exact H|]. exact (IH _ _ _ _ B neat_nil).
Qed.

Lemma read_member_spec : forall m ps ds ps' ds' p, read_member m (ps, ds) = Got (ps', ds') ->
  p <> [] -> apart p (fst (says m)) -> free p ps ->
  free p ps' /\
  value_at p ps' = if same_path (fst (says m)) p then Some (J (snd (says m)) [] None)
                   else value_at p ps.
Proof.
  intros [n d [s|]|f x s] ps ds ps' ds' p E Hp A F; cbn [read_member says fst snd] in *.
  - destruct (holds_name n ps); [discriminate|]. inversion E; subst. apply enter_plain; assumption.
  - inversion E; subst. apply enter_plain; assumption.
  - destruct (bind_at f x (Written s) ps) as [q|] eqn:B; [|discriminate].
    inversion E; subst. eapply bind_at_spec; eassumption.
Qed.

Lemma read_member_neat : forall m ps ds ps' ds', read_member m (ps, ds) = Got (ps', ds') ->
  neat ps -> neat ps'.
Proof.
  intros [n d [s|]|f x s] ps ds ps' ds' E H; cbn [read_member] in E.
  - destruct (holds_name n ps); [discriminate|]. inversion E. apply neat_enter; [exact H|exact Logic.I].
  - inversion E. apply neat_enter; [exact H|exact Logic.I].
  - destruct (bind_at f x (Written s) ps) as [q|] eqn:B; [|discriminate].
    inversion E; subst. eapply bind_at_neat; eassumption.
Qed.

Lemma read_members_spec : forall p, p <> [] -> forall ms ps ds ps' ds',
  read_members ms (ps, ds) = Got (ps', ds') ->
  Forall (fun m => apart p (fst (says m))) ms -> free p ps -> neat ps ->
  free p ps' /\ neat ps' /\
  value_at p ps' = match last_said p ms with
                   | Some s => Some (J s [] None)
                   | None => value_at p ps
                   end.
Proof.
  intros p Hp. induction ms as [|m r IH]; intros ps ds ps' ds' E A F H; cbn [read_members] in E.
  - inversion E; subst. split; [exact F|]. split; [exact H|reflexivity].
  - destruct (read_member m (ps, ds)) as [[ps1 ds1]|] eqn:M; [|discriminate].
    cbn [bind] in E. inversion A as [|? ? A1 A2]; subst.
    destruct (read_member_spec _ _ _ _ _ p M Hp A1 F) as [F1 V1].
    destruct (IH _ _ _ _ E A2 F1 (read_member_neat _ _ _ _ _ M H)) as [F2 [H2 V2]].
    split; [exact F2|]. split; [exact H2|]. rewrite V2. cbn [last_said].
    destruct (last_said p r); [reflexivity|]. rewrite V1.
    destruct (same_path (fst (says m)) p); reflexivity.
Qed.

(** ** Properties items *)

Lemma apply_sub : forall c n ips outer, apply_value c n (Sub ips) outer =
  bind (apply_props c ips (match outer with Some (Sub q) => q | _ => [] end))
       (fun q => Got (Sub q)).
Proof.
  intros c n ips outer. cbn [apply_value].
  f_equal.
  match goal with |- ?g ?l ?a = _ => change (g l a = apply_props c l a); generalize a end.
  induction ips as [|[k v] r IH]; intros q; [reflexivity|].
  cbn [apply_props]. destruct (apply_value c k v (pick k q)); cbn [bind]; [apply IH|reflexivity].
Qed.

Lemma apply_pick : forall c l q q', apply_props c l q = Got q' -> NoDup (map fst l) ->
  forall k, match pick k l with
            | None => pick k q' = pick k q
            | Some v => exists w, apply_value c k v (pick k q) = Got w /\ pick k q' = Some w
            end.
Proof.
  intros c. induction l as [|[j v] r IH]; intros q q' E H k; cbn [apply_props] in E.
  - inversion E. reflexivity.
  - destruct (apply_value c j v (pick j q)) as [w|] eqn:V; [|discriminate].
    cbn [bind] in E. inversion H as [|? ? H1 H2]; subst.
    specialize (IH _ _ E H2 k). cbn [pick].
    destruct (N.eqb_spec j k) as [Q|Q].
    + subst k. rewrite (pick_none j r H1), pick_enter_same in IH.
      exists w. split; assumption.
    + rewrite pick_enter_other in IH by exact Q. exact IH.
Qed.

Lemma apply_nodup : forall c l q q', apply_props c l q = Got q' -> NoDup (map fst q) ->
  NoDup (map fst q').
Proof.
  intros c. induction l as [|[j v] r IH]; intros q q' E H; cbn [apply_props] in E.
  - inversion E; subst. exact H.
  - destruct (apply_value c j v (pick j q)) as [w|]; [|discriminate].
    cbn [bind] in E. eapply IH; [exact E|]. apply enter_nodup. exact H.
Qed.

Lemma apply_neat : forall c l, neat l -> forall q q', apply_props c l q = Got q' -> neat q ->
  neat q'.
Proof.
  intros c l H. induction H as [l N1 N2 IH]; intros q q' E Hq.
  inversion Hq as [q0 Q1 Q2]; subst q0.
  constructor; [eapply apply_nodup; eassumption|].
  intros k s P. pose proof (apply_pick c l q q' E N1 k) as K.
  destruct (pick k l) as [[v|ips]|] eqn:L.
  - destruct K as [w [K1 K2]]. rewrite K2 in P. inversion P; subst w.
    destruct v as [s0 a0 b0]. cbn [apply_value] in K1.
    destruct (pick k q) as [[[s1 a1 b1]|q1]|]; [|discriminate|discriminate].
    destruct (add_alternative (c, s0, None) a1); discriminate.
  - destruct K as [w [K1 K2]]. rewrite K2 in P. inversion P; subst w.
    rewrite apply_sub in K1.
    destruct (apply_props c ips match pick k q with Some (Sub q0) => q0 | _ => [] end)
      as [r|] eqn:R; [|discriminate].
    cbn [bind] in K1. inversion K1; subst r.
    eapply IH; [exact L|exact R|].
    destruct (pick k q) as [[v1|q1]|] eqn:PQ; [apply neat_nil|eapply Q2; exact PQ|apply neat_nil].
  - rewrite K in P. eapply Q2. exact P.
Qed.

(** Adding an alternative to a value which may not be there yet. *)
Definition attach (a : option N * source) (o : option jsval) : outcome jsval :=
  match o with
  | None => Got (J PassBase [(fst a, snd a, None)] None)
  | Some (J s0 alts b) =>
      bind (add_alternative (fst a, snd a, None) alts) (fun l => Got (J s0 l b))
  end.

Lemma apply_spec : forall c p, p <> [] -> forall l q q', apply_props c l q = Got q' -> neat l ->
  free p l -> free p q ->
  free p q' /\
  match value_at p l with
  | None => value_at p q' = value_at p q
  | Some (J s _ _) => exists v, attach (c, s) (value_at p q) = Got v /\ value_at p q' = Some v
  end.
Proof.
  intros c p Hp. induction p as [|x r IH]; [contradiction|].
  intros l q q' E H Fl Fq. inversion H as [l0 H1 H2]; subst l0.
  pose proof (apply_pick c l q q' E H1 x) as K.
  destruct r as [|y r].
  - cbn [free value_at] in *.
    destruct (pick x l) as [[[s a b]|ips]|] eqn:L; [|contradiction|].
    + destruct K as [w [K1 K2]]. rewrite K2. cbn [apply_value] in K1.
      destruct (pick x q) as [[[s0 a0 b0]|q0]|]; [|contradiction|].
      * destruct (add_alternative (c, s, None) a0) as [l'|] eqn:Ad; [|discriminate].
        cbn [bind] in K1. inversion K1; subst w. split; [exact Logic.I|].
        exists (J s0 l' b0). cbn [attach fst snd]. rewrite Ad. split; reflexivity.
      * inversion K1; subst w. split; [exact Logic.I|]. eexists. split; reflexivity.
    + rewrite K. split; [exact Fq|reflexivity].
  - set (t := y :: r) in *. assert (Ht : t <> []) by discriminate.
    rewrite free_cons in Fl by exact Ht. rewrite free_cons in Fq by exact Ht.
    rewrite free_cons by exact Ht. rewrite !value_cons by exact Ht.
    destruct (pick x l) as [[v|ips]|] eqn:L; [contradiction| |].
    + destruct K as [w [K1 K2]]. rewrite K2. rewrite apply_sub in K1.
      destruct (pick x q) as [[v1|q1]|] eqn:PQ; [contradiction| |].
      * destruct (apply_props c ips q1) as [q2|] eqn:R; [|discriminate].
        cbn [bind] in K1. inversion K1; subst w.
        exact (IH Ht _ _ _ R (H2 _ _ L) Fl Fq).
      * destruct (apply_props c ips []) as [q2|] eqn:R; [|discriminate].
        cbn [bind] in K1. inversion K1; subst w.
        destruct (IH Ht _ _ _ R (H2 _ _ L) Fl (free_nil t Ht)) as [F2 V2].
        rewrite value_nil in V2. split; [exact F2|exact V2].
    + rewrite K. split; [exact Fq|reflexivity].
Qed.

Fixpoint attach_all (hs : list (option N * source)) (o : option jsval) : outcome (option jsval) :=
  match hs with
  | [] => Got o
  | a :: r => bind (attach a o) (fun v => attach_all r (Some v))
  end.

Lemma blocks_spec : forall p, p <> [] -> forall bs q q', apply_blocks bs q = Got q' ->
  Forall (fun m => apart p (fst (says m))) (concat (map snd bs)) -> free p q -> neat q ->
  free p q' /\ neat q' /\ attach_all (hits p bs) (value_at p q) = Got (value_at p q').
Proof.
  intros p Hp. induction bs as [|[c ms] r IH]; intros q q' E A F H; cbn [apply_blocks] in E.
  - inversion E; subst. split; [exact F|]. split; [exact H|reflexivity].
  - destruct (read_members ms ([], [])) as [[bp bd]|] eqn:R; [|discriminate].
    cbn [bind fst] in E. destruct (apply_props c bp q) as [q1|] eqn:Ap; [|discriminate].
    cbn [bind] in E. cbn [map snd concat] in A. apply Forall_app in A. destruct A as [A1 A2].
    destruct (read_members_spec p Hp _ _ _ _ _ R A1 (free_nil p Hp) neat_nil) as [F1 [H1 V1]].
    rewrite value_nil in V1.
    destruct (apply_spec c p Hp _ _ _ Ap H1 F1 F) as [F2 V2].
    pose proof (apply_neat c bp H1 _ _ Ap H) as H2.
    destruct (IH _ _ E A2 F2 H2) as [F3 [H3 V3]].
    split; [exact F3|]. split; [exact H3|].
    unfold hits in *. cbn [flat_map snd fst]. rewrite V1 in V2.
    destruct (last_said p ms) as [s|].
    + destruct V2 as [v [V2 V4]]. cbn [app attach_all]. rewrite V2. cbn [bind].
      rewrite V4 in V3. exact V3.
    + rewrite V2 in V3. exact V3.
Qed.

(** The order of alternatives. *)
Definition ordinary (a : option N * source * option jsval) : bool := conditional (fst a).

Definition tidy (l : list (option N * source * option jsval)) : Prop :=
  exists a b, l = a ++ b /\ Forall (fun x => ordinary x = true) a /\
    (b = [] \/ exists x, b = [x] /\ ordinary x = false).

Lemma fallback_ordinary : forall a, is_fallback a = negb (ordinary a).
Proof. intros [[[c|] s] b]; reflexivity. Qed.


Lemma add_spec : forall x a b l', Forall (fun x => ordinary x = true) a ->
  (b = [] \/ exists y, b = [y] /\ ordinary y = false) ->
  add_alternative x (a ++ b) = Got l' ->
  l' = a ++ x :: b /\ (ordinary x = false -> b = []).
Proof.
  intros x a b l' Ha Hb. revert l'. induction a as [|y a IH]; intros l' E.
  - destruct Hb as [-> |[y [-> Hy]]]; cbn [app add_alternative] in E.
    + inversion E. split; [reflexivity|reflexivity].
    + rewrite !fallback_ordinary, Hy in E. cbn [negb] in E.
      destruct (ordinary x) eqn:O; cbn [negb] in E; [|discriminate].
      inversion E. split; [reflexivity|discriminate].
  - inversion Ha as [|? ? Hy Ha']; subst. specialize (IH Ha').
    cbn [app add_alternative] in E.
    destruct (a ++ b) as [|z t] eqn:Q.
    + apply app_eq_nil in Q. destruct Q as [-> ->].
      rewrite fallback_ordinary, Hy in E. cbn [negb] in E. inversion E.
      split; [reflexivity|reflexivity].
    + destruct (add_alternative x (z :: t)) as [r'|] eqn:Ad; [|discriminate].
      cbn [bind] in E. inversion E; subst l'.
      destruct (IH r' eq_refl) as [-> I2]. split; [reflexivity|exact I2].
Qed.

Definition wrap (b : option jsval) (a : option N * source) : option N * source * option jsval :=
  (fst a, snd a, b).

Lemma attach_all_some : forall hs s a b o,
  Forall (fun x => conditional x = true) a ->
  (b = [] \/ exists y, b = [y] /\ conditional y = false) ->
  attach_all hs (Some (J s (map (wrap None) (a ++ b)) None)) = Got o ->
  o = Some (J s (map (wrap None) ((a ++ filter conditional hs) ++
                                  b ++ filter (fun x => negb (conditional x)) hs)) None).
Proof.
  induction hs as [|h r IH]; intros s a b o Ha Hb E; cbn [attach_all] in E.
  - inversion E. cbn [filter]. rewrite !app_nil_r. reflexivity.
  - cbn [attach] in E.
    destruct (add_alternative (fst h, snd h, None) (map (wrap None) (a ++ b))) as [l|] eqn:Ad;
      [|discriminate].
    cbn [bind] in E. rewrite map_app in Ad.
    apply add_spec in Ad.
    2:{ apply Forall_map. exact Ha. }
    2:{ destruct Hb as [-> |[y [-> Hy]]]; [left; reflexivity|right].
        exists (wrap None y). split; [reflexivity|exact Hy]. }
    destruct Ad as [-> Ob]. unfold ordinary in Ob. cbn [fst] in Ob.
    change (conditional (fst h, snd h)) with (conditional h) in Ob.
    cbn [filter].
    destruct (conditional h) eqn:C; cbn [negb].
    + replace (map (wrap None) a ++ (fst h, snd h, None) :: map (wrap None) b)
        with (map (wrap None) ((a ++ [h]) ++ b)) in E
        by (rewrite <- app_assoc, map_app; reflexivity).
      apply IH in E; [|apply Forall_app; split; [exact Ha|constructor; [exact C|constructor]]|exact Hb].
      rewrite E. rewrite <- (app_assoc a [h]). reflexivity.
    + assert (b = []) as ->.
      { assert (Q : map (wrap None) b = []).
        { apply Ob. destruct h as [[c|] s1]; [discriminate C|reflexivity]. }
        destruct b; [reflexivity|discriminate Q]. }
      replace (map (wrap None) a ++ (fst h, snd h, None) :: map (wrap None) [])
        with (map (wrap None) (a ++ [h])) in E by (rewrite map_app; reflexivity).
      apply IH in E; [|exact Ha|right; exists h; split; [reflexivity|exact C]].
      exact E.
Qed.

Lemma attach_all_spec : forall hs o o',
  (o = None \/ exists s, o = Some (J s [] None)) -> attach_all hs o = Got o' ->
  o' = match o, filter conditional hs ++ filter (fun x => negb (conditional x)) hs with
       | None, [] => None
       | _, alts => Some (J (match o with Some (J s _ _) => s | None => PassBase end)
                            (map (wrap None) alts) None)
       end.
Proof.
  intros hs o o' [-> |[s ->]] E.
  - destruct hs as [|h r]; [cbn in E; inversion E; reflexivity|].
    cbn [attach_all attach bind] in E.
    destruct (conditional h) eqn:C.
    + apply (attach_all_some r PassBase [h] []) in E;
        [|constructor; [exact C|constructor]|left; reflexivity].
      rewrite E. cbn [filter]. rewrite C. cbn [negb app]. reflexivity.
    + apply (attach_all_some r PassBase [] [h]) in E;
        [|constructor|right; exists h; split; [reflexivity|exact C]].
      rewrite E. cbn [filter]. rewrite C. cbn [negb app].
      destruct (filter conditional r); reflexivity.
  - apply (attach_all_some hs s [] []) in E; [|constructor|left; reflexivity].
    rewrite E. reflexivity.
Qed.

Lemma own_spec : forall l it p, read_own l = Got it -> p <> [] ->
  Forall (apart p) (said l) ->
  free p (iprops it) /\ neat (iprops it) /\ value_at p (iprops it) = layer p l None.
Proof.
  intros l it p E Hp A. unfold read_own in E.
  destruct (read_members (lmembers l) ([], [])) as [[ps ds]|] eqn:R; [|discriminate].
  cbn [bind fst snd] in E.
  destruct (apply_blocks (lblocks l) ps) as [ps'|] eqn:B; [|discriminate].
  cbn [bind] in E. inversion E; subst it. cbn [iprops].
  unfold said in A. rewrite Forall_map in A. apply Forall_app in A. destruct A as [A1 A2].
  destruct (read_members_spec p Hp _ _ _ _ _ R A1 (free_nil p Hp) neat_nil) as [F1 [H1 V1]].
  destruct (blocks_spec p Hp _ _ _ B A2 F1 H1) as [F2 [H2 V2]].
  split; [exact F2|]. split; [exact H2|].
  rewrite value_nil in V1. rewrite V1 in V2. apply attach_all_spec in V2.
  - rewrite V2. unfold layer, conditionals, wrap.
    destruct (last_said p (lmembers l)); [reflexivity|]. reflexivity.
  - destruct (last_said p (lmembers l)) as [s|]; [right; exists s; reflexivity|left; reflexivity].
Qed.

(** ** Inheriting *)

Lemma inherit_sub : forall n sps dps, inherit_value n (Sub sps) (Sub dps) =
  bind (inherit_props sps dps) (fun q => Got (Sub q)).
Proof.
  reflexivity.
Qed.

Lemma inherit_pick : forall l q q', inherit_props l q = Got q' -> NoDup (map fst l) ->
  forall k, match pick k l with
            | None => pick k q' = pick k q
            | Some v => match pick k q with
                        | None => pick k q' = Some v
                        | Some d => exists w, inherit_value k v d = Got w /\ pick k q' = Some w
                        end
            end.
Proof.
  induction l as [|[j v] r IH]; intros q q' E H k; cbn [inherit_props] in E.
  - inversion E. reflexivity.
  - inversion H as [|? ? H1 H2]; subst. cbn [pick].
    destruct (pick j q) as [d|] eqn:P.
    + destruct (inherit_value j v d) as [w|] eqn:V; [|discriminate]. cbn [bind] in E.
      specialize (IH _ _ E H2 k).
      destruct (N.eqb_spec j k) as [Q|Q].
      * subst k. rewrite (pick_none j r H1), pick_enter_same in IH. rewrite P.
        exists w. split; assumption.
      * rewrite pick_enter_other in IH by exact Q. exact IH.
    + specialize (IH _ _ E H2 k).
      destruct (N.eqb_spec j k) as [Q|Q].
      * subst k. rewrite (pick_none j r H1), pick_enter_same in IH. rewrite P. exact IH.
      * rewrite pick_enter_other in IH by exact Q. exact IH.
Qed.

Lemma inherit_nodup : forall l q q', inherit_props l q = Got q' -> NoDup (map fst q) ->
  NoDup (map fst q').
Proof.
  induction l as [|[j v] r IH]; intros q q' E H; cbn [inherit_props] in E.
  - inversion E; subst. exact H.
  - destruct (pick j q) as [d|].
    + destruct (inherit_value j v d) as [w|]; [|discriminate].
      cbn [bind] in E. eapply IH; [exact E|]. apply enter_nodup. exact H.
    + eapply IH; [exact E|]. apply enter_nodup. exact H.
Qed.

Lemma inherit_neat : forall l, neat l -> forall q q', inherit_props l q = Got q' -> neat q ->
  neat q'.
Proof.
  intros l H. induction H as [l N1 N2 IH]; intros q q' E Hq.
  inversion Hq as [q0 Q1 Q2]; subst q0.
  constructor; [eapply inherit_nodup; eassumption|].
  intros k s P. pose proof (inherit_pick l q q' E N1 k) as K.
  destruct (pick k l) as [v|] eqn:L; [|rewrite K in P; eapply Q2; exact P].
  destruct (pick k q) as [d|] eqn:PQ.
  - destruct K as [w [K1 K2]]. rewrite K2 in P. inversion P; subst w.
    destruct v as [v|sps]; destruct d as [d|dps].
    + cbn [inherit_value] in K1. destruct (set_base d v); discriminate.
    + discriminate.
    + discriminate.
    + rewrite inherit_sub in K1. destruct (inherit_props sps dps) as [r|] eqn:R; [|discriminate].
      cbn [bind] in K1. inversion K1; subst r.
      eapply IH; [exact L|exact R|eapply Q2; exact PQ].
  - rewrite K in P. inversion P; subst v. eapply N2. exact L.
Qed.

Definition on_top (d s : option jsval) : outcome (option jsval) :=
  match d, s with
  | Some v, Some b => bind (set_base v b) (fun w => Got (Some w))
  | Some v, None => Got (Some v)
  | None, _ => Got s
  end.

Lemma inherit_spec : forall p, p <> [] -> forall l q q', inherit_props l q = Got q' -> neat l ->
  free p l -> free p q ->
  free p q' /\ on_top (value_at p q) (value_at p l) = Got (value_at p q').
Proof.
  intros p Hp. induction p as [|x r IH]; [contradiction|].
  intros l q q' E H Fl Fq. inversion H as [l0 H1 H2]; subst l0.
  pose proof (inherit_pick l q q' E H1 x) as K.
  destruct r as [|y r].
  - cbn [free value_at] in *.
    destruct (pick x l) as [[v|sps]|] eqn:L; [|contradiction|].
    + destruct (pick x q) as [[d|dps]|]; [|contradiction|].
      * destruct K as [w [K1 K2]]. rewrite K2. cbn [inherit_value] in K1.
        destruct (set_base d v) as [w'|] eqn:SB; [|discriminate].
        cbn [bind] in K1. inversion K1; subst w. split; [exact Logic.I|].
        cbn [on_top]. rewrite SB. reflexivity.
      * rewrite K. split; [exact Logic.I|reflexivity].
    + rewrite K. split; [exact Fq|].
      destruct (pick x q) as [[d|dps]|]; reflexivity.
  - set (t := y :: r) in *. assert (Ht : t <> []) by discriminate.
    rewrite free_cons in Fl by exact Ht. rewrite free_cons in Fq by exact Ht.
    rewrite free_cons by exact Ht. rewrite !value_cons by exact Ht.
    destruct (pick x l) as [[v|sps]|] eqn:L; [contradiction| |].
    + destruct (pick x q) as [[v1|q1]|] eqn:PQ; [contradiction| |].
      * destruct K as [w [K1 K2]]. rewrite K2. rewrite inherit_sub in K1.
        destruct (inherit_props sps q1) as [q2|] eqn:R; [|discriminate].
        cbn [bind] in K1. inversion K1; subst w.
        exact (IH Ht _ _ _ R (H2 _ _ L) Fl Fq).
      * rewrite K. split; [exact Fl|]. reflexivity.
    + rewrite K. split; [exact Fq|].
      destruct (pick x q) as [[v1|q1]|]; [contradiction| |reflexivity].
      destruct (value_at t q1); reflexivity.
Qed.

Lemma builtin_spec : forall p, p <> [] -> forall bs it, free p (iprops it) -> neat (iprops it) ->
  Forall (fun n => apart p [n]) (builtin_names bs) ->
  free p (iprops (setup_builtin bs it)) /\ neat (iprops (setup_builtin bs it)) /\
  value_at p (iprops (setup_builtin bs it)) =
    match value_at p (iprops it) with Some v => Some v | None => initial bs p end.
Proof.
  intros p Hp. induction bs as [|[[n d] v] r IH]; intros it F H A.
  - cbn [setup_builtin initial]. split; [exact F|]. split; [exact H|].
    destruct (value_at p (iprops it)); reflexivity.
  - cbn [setup_builtin]. cbn [builtin_names map fst] in A. inversion A as [|? ? A1 A2]; subst.
    destruct (holds_name n (iprops it)) eqn:Hn.
    + destruct (IH {| iprops := iprops it; idecls := enter n d (idecls it);
                      ichildren := ichildren it |} F H A2) as [F1 [H1 V1]].
      split; [exact F1|]. split; [exact H1|]. rewrite V1. cbn [iprops initial].
      destruct (value_at p (iprops it)) eqn:V; [reflexivity|].
      destruct (same_path [n] p) eqn:S; [|reflexivity].
      apply same_path_true in S. subst p. exfalso.
      cbn [value_at free] in V, F. unfold holds_name in Hn.
      destruct (pick n (iprops it)) as [[w|w]|]; [discriminate V|contradiction|discriminate Hn].
    + destruct (enter_plain p n (J (Builtin v) [] None) (iprops it) Hp A1 F) as [F0 V0].
      destruct (IH {| iprops := enter n (Js (J (Builtin v) [] None)) (iprops it);
                      idecls := enter n d (idecls it); ichildren := ichildren it |} F0
                   (neat_enter n (Js (J (Builtin v) [] None)) _ H Logic.I) A2) as [F1 [H1 V1]].
      split; [exact F1|]. split; [exact H1|]. rewrite V1. cbn [iprops initial]. rewrite V0.
      destruct (same_path [n] p) eqn:S; [|reflexivity].
      apply same_path_true in S. subst p. cbn [value_at]. unfold holds_name in Hn.
      destruct (pick n (iprops it)) as [w|]; [discriminate Hn|reflexivity].
Qed.

Lemma layer_base : forall p l b, layer p l (Some b) =
  match layer p l None with
  | None => Some b
  | Some (J s alts _) => Some (J s (map (fun a => (fst a, Some b)) alts) (Some b))
  end.
Proof.
  intros p l b. unfold layer.
  destruct (last_said p (lmembers l)) as [s|]; destruct (conditionals p (lblocks l)) as [|c r];
    try reflexivity; f_equal; rewrite map_map; reflexivity.
Qed.

Lemma layer_shape : forall p l s alts b, layer p l None = Some (J s alts b) -> b = None.
Proof.
  intros p l s alts b. unfold layer.
  destruct (last_said p (lmembers l)) as [s0|]; destruct (conditionals p (lblocks l)) as [|c r];
    intros E; inversion E; reflexivity.
Qed.

(** C130. The value of a property of an item which inherits: each file in which the name
    occurs adds one layer, the nearest on top. What base stands for, in the value and in all
    its conditional alternatives, is the value of the next file with the name; alternatives
    are in the order of the file, the one for otherwise last. *)
Theorem inherited_value : forall bs ups l it p,
  read_item bs l ups = Got it -> p <> [] ->
  Forall (fun u => Forall (apart p) (said u)) (l :: ups) ->
  Forall (fun n => apart p [n]) (builtin_names bs) ->
  value_at p (iprops it) = expected bs l ups p.
Proof.
  intros bs ups l it p E Hp A Ab.
  cut (free p (iprops it) /\ neat (iprops it) /\ value_at p (iprops it) = expected bs l ups p).
  { intros [_ [_ Q]]. exact Q. }
  revert l it E A. induction ups as [|u r IH]; intros l it E A; cbn [read_item] in E.
  - destruct (read_own l) as [o|] eqn:R; [|discriminate]. cbn [bind] in E. inversion E; subst it.
    inversion A as [|? ? A1 _]; subst.
    destruct (own_spec l o p R Hp A1) as [F [H V]].
    destruct (builtin_spec p Hp bs o F H Ab) as [F1 [H1 V1]].
    split; [exact F1|]. split; [exact H1|]. rewrite V1, V. reflexivity.
  - destruct (read_item bs u r) as [base|] eqn:RB; [|discriminate]. cbn [bind] in E.
    destruct (read_own l) as [o|] eqn:R; [|discriminate]. cbn [bind] in E.
    inversion A as [|? ? A1 A2]; subst.
    destruct (own_spec l o p R Hp A1) as [F [H V]].
    destruct (IH _ _ RB A2) as [F2 [H2 V2]].
    unfold inherit_item in E.
    destruct (inherit_decls (idecls base) (iprops o) (idecls o)) as [ds|]; [|discriminate].
    cbn [bind] in E.
    destruct (inherit_props (iprops base) (iprops o)) as [ps|] eqn:IP; [|discriminate].
    cbn [bind] in E. inversion E; subst it. cbn [iprops].
    destruct (inherit_spec p Hp _ _ _ IP H2 F2 F) as [F3 V3].
    split; [exact F3|]. split; [exact (inherit_neat _ H2 _ _ IP H)|].
    rewrite V, V2 in V3. cbn [expected].
    destruct (expected bs u r p) as [b|].
    + rewrite layer_base.
      destruct (layer p l None) as [[s alts b0]|] eqn:L; cbn [on_top] in V3.
      * apply layer_shape in L. subst b0. cbn [set_base bind] in V3. inversion V3. reflexivity.
      * inversion V3. reflexivity.
    + destruct (layer p l None); cbn [on_top] in V3; inversion V3; reflexivity.
Qed.

(** ** Declarations *)

(** The last declaration of a name in one file. *)
Fixpoint last_declared (n : N) (ms : list member) : option declaration :=
  match ms with
  | [] => None
  | m :: r =>
      match last_declared n r with
      | Some d => Some d
      | None => match m with
                | Declares k d _ => if k =? n then Some d else None
                | Binds _ _ _ => None
                end
      end
  end.

Fixpoint builtin_decl (bs : list (N * declaration * N)) (n : N) : option declaration :=
  match bs with
  | [] => None
  | ((k, d), _) :: r => if k =? n then Some d else builtin_decl r n
  end.

(** The declaration in force: of the file that is farthest up. *)
Fixpoint declared_as (bs : list (N * declaration * N)) (l : level) (ups : list level) (n : N)
    : option declaration :=
  match ups with
  | [] => match builtin_decl bs n with Some d => Some d | None => last_declared n (lmembers l) end
  | u :: r =>
      match declared_as bs u r n with
      | Some d => Some d
      | None => last_declared n (lmembers l)
      end
  end.

Lemma members_decls : forall n ms ps ds ps' ds', read_members ms (ps, ds) = Got (ps', ds') ->
  pick n ds' = match last_declared n ms with Some d => Some d | None => pick n ds end /\
  (NoDup (map fst ds) -> NoDup (map fst ds')).
Proof.
  intros n. induction ms as [|m r IH]; intros ps ds ps' ds' E; cbn [read_members] in E.
  - inversion E; subst. split; [reflexivity|intros H; exact H].
  - destruct (read_member m (ps, ds)) as [[ps1 ds1]|] eqn:M; [|discriminate].
    cbn [bind] in E. destruct (IH _ _ _ _ E) as [I1 I2]. rewrite I1. cbn [last_declared].
    destruct m as [k d rhs|f x s]; cbn [read_member] in M.
    + assert (ds1 = enter k d ds) as ->.
      { destruct rhs; [destruct (holds_name k ps); [discriminate|]|]; inversion M; reflexivity. }
      split.
      * destruct (last_declared n r); [reflexivity|].
        destruct (N.eqb_spec k n) as [Q|Q]; [subst k; apply pick_enter_same|].
        apply pick_enter_other. exact Q.
      * intros H. apply I2. apply enter_nodup. exact H.
    + destruct (bind_at f x (Written s) ps); [|discriminate]. inversion M; subst.
      split; [destruct (last_declared n r); reflexivity|exact I2].
Qed.

Lemma own_decls : forall l it n, read_own l = Got it ->
  pick n (idecls it) = last_declared n (lmembers l) /\ NoDup (map fst (idecls it)).
Proof.
  intros l it n E. unfold read_own in E.
  destruct (read_members (lmembers l) ([], [])) as [[ps ds]|] eqn:R; [|discriminate].
  cbn [bind fst snd] in E. destruct (apply_blocks (lblocks l) ps); [|discriminate].
  cbn [bind] in E. inversion E; subst it. cbn [idecls].
  destruct (members_decls n _ _ _ _ _ R) as [D1 D2]. split.
  - rewrite D1. destruct (last_declared n (lmembers l)); reflexivity.
  - apply D2. constructor.
Qed.

Lemma builtin_decl_none : forall n bs, ~ In n (builtin_names bs) -> builtin_decl bs n = None.
Proof.
  intros n. induction bs as [|[[k d] v] r IH]; intros H; [reflexivity|]. cbn [builtin_decl].
  destruct (N.eqb_spec k n) as [Q|Q]; [elim H; left; exact Q|].
  apply IH. intros H2. apply H. right. exact H2.
Qed.

Lemma setup_decls : forall n bs it, NoDup (builtin_names bs) -> NoDup (map fst (idecls it)) ->
  pick n (idecls (setup_builtin bs it)) =
    match builtin_decl bs n with Some d => Some d | None => pick n (idecls it) end /\
  NoDup (map fst (idecls (setup_builtin bs it))).
Proof.
  intros n. induction bs as [|[[k d] v] r IH]; intros it Hb H; cbn [setup_builtin].
  - split; [reflexivity|exact H].
  - cbn [builtin_names map fst] in Hb. inversion Hb as [|? ? B1 B2]; subst.
    match goal with |- context [setup_builtin r ?x] => destruct (IH x B2) as [I1 I2] end.
    { cbn [idecls]. apply enter_nodup. exact H. }
    split; [|exact I2]. rewrite I1. cbn [idecls builtin_decl].
    destruct (N.eqb_spec k n) as [Q|Q].
    + subst k. rewrite (builtin_decl_none n r B1), pick_enter_same. reflexivity.
    + rewrite pick_enter_other by exact Q. reflexivity.
Qed.

Lemma inherit_decls_spec : forall n q l ds ds', inherit_decls l q ds = Got ds' ->
  NoDup (map fst l) ->
  pick n ds' = match pick n l with Some d => Some d | None => pick n ds end /\
  (NoDup (map fst ds) -> NoDup (map fst ds')) /\
  (forall d, pick n l = Some d -> dro d = true -> holds_name n q = false).
Proof.
  intros n q. induction l as [|[k d] r IH]; intros ds ds' E H; cbn [inherit_decls] in E.
  - inversion E; subst. split; [reflexivity|]. split; [intros X; exact X|discriminate].
  - inversion H as [|? ? H1 H2]; subst.
    destruct (dro d && holds_name k q) eqn:RO; [discriminate|].
    destruct (IH _ _ E H2) as [I1 [I2 I3]]. rewrite I1. cbn [pick].
    split; [|split].
    + destruct (N.eqb_spec k n) as [Q|Q].
      * subst k. rewrite (pick_none n r H1), pick_enter_same. reflexivity.
      * rewrite pick_enter_other by exact Q. reflexivity.
    + intros X. apply I2. apply enter_nodup. exact X.
    + intros d' P R. destruct (N.eqb_spec k n) as [Q|Q].
      * subst k. inversion P; subst d'. rewrite R in RO. exact RO.
      * exact (I3 d' P R).
Qed.

Lemma item_decls : forall n bs, NoDup (builtin_names bs) -> forall ups l it,
  read_item bs l ups = Got it ->
  pick n (idecls it) = declared_as bs l ups n /\ NoDup (map fst (idecls it)).
Proof.
  intros n bs Hb. induction ups as [|u r IH]; intros l it E; cbn [read_item] in E.
  - destruct (read_own l) as [o|] eqn:R; [|discriminate]. cbn [bind] in E. inversion E; subst it.
    destruct (own_decls l o n R) as [O1 O2]. cbn [declared_as]. rewrite <- O1.
    apply setup_decls; assumption.
  - destruct (read_item bs u r) as [base|] eqn:RB; [|discriminate]. cbn [bind] in E.
    destruct (read_own l) as [o|] eqn:R; [|discriminate]. cbn [bind] in E.
    destruct (own_decls l o n R) as [O1 O2]. destruct (IH _ _ RB) as [B1 B2].
    unfold inherit_item in E.
    destruct (inherit_decls (idecls base) (iprops o) (idecls o)) as [ds|] eqn:D; [|discriminate].
    cbn [bind] in E. destruct (inherit_props (iprops base) (iprops o)); [|discriminate].
    cbn [bind] in E. inversion E; subst it. cbn [idecls declared_as].
    destruct (inherit_decls_spec n _ _ _ _ D B2) as [D1 [D2 _]].
    rewrite D1, B1, O1. split; [reflexivity|]. apply D2. exact O2.
Qed.

(** C133. The type of a property is the one given farthest up: by the built-in type, if it
    has the property, otherwise by the file nearest to it that declares the name. *)
Theorem declaration_farthest_up_wins : forall n bs ups l it, NoDup (builtin_names bs) ->
  read_item bs l ups = Got it -> pick n (idecls it) = declared_as bs l ups n.
Proof. intros n bs ups l it Hb E. exact (proj1 (item_decls n bs Hb ups l it E)). Qed.

(** C133. Children: those of the file farthest up first, each file's in its own order. *)
Theorem children_of_the_base_first : forall bs ups l it, read_item bs l ups = Got it ->
  ichildren it = concat (map lchildren (rev (l :: ups))).
Proof.
  intros bs. induction ups as [|u r IH]; intros l it E; cbn [read_item] in E.
  - destruct (read_own l) as [o|] eqn:R; [|discriminate]. cbn [bind] in E. inversion E; subst it.
    cbn [rev app map concat]. rewrite app_nil_r.
    assert (ichildren o = lchildren l) as <-.
    { unfold read_own in R. destruct (read_members (lmembers l) ([], [])); [|discriminate].
      cbn [bind] in R. destruct (apply_blocks (lblocks l) (fst x)); [|discriminate].
      inversion R. reflexivity. }
    clear. revert o.
    induction bs as [|[[n d] v] t IHb]; intros o; [reflexivity|]. cbn [setup_builtin].
    rewrite IHb. reflexivity.
  - destruct (read_item bs u r) as [base|] eqn:RB; [|discriminate]. cbn [bind] in E.
    destruct (read_own l) as [o|] eqn:R; [|discriminate]. cbn [bind] in E.
    assert (ichildren o = lchildren l) as Ho.
    { unfold read_own in R. destruct (read_members (lmembers l) ([], [])); [|discriminate].
      cbn [bind] in R. destruct (apply_blocks (lblocks l) (fst x)); [|discriminate].
      inversion R. reflexivity. }
    unfold inherit_item in E.
    destruct (inherit_decls (idecls base) (iprops o) (idecls o)) as [ds|]; [|discriminate].
    cbn [bind] in E. destruct (inherit_props (iprops base) (iprops o)); [|discriminate].
    cbn [bind] in E. inversion E; subst it. cbn [ichildren].
    rewrite (IH _ _ RB), Ho. change (rev (l :: u :: r)) with (rev (u :: r) ++ [l]).
    rewrite map_app, concat_app. cbn [map concat]. rewrite app_nil_r. reflexivity.
Qed.

(** ** Names that are taken *)

Lemma enter_holds {X} : forall n k (v : X) ps, holds_name n ps = true ->
  holds_name n (enter k v ps) = true.
Proof.
  intros n k v ps H. unfold holds_name in *.
  destruct (N.eq_dec k n) as [Q|Q]; [subst k; rewrite pick_enter_same; reflexivity|].
  rewrite pick_enter_other by exact Q. exact H.
Qed.

Lemma enter_holds_same {X} : forall n (v : X) ps, holds_name n (enter n v ps) = true.
Proof. intros n v ps. unfold holds_name. rewrite pick_enter_same. reflexivity. Qed.

Lemma read_member_enters : forall m ps ds ps' ds', read_member m (ps, ds) = Got (ps', ds') ->
  exists v, ps' = enter (hd 0 (fst (says m))) v ps.
Proof.
  intros [n d [s|]|f x s] ps ds ps' ds' E; cbn [read_member says fst] in *.
  - destruct (holds_name n ps); [discriminate|]. inversion E. eexists; reflexivity.
  - inversion E. eexists; reflexivity.
  - destruct (bind_at f x (Written s) ps) as [q|] eqn:B; [|discriminate].
    inversion E; subst. destruct f as [|y f]; cbn [bind_at app hd] in *.
    + destruct (holds_name x ps); [discriminate|]. inversion B. eexists; reflexivity.
    + destruct (pick y ps) as [[v|q0]|]; [discriminate| |].
      * destruct (bind_at f x (Written s) q0); [|discriminate]. inversion B. eexists; reflexivity.
      * destruct (bind_at f x (Written s) []); [|discriminate]. inversion B. eexists; reflexivity.
Qed.

Lemma members_hold : forall n ms ps ds ps' ds', read_members ms (ps, ds) = Got (ps', ds') ->
  (holds_name n ps = true \/ Exists (fun m => hd 0 (fst (says m)) = n) ms) ->
  holds_name n ps' = true.
Proof.
  intros n. induction ms as [|m r IH]; intros ps ds ps' ds' E H; cbn [read_members] in E.
  - inversion E; subst. destruct H as [H|H]; [exact H|inversion H].
  - destruct (read_member m (ps, ds)) as [[ps1 ds1]|] eqn:M; [|discriminate].
    cbn [bind] in E. apply (IH _ _ _ _ E).
    destruct (read_member_enters _ _ _ _ _ M) as [v ->].
    destruct H as [H|H]; [left; apply enter_holds; exact H|].
    inversion H as [? ? H1|? ? H1]; subst; [left; apply enter_holds_same|right; exact H1].
Qed.

Lemma apply_holds : forall n c l q q', apply_props c l q = Got q' ->
  (holds_name n q = true \/ holds_name n l = true) -> holds_name n q' = true.
Proof.
  intros n c. induction l as [|[j v] r IH]; intros q q' E H; cbn [apply_props] in E.
  - inversion E; subst. destruct H as [H|H]; [exact H|discriminate H].
  - destruct (apply_value c j v (pick j q)) as [w|]; [|discriminate]. cbn [bind] in E.
    apply (IH _ _ E). destruct H as [H|H]; [left; apply enter_holds; exact H|].
    unfold holds_name in H. cbn [pick] in H.
    destruct (N.eqb_spec j n) as [Q|Q]; [subst j; left; apply enter_holds_same|right; exact H].
Qed.

Lemma blocks_hold : forall n bs q q', apply_blocks bs q = Got q' ->
  (holds_name n q = true \/
   Exists (fun m => hd 0 (fst (says m)) = n) (concat (map snd bs))) ->
  holds_name n q' = true.
Proof.
  intros n. induction bs as [|[c ms] r IH]; intros q q' E H; cbn [apply_blocks] in E.
  - inversion E; subst. destruct H as [H|H]; [exact H|inversion H].
  - destruct (read_members ms ([], [])) as [[bp bd]|] eqn:R; [|discriminate].
    cbn [bind fst] in E. destruct (apply_props c bp q) as [q1|] eqn:Ap; [|discriminate].
    cbn [bind] in E. apply (IH _ _ E).
    destruct H as [H|H]; [left; eapply apply_holds; [exact Ap|left; exact H]|].
    cbn [map snd concat] in H. apply Exists_app in H. destruct H as [H|H]; [left|right; exact H].
    eapply apply_holds; [exact Ap|right].
    eapply members_hold; [exact R|right; exact H].
Qed.

Lemma own_holds : forall n l it, read_own l = Got it ->
  Exists (fun p => hd 0 p = n) (said l) -> holds_name n (iprops it) = true.
Proof.
  intros n l it E H. unfold read_own in E.
  destruct (read_members (lmembers l) ([], [])) as [[ps ds]|] eqn:R; [|discriminate].
  cbn [bind fst snd] in E. destruct (apply_blocks (lblocks l) ps) as [ps'|] eqn:B; [|discriminate].
  cbn [bind] in E. inversion E; subst it. cbn [iprops].
  unfold said in H. rewrite Exists_map in H. apply Exists_app in H.
  eapply blocks_hold; [exact B|].
  destruct H as [H|H]; [left; eapply members_hold; [exact R|right; exact H]|right; exact H].
Qed.

Definition declares (n : N) (l : level) : Prop := last_declared n (lmembers l) <> None.

(** C132. A property declared read-only in a file cannot be set, declared anew or given parts
    in any file that inherits from it, conditionally or not, provided that no file farther
    up and no built-in type declares it too. *)
Theorem read_only_kept_partial : forall bs mids l k ups n d,
  NoDup (builtin_names bs) -> ~ In n (builtin_names bs) ->
  Forall (fun u => ~ declares n u) ups ->
  last_declared n (lmembers k) = Some d -> dro d = true ->
  Exists (fun j => Exists (fun p => hd 0 p = n) (said j)) (l :: mids) ->
  forall it, read_item bs l (mids ++ k :: ups) <> Got it.
Proof.
  intros bs mids l k ups n d Hb Hn Hu Hk Hd H.
  assert (K : declared_as bs k ups n = Some d).
  { assert (G : forall u r, Forall (fun u => ~ declares n u) r ->
       declared_as bs u r n = last_declared n (lmembers u)).
    { intros u r. revert u. induction r as [|v r IH]; intros u Hr; cbn [declared_as].
      - rewrite (builtin_decl_none n bs Hn). reflexivity.
      - inversion Hr as [|? ? R1 R2]; subst. rewrite (IH v R2).
        destruct (last_declared n (lmembers v)) eqn:Q; [|reflexivity].
        elim R1. unfold declares. rewrite Q. discriminate. }
    rewrite (G k ups Hu). exact Hk. }
  assert (G : forall m u, declared_as bs u (m ++ k :: ups) n = Some d).
  { induction m as [|v m IH]; intros u; cbn [app declared_as]; [rewrite K; reflexivity|].
    rewrite IH. reflexivity. }
  revert l H. induction mids as [|u r IH]; intros l H it E; cbn [app read_item] in E.
  - destruct (read_item bs k ups) as [base|] eqn:RB; [|discriminate]. cbn [bind] in E.
    destruct (read_own l) as [o|] eqn:R; [|discriminate]. cbn [bind] in E.
    inversion H as [? ? H1|? ? H1]; subst; [|inversion H1].
    destruct (item_decls n bs Hb _ _ _ RB) as [B1 B2]. rewrite K in B1.
    unfold inherit_item in E.
    destruct (inherit_decls (idecls base) (iprops o) (idecls o)) as [ds|] eqn:D; [|discriminate].
    destruct (inherit_decls_spec n _ _ _ _ D B2) as [_ [_ D3]].
    specialize (D3 d B1 Hd). rewrite (own_holds n l o R H1) in D3. discriminate.
  - destruct (read_item bs u (r ++ k :: ups)) as [base|] eqn:RB; [|discriminate].
    cbn [bind] in E. destruct (read_own l) as [o|] eqn:R; [|discriminate]. cbn [bind] in E.
    inversion H as [? ? H1|? ? H1]; subst.
    + destruct (item_decls n bs Hb _ _ _ RB) as [B1 B2]. rewrite G in B1.
      unfold inherit_item in E.
      destruct (inherit_decls (idecls base) (iprops o) (idecls o)) as [ds|] eqn:D; [|discriminate].
      destruct (inherit_decls_spec n _ _ _ _ D B2) as [_ [_ D3]].
      specialize (D3 d B1 Hd). rewrite (own_holds n l o R H1) in D3. discriminate.
    + exact (IH u H1 base RB).
Qed.

(** Something is already there under the name, or in front of it. *)
Fixpoint taken (p : list N) (ps : props) : Prop :=
  match p with
  | [] => False
  | x :: r =>
      match r with
      | [] => holds_name x ps = true
      | _ => match pick x ps with
             | None => False
             | Some (Js _) => True
             | Some (Sub q) => taken r q
             end
      end
  end.

Lemma taken_cons : forall x r ps, r <> [] ->
  taken (x :: r) ps = match pick x ps with
             | None => False
             | Some (Js _) => True
             | Some (Sub q) => taken r q
             end.
Proof. intros x [|y r] ps H; [contradiction|reflexivity]. Qed.

Lemma taken_plain : forall p n v ps, taken p ps -> taken p (enter n (Js v) ps).
Proof.
  intros [|x [|y r]] n v ps H; [contradiction| |].
  - cbn [taken] in *. apply enter_holds. exact H.
  - rewrite taken_cons in * by discriminate.
    destruct (N.eq_dec n x) as [Q|Q]; [subst x; rewrite pick_enter_same; exact Logic.I|].
    rewrite pick_enter_other by exact Q. exact H.
Qed.

Lemma bind_at_keeps : forall f last s ps ps' p, bind_at f last s ps = Got ps' ->
  taken p ps -> taken p ps'.
Proof.
  induction f as [|y f IH]; intros last s ps ps' p E H; cbn [bind_at] in E.
  - destruct (holds_name last ps); [discriminate|]. inversion E. apply taken_plain. exact H.
  - assert (exists q, ps' = enter y (Sub q) ps /\
              match pick y ps with
              | Some (Sub q0) => bind_at f last s q0 = Got q
              | Some (Js _) => False
              | None => True
              end) as [q [-> Q]].
    { destruct (pick y ps) as [[v|q0]|]; [discriminate| |].
      - destruct (bind_at f last s q0); [|discriminate]. inversion E.
        eexists; split; reflexivity.
      - destruct (bind_at f last s []); [|discriminate]. inversion E.
        eexists; split; [reflexivity|exact Logic.I]. }
    destruct p as [|x [|z r]]; [contradiction| |].
    + cbn [taken] in *. apply enter_holds. exact H.
    + rewrite taken_cons in * by discriminate.
      destruct (N.eq_dec y x) as [D|D].
      * subst x. rewrite pick_enter_same.
        destruct (pick y ps) as [[v|q0]|]; [contradiction| |contradiction].
        eapply IH; eassumption.
      * rewrite pick_enter_other by exact D. exact H.
Qed.

Lemma bind_at_takes : forall f last s ps ps', bind_at f last s ps = Got ps' ->
  taken (f ++ [last]) ps'.
Proof.
  induction f as [|y f IH]; intros last s ps ps' E; cbn [bind_at app] in *.
  - destruct (holds_name last ps); [discriminate|]. inversion E. apply enter_holds_same.
  - rewrite taken_cons by (destruct f; discriminate).
    destruct (pick y ps) as [[v|q0]|]; [discriminate| |].
    + destruct (bind_at f last s q0) as [q|] eqn:B; [|discriminate]. inversion E.
      rewrite pick_enter_same. eapply IH. exact B.
    + destruct (bind_at f last s []) as [q|] eqn:B; [|discriminate]. inversion E.
      rewrite pick_enter_same. eapply IH. exact B.
Qed.

Lemma bind_at_taken : forall f last s ps ps', taken (f ++ [last]) ps ->
  bind_at f last s ps <> Got ps'.
Proof.
  induction f as [|y f IH]; intros last s ps ps' H E; cbn [bind_at app] in *.
  - cbn [taken] in H. rewrite H in E. discriminate.
  - rewrite taken_cons in H by (destruct f; discriminate).
    destruct (pick y ps) as [[v|q0]|]; [discriminate| |contradiction].
    destruct (bind_at f last s q0) as [q|] eqn:B; [|discriminate].
    eapply IH; [exact H|exact B].
Qed.

Lemma member_keeps : forall m ps ds ps' ds' p, read_member m (ps, ds) = Got (ps', ds') ->
  (taken p ps \/ p = fst (says m)) -> taken p ps'.
Proof.
  intros [n d [s|]|f x s] ps ds ps' ds' p E H; cbn [read_member says fst] in *.
  - destruct (holds_name n ps); [discriminate|]. inversion E.
    destruct H as [H| ->]; [apply taken_plain; exact H|apply enter_holds_same].
  - inversion E. destruct H as [H| ->]; [apply taken_plain; exact H|apply enter_holds_same].
  - destruct (bind_at f x (Written s) ps) as [q|] eqn:B; [|discriminate]. inversion E; subst.
    destruct H as [H| ->]; [eapply bind_at_keeps; eassumption|eapply bind_at_takes; exact B].
Qed.

Lemma members_keep : forall p ms ps ds ps' ds', read_members ms (ps, ds) = Got (ps', ds') ->
  taken p ps -> taken p ps'.
Proof.
  intros p. induction ms as [|m r IH]; intros ps ds ps' ds' E H; cbn [read_members] in E.
  - inversion E; subst. exact H.
  - destruct (read_member m (ps, ds)) as [[ps1 ds1]|] eqn:M; [|discriminate]. cbn [bind] in E.
    eapply IH; [exact E|]. eapply member_keeps; [exact M|left; exact H].
Qed.

Lemma read_members_app : forall a b st, read_members (a ++ b) st =
  bind (read_members a st) (read_members b).
Proof.
  induction a as [|m r IH]; intros b st; [reflexivity|]. cbn [app read_members].
  destruct (read_member m st); cbn [bind]; [apply IH|reflexivity].
Qed.

Lemma said_twice : forall a m b m' c st ps ds, fst (says m) = fst (says m') ->
  (exists s, snd (says m') = Written s) ->
  read_members (a ++ m :: b ++ m' :: c) st <> Got (ps, ds).
Proof.
  intros a m b m' c st ps ds P [s S] E.
  rewrite read_members_app in E. destruct (read_members a st) as [[ps1 ds1]|]; [|discriminate].
  cbn [bind read_members] in E.
  destruct (read_member m (ps1, ds1)) as [[ps2 ds2]|] eqn:M; [|discriminate].
  cbn [bind] in E. rewrite read_members_app in E.
  destruct (read_members b (ps2, ds2)) as [[ps3 ds3]|] eqn:B; [|discriminate].
  cbn [bind read_members] in E.
  destruct (read_member m' (ps3, ds3)) as [[ps4 ds4]|] eqn:M'; [|discriminate].
  assert (T : taken (fst (says m')) ps3).
  { eapply members_keep; [exact B|]. eapply member_keeps; [exact M|right; symmetry; exact P]. }
  destruct m' as [n d [t|]|f x t]; cbn [says fst snd read_member taken] in *.
  - rewrite T in M'. discriminate.
  - discriminate S.
  - destruct (bind_at f x (Written t) ps3) as [q|] eqn:Bi; [|discriminate].
    eapply bind_at_taken; [exact T|exact Bi].
Qed.

(** C131. Two members for one name in an item or in a Properties item are refused if the
    second one has a right-hand side. *)
Theorem second_value_refused_partial : forall bs l ups it a m b m' c,
  fst (says m) = fst (says m') -> (exists s, snd (says m') = Written s) ->
  (lmembers l = a ++ m :: b ++ m' :: c \/
   exists cond, In (cond, a ++ m :: b ++ m' :: c) (lblocks l)) ->
  read_item bs l ups <> Got it.
Proof.
  intros bs l ups it a m b m' c P S H E.
  assert (exists o, read_own l = Got o) as [o R].
  { destruct ups as [|u r]; cbn [read_item] in E.
    - destruct (read_own l) as [o|]; [exists o; reflexivity|discriminate].
    - destruct (read_item bs u r); [|discriminate]. cbn [bind] in E.
      destruct (read_own l) as [o|]; [exists o; reflexivity|discriminate]. }
  unfold read_own in R.
  destruct (read_members (lmembers l) ([], [])) as [[ps ds]|] eqn:RM; [|discriminate].
  destruct H as [H|[cond H]].
  - rewrite H in RM. eapply said_twice; eassumption.
  - cbn [bind fst] in R. destruct (apply_blocks (lblocks l) ps) as [q|] eqn:B; [|discriminate].
    clear R RM E. revert ps B. induction (lblocks l) as [|[c0 ms] t IH]; intros ps B; [inversion H|].
    cbn [apply_blocks] in B.
    destruct (read_members ms ([], [])) as [[bp bd]|] eqn:RB; [|discriminate].
    destruct H as [H|H].
    + inversion H; subst ms. eapply said_twice; eassumption.
    + cbn [bind fst] in B. destruct (apply_props c0 bp ps) as [q1|]; [|discriminate].
      exact (IH H _ B).
Qed.

(** * What does not hold *)

Definition rw (t : N) := {| dtype := t; dro := false |}.
Definition ro (t : N) := {| dtype := t; dro := true |}.
Definition file (ms : list member) : level :=
  {| lmembers := ms; lblocks := []; lchildren := [] |}.

(** All texts in a value: its own and those of the values base leads to. *)
Fixpoint texts (v : jsval) : list source :=
  match v with
  | J s alts b =>
      s :: map (fun a => snd (fst a)) alts ++ match b with Some w => texts w | None => [] end
  end.

Fixpoint all_texts (v : pval) : list source :=
  match v with
  | Js w => texts w
  | Sub ps => concat (map (fun e => all_texts (snd e)) ps)
  end.

Definition item_texts (it : item) : list source :=
  concat (map (fun e => all_texts (snd e)) (iprops it)).

(** C131. A value written in a file can get lost without an error: when a declaration of the
    name follows the binding (the other order is refused) ... *)
Theorem written_value_lost_refuted : exists n s d,
  (exists it, read_item [] (file [Binds [] n s; Declares n d None]) [] = Got it /\
     value_at [n] (iprops it) = Some (J NoText [] None) /\
     ~ In (Written s) (item_texts it)) /\
  (forall it, read_item [] (file [Declares n d None; Binds [] n s]) [] <> Got it).
Proof.
  exists 5, 7, (rw 1). split.
  - eexists. split; [vm_compute; reflexivity|]. split; [vm_compute; reflexivity|].
    vm_compute. intros [H|[]]. discriminate H.
  - intros it. vm_compute. discriminate.
Qed.

(** ... when a Properties item gives a value to a part of the name ... *)
Theorem value_lost_to_properties_refuted : exists n x s t c it,
  read_item [] {| lmembers := [Binds [] n s]; lblocks := [(Some c, [Binds [n] x t])];
                  lchildren := [] |} [] = Got it /\
  ~ In (Written s) (item_texts it) /\
  (forall it', read_item [] (file [Binds [] n s; Binds [n] x t]) [] <> Got it').
Proof.
  exists 5, 6, 7, 8, 9. eexists. split; [vm_compute; reflexivity|]. split.
  - vm_compute. intros [H|[H|[]]]; discriminate H.
  - intros it'. vm_compute. discriminate.
Qed.

(** ... and when a file that inherits gives a value to a name whose parts have values. *)
Theorem inherited_parts_lost_refuted : exists n x s t it,
  read_item [] (file [Binds [] n s]) [file [Binds [n] x t]] = Got it /\
  ~ In (Written t) (item_texts it) /\
  (forall it', read_item [] (file [Binds [n] x t]) [file [Binds [] n s]] <> Got it').
Proof.
  exists 5, 6, 7, 8. eexists. split; [vm_compute; reflexivity|]. split.
  - vm_compute. intros [H|[]]; discriminate H.
  - intros it'. vm_compute. discriminate.
Qed.

(** C132. The word readonly is forgotten if the built-in type, or a file farther up, declares
    the property too: files that inherit can then set it. *)
Theorem read_only_forgotten_refuted : exists n s t,
  (exists it, read_item [(n, rw 1, 0)] (file [Binds [] n t])
                [file [Declares n (ro 1) (Some s)]] = Got it /\
     value_at [n] (iprops it) = Some (J (Written t) [] (Some (J (Written s) [] None)))) /\
  (exists it, read_item [] (file [Binds [] n t])
                [file [Declares n (ro 1) (Some s)]; file [Declares n (rw 1) None]] = Got it) /\
  (forall it, read_item [] (file [Binds [] n t]) [file [Declares n (ro 1) (Some s)]] <> Got it).
Proof.
  exists 5, 7, 8. split; [|split].
  - eexists. split; vm_compute; reflexivity.
  - eexists. vm_compute. reflexivity.
  - intros it. vm_compute. discriminate.
Qed.

(** C130. In a file directly on top of a built-in type, base is not the initial value of the
    property but nothing. *)
Theorem base_is_not_initial_refuted : exists bs n s v it,
  In (n, rw 1, v) bs /\ read_item bs (file [Binds [] n s]) [] = Got it /\
  value_at [n] (iprops it) = Some (J (Written s) [] None).
Proof.
  exists [(5, rw 1, 3)], 5, 7, 3. eexists. split; [left; reflexivity|].
  split; vm_compute; reflexivity.
Qed.

(** C131. Two Properties items for otherwise with the same name make an internal check fail
    instead of being reported. *)
Theorem two_otherwise_refuted : exists n s t,
  read_item [] {| lmembers := []; lblocks := [(None, [Binds [] n s]); (None, [Binds [] n t])];
                  lchildren := [] |} [] = Fault CheckFailed.
Proof. exists 5, 7, 8. reflexivity. Qed.

Module Demo.
  (** Three files: the middle one does not mention the name 2.4, the nearest has conditional
      values. *)
  Definition near := {| lmembers := [Binds [] 1 10; Declares 3 (rw 7) None];
                        lblocks := [(None, [Binds [2] 4 20]); (Some 50, [Binds [2] 4 21; Binds [] 1 11])];
                        lchildren := [100; 101] |}.
  Definition middle := {| lmembers := [Binds [] 1 12]; lblocks := []; lchildren := [102] |}.
  Definition far := {| lmembers := [Declares 9 (ro 1) (Some 13); Binds [2] 4 22; Declares 3 (rw 8) (Some 14)];
                       lblocks := []; lchildren := [103; 104] |}.
  Definition types := [(1, rw 2, 60); (8, rw 3, 61)].

  Example three_files : exists it, read_item types near [middle; far] = Got it /\
    value_at [2; 4] (iprops it) =
      Some (J PassBase [(Some 50, Written 21, Some (J (Written 22) [] None));
                        (None, Written 20, Some (J (Written 22) [] None))]
              (Some (J (Written 22) [] None))) /\
    value_at [1] (iprops it) =
      Some (J (Written 10) [(Some 50, Written 11, Some (J (Written 12) [] (Some (J (Builtin 60) [] None))))]
              (Some (J (Written 12) [] (Some (J (Builtin 60) [] None))))) /\
    pick 3 (idecls it) = Some (rw 8) /\ ichildren it = [103; 104; 102; 100; 101].
  Proof.
    eexists. split; [vm_compute; reflexivity|]. split; [vm_compute; reflexivity|].
    split; [vm_compute; reflexivity|]. split; vm_compute; reflexivity.
  Qed.

  Example clear_names : Forall (fun u => Forall (apart [2; 4]) (said u)) [near; middle; far] /\
    Forall (fun n => apart [2; 4] [n]) (builtin_names types).
  Proof.
    assert (D : forall q, hd 0 q <> 2 -> q <> [] -> apart [2; 4] q).
    { intros q H Hq. right. split; intros [t E].
      - apply H. rewrite E. reflexivity.
      - destruct q as [|x q]; [contradiction|]. inversion E; subst. apply H. reflexivity. }
    cbn. split.
    - repeat (apply Forall_cons; [|]); try apply Forall_nil;
        repeat (apply Forall_cons; [|]); try apply Forall_nil;
        first [left; reflexivity | apply D; discriminate].
    - repeat (apply Forall_cons; [|]); try apply Forall_nil; apply D; discriminate.
  Qed.

  (** The hypotheses of the theorem about read-only properties, two files apart. *)
  Example read_only_case : Forall (fun u => ~ declares 9 u) [] /\
    last_declared 9 (lmembers far) = Some (ro 1) /\ ~ In 9 (builtin_names types) /\
    Exists (fun j => Exists (fun p => hd 0 p = 9) (said j)) [file [Binds [9] 1 5]; middle] /\
    read_item types (file [Binds [9] 1 5]) [middle; far] = Fault (ReadOnly 9).
  Proof.
    split; [constructor|]. split; [reflexivity|].
    split; [intros [H|[H|[]]]; discriminate H|].
    split; [left; left; reflexivity|reflexivity].
  Qed.
End Demo.

Print Assumptions inherited_value.
Print Assumptions declaration_farthest_up_wins.
Print Assumptions children_of_the_base_first.
Print Assumptions read_only_kept_partial.
Print Assumptions second_value_refused_partial.
Print Assumptions written_value_lost_refuted.
Print Assumptions value_lost_to_properties_refuted.
Print Assumptions inherited_parts_lost_refuted.
Print Assumptions read_only_forgotten_refuted.
Print Assumptions base_is_not_initial_refuted.
Print Assumptions two_otherwise_refuted.
