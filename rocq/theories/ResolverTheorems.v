(** Theorems about the scheduling of products when a project is resolved. *)
From Coq Require Import List Bool Arith Lia Sorting.Permutation Wellfounded.
From Verif Require Import ResolverModel.
Import ListNotations.

(** ** What is claimed *)

(** The products that the Depends items stand for, directly or by the modules they load. *)
Fixpoint names (d : dep) : list nat :=
  match d with
  | Single q inner => q :: flat_map names inner
  | Plain inner => flat_map names inner
  | Bulk cands => flat_map names cands
  end.
(** No cyclic dependencies: there is a rank that falls along them. *)
Definition ranked (rank : nat -> nat) (products : list nat) (plan : nat -> list dep) : Prop :=
  forall p q, In p products -> In q (flat_map names (plan p)) -> rank q < rank p.
Inductive reachable (products : list nat) (max : nat) (plan : nat -> list dep) : state -> Prop :=
| R_init : reachable products max plan (init products max plan)
| R_step s e s' : reachable products max plan s -> step s e = Some s' -> reachable products max plan s'.
(** A step other than that a thread cannot be created or that the scheduler is woken up for nothing. *)
Definition ordinary (e : event) : Prop := e <> Sched false /\ e <> Spurious.
(** The products that a product names itself, not by types. *)
Definition direct_names (l : list dep) : list nat := flat_map (fun d => match d with Single q _ => [q] | _ => [] end) l.

(** ** Sums *)

Definition sm {A} (g : A -> nat) (l : list A) : nat := list_sum (map g l).
Definition ind (x y : nat) : nat := if Nat.eqb x y then 1 else 0.
Definition vals {A} (m : list (nat * list A)) : list A := flat_map snd m.
Lemma sm_cons {A} (g : A -> nat) x l : sm g (x :: l) = g x + sm g l. Proof. reflexivity. Qed.
Lemma sm_nil {A} (g : A -> nat) : sm g [] = 0. Proof. reflexivity. Qed.
Lemma sm_app {A} (g : A -> nat) a b : sm g (a ++ b) = sm g a + sm g b.
Proof. unfold sm. now rewrite map_app, list_sum_app. Qed.
Lemma sm_map {A B} (f : A -> B) (g : B -> nat) l : sm g (map f l) = sm (fun x => g (f x)) l.
Proof. unfold sm. now rewrite map_map. Qed.
Lemma sm_ext {A} (f g : A -> nat) l : (forall x, In x l -> f x = g x) -> sm f l = sm g l.
Proof. intros H. induction l as [|x l IH]; [reflexivity|]. rewrite !sm_cons, IH by (intros; apply H; now right). now rewrite (H x) by now left. Qed.
Lemma sm_le {A} (g : A -> nat) l x : In x l -> g x <= sm g l.
Proof. induction l as [|y l IH]; [intros []|]. rewrite sm_cons. intros [->|I]; [lia|specialize (IH I); lia]. Qed.
Lemma sm_pos {A} (g : A -> nat) l : 0 < sm g l <-> exists x, In x l /\ 0 < g x.
Proof.
  induction l as [|y l IH]; [rewrite sm_nil; split; [lia|intros (x & [] & _)]|]. rewrite sm_cons. split.
  - intros H. destruct (g y) eqn:E; [destruct IH as [IH _]; destruct IH as (x & I & P); [lia|exists x; cbn; auto]|exists y; cbn; split; auto; lia].
  - intros (x & [<-|I] & P); [lia|]. assert (0 < sm g l) by (apply IH; eauto). lia.
Qed.
Lemma ind_pos x y : 0 < ind x y <-> x = y.
Proof. unfold ind. destruct (Nat.eqb_spec x y); split; lia. Qed.
Lemma ind_le x y : ind x y <= 1. Proof. unfold ind. destruct (x =? y); lia. Qed.
Lemma ind_same x : ind x x = 1. Proof. unfold ind. now rewrite Nat.eqb_refl. Qed.
Lemma ind_in {A} (f : A -> nat) l x : 0 < sm (fun y => ind x (f y)) l <-> In x (map f l).
Proof. rewrite sm_pos, in_map_iff. setoid_rewrite ind_pos. split; intros (y & P & Q); eauto. Qed.
Lemma ind_in' l x : 0 < sm (ind x) l <-> In x l.
Proof. rewrite sm_pos. setoid_rewrite ind_pos. split; [intros (y & P & <-); auto|eauto]. Qed.
Lemma count_sm l x : count_occ Nat.eq_dec l x = sm (ind x) l.
Proof. induction l as [|y l IH]; [reflexivity|]. cbn [count_occ]. rewrite sm_cons, <- IH. unfold ind. destruct (Nat.eq_dec y x), (Nat.eqb_spec x y); congruence || lia. Qed.
Lemma nodup_sm l : NoDup l <-> forall x, sm (ind x) l <= 1.
Proof. rewrite (NoDup_count_occ Nat.eq_dec). setoid_rewrite count_sm. reflexivity. Qed.
Lemma perm_sm a b : (forall x, sm (ind x) a = sm (ind x) b) -> Permutation a b.
Proof. intros H. apply (Permutation_count_occ Nat.eq_dec). intros x. now rewrite !count_sm. Qed.
Lemma sm_put {A} (g : A -> nat) k l m : sm g (vals (put k l m)) + sm g (entry k m) = sm g (vals m) + sm g l.
Proof.
  induction m as [|(k', l') m IH]; unfold vals in *; cbn [put entry flat_map snd].
  - rewrite app_nil_r. lia.
  - destruct (k =? k'); cbn [flat_map snd]; rewrite !sm_app; lia.
Qed.
Lemma sm_erase {A} (g : A -> nat) k m : NoDup (map fst m) -> sm g (vals m) = sm g (entry k m) + sm g (vals (erase k m)).
Proof.
  induction m as [|(k', l') m IH]; [reflexivity|]. cbn [map fst]. intros N. inversion N as [|? ? NI N']; subst. unfold vals, erase in *. cbn [entry flat_map snd filter fst].
  rewrite (Nat.eqb_sym k' k). destruct (Nat.eqb_spec k k') as [<-|NE]; cbn [negb].
  - rewrite sm_app. f_equal. f_equal. f_equal. symmetry. clear -NI. induction m as [|(k', l) m IH]; [reflexivity|]. cbn [filter fst map In] in *.
    destruct (Nat.eqb_spec k' k) as [->|NE]; [tauto|]. cbn [negb]. rewrite IH; [reflexivity|tauto].
  - cbn [flat_map snd]. rewrite !sm_app, IH by exact N'. lia.
Qed.
Lemma sm_drop (g : nat -> nat) x l : sm (fun y => if x =? y then 0 else g y) l = sm g (drop x l).
Proof.
  unfold drop. induction l as [|y l IH]; [reflexivity|]. rewrite sm_cons. cbn [filter]. destruct (x =? y); cbn [negb]; [exact IH|]. rewrite sm_cons. lia.
Qed.
Lemma ind_drop y x l : sm (ind y) (drop x l) = if x =? y then 0 else sm (ind y) l.
Proof.
  rewrite <- sm_drop. unfold ind. destruct (Nat.eqb_spec x y) as [<-|NE].
  - induction l as [|z l IH]; [reflexivity|]. rewrite sm_cons, IH. destruct (x =? z); reflexivity.
  - apply sm_ext. intros z _. destruct (Nat.eqb_spec x z), (Nat.eqb_spec y z); congruence.
Qed.
Lemma find_job_some p l j : find_job p l = Some j -> In j l /\ j_product j = p.
Proof. intros H. apply find_some in H as [I E]. apply Nat.eqb_eq in E. auto. Qed.
Lemma find_job_none p l : find_job p l = None -> forall j, In j l -> j_product j <> p.
Proof. intros H j I E. apply (find_none _ _ H) in I. rewrite E, Nat.eqb_refl in I. discriminate. Qed.
Lemma find_job_in p l j : NoDup (map j_product l) -> In j l -> j_product j = p -> find_job p l = Some j.
Proof.
  induction l as [|k l IH]; [intros _ []|]. cbn [map find_job find]. intros N I E. inversion N as [|? ? NI N']; subst. unfold find_job in *. cbn [find]. destruct I as [->|I].
  - now rewrite Nat.eqb_refl.
  - destruct (Nat.eqb_spec (j_product k) (j_product j)) as [EQ|_]; [destruct NI; rewrite EQ; now apply in_map|auto].
Qed.
Lemma set_phase_product p ph l : map j_product (set_phase p ph l) = map j_product l.
Proof. unfold set_phase. rewrite map_map. apply map_ext. intros j. destruct (Nat.eqb_spec (j_product j) p); auto. Qed.
Lemma set_phase_state p ph l : map j_state (set_phase p ph l) = map j_state l.
Proof. unfold set_phase. rewrite map_map. apply map_ext. intros j. destruct (j_product j =? p); auto. Qed.
Lemma set_phase_in p ph l j : In j (set_phase p ph l) -> (j_product j = p /\ j_phase j = ph) \/ (In j l /\ j_product j <> p).
Proof. unfold set_phase. rewrite in_map_iff. intros (k & <- & I). destruct (Nat.eqb_spec (j_product k) p); [left; auto|right; auto]. Qed.
Lemma sm_set_phase (g : job -> nat) p ph l j : NoDup (map j_product l) -> find_job p l = Some j ->
  sm g (set_phase p ph l) + g j = sm g l + g {| j_product := p; j_state := j_state j; j_phase := ph |}.
Proof.
  intros N F. apply find_job_some in F as [I E]. subst p. induction l as [|k l IH]; [destruct I|]. cbn [map] in N. inversion N as [|? ? NI N']; subst. unfold set_phase in *. cbn [map]. rewrite !sm_cons.
  destruct I as [->|I].
  - rewrite Nat.eqb_refl. assert (X : map (fun k => if j_product k =? j_product j then {| j_product := j_product j; j_state := j_state k; j_phase := ph |} else k) l = l).
    { rewrite <- (map_id l) at 2. apply map_ext_in. intros k I. destruct (Nat.eqb_spec (j_product k) (j_product j)) as [E|]; auto. destruct NI. rewrite <- E. now apply in_map. }
    rewrite X. lia.
  - specialize (IH N' I). destruct (Nat.eqb_spec (j_product k) (j_product j)) as [E|]; [destruct NI; rewrite E; now apply in_map|]. lia.
Qed.
Lemma sm_drop_job (g : job -> nat) p l j : NoDup (map j_product l) -> find_job p l = Some j -> sm g l = g j + sm g (drop_job p l).
Proof.
  intros N F. apply find_job_some in F as [I E]. subst p. induction l as [|k l IH]; [destruct I|]. cbn [map] in N. inversion N as [|? ? NI N']; subst. unfold drop_job in *. cbn [filter]. rewrite sm_cons.
  destruct I as [->|I].
  - rewrite Nat.eqb_refl. cbn [negb]. assert (X : filter (fun k => negb (j_product k =? j_product j)) l = l); [|now rewrite X].
    clear -NI. induction l as [|k l IH]; [reflexivity|]. cbn [filter map In] in *. destruct (Nat.eqb_spec (j_product k) (j_product j)); [tauto|]. cbn [negb]. rewrite IH; tauto.
  - destruct (Nat.eqb_spec (j_product k) (j_product j)) as [E|]; [destruct NI; rewrite E; now apply in_map|]. cbn [negb]. rewrite sm_cons, (IH N' I). lia.
Qed.
Lemma drop_job_in p l j : In j (drop_job p l) <-> In j l /\ j_product j <> p.
Proof. unfold drop_job. rewrite filter_In, negb_true_iff, Nat.eqb_neq. reflexivity. Qed.
Lemma put_in {A} k (l : list A) m k' v : In (k', v) (put k l m) -> (k' = k /\ v = l) \/ In (k', v) m.
Proof.
  induction m as [|(a, b) m IH]; cbn [put].
  - intros [E|[]]. injection E as <- <-. auto.
  - destruct (k =? a); cbn [In]; [intros [E|I]; [injection E as <- <-; auto|auto]|]. intros [E|I]; [auto|]. destruct (IH I); auto.
Qed.
Lemma put_keys {A} k (l : list A) m : NoDup (map fst m) -> NoDup (map fst (put k l m)).
Proof.
  assert (K : forall x, In x (map fst (put k l m)) -> x = k \/ In x (map fst m)).
  { intros x. rewrite !in_map_iff. intros ((a, b) & <- & I). apply put_in in I as [[-> _]|I]; [auto|right; exists (a, b); auto]. }
  induction m as [|(a, b) m IH]; cbn [put map fst]; [intros _; constructor; [intros []|constructor]|]. intros N. inversion N as [|? ? NI N']; subst.
  destruct (Nat.eqb_spec k a) as [->|NE]; cbn [map fst].
  - constructor; auto.
  - constructor; [|apply IH; auto].
    + intros I. rewrite in_map_iff in I. destruct I as ((c, d) & E & I). cbn in E. subst c. apply put_in in I as [[-> _]|I]; [congruence|]. apply NI. apply in_map_iff. exists (a, d). auto.
    + intros x I. rewrite in_map_iff in I. destruct I as ((c, d) & E & I). cbn in E. subst c. apply put_in in I as [[-> _]|I]; auto. right. apply in_map_iff. exists (x, d). auto.
Qed.
Lemma entry_in {A} k (m : list (nat * list A)) e : In e (entry k m) -> exists v, In (k, v) m /\ In e v.
Proof.
  induction m as [|(a, b) m IH]; cbn [entry]; [intros []|]. destruct (Nat.eqb_spec k a) as [->|]; [intros I; exists b; cbn; auto|]. intros I. destruct (IH I) as (v & J & K). exists v. cbn. auto.
Qed.
Lemma vals_in {A} (m : list (nat * list A)) e : In e (vals m) <-> exists k v, In (k, v) m /\ In e v.
Proof. unfold vals. rewrite in_flat_map. split; [intros ((k, v) & I & J); eauto|intros (k & v & I & J); exists (k, v); auto]. Qed.
Lemma entry_vals {A} k (m : list (nat * list A)) e : In e (entry k m) -> In e (vals m).
Proof. intros I. apply entry_in in I as (v & I & J). apply vals_in. eauto. Qed.
Lemma mem_in x l : mem x l = true <-> In x l.
Proof. unfold mem. rewrite existsb_exists. setoid_rewrite Nat.eqb_eq. split; [intros (y & I & ->); auto|eauto]. Qed.
Lemma mem_no x l : mem x l = false <-> ~ In x l.
Proof. rewrite <- mem_in. destruct (mem x l); split; congruence. Qed.
Lemma drop_in x l y : In y (drop x l) <-> In y l /\ y <> x.
Proof. unfold drop. rewrite filter_In, negb_true_iff, Nat.eqb_neq. intuition congruence. Qed.
Lemma pick_in {A} bs : forall (l : list A) x, In x (pick bs l) -> In x l.
Proof.
  induction bs as [|b bs IH]; intros [|y l] x; cbn [pick In]; try tauto. specialize (IH l x). destruct b; cbn [In]; tauto.
Qed.
Lemma skipn_in {A} n : forall (l : list A) x, In x (skipn n l) -> In x l.
Proof. induction n as [|n IH]; intros [|y l] x; cbn [skipn]; auto. intros I. right. auto. Qed.

(** ** The invariant *)

Definition directs (s : state) : list (nat * nat * deferral) := match pc s with Handling d => d | _ => [] end.
Definition tok (x : nat) (s : state) : nat :=
  sm (fun e => ind x (q_product e)) (queue s) + sm (fun j => ind x (j_product j)) (running s) + sm (fun e => ind x (fst e)) (vals (single s))
  + sm (fun e => ind x (fst e)) (bulk s) + sm (fun e => ind x (fst e)) (vals (for_state s)) + sm (fun e => ind x (fst (fst e))) (directs s) + sm (ind x) (finished s).
Definition used (x : nat) (s : state) : nat :=
  sm (ind x) (available s) + sm (fun j => ind x (j_state j)) (running s) + sm (fun e => ind x (snd (fst e))) (directs s).
Definition pending (s : state) (p : nat) (q : nat) : Prop := (exists i r, todo s p = Single q i :: r) /\ ~ In p (failed s).

Record Inv (products : list nat) (states : list nat) (rank : nat -> nat) (plan : nat -> list dep) (s : state) : Prop := {
  i_tok : forall x, tok x s = sm (ind x) products;
  i_used : forall x, used x s = sm (ind x) states;
  i_th : forall x, sm (ind x) (to_handle s) + sm (ind x) (finished s) = sm (ind x) products;
  i_keys : NoDup (map fst (single s));
  i_single : forall q l, In (q, l) (single s) -> l <> [] /\ In q (to_handle s) /\ forall e, In e l -> pending s (fst e) q;
  i_for : forall k v, In (k, v) (for_state s) -> v <> [] ->
    In k (map j_state (running s)) \/ In k (map (fun e => snd (fst e)) (directs s)) \/ In (Some k) (map q_state (queue s));
  i_fkeys : NoDup (map fst (for_state s));
  i_states : forall l, In (Some l) (map q_state (queue s)) \/ In l (map snd (vals (single s))) \/ In l (map snd (bulk s)) -> In l states;
  i_bulk : forall e, In e (bulk s) -> (exists c r, todo s (fst e) = Bulk c :: r) /\ ~ In (fst e) (failed s);
  i_end : forall j, In j (running s) -> (forall d, j_phase j <> Runs d) ->
    todo s (j_product j) = [] \/ In (j_product j) (failed s) \/ (exists q i r, todo s (j_product j) = Single q i :: r) \/ (exists c r, todo s (j_product j) = Bulk c :: r);
  i_pc : match pc s with
         | Failed => False
         | Waiting => running s <> []
         | Scheduling => forall j, In j (running s) -> j_phase j <> Done
         | Finished => to_handle s = []
         | Handling _ => True end;
  i_max : max_jobs s <= length states /\ (products <> [] -> 1 <= max_jobs s);
  i_rank : forall p q, In p products -> In q (flat_map names (todo s p)) -> rank q < rank p;
  i_names : forall p q, In p products -> ~ In p (failed s) -> In q (direct_names (plan p)) -> In q (to_handle s) -> In q (direct_names (todo s p));
  i_order : forall a p b q, finished s = a ++ p :: b -> ~ In p (failed s) -> In q (direct_names (plan p)) -> In q products -> In q a }.

Section Steps.
Context (products states : list nat) (rank : nat -> nat) (plan : nat -> list dep).
Context (NDp : NoDup products) (NDs : NoDup states).
Notation INV := (Inv products states rank plan).

Lemma tok_le s x : INV s -> tok x s <= 1.
Proof. intros H. rewrite (i_tok _ _ _ _ _ H). now apply nodup_sm. Qed.
Lemma used_le s x : INV s -> used x s <= 1.
Proof. intros H. rewrite (i_used _ _ _ _ _ H). now apply nodup_sm. Qed.
Lemma running_nodup s : INV s -> NoDup (map j_product (running s)).
Proof. intros H. apply nodup_sm. intros x. rewrite sm_map. pose proof (tok_le s x H). unfold tok in *. lia. Qed.
(** A product that is somewhere before it is finished is still to be handled. *)
Lemma in_products s p : INV s -> 0 < tok p s -> In p products.
Proof. intros H T. rewrite (i_tok _ _ _ _ _ H) in T. now apply ind_in'. Qed.
Lemma in_to_handle s p : INV s -> 0 < tok p s -> ~ In p (finished s) -> In p (to_handle s).
Proof.
  intros H T F. apply ind_in'. pose proof (i_th _ _ _ _ _ H p). pose proof (i_tok _ _ _ _ _ H p). assert (sm (ind p) (finished s) = 0); [|lia].
  destruct (sm (ind p) (finished s)) eqn:E; auto. destruct F. apply ind_in'. lia.
Qed.
Lemma not_finished s p : INV s -> tok p s > sm (ind p) (finished s) -> ~ In p (finished s).
Proof. intros H T F. apply ind_in' in F. pose proof (tok_le s p H). lia. Qed.
Lemma to_handle_products s q : INV s -> In q (to_handle s) -> In q products.
Proof. intros H I. apply ind_in'. apply ind_in' in I. pose proof (i_th _ _ _ _ _ H q). lia. Qed.

Ltac proj := cbn [pc max_jobs queue running single bulk for_state available to_handle finished failed todo directs with_job with_pc with_queue j_product j_state j_phase q_product q_state q_count fst snd].

(** A step of a job: its phase, the rest of its items and perhaps a failure. *)
Lemma with_job_inv s p j ph t f :
  INV s -> find_job p (running s) = Some j -> (f = failed s \/ f = p :: failed s) ->
  (ph = Done -> pc s = Waiting) ->
  (forall q, In q (flat_map names t) -> rank q < rank p) ->
  ((forall d, ph <> Runs d) -> t = [] \/ In p f \/ (exists q i r, t = Single q i :: r) \/ (exists c r, t = Bulk c :: r)) ->
  (~ In p f -> forall q, In q (direct_names (todo s p)) -> In q (to_handle s) -> In q (direct_names t)) ->
  INV (with_job s p ph t f).
Proof.
  intros H F FF DN RK EN NM. pose proof (running_nodup s H) as ND. destruct (find_job_some _ _ _ F) as [JI JP].
  assert (OF : forall x, In x f <-> In x (failed s) \/ (x = p /\ In p f)) by (intros x; destruct FF as [->| ->]; cbn [In]; intuition; subst; auto).
  assert (NP : forall x, tok x s > sm (fun j => ind x (j_product j)) (running s) -> x <> p).
  { intros x T ->. pose proof (tok_le s p H). assert (0 < sm (fun j => ind p (j_product j)) (running s)); [|lia]. apply ind_in. apply in_map_iff. eauto. }
  assert (TS : forall e, In e (vals (single s)) -> fst e <> p).
  { intros e I. apply NP. unfold tok. assert (0 < sm (fun e0 => ind (fst e) (fst e0)) (vals (single s))); [|lia]. apply ind_in. now apply in_map. }
  assert (TB : forall e, In e (bulk s) -> fst e <> p).
  { intros e I. apply NP. unfold tok. assert (0 < sm (fun e0 => ind (fst e) (fst e0)) (bulk s)); [|lia]. apply ind_in. now apply in_map. }
  assert (TF : ~ In p (finished s)).
  { intros I. assert (p <> p); [|congruence]. apply NP. unfold tok. apply ind_in' in I. lia. }
  assert (ST : forall x, x <> p -> set (todo s) p t x = todo s x) by (intros x N; unfold set; apply Nat.eqb_neq in N; now rewrite N).
  assert (SP : set (todo s) p t p = t) by (unfold set; now rewrite Nat.eqb_refl).
  destruct H as [H1 H2 H3 H4 H5 H6 HA HB H7 H8 H9 H10 H11 H12 H13]. constructor; proj; auto.
  - intros x. rewrite <- H1. unfold tok. proj. rewrite <- (sm_map j_product (ind x)), set_phase_product, sm_map. reflexivity.
  - intros x. rewrite <- H2. unfold used. proj. rewrite <- (sm_map j_state (ind x)), set_phase_state, sm_map. reflexivity.
  - intros q l I. destruct (H5 q l I) as (A & B & C). repeat split; auto.
    + destruct (C e H) as [(i & r & E) _]. exists i, r. proj. rewrite ST; auto. apply TS, vals_in. eauto.
    + proj. rewrite OF. intros [X|[X _]]; [now destruct (C e H)|]. revert X. apply TS, vals_in. eauto.
  - intros k v I N. rewrite set_phase_state. exact (H6 k v I N).
  - intros e I. destruct (H7 e I) as [A B]. rewrite ST by auto. split; auto. rewrite OF. intros [X|[X _]]; [tauto|]. revert X. now apply TB.
  - intros k I N. apply set_phase_in in I as [[A B]|[I NE]].
    + rewrite A, SP. apply EN. rewrite <- B. exact N.
    + rewrite ST by auto. destruct (H8 k I N) as [X|[X|X]]; auto. right. left. apply OF. auto.
  - destruct (pc s) eqn:PC; auto.
    + intros k I. apply set_phase_in in I as [[A B]|[I NE]]; [|auto]. rewrite B. intros D. specialize (DN D). discriminate.
    + intros E. apply H9. apply (f_equal (map j_product)) in E. rewrite set_phase_product in E. now destruct (running s).
  - intros x q I J. destruct (Nat.eq_dec x p) as [->|NE]; [rewrite SP in J; auto|rewrite ST in J by auto; eauto].
  - intros x q I NF J K. destruct (Nat.eq_dec x p) as [->|NE].
    + rewrite SP. apply NM; auto. apply H12; auto. intros X. apply NF, OF. auto.
    + rewrite ST by auto. apply H12; auto. intros X. apply NF, OF. auto.
  - intros a x b q E NF J K. apply (H13 a x b q); auto. intros X. apply NF, OF. auto.
Qed.
Lemma names_app a b q : In q (flat_map names (a ++ b)) <-> In q (flat_map names a) \/ In q (flat_map names b).
Proof. now rewrite flat_map_app, in_app_iff. Qed.
Lemma dnames_app a b q : In q (direct_names (a ++ b)) <-> In q (direct_names a) \/ In q (direct_names b).
Proof. unfold direct_names. now rewrite flat_map_app, in_app_iff. Qed.
Lemma names_pick bs l q : In q (flat_map names (pick bs l)) -> In q (flat_map names l).
Proof. rewrite !in_flat_map. intros (x & I & J). exists x. split; auto. now apply pick_in in I. Qed.

Lemma job_step_inv s p use picks s' : INV s -> job_step p use picks s = Some s' -> INV s'.
Proof.
  intros H E. unfold job_step in E. destruct (find_job p (running s)) as [[jp l [d| |]]|] eqn:F; try discriminate. injection E as <-.
  pose proof (find_job_some _ _ _ F) as [JI JP]. cbn in JP. subst jp.
  assert (IP : In p products). { apply (in_products s p H). unfold tok. assert (0 < sm (fun j => ind p (j_product j)) (running s)); [|lia]. apply ind_in, in_map_iff. eexists. split; [|exact JI]. reflexivity. }
  pose proof (i_rank _ _ _ _ _ H p) as RK. assert (RP : forall q, In q (flat_map names (todo s p)) -> rank q < rank p) by (intros; apply RK; auto). clear RK.
  assert (LOAD : forall inner rest, (forall q, In q (flat_map names inner) -> rank q < rank p) -> (forall q, In q (flat_map names rest) -> rank q < rank p) ->
    (~ In p (failed s) -> forall q, In q (direct_names (todo s p)) -> In q (to_handle s) -> In q (direct_names rest)) ->
    INV (with_job s p (Runs (if use then Allowed else d)) ((if use then inner else []) ++ rest) (failed s))).
  { intros inner rest RI RR NM. eapply with_job_inv; eauto.
    - discriminate.
    - intros q. rewrite names_app. destruct use; cbn [flat_map In]; intros [X|X]; auto. destruct X.
    - intros X. now destruct (X (if use then Allowed else d)).
    - intros NF q I J. rewrite dnames_app. right. auto. }
  destruct (todo s p) as [|[q inner|inner|cands] rest] eqn:T.
  - eapply with_job_inv; eauto; try discriminate. rewrite T. auto.
  - cbn [flat_map names In app] in RP.
    destruct (Nat.eqb_spec q p) as [->|NE].
    + exfalso. specialize (RP p (or_introl eq_refl)). lia.
    + destruct (mem q (to_handle s)) eqn:M.
      * destruct d.
        -- eapply with_job_inv; eauto; try discriminate; try (rewrite T; now auto). intros _. right. right. left. eauto.
        -- eapply with_job_inv; eauto; try discriminate; try (rewrite T; now auto).
           ++ intros x X. apply RP. right. apply in_or_app. auto.
           ++ intros X. now destruct (X NotAllowed).
           ++ intros X. destruct X. now left.
      * apply LOAD.
        -- intros x X. apply RP. right. apply in_or_app. auto.
        -- intros x X. apply RP. right. apply in_or_app. auto.
        -- intros _ x [X|X] Y; [subst x; apply mem_no in M; tauto|exact X].
  - apply LOAD.
    + intros x X. apply RP. cbn [flat_map names]. apply in_or_app. auto.
    + intros x X. apply RP. cbn [flat_map names]. apply in_or_app. auto.
    + intros _ x X Y. exact X.
  - destruct d.
    + eapply with_job_inv; eauto; try discriminate; try (rewrite T; now auto). intros _. right. right. right. eauto.
    + eapply with_job_inv; eauto; try discriminate; try (rewrite T; now auto).
      * intros x. rewrite names_app. intros [X|X]; apply RP; cbn [flat_map names]; apply in_or_app; [left; now apply names_pick in X|auto].
      * intros X. now destruct (X Allowed).
      * rewrite T. intros _ x X Y. rewrite dnames_app. right. exact X.
Qed.
Lemma job_error_inv s p n s' : INV s -> job_error p n s = Some s' -> INV s'.
Proof.
  intros H E. unfold job_error in E. destruct (find_job p (running s)) as [[jp l [d| |]]|] eqn:F; try discriminate. injection E as <-.
  pose proof (find_job_some _ _ _ F) as [JI JP]. cbn in JP. subst jp.
  assert (IP : In p products). { apply (in_products s p H). unfold tok. assert (0 < sm (fun j => ind p (j_product j)) (running s)); [|lia]. apply ind_in, in_map_iff. eexists. split; [|exact JI]. reflexivity. }
  pose proof (i_rank _ _ _ _ _ H p) as RK.
  assert (A : INV (with_job s p Ended (todo s p) (p :: failed s))).
  { eapply with_job_inv; eauto; try discriminate. intros _. right. left. now left. }
  destruct n as [|n]; [exact A|]. destruct (todo s p) as [|x r] eqn:T; [exact A|].
  eapply with_job_inv; eauto; try discriminate.
  - intros q I. apply RK; auto. rewrite in_flat_map in *. destruct I as (y & I & J). exists y. split; auto. now apply skipn_in in I.
  - intros X. now destruct (X d).
  - intros X. destruct X. now left.
Qed.
Lemma mark_inv s p s' : INV s -> mark p s = Some s' -> INV s'.
Proof.
  intros H E. unfold mark in E. destruct (pc s) eqn:PC; try discriminate. destruct (find_job p (running s)) as [[jp l [d| |]]|] eqn:F; try discriminate. injection E as <-.
  pose proof (find_job_some _ _ _ F) as [JI JP]. cbn in JP. subst jp.
  assert (IP : In p products). { apply (in_products s p H). unfold tok. assert (0 < sm (fun j => ind p (j_product j)) (running s)); [|lia]. apply ind_in, in_map_iff. eexists. split; [|exact JI]. reflexivity. }
  eapply with_job_inv; eauto.
  - intros q I. apply (i_rank _ _ _ _ _ H p); auto.
  - intros _. apply (i_end _ _ _ _ _ H _ JI). discriminate.
Qed.

Lemma entry_nodup {A} k v (m : list (nat * list A)) : NoDup (map fst m) -> In (k, v) m -> entry k m = v.
Proof.
  induction m as [|(a, b) m IH]; [intros _ []|]. cbn [map fst entry]. intros N I. inversion N as [|? ? NI N']; subst. destruct I as [E|I].
  - injection E as <- <-. now rewrite Nat.eqb_refl.
  - destruct (Nat.eqb_spec k a) as [<-|]; [destruct NI; apply in_map_iff; exists (k, v); auto|auto].
Qed.
Lemma snoc_split {A} (l a b : list A) x y : l ++ [y] = a ++ x :: b -> (b = [] /\ x = y /\ a = l) \/ (exists b', b = b' ++ [y] /\ l = a ++ x :: b').
Proof.
  intros E. destruct b as [|z b] using rev_ind.
  - left. apply app_inj_tail in E as [-> ->]. auto.
  - right. exists b. rewrite app_comm_cons, app_assoc in E. apply app_inj_tail in E as [-> ->]. auto.
Qed.

(** What becomes of the loader state of a job that is done. *)
Lemma release s p l direct' fs av :
  INV s -> find_job p (running s) = Some {| j_product := p; j_state := l; j_phase := Done |} ->
  (direct', fs) = match entry l (for_state s) with (p', d) :: t => (directs s ++ [(p', l, d)], put l t (for_state s)) | [] => (directs s, for_state s) end ->
  av = match entry l (for_state s) with [] => l :: available s | _ => available s end ->
  (forall g : nat * deferral -> nat,
     sm g (vals (for_state s)) + sm (fun e => g (fst (fst e), snd e)) (directs s) = sm g (vals fs) + sm (fun e => g (fst (fst e), snd e)) direct') /\
  (forall x, sm (ind x) av + sm (fun j => ind x (j_state j)) (drop_job p (running s)) + sm (fun e => ind x (snd (fst e))) direct' = used x s) /\
  (forall k v, In (k, v) fs -> v <> [] ->
     In k (map j_state (drop_job p (running s))) \/ In k (map (fun e => snd (fst e)) direct') \/ In (Some k) (map q_state (queue s))) /\
  NoDup (map fst fs).
Proof.
  intros H F D AV. pose proof (running_nodup s H) as ND. subst av.
  pose proof (fun x => sm_drop_job (fun j => ind x (j_state j)) p (running s) _ ND F) as DR. cbn [j_state] in DR.
  assert (RS : forall k, In k (map j_state (running s)) -> k = l \/ In k (map j_state (drop_job p (running s)))).
  { intros k I. apply ind_in in I. rewrite DR in I. destruct (Nat.eq_dec k l); [auto|]. right. apply ind_in. assert (ind k l = 0) by (unfold ind; apply Nat.eqb_neq in n; now rewrite n). lia. }
  pose proof (i_for _ _ _ _ _ H) as IF. pose proof (i_fkeys _ _ _ _ _ H) as FK.
  destruct (entry l (for_state s)) as [|(p', d) t] eqn:E; injection D as -> ->.
  - repeat split; auto.
    + intros x. unfold used. rewrite (DR x), sm_cons. lia.
    + intros k v I N. destruct (IF k v I N) as [X|[X|X]]; auto. apply RS in X as [->|X]; auto. apply (entry_nodup _ _ _ FK) in I. congruence.
  - repeat split.
    + intros g. pose proof (sm_put g l t (for_state s)). rewrite E in *. rewrite sm_cons in *. rewrite sm_app, sm_cons, sm_nil. cbn [fst snd]. lia.
    + intros x. unfold used. rewrite (DR x), sm_app, sm_cons, sm_nil. cbn [fst snd]. lia.
    + intros k v I N. rewrite map_app, in_app_iff. cbn [map fst snd In]. apply put_in in I as [[-> ->]|I]; [tauto|].
      destruct (IF k v I N) as [X|[X|X]]; auto. apply RS in X as [->|X]; auto.
    + now apply put_keys.
Qed.

Lemma handle_inv s p s' : INV s -> handle p s = Some s' -> INV s'.
Proof.
  intros H E.
  assert (G : exists l, find_job p (running s) = Some {| j_product := p; j_state := l; j_phase := Done |}).
  { unfold handle in E. destruct (find_job p (running s)) as [[jp l [d| |]]|] eqn:F; try (destruct (pc s); discriminate). exists l. apply find_job_some in F as [_ <-]. reflexivity. }
  destruct G as (l & F). unfold handle in E. rewrite F in E.
  pose proof (running_nodup s H) as ND. destruct (find_job_some _ _ _ F) as [JI _].
  set (D := match entry l (for_state s) with (p', d) :: t => (directs s ++ [(p', l, d)], put l t (for_state s)) | [] => (directs s, for_state s) end).
  destruct D as (direct', fs) eqn:DE. subst D.
  assert (DR := release s p l direct' fs _ H F (eq_sym DE) eq_refl). set (av := match entry l (for_state s) with [] => l :: available s | _ => available s end) in *.
  assert (E' : (let res pc q sg bk th fin :=
          Some {| pc := pc; max_jobs := max_jobs s; queue := q; running := drop_job p (running s); single := sg; bulk := bk; for_state := fs; available := av;
                  to_handle := th; finished := fin; failed := failed s; todo := todo s |} in
        if mem p (failed s) || (match todo s p with [] => true | _ => false end) then
          res (Handling direct')
            (queue s ++ map (fun e : nat * nat => {| q_product := fst e; q_state := Some (snd e); q_count := None |}) (entry p (single s)))
            (erase p (single s)) (bulk s) (drop p (to_handle s)) (finished s ++ [p])
        else match todo s p with
             | Bulk _ :: _ => res (Handling direct') (queue s) (single s) (bulk s ++ [(p, l)]) (to_handle s) (finished s)
             | Single q _ :: _ =>
                 if mem q (to_handle s) then res (Handling direct') (queue s) (put q (entry q (single s) ++ [(p, l)]) (single s)) (bulk s) (to_handle s) (finished s)
                 else res (Handling direct') (queue s ++ [{| q_product := p; q_state := Some l; q_count := None |}]) (single s) (bulk s) (to_handle s) (finished s)
             | _ => res Failed (queue s) (single s) (bulk s) (to_handle s) (finished s)
             end) = Some s').
  { rewrite <- E. unfold directs in DE. destruct (pc s) eqn:PC; try discriminate.
    - rewrite DE. reflexivity.
    - rewrite DE. reflexivity. }
  clear E. rename E' into E. destruct DR as (R1 & R2 & R3 & R4).
  pose proof (fun g => sm_drop_job g p (running s) _ ND F) as DJ. cbn [j_product j_state] in DJ.
  pose proof (tok_le s p H) as TL.
  assert (T1 : sm (fun j => ind p (j_product j)) (running s) >= 1) by (rewrite DJ; cbn [j_product]; rewrite ind_same; lia).
  assert (R1' : forall x, sm (fun e => ind x (fst e)) (vals (for_state s)) + sm (fun e => ind x (fst (fst e))) (directs s) = sm (fun e => ind x (fst e)) (vals fs) + sm (fun e => ind x (fst (fst e))) direct').
  { intros x. exact (R1 (fun e => ind x (fst e))). }
  assert (IP : In p products) by (apply (in_products s p H); unfold tok; lia).
  assert (SL : In l states). { apply ind_in'. rewrite <- (i_used _ _ _ _ _ H). unfold used. assert (0 < sm (fun j => ind l (j_state j)) (running s)); [|lia]. apply ind_in, in_map_iff. eexists. split; [|exact JI]. reflexivity. }
  assert (EN := i_end _ _ _ _ _ H _ JI). cbn [j_product j_phase] in EN. specialize (EN ltac:(discriminate)).
  assert (RE : forall j, In j (drop_job p (running s)) -> In j (running s)) by (intros j I; now apply drop_job_in in I).
  pose proof H as [H1 H2 H3 H4 H5 H6 HA HB H7 H8 H9 H10 H11 H12 H13].
  destruct (mem p (failed s) || _) eqn:FIN.
  - injection E as <-. constructor; proj; auto.
    + intros x. rewrite <- H1. unfold tok. proj. specialize (R1' x). rewrite (DJ (fun j => ind x (j_product j))). cbn [j_product].
      rewrite (sm_erase (fun e => ind x (fst e)) p (single s) H4), !sm_app, sm_map, sm_cons, sm_nil. cbn [q_product]. lia.
    + intros x. rewrite <- H2, <- R2. unfold used. proj. reflexivity.
    + intros x. rewrite ind_drop, sm_app, sm_cons, sm_nil. specialize (H3 x). unfold ind at 3. rewrite (Nat.eqb_sym x p). destruct (Nat.eqb_spec p x) as [<-|]; [|lia].
      assert (sm (ind p) (finished s) = 0) by (unfold tok in TL; lia). assert (sm (ind p) products = 1); [|lia]. rewrite <- H1. assert (0 < tok p s) by (unfold tok; lia). lia.
    + clear -H4. unfold erase. induction (single s) as [|(a, b) m IH]; [exact H4|]. cbn [map fst filter] in *. inversion H4 as [|? ? NI N']; subst. destruct (negb (a =? p)); [|auto].
      cbn [map fst]. constructor; auto. intros I. apply NI. apply in_map_iff in I as ((c, d) & <- & I). apply filter_In in I as [I _]. apply in_map_iff. exists (c, d). auto.
    + intros q l0 I. apply filter_In in I as [I NE]. cbn [fst] in NE. apply negb_true_iff, Nat.eqb_neq in NE. destruct (H5 q l0 I) as (A & B & C). repeat split; auto; [apply drop_in; auto| |]; now apply C.
    + intros k v I N. destruct (R3 k v I N) as [X|[X|X]]; auto. right. right. rewrite map_app. apply in_or_app. auto.
    + intros k [X|[X|X]]; apply HB; auto.
      * rewrite map_app, in_app_iff, map_map in X. destruct X as [X|X]; auto. cbn [q_state] in X. right. left. apply in_map_iff in X as (e & X & I). injection X as <-. apply in_map. now apply entry_vals in I.
      * right. left. apply in_map_iff in X as (e & <- & I). apply in_map. apply vals_in in I as (a & b & I & J). apply vals_in. apply filter_In in I as [I _]. eauto.
    + intros x q I NF J K. apply H12; auto. now apply drop_in in K.
    + intros a x b q FE NF J K. apply snoc_split in FE as [(-> & -> & ->)|(b' & -> & FE)]; [|eauto].
      assert (TE : todo s p = []). { apply orb_true_iff in FIN as [X|X]; [apply mem_in in X; tauto|]. destruct (todo s p); [auto|discriminate]. }
      specialize (H12 p q IP NF J). rewrite TE in H12. apply ind_in'. specialize (H3 q). apply ind_in' in K.
      destruct (sm (ind q) (to_handle s)) eqn:TH; [lia|]. destruct H12. apply ind_in'. lia.
  - apply orb_false_iff in FIN as [NF TN]. apply mem_no in NF.
    assert (NTK : forall x, tok x s = ind x p + sm (fun j => ind x (j_product j)) (drop_job p (running s)) + sm (fun e => ind x (q_product e)) (queue s) + sm (fun e => ind x (fst e)) (vals (single s))
       + sm (fun e => ind x (fst e)) (bulk s) + sm (fun e => ind x (fst e)) (vals fs) + sm (fun e => ind x (fst (fst e))) direct' + sm (ind x) (finished s)).
    { intros x. unfold tok. rewrite (DJ (fun j => ind x (j_product j))). cbn [j_product]. specialize (R1' x). lia. }
    destruct (todo s p) as [|[q inner|inner|c] r] eqn:T.
    + discriminate.
    + destruct (mem q (to_handle s)) eqn:M.
      * injection E as <-. apply mem_in in M.
        assert (PS : forall e0, In e0 (entry q (single s) ++ [(p, l)]) -> In e0 (entry q (single s)) \/ e0 = (p, l)). { intros e0 I. apply in_app_or in I as [I|[<-|[]]]; auto. }
        constructor; proj; auto.
        -- intros x. rewrite <- H1, NTK. unfold tok. proj. pose proof (sm_put (fun e => ind x (fst e)) q (entry q (single s) ++ [(p, l)]) (single s)) as SP. rewrite sm_app, sm_cons, sm_nil in SP. cbn [fst] in SP. lia.
        -- intros x. rewrite <- H2, <- R2. unfold used. proj. reflexivity.
        -- now apply put_keys.
        -- intros a v I. apply put_in in I as [[-> ->]|I].
           ++ split; [destruct (entry q (single s)); discriminate|]. split; auto. intros e0 I. apply PS in I as [I| ->].
              ** apply entry_in in I as (v & I & J). now apply (H5 q v I).
              ** split; cbn [fst]; proj; eauto.
           ++ apply H5, I.
        -- intros k [X|[X|X]]; auto. apply in_map_iff in X as (e & <- & I). apply vals_in in I as (a & v & I & J). apply put_in in I as [[-> ->]|I].
           ++ apply PS in J as [J| ->]; [|exact SL]. apply HB. right. left. apply in_map. now apply entry_vals in J.
           ++ apply HB. right. left. apply in_map, vals_in. eauto.
      * injection E as <-. constructor; proj; auto.
        -- intros x. rewrite <- H1, NTK. unfold tok. proj. rewrite sm_app, sm_cons, sm_nil. cbn [q_product]. lia.
        -- intros x. rewrite <- H2, <- R2. unfold used. proj. reflexivity.
        -- intros k v I N. destruct (R3 k v I N) as [X|[X|X]]; auto. right. right. rewrite map_app. apply in_or_app. auto.
        -- intros k [X|[X|X]]; auto. rewrite map_app, in_app_iff in X. destruct X as [X|[X|[]]]; auto. cbn [q_state] in X. now injection X as <-.
    + exfalso. destruct EN as [X|[X|[(q & i & r' & X)|(c & r' & X)]]]; try discriminate. tauto.
    + injection E as <-. constructor; proj; auto.
      * intros x. rewrite <- H1, NTK. unfold tok. proj. rewrite sm_app, sm_cons, sm_nil. cbn [fst]. lia.
      * intros x. rewrite <- H2, <- R2. unfold used. proj. reflexivity.
      * intros k [X|[X|X]]; auto. rewrite map_app, in_app_iff in X. destruct X as [X|[X|[]]]; auto. cbn [snd] in X. now subst k.
      * intros e I. apply in_app_or in I as [I|[<-|[]]]; [auto|]. cbn [fst]. split; eauto.
Qed.

Lemma start_inv s pc' p l d ok av q :
  INV s -> (match pc' with Handling _ => True | Scheduling => forall j, In j (running s) -> j_phase j <> Done | _ => False end) ->
  let dr := match pc' with Handling d => d | _ => [] end in
  (forall x, sm (fun e => ind x (q_product e)) (queue s) + sm (fun e => ind x (fst (fst e))) (directs s) = ind x p + sm (fun e => ind x (q_product e)) q + sm (fun e => ind x (fst (fst e))) dr) ->
  (forall x, sm (ind x) (available s) + sm (fun e => ind x (snd (fst e))) (directs s) = ind x l + sm (ind x) av + sm (fun e => ind x (snd (fst e))) dr) ->
  (forall k, In k (map (fun e => snd (fst e)) (directs s)) \/ In (Some k) (map q_state (queue s)) -> k = l \/ In k (map (fun e => snd (fst e)) dr) \/ In (Some k) (map q_state q)) ->
  (forall k, In (Some k) (map q_state q) -> In (Some k) (map q_state (queue s))) ->
  INV (start s pc' p l d ok av q).
Proof.
  intros H P dr T U FS QS. pose proof H as [H1 H2 H3 H4 H5 H6 HA HB H7 H8 H9 H10 H11 H12 H13].
  assert (FN : find_job p (running s) = None).
  { destruct (find_job p (running s)) as [j|] eqn:F; auto. apply find_job_some in F as [I <-]. pose proof (tok_le s (j_product j) H) as TL. unfold tok in TL. specialize (T (j_product j)). rewrite ind_same in T.
    assert (0 < sm (fun k => ind (j_product j) (j_product k)) (running s)) by (apply ind_in, in_map, I). lia. }
  assert (SL : In l states). { apply ind_in'. rewrite <- H2. unfold used. specialize (U l). rewrite ind_same in U. lia. }
  assert (DD : forall m0 q0 r0 s0 b0 f0 a0 t0 fi0 fa0 td0, directs (Build_state pc' m0 q0 r0 s0 b0 f0 a0 t0 fi0 fa0 td0) = dr) by reflexivity.
  unfold start. rewrite FN. destruct ok.
  - constructor; proj; auto.
    + intros x. rewrite <- H1. unfold tok. proj. rewrite ?DD. rewrite sm_app, sm_cons, sm_nil. cbn [j_product]. specialize (T x). lia.
    + intros x. rewrite <- H2. unfold used. proj. rewrite ?DD. rewrite sm_app, sm_cons, sm_nil. cbn [j_state]. specialize (U x). lia.
    + intros k v I N. rewrite ?DD. rewrite map_app, in_app_iff. cbn [map j_state In]. destruct (H6 k v I N) as [X|X]; [auto|]. apply FS in X as [->|[X|X]]; auto.
    + intros k [X|X]; auto.
    + intros j I N. apply in_app_or in I as [I|[<-|[]]]; [auto|]. destruct (N d). reflexivity.
    + destruct pc'; try tauto. intros j I. apply in_app_or in I as [I|[<-|[]]]; [auto|discriminate].
  - constructor; proj; auto.
    + intros x. rewrite <- H1. unfold tok. proj. rewrite ?DD. rewrite sm_app, sm_cons, sm_nil. cbn [q_product]. specialize (T x). lia.
    + intros x. rewrite <- H2. unfold used. proj. rewrite ?DD. rewrite sm_cons. specialize (U x). lia.
    + intros k v I N. rewrite ?DD. rewrite map_app, in_app_iff. cbn [map q_state In]. destruct (H6 k v I N) as [X|X]; [auto|]. apply FS in X as [->|[X|X]]; auto.
    + intros k [X|X]; auto. rewrite map_app, in_app_iff in X. destruct X as [X|[X|[]]]; auto. cbn [q_state] in X. now injection X as <-.
    + destruct pc'; tauto.
    + destruct (Nat.leb_spec 2 (max_jobs s)); [|auto]. pose proof (Nat.div_le_upper_bound (max_jobs s) 2 (max_jobs s)). pose proof (Nat.div_le_lower_bound (max_jobs s) 2 1). split; [|intros _]; lia.
Qed.
Lemma vals_empty {A} (m : list (nat * list A)) : (forall k v, In (k, v) m -> v = []) -> vals m = [].
Proof. induction m as [|(k, v) m IH]; [reflexivity|]. intros H. unfold vals in *. cbn [flat_map snd]. rewrite (H k v) by now left. apply IH. intros k' v' I. apply (H k' v'). now right. Qed.
(** If nothing can be done but to wait for products, these wait for each other. *)
Lemma no_cycle s : INV s -> pc s = Scheduling -> running s = [] -> queue s = [] -> bulk s = [] -> single s = [].
Proof.
  intros H PC RU Q B. pose proof H as [H1 H2 H3 H4 H5 H6 HA HB H7 H8 H9 H10 H11 H12 H13]. assert (DE : directs s = []) by (unfold directs; now rewrite PC).
  assert (FE : vals (for_state s) = []).
  { apply vals_empty. intros k v I. destruct v as [|y v]; [auto|]. destruct (H6 k _ I ltac:(discriminate)) as [X|[X|X]]; [rewrite RU in X; destruct X|rewrite DE in X; destruct X|rewrite Q in X; destruct X]. }
  destruct (single s) as [|sg sr] eqn:SG; [reflexivity|]. exfalso.
  assert (NK : forall n q l, rank q < n -> In (q, l) (single s) -> False).
  { induction n as [|n IH]; [lia|]. intros q l L I. rewrite <- SG in H5. destruct (H5 q l I) as (_ & TH & _). pose proof (to_handle_products s q H TH) as QP. apply ind_in' in TH. specialize (H3 q). specialize (H1 q). pose proof (tok_le s q H) as TL.
    unfold tok in H1, TL. rewrite Q, RU, B, FE, DE, !sm_nil in *. assert (WQ : 0 < sm (fun e => ind q (fst e)) (vals (single s))) by lia. apply ind_in, in_map_iff in WQ as (e & WE & WI). apply vals_in in WI as (q2 & v & WI & WV).
    destruct (H5 q2 v WI) as (_ & _ & PD). specialize (PD e WV) as [(i & r & TD) _]. rewrite WE in TD. apply (IH q2 v); [|exact WI].
    assert (rank q2 < rank q); [|lia]. apply H11; auto. rewrite TD. now left. }
  destruct sg as (q, l). apply (NK (S (rank q)) q l); [lia|]. rewrite SG. now left.
Qed.
Lemma sched_inv s ok s' : INV s -> sched ok s = Some s' -> INV s'.
Proof.
  intros H E. unfold sched in E. pose proof H as [H1 H2 H3 H4 H5 H6 HA HB H7 H8 H9 H10 H11 H12 H13].
  destruct (pc s) eqn:PC; try discriminate.
  - injection E as <-. assert (DE : directs s = []) by (unfold directs; now rewrite PC).
    destruct (if length (running s) <? max_jobs s then queue s else []) as [|e q] eqn:QE.
    + destruct (running s) as [|j0 jr] eqn:RU.
      2: { constructor; proj; rewrite ?RU; auto; try discriminate.
           - intros x. rewrite <- H1. unfold tok. proj. now rewrite DE, RU.
           - intros x. rewrite <- H2. unfold used. proj. now rewrite DE, RU.
           - intros k v I N. rewrite DE in H6. exact (H6 k v I N). }
      cbn [length] in QE. assert (Q : queue s = []).
      { destruct (Nat.ltb_spec 0 (max_jobs s)) as [L|L]; [auto|]. destruct products as [|x0 px] eqn:PX; [|exfalso; destruct H10 as [_ X]; specialize (X ltac:(discriminate)); lia].
        destruct (queue s) as [|e q] eqn:Q; auto. specialize (H1 (q_product e)). unfold tok in H1. rewrite Q, sm_cons, ind_same, sm_nil in H1. lia. }
      rewrite Q. assert (FE : vals (for_state s) = []).
      { apply vals_empty. intros k v I. destruct v as [|y v]; [auto|]. destruct (H6 k _ I ltac:(discriminate)) as [X|[X|X]]; [destruct X|rewrite DE in X; destruct X|rewrite Q in X; destruct X]. }
      destruct (bulk s) as [|b bs] eqn:B.
      * destruct (single s) as [|sg sr] eqn:SG.
        -- assert (TH : to_handle s = []).
           { destruct (to_handle s) as [|x th] eqn:TH; auto. exfalso. specialize (H3 x). rewrite sm_cons, ind_same in H3. pose proof (tok_le s x H) as TL. specialize (H1 x). unfold tok in H1, TL. rewrite Q, RU, SG, B, FE, DE, !sm_nil in *. cbn in H1, TL. lia. }
           rewrite TH. constructor; proj; rewrite ?TH, ?RU, ?SG, ?B, ?Q in *; auto.
           ++ intros x. rewrite <- H1. unfold tok. proj. now rewrite DE, RU, Q, SG, B.
           ++ intros x. rewrite <- H2. unfold used. proj. now rewrite DE, RU.
           ++ intros k v I N. rewrite DE in H6. exact (H6 k v I N).
        -- exfalso. assert (X : single s = []) by (apply no_cycle; auto). congruence.
      * assert (DW : forall q0 b0, directs (with_queue s q0 b0) = []) by (intros; unfold directs; cbn [with_queue pc]; now rewrite PC).
        constructor; proj; rewrite ?RU, ?PC; auto.
        -- intros x. rewrite <- H1. unfold tok. rewrite DW. proj. rewrite DE, RU, Q, B, sm_map. cbn [no_deferral q_product]. rewrite !sm_nil. lia.
        -- intros k v I N. exfalso. assert (X : v = []); [|tauto]. destruct v as [|y v]; auto. assert (IN : In y (vals (for_state s))) by (apply vals_in; exists k, (y :: v); split; auto; now left). rewrite FE in IN. destruct IN.
        -- intros k [X|[X|[]]]; apply HB; auto. right. right. rewrite map_map in X. apply in_map_iff in X as (e & X & I). injection X as <-. now apply in_map.
        -- intros e [].
    + destruct (length (running s) <? max_jobs s) eqn:L; [|discriminate]. apply Nat.ltb_lt in L.
      set (d := match q_count e with None => Allowed | Some n => if length (to_handle s) <? n then Allowed else NotAllowed end).
      destruct (available s) as [|a0 ar] eqn:AV.
      { exfalso. assert (P : Permutation (map j_state (running s)) states).
        { apply perm_sm. intros x. rewrite <- H2, sm_map. unfold used. now rewrite AV, DE, !sm_nil, Nat.add_0_r. }
        apply Permutation_length in P. rewrite map_length in P. lia. }
      assert (TQ : forall x, sm (fun e => ind x (q_product e)) (queue s) + sm (fun e => ind x (fst (fst e))) (directs s) = ind x (q_product e) + sm (fun e => ind x (q_product e)) q + sm (fun e : nat * nat * deferral => ind x (fst (fst e))) []).
      { intros x. rewrite DE, QE, sm_cons, sm_nil. lia. }
      destruct (q_state e) as [l|] eqn:QS.
      * change ((l =? a0) || mem l ar) with (mem l (a0 :: ar)). change (if negb (l =? a0) then a0 :: drop l ar else drop l ar) with (drop l (a0 :: ar)). rewrite <- AV. destruct (mem l (available s)) eqn:M.
        -- apply start_inv; auto; cbn [map In]; rewrite ?DE, ?QE.
           ++ intros x. rewrite !sm_nil, ind_drop. apply mem_in, ind_in' in M. pose proof (used_le s l H) as UL. unfold used in UL. unfold ind at 2. rewrite (Nat.eqb_sym x l). destruct (Nat.eqb_spec l x) as [<-|]; lia.
           ++ cbn [map In]. rewrite QS. intros k [[]|[X|X]]; auto. injection X as <-. auto.
           ++ intros k X. now right.
        -- assert (LR : In l (map j_state (running s))).
           { apply mem_no in M. assert (LS : In l states). { apply HB. left. rewrite QE. now left. } apply ind_in' in LS. rewrite <- H2 in LS. unfold used in LS. rewrite DE, sm_nil in LS. apply ind_in. destruct (sm (ind l) (available s)) eqn:Z; [lia|]. destruct M. apply ind_in'. lia. }
           constructor; proj; auto.
           ++ intros x. rewrite <- H1. unfold tok. proj. rewrite DE, QE, sm_cons. pose proof (sm_put (fun e => ind x (fst e)) l (entry l (for_state s) ++ [(q_product e, d)]) (for_state s)) as SP. rewrite sm_app, sm_cons, sm_nil in SP. cbn [fst] in SP. lia.
           ++ intros x. rewrite <- H2. unfold used. proj. now rewrite DE.
           ++ intros k v I N. apply put_in in I as [[-> _]|I]; auto. destruct (H6 k v I N) as [X|[X|X]]; auto; [rewrite DE in X; destruct X|]. rewrite QE in X. destruct X as [X|X]; auto. rewrite QS in X. injection X as <-. auto.
           ++ now apply put_keys.
           ++ intros k [X|X]; apply HB; auto. left. rewrite QE. now right.
      * apply start_inv; auto; cbn [map In]; rewrite ?DE, ?QE.
        -- intros x. rewrite AV, !sm_nil, sm_cons. lia.
        -- cbn [map In]. rewrite QS. intros k [[]|[X|X]]; auto. discriminate.
        -- intros k X. now right.
  - destruct (existsb is_done (running s)) eqn:D; [discriminate|]. destruct direct as [|((p, l), d) t]; injection E as <-.
    + assert (DE : directs s = []) by (unfold directs; now rewrite PC). constructor; proj; auto.
      * intros x. rewrite <- H1. unfold tok. proj. now rewrite DE.
      * intros x. rewrite <- H2. unfold used. proj. now rewrite DE.
      * intros k v I N. rewrite DE in H6. exact (H6 k v I N).
      * intros j I X. assert (existsb is_done (running s) = true); [|congruence]. apply existsb_exists. exists j. split; auto. unfold is_done. now rewrite X.
    + assert (DE : directs s = (p, l, d) :: t) by (unfold directs; now rewrite PC). apply start_inv; auto; rewrite DE.
      * intros x. rewrite sm_cons. cbn [fst]. lia.
      * intros x. rewrite sm_cons. cbn [fst snd]. lia.
      * cbn [map fst snd In]. intros k [[X|X]|X]; auto.
Qed.
Lemma step_inv s e s' : INV s -> step s e = Some s' -> INV s'.
Proof.
  intros H E. destruct e; cbn [step] in E; eauto using job_step_inv, job_error_inv, mark_inv, handle_inv, sched_inv.
  destruct (pc s) eqn:PC; try discriminate. destruct (existsb is_done (running s)) eqn:D; [discriminate|]. injection E as <-.
  assert (DE : directs s = []) by (unfold directs; now rewrite PC). pose proof H as [H1 H2 H3 H4 H5 H6 HA HB H7 H8 H9 H10 H11 H12 H13]. constructor; proj; auto.
  - intros x. rewrite <- H1. unfold tok. proj. now rewrite DE.
  - intros x. rewrite <- H2. unfold used. proj. now rewrite DE.
  - intros k v I N. rewrite DE in H6. exact (H6 k v I N).
  - intros j I X. assert (existsb is_done (running s) = true); [|congruence]. apply existsb_exists. exists j. split; auto. unfold is_done. now rewrite X.
Qed.
End Steps.

Lemma init_inv rank products max plan : NoDup products -> 1 <= max -> ranked rank products plan ->
  Inv products (seq 0 (Nat.max 1 (Nat.min max (length products)))) rank plan (init products max plan).
Proof.
  intros N M R. constructor; cbn [init pc max_jobs queue running single bulk for_state available to_handle finished failed todo directs vals flat_map map In]; auto; try (now constructor); try tauto.
  - intros x. unfold tok. cbn [init pc max_jobs queue running single bulk for_state available to_handle finished failed todo directs vals flat_map]. rewrite !sm_nil, sm_map. cbn [q_product]. rewrite !Nat.add_0_r. reflexivity.
  - intros x. unfold used. cbn [init pc max_jobs queue running single bulk for_state available to_handle finished failed todo directs]. rewrite !sm_nil, !Nat.add_0_r. rewrite <- !count_sm. apply Permutation_count_occ. symmetry. apply Permutation_rev.
  - intros l [X|[[]|[]]]. rewrite map_map in X. apply in_map_iff in X as (y & X & _). discriminate.
  - rewrite seq_length. split; [lia|]. intros NE. destruct products; [congruence|]. cbn [length]. lia.
  - intros a p b q E. destruct a; discriminate.
Qed.
Theorem reachable_inv rank products max plan s : NoDup products -> 1 <= max -> ranked rank products plan -> reachable products max plan s ->
  Inv products (seq 0 (Nat.max 1 (Nat.min max (length products)))) rank plan s.
Proof. intros N M R H. induction H; [now apply init_inv|]. eapply step_inv; eauto. apply seq_NoDup. Qed.

(** ** Each product once *)

(** No product is finished twice, or is running although it is finished. *)
Theorem resolver_no_repeat rank products max plan s : NoDup products -> 1 <= max -> ranked rank products plan -> reachable products max plan s ->
  NoDup (map j_product (running s) ++ finished s).
Proof.
  intros N M R H. pose proof (reachable_inv rank products max plan s N M R H) as V.
  apply nodup_sm. intros x. eapply Nat.le_trans; [|apply (tok_le products _ rank plan N s x V)]. rewrite sm_app, sm_map. unfold tok. lia.
Qed.
(** At the end, each product is finished, once. *)
Theorem resolver_once rank products max plan s : NoDup products -> 1 <= max -> ranked rank products plan -> reachable products max plan s -> pc s = Finished ->
  Permutation (finished s) products /\ to_handle s = [].
Proof.
  intros N M R H F. pose proof (reachable_inv rank products max plan s N M R H) as V. pose proof (i_pc _ _ _ _ _ V) as P. rewrite F in P. split; [|exact P].
  apply perm_sm. intros x. rewrite <- (i_th _ _ _ _ _ V), P. reflexivity.
Qed.
(** ** Dependency cycles *)

(** The claim fails if there are dependency cycles: products that wait for each other are put into the queue again and stay in the map of
    waiting ones, so that they are put into the queue once more when the first of them is finished; a product is resolved and finished twice. *)
Theorem resolver_once_refuted : exists products max plan es s, NoDup products /\ 1 <= max /\
  run (init products max plan) es = Some s /\ pc s = Finished /\ ~ NoDup (finished s).
Proof.
  exists [0; 1], 1, (fun p => match p with 0 => [Single 1 []] | 1 => [Single 0 []] | _ => [] end).
  set (one p := [Sched true; Sched true; Job p true []; Mark p; Handle p; Sched true]). set (two p := [Sched true; Sched true; Job p true []; Job p true []; Mark p; Handle p; Sched true]).
  exists (one 0 ++ one 1 ++ Sched true :: two 0 ++ two 1 ++ one 1 ++ one 0 ++ [Sched true]).
  eexists. split; [repeat constructor; cbn; intuition discriminate|]. split; [lia|]. split; [vm_compute; reflexivity|]. split; [reflexivity|].
  cbn [finished]. intros N. inversion N as [|? ? NI _]; subst. apply NI. cbn. tauto.
Qed.

Module Demo.
(** An application 0 with two libraries 1 and 2, of which 1 needs 2, and a package 3 of all products with some types. *)
Definition plan (p : nat) : list dep :=
  match p with 0 => [Plain [Plain []]; Single 1 [Single 2 []]; Single 2 []] | 1 => [Single 2 []; Plain []] | 3 => [Bulk [Single 0 [Single 1 []]; Single 2 []]] | _ => [] end.
Definition products := [3; 0; 1; 2].
(** The first step that can be done. *)
Definition events (s : state) : list event :=
  flat_map (fun j => [Job (j_product j) true [true; true]; Mark (j_product j); Handle (j_product j)]) (running s) ++ [Sched true].
Fixpoint drive (n : nat) (s : state) : state :=
  match n with
  | O => s
  | S n => match flat_map (fun e => match step s e with Some s' => [s'] | None => [] end) (events s) with s' :: _ => drive n s' | [] => s end
  end.
Definition rank (p : nat) : nat := match p with 3 => 3 | 0 => 2 | 1 => 1 | _ => 0 end.
Example demo_ranked : ranked rank products plan.
Proof.
  intros p q I. cbn in I. destruct I as [<-|[<-|[<-|[<-|[]]]]]; cbn; intros I; repeat (destruct I as [<-|I]; [cbn; lia|]); destruct I.
Qed.
Example demo_nodup : NoDup products. Proof. unfold products. repeat constructor; cbn; intuition discriminate. Qed.
Example demo_one : let s := drive 100 (init products 1 plan) in pc s = Finished /\ finished s = [2; 1; 0; 3] /\ failed s = []. Proof. vm_compute. auto. Qed.
Example demo_four : let s := drive 100 (init products 4 plan) in pc s = Finished /\ finished s = [2; 1; 0; 3] /\ failed s = []. Proof. vm_compute. auto. Qed.
(** With two loader states a product has to wait for the one that it has begun with. *)
Example demo_two : exists s s', run (init [0; 1; 2; 3] 2 (fun p => match p with 0 | 1 => [Single 2 []] | _ => [] end))
  [Sched true; Sched true; Sched true; Job 0 true []; Mark 0; Handle 0; Sched true; Sched true; Sched true; Job 1 true []; Mark 1; Handle 1; Sched true; Sched true; Sched true;
   Job 2 true []; Mark 2; Handle 2; Sched true; Sched true; Sched true; Job 0 true []; Job 0 true []; Mark 0; Handle 0; Sched true; Sched true] = Some s
  /\ for_state s = [(0, [(1, Allowed)])] /\ available s = [1] /\
  run s [Sched true; Job 3 true []; Mark 3; Handle 3; Sched true; Sched true; Sched true; Job 1 true []; Job 1 true []; Mark 1; Handle 1; Sched true; Sched true] = Some s' /\ pc s' = Finished /\ finished s' = [2; 0; 3; 1].
Proof. eexists _, _. split; [vm_compute; reflexivity|]. split; [reflexivity|]. split; [reflexivity|]. split; [vm_compute; reflexivity|]. cbn. auto. Qed.
Example demo_error : exists s, run (init [0; 1] 2 (fun p => match p with 0 => [Single 1 []; Plain []] | _ => [] end))
  [Sched true; Sched true; Sched true; Job 0 true []; Job 1 true []; Mark 0; Mark 1; Handle 0; Handle 1; Sched true; Sched true; Sched true; Error 0 1; Error 0 0; Mark 0; Handle 0; Sched true; Sched true] = Some s
  /\ pc s = Finished /\ finished s = [1; 0] /\ In 0 (failed s).
Proof. eexists. split; [vm_compute; reflexivity|]. cbn. auto. Qed.
End Demo.

Print Assumptions resolver_no_repeat.
Print Assumptions resolver_once.
Print Assumptions resolver_once_refuted.
