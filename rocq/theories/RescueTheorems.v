(** Results of the last build are taken over exactly if the rule application is the same as before; files that are not made any more are removed. *)
From Coq Require Import List Bool Arith Lia.
Import ListNotations.
From Verif Require Import RescueModel.

(** ** Specification *)

(** The rule application that makes [a] with [commands] is the one that was recorded: the same commands, the children it has now are among the recorded ones, the recorded children that no scanner had found are its children, and what scanners
    had found is still there *)
Record same_application (w : project) (r : rad) (commands : list nat) (a : art) : Prop := mkSame {
  same_commands : commands = r_commands r;
  same_inputs : forall k, In (k, false) (r_children r) -> In k (a_children a);
  same_children : forall k, In k (a_children a) -> In k (map fst (r_children r));
  same_scanned : forall k, In (k, true) (r_children r) -> In k (artifacts w);
  same_files : forall f, In f (r_files r) -> In f (files w) }.
(** A recorded child with this path does not exist any more *)
Definition missing (w : project) (r : rad) (p : nat) : Prop := exists k b, In (k, b) (r_children r) /\ ~ In k (artifacts w) /\ snd k = p.
(** An artifact that a rule has just made: its children are different artifacts of the project *)
Definition made (w : project) (a : art) : Prop := NoDup (a_children a) /\ forall k, In k (a_children a) -> In k (artifacts w).
(** Recorded data: no child twice *)
Definition sound_table (t : table) : Prop := NoDup (map fst t) /\ forall p r, In (p, r) t -> NoDup (map fst (r_children r)).

(** ** Tables *)

Lemma key_eqb_eq a b : key_eqb a b = true <-> a = b.
Proof. unfold key_eqb. rewrite andb_true_iff, !Nat.eqb_eq. destruct a, b; cbn. split; [intros [-> ->]; reflexivity|intros [= -> ->]; auto]. Qed.
Lemma has_In k l : has k l = true <-> In k l.
Proof. unfold has. rewrite existsb_exists. split; [intros (x & I & E); apply key_eqb_eq in E; now subst|]. intros I. exists k. split; [assumption|now apply key_eqb_eq]. Qed.
Lemma has_not k l : has k l = false <-> ~ In k l.
Proof. rewrite <- has_In. destruct (has k l); split; congruence. Qed.
Lemma key_in_dec (k : key) l : {In k l} + {~ In k l}.
Proof. destruct (has k l) eqn:E; [left; now apply has_In|right; now apply has_not]. Qed.
Lemma cmds_eqb_eq a b : cmds_eqb a b = true <-> a = b.
Proof. unfold cmds_eqb. destruct (list_eq_dec Nat.eq_dec a b); split; congruence. Qed.
Lemma mem_nat x l : existsb (Nat.eqb x) l = true <-> In x l.
Proof. rewrite existsb_exists. split; [intros (y & I & E); apply Nat.eqb_eq in E; now subst|]. intros I. exists x. split; [assumption|apply Nat.eqb_refl]. Qed.
Lemma find_cons p r t q : find_rad ((p, r) :: t) q = if p =? q then Some r else find_rad t q.
Proof. unfold find_rad. cbn. now destruct (p =? q). Qed.
Lemma find_remove t p q : find_rad (remove_rad t p) q = if p =? q then None else find_rad t q.
Proof.
  induction t as [|[i r] t IH]; [cbn; now destruct (p =? q)|]. unfold remove_rad in *. cbn [filter fst]. destruct (Nat.eqb_spec i p) as [->|NE]; cbn [negb].
  - rewrite IH, find_cons. destruct (p =? q) eqn:E; [reflexivity|]. reflexivity.
  - rewrite !find_cons, IH. destruct (Nat.eqb_spec i q) as [->|]; [|reflexivity]. destruct (Nat.eqb_spec p q); [congruence|reflexivity].
Qed.
Lemma find_put t p r q : find_rad (put_rad t p r) q = if p =? q then Some r else find_rad t q.
Proof. unfold put_rad. rewrite find_cons, find_remove. now destruct (p =? q). Qed.
Lemma find_In t p r : find_rad t p = Some r -> In (p, r) t.
Proof. induction t as [|[i x] t IH]; [discriminate|]. rewrite find_cons. destruct (Nat.eqb_spec i p) as [->|]; [intros [= ->]; now left|right; auto]. Qed.
Lemma find_Some t p : In p (map fst t) <-> find_rad t p <> None.
Proof.
  induction t as [|[i x] t IH]; [cbn; tauto|]. rewrite find_cons. cbn. destruct (Nat.eqb_spec i p) as [->|NE]; [split; [discriminate|auto]|]. rewrite <- IH. split; [intros [C|]; [congruence|assumption]|auto].
Qed.
Lemma remove_In t p e : In e (remove_rad t p) <-> In e t /\ fst e <> p.
Proof. unfold remove_rad. rewrite filter_In, negb_true_iff, Nat.eqb_neq. tauto. Qed.
Lemma remove_NoDup t p : NoDup (map fst t) -> NoDup (map fst (remove_rad t p)).
Proof.
  unfold remove_rad. induction t as [|[i r] t IH]; cbn [map filter fst]; intros N; [constructor|]. inversion N as [|? ? N1 N2]; subst. destruct (negb (i =? p)); [|now apply IH]. cbn. constructor; [|now apply IH].
  intros I. apply N1. apply in_map_iff in I as (e & E & I). apply filter_In in I as [I _]. rewrite <- E. now apply in_map.
Qed.
Lemma remove_sound t p : sound_table t -> sound_table (remove_rad t p).
Proof. intros [A B]. split; [now apply remove_NoDup|]. intros q r I. apply remove_In in I as [I _]. eauto. Qed.
Lemma put_sound t p r : sound_table t -> NoDup (map fst (r_children r)) -> sound_table (put_rad t p r).
Proof.
  intros [A B] N. split.
  - cbn. constructor; [|now apply remove_NoDup]. intros I. apply in_map_iff in I as (e & E & I). apply remove_In in I as [_ C]. congruence.
  - intros q x [[= <- <-]|I]; [assumption|]. apply remove_In in I as [I _]. eauto.
Qed.

(** ** What is recorded *)

Definition recordable (is_new : nat -> bool) (l : list old) (p : nat) (o : old) (f : trafo) : Prop := In o l /\ o_path o = p /\ o_trafo o = Some f /\ is_new p = false.
Lemma collect_spec is_new l : forall existing p, NoDup (map o_path l) ->
  (forall o f, recordable is_new l p o f -> find_rad (collect existing is_new l) p = Some (to_rad o f)) /\
  ((forall o f, ~ recordable is_new l p o f) -> find_rad (collect existing is_new l) p = find_rad existing p).
Proof.
  unfold collect. induction l as [|o l IH]; intros t p N; cbn [fold_left map] in *; [split; [intros o f ([] & _)|reflexivity]|]. inversion N as [|? ? N1 N2]; subst.
  set (t' := match o_trafo o with Some f => if is_new (o_path o) then t else put_rad t (o_path o) (to_rad o f) | None => t end). destruct (IH t' p N2) as [H1 H2]. split.
  - intros o' f ([<-|I] & P & T & NW); [|apply H1; repeat split; auto]. rewrite H2.
    + unfold t'. rewrite T, P, NW, find_put, Nat.eqb_refl. reflexivity.
    + intros o' f' (I & P' & _). apply N1. rewrite P, <- P'. now apply in_map.
  - intros H. rewrite H2; [|intros o' f' (I & R); apply (H o' f'); split; [now right|assumption]]. unfold t'. destruct (o_trafo o) as [f|] eqn:T; [|reflexivity]. destruct (is_new (o_path o)) eqn:NW; [reflexivity|].
    rewrite find_put. destruct (Nat.eqb_spec (o_path o) p) as [E|]; [|reflexivity]. exfalso. apply (H o f). subst p. split; [now left|auto].
Qed.
(** The data of every generated artifact that is not there any more are kept, those of the last setup win over older ones *)
Theorem recorded existing is_new l p o f : NoDup (map o_path l) -> In o l -> o_path o = p -> o_trafo o = Some f -> is_new p = false ->
  exists r, find_rad (collect existing is_new l) p = Some r /\ r_time r = o_time o /\ r_children r = o_children o /\ r_outdated r = t_marked f /\ r_accesses r = t_accesses f /\ r_executed r = t_executed f /\
  r_prepare r = t_prepare f /\ r_prepared r = t_prepared f /\ r_commands r = t_commands f /\ (o_children o <> [] -> forall x, In x (r_files r) <-> In x (o_files o)).
Proof.
  intros N I P T NW. exists (to_rad o f). split; [apply collect_spec; [assumption|now repeat split]|]. cbn. repeat (split; [reflexivity|]). intros NE x. rewrite in_flat_map. split; [intros (_ & _ & H); assumption|].
  intros H. destruct (o_children o) as [|c cs]; [congruence|]. exists c. split; [now left|assumption].
Qed.
Theorem older_kept existing is_new l p : NoDup (map o_path l) -> (forall o, In o l -> o_path o = p -> o_trafo o = None \/ is_new p = true) -> find_rad (collect existing is_new l) p = find_rad existing p.
Proof. intros N H. apply collect_spec; [assumption|]. intros o f (I & P & T & NW). destruct (H o I P); congruence. Qed.
Lemma collect_sound is_new l : forall existing, sound_table existing -> (forall o, In o l -> NoDup (map fst (o_children o))) -> sound_table (collect existing is_new l).
Proof.
  unfold collect. induction l as [|o l IH]; intros t S H; cbn [fold_left]; [assumption|]. apply IH; [|intros o' I; apply H; now right]. destruct (o_trafo o); [|assumption]. destruct (is_new (o_path o)); [assumption|]. apply put_sound; [assumption|]. apply H. now left.
Qed.

(** ** One artifact *)

Lemma missing_dec w r p : {missing w r p} + {~ missing w r p}.
Proof.
  unfold missing. destruct (existsb (fun c => negb (has (fst c) (artifacts w)) && (snd (fst c) =? p)) (r_children r)) eqn:E.
  - left. apply existsb_exists in E as ([k b] & I & E). apply andb_true_iff in E as [E1 E2]. apply negb_true_iff, has_not in E1. apply Nat.eqb_eq in E2. eauto.
  - right. intros (k & b & I & N & P). assert (C : existsb (fun c => negb (has (fst c) (artifacts w)) && (snd (fst c) =? p)) (r_children r) = true) by (apply existsb_exists; exists (k, b); split; [assumption|]; apply andb_true_iff; split; [apply negb_true_iff; now apply has_not|now apply Nat.eqb_eq]). congruence.
Qed.
Definition child_ok (w : project) (a : art) (c : key * bool) : Prop := In (fst c) (artifacts w) /\ (snd c = true \/ In (fst c) (a_children a)).
Definition to_connect (a : art) (cs : list (key * bool)) : list key := map fst (filter (fun c => negb (has (fst c) (a_children a))) cs).
Definition gone (w : project) (cs : list (key * bool)) (p : nat) : Prop := exists k b, In (k, b) cs /\ ~ In k (artifacts w) /\ snd k = p.
Lemma check_child_step w a ok l s k b : made w a -> exists ok' l' s', check_child w a (ok, l, s) (k, b) = (ok', l', s') /\
  (ok' = true <-> ok = true /\ child_ok w a (k, b)) /\ (ok' = true -> s' = s /\ l' = l ++ to_connect a [(k, b)]) /\ s_trafos s' = s_trafos s /\
  (In k (artifacts w) -> s' = s) /\ (~ In k (artifacts w) -> s_rads s' = remove_rad (s_rads s) (snd k)) /\
  (~ In k (artifacts w) -> forall p, In p (s_disk s') <-> In p (s_disk s) /\ (p = snd k -> find_rad (s_rads s) p = None)) /\
  exists x, s_reported s' = s_reported s ++ x /\ forall p, In p x -> p = a_path a.
Proof.
  intros [_ MA]. unfold check_child, to_connect, child_ok. cbn [filter fst snd]. destruct (has k (artifacts w)) eqn:HA.
  - apply has_In in HA. destruct (has k (a_children a)) eqn:HC; cbn [andb negb map].
    + apply has_In in HC. exists ok, l, s. split; [reflexivity|]. split; [tauto|]. split; [intros _; split; [reflexivity|now rewrite app_nil_r]|]. split; [reflexivity|]. split; [auto|]. split; [tauto|]. split; [tauto|]. exists []. split; [now rewrite app_nil_r|intros p []].
    + apply has_not in HC. exists (if b then ok else false), (if (if b then ok else false) then l ++ [k] else l), s. split; [reflexivity|]. split; [destruct b, ok; split; try tauto; intuition congruence|]. split; [intros ->; auto|]. split; [reflexivity|]. split; [auto|]. split; [tauto|]. split; [tauto|].
      exists []. split; [now rewrite app_nil_r|intros p []].
  - apply has_not in HA. cbn [andb]. eexists _, _, _. split; [reflexivity|]. assert (F : (if b then false else false) = false) by now destruct b. rewrite F. split; [intuition congruence|]. split; [discriminate|].
    destruct (find_rad (s_rads s) (snd k)) as [r|] eqn:FR.
    + cbn. split; [reflexivity|]. split; [tauto|]. split; [reflexivity|]. split; [|exists [a_path a]; split; [reflexivity|intros p [<-|[]]; reflexivity]].
      intros _ p. rewrite filter_In, negb_true_iff, Nat.eqb_neq. split; [intros [I N]; split; [assumption|contradiction]|]. intros [I H]. split; [assumption|]. intros E. specialize (H E). subst p. congruence.
    + split; [reflexivity|]. split; [tauto|]. split; [|split; [|exists []; split; [now rewrite app_nil_r|intros p []]]].
      * intros _. unfold remove_rad. assert (E : forall e, In e (s_rads s) -> negb (fst e =? snd k) = true).
        { intros e I. apply negb_true_iff, Nat.eqb_neq. intros C. assert (X : In (snd k) (map fst (s_rads s))) by (rewrite <- C; now apply in_map). apply find_Some in X. congruence. }
        clear - E. induction (s_rads s) as [|e t IH]; cbn; [reflexivity|]. rewrite (E e) by now left. f_equal. apply IH. intros e' I. apply E. now right.
      * intros _ p. split; [intros I; split; [assumption|intros ->; assumption]|tauto].
Qed.
Lemma check_children_spec w a : made w a -> forall cs ok l s, exists ok' l' s', fold_left (check_child w a) cs (ok, l, s) = (ok', l', s') /\
  (ok' = true <-> ok = true /\ forall c, In c cs -> child_ok w a c) /\ (ok' = true -> s' = s /\ l' = l ++ to_connect a cs) /\ s_trafos s' = s_trafos s /\
  (forall p, gone w cs p -> find_rad (s_rads s') p = None) /\ (forall p, ~ gone w cs p -> find_rad (s_rads s') p = find_rad (s_rads s) p) /\ (sound_table (s_rads s) -> sound_table (s_rads s')) /\
  (forall p, In p (s_disk s') <-> In p (s_disk s) /\ (gone w cs p -> find_rad (s_rads s) p = None)) /\ exists x, s_reported s' = s_reported s ++ x /\ forall p, In p x -> p = a_path a.
Proof.
  intros M cs. induction cs as [|[k b] cs IH]; intros ok l s; cbn [fold_left].
  - exists ok, l, s. split; [reflexivity|]. split; [split; [intros ->; split; [reflexivity|intros c []]|tauto]|]. split; [intros _; split; [reflexivity|now rewrite app_nil_r]|]. split; [reflexivity|].
    assert (G : forall p, ~ gone w [] p) by (intros p (k & b & [] & _)). split; [intros p H; now apply G in H|]. split; [reflexivity|]. split; [auto|]. split; [intros p; split; [intros I; split; [assumption|intros H'; now apply G in H']|tauto]|]. exists []. split; [now rewrite app_nil_r|intros p []].
  - destruct (check_child_step w a ok l s k b M) as (ok1 & l1 & s1 & E & A1 & A2 & A3 & A4 & A5 & A6 & x & A7 & A8). rewrite E.
    destruct (IH ok1 l1 s1) as (ok' & l' & s' & E' & B1 & B2 & B3 & B4 & B5 & B6 & B7 & y & B8 & B9). exists ok', l', s'. split; [exact E'|].
    assert (GC : forall p, gone w ((k, b) :: cs) p <-> (~ In k (artifacts w) /\ snd k = p) \/ gone w cs p).
    { intros p. split; [intros (k' & b' & [EQ|I] & H); [injection EQ as -> ->; now left|right; exists k', b'; auto]|]. intros [H|(k' & b' & I & H)]; [exists k, b; split; [now left|assumption]|exists k', b'; split; [now right|assumption]]. }
    destruct (key_in_dec k (artifacts w)) as [IN|NI].
    + specialize (A4 IN). subst s1. split; [|split; [|split; [congruence|split; [|split; [|split; [exact B6|split]]]]]].
      * rewrite B1, A1. split; [intros [[-> C] H]; split; [reflexivity|intros c [<-|I]; auto]|]. intros [-> H]. split; [split; [reflexivity|apply H; now left]|intros c I; apply H; now right].
      * intros T. destruct (B2 T) as [-> ->]. apply B1 in T as [T _]. destruct (A2 T) as [_ ->]. split; [reflexivity|]. unfold to_connect. cbn [filter fst]. destruct (negb (has k (a_children a))); cbn; [now rewrite <- app_assoc|now rewrite app_nil_r].
      * intros p H. apply GC in H as [[C _]|H]; [contradiction|auto].
      * intros p H. apply B5. intros C. apply H. apply GC. now right.
      * intros p. rewrite B7. split; intros [I H]; (split; [assumption|]); intros C; apply H; [apply GC in C as [[C _]|C]; [contradiction|assumption]|apply GC; now right].
      * exists y. auto.
    + specialize (A5 NI). specialize (A6 NI). split; [|split; [|split; [congruence|split; [|split; [|split; [|split]]]]]].
      * rewrite B1, A1. split; [intros [[_ [C _]] _]; contradiction|]. intros [_ H]. destruct (H (k, b) (or_introl eq_refl)) as [C _]. contradiction.
      * intros T. apply B1 in T as [T _]. apply A1 in T as [_ [C _]]. contradiction.
      * intros p H. destruct (Nat.eq_dec (snd k) p) as [EQ|NE].
        -- destruct (in_dec Nat.eq_dec p (map fst (s_rads s'))) as [C|C]; [|destruct (find_rad (s_rads s') p) eqn:FR; [exfalso; apply C; apply find_Some; congruence|reflexivity]].
           assert (D : ~ gone w cs p) by (intros D; apply B4 in D; apply find_Some in C; congruence). rewrite B5, A5, find_remove by assumption. now rewrite (proj2 (Nat.eqb_eq _ _) EQ).
        -- apply GC in H as [[_ C]|H]; [contradiction|auto].
      * intros p H. rewrite B5 by (intros C; apply H; apply GC; now right). rewrite A5, find_remove. destruct (Nat.eqb_spec (snd k) p) as [EQ|]; [|reflexivity]. exfalso. apply H. apply GC. now left.
      * intros S. apply B6. rewrite A5. now apply remove_sound.
      * intros p. rewrite B7, A6, A5, find_remove. split.
        -- intros [[I H] H']. split; [assumption|]. intros C. apply GC in C as [[_ C]|C]; [now apply H|]. specialize (H' C). destruct (Nat.eqb_spec (snd k) p) as [EQ|]; [now apply H|assumption].
        -- intros [I H]. split; [split; [assumption|intros ->; apply H; apply GC; now left]|]. intros C. destruct (snd k =? p); [reflexivity|]. apply H. apply GC. now right.
      * exists (x ++ y). rewrite B8, A7, app_assoc. split; [reflexivity|]. intros p I. apply in_app_iff in I as [I|I]; auto.
Qed.
Lemma check_files_spec w l : forall known found fs, check_files w l known = (found, fs) ->
  (found = true <-> forall f, In f l -> In f (files w)) /\ (forall f, In f known -> In f fs) /\ (forall f, In f fs -> In f known \/ (In f l /\ In f (files w))) /\ (found = true -> forall f, In f l -> In f fs).
Proof.
  induction l as [|x l IH]; intros known found fs; cbn [check_files].
  - intros [= <- <-]. split; [split; [intros _ f []|reflexivity]|]. split; [auto|]. split; [auto|]. intros _ f [].
  - destruct (existsb (Nat.eqb x) (files w)) eqn:E.
    + apply mem_nat in E. intros H. destruct (IH _ _ _ H) as (A & B & C & D). assert (K : forall f, In f (if existsb (Nat.eqb x) known then known else known ++ [x]) <-> In f known \/ f = x).
      { intros f. destruct (existsb (Nat.eqb x) known) eqn:EK; [apply mem_nat in EK; split; [auto|intros [?| ->]; assumption]|]. rewrite in_app_iff. cbn. split; [intros [?|[?|[]]]; auto|intros [?| ->]; auto]. }
      split; [rewrite A; split; [intros Y f [<-|I]; auto|intros Y f I; apply Y; now right]|]. split; [intros f I; apply B; apply K; now left|]. split.
      * intros f I. apply C in I as [I|[I1 I2]]; [apply K in I as [I| ->]; [now left|right; split; [now left|assumption]]|right; split; [now right|assumption]].
      * intros T f [<-|I]; [apply B; apply K; now right|now apply D].
    + intros [= <- <-]. assert (NI : ~ In x (files w)) by (rewrite <- mem_nat; congruence). split; [split; [discriminate|intros H; exfalso; apply NI, H; now left]|]. split; [auto|]. split; [auto|]. discriminate.
Qed.
Lemma filter_count {A} (f : A -> bool) l : length (filter f l) + length (filter (fun x => negb (f x)) l) = length l.
Proof. induction l as [|x l IH]; cbn; [reflexivity|]. destruct (f x); cbn; lia. Qed.
Lemma filter_map_NoDup {A B} (g : A -> B) (f : A -> bool) l : NoDup (map g l) -> NoDup (map g (filter f l)).
Proof.
  induction l as [|x l IH]; cbn; intros N; [constructor|]. inversion N as [|? ? N1 N2]; subst. destruct (f x); [|now apply IH]. cbn. constructor; [|now apply IH]. intros I. apply N1. apply in_map_iff in I as (y & E & I). apply filter_In in I as [I _]. rewrite <- E. now apply in_map.
Qed.
(** Counting children *)
Lemma count_children (r : rad) (a : art) : NoDup (map fst (r_children r)) -> NoDup (a_children a) ->
  let n := length (to_connect a (r_children r)) + length (a_children a) in
  length (r_children r) <= n /\ (n <= length (r_children r) <-> forall k, In k (a_children a) -> In k (map fst (r_children r))).
Proof.
  intros NR NA n. set (old := map fst (filter (fun c => has (fst c) (a_children a)) (r_children r))).
  assert (L : length old + length (to_connect a (r_children r)) = length (r_children r)) by (unfold old, to_connect; rewrite !map_length; apply filter_count).
  assert (ND : NoDup old) by now apply filter_map_NoDup. assert (IN : incl old (a_children a)).
  { intros k I. apply in_map_iff in I as ([k' b] & E & I). cbn in E. subst k'. apply filter_In in I as [_ I]. now apply has_In in I. }
  pose proof (NoDup_incl_length ND IN) as LE. unfold n. split; [lia|]. split.
  - intros H. assert (LL : length (a_children a) <= length old) by lia. pose proof (NoDup_length_incl ND LL IN) as INC. intros k I. apply INC in I. apply in_map_iff in I as (c & E & I). apply filter_In in I as [I _]. rewrite <- E. now apply in_map.
  - intros H. assert (X : incl (a_children a) old).
    { intros k I. pose proof (H k I) as J. apply in_map_iff in J as (c & E & J). apply in_map_iff. exists c. split; [assumption|]. apply filter_In. split; [assumption|]. apply has_In. now rewrite E. }
    pose proof (NoDup_incl_length NA X). lia.
Qed.
Lemma same_dec w r c a : same_application w r c a \/ ~ same_application w r c a.
Proof.
  assert (D1 : c = r_commands r \/ c <> r_commands r) by (destruct (list_eq_dec Nat.eq_dec c (r_commands r)); auto).
  assert (ALL : forall (A : Type) (P : A -> Prop) (l : list A), (forall x, P x \/ ~ P x) -> (forall x, In x l -> P x) \/ ~ (forall x, In x l -> P x)).
  { intros A P l H. induction l as [|x l [IH|IH]]; [left; intros x []| |right; intros C; apply IH; intros y I; apply C; now right]. destruct (H x) as [Y|Y]; [left; intros y [<-|I]; auto|right; intros C; apply Y, C; now left]. }
  assert (KD : forall (k : key) l, In k l \/ ~ In k l) by (intros k l; destruct (key_in_dec k l); auto).
  destruct D1 as [D1|D1]; [|right; intros [X]; contradiction].
  destruct (ALL _ (fun x : key * bool => snd x = false -> In (fst x) (a_children a)) (r_children r)) as [D2|D2]; [intros [k b]; destruct b; cbn; [left; discriminate|destruct (KD k (a_children a)); [left; auto|right; auto]]| |right; intros [_ X _ _ _]; apply D2; intros [k b] I E; cbn in E; subst b; now apply X].
  destruct (ALL _ (fun k => In k (map fst (r_children r))) (a_children a)) as [D3|D3]; [intros k; apply KD| |right; intros [_ _ X _ _]; contradiction].
  destruct (ALL _ (fun x : key * bool => snd x = true -> In (fst x) (artifacts w)) (r_children r)) as [D4|D4]; [intros [k b]; destruct b; cbn; [destruct (KD k (artifacts w)); [left; auto|right; auto]|left; discriminate]| |right; intros [_ _ _ X _]; apply D4; intros [k b] I E; cbn in E; subst b; now apply X].
  destruct (ALL _ (fun f => In f (files w)) (r_files r)) as [D5|D5]; [intros f; destruct (in_dec Nat.eq_dec f (files w)); auto| |right; intros [_ _ _ _ X]; contradiction].
  left. split; auto; intros k I; [exact (D2 _ I eq_refl)|exact (D4 _ I eq_refl)].
Qed.

(** The transformer gets the recorded data; its commands stay, and it runs again if it was marked before or now.  A prepare script that ran later than the recorded one keeps its data. *)
Record took_over (r : rad) (t t' : trafo) : Prop := mkTook {
  took_commands : t_commands t' = t_commands t; took_accesses : t_accesses t' = r_accesses r; took_executed : t_executed t' = r_executed r; took_check : t_check t' = true;
  took_marked : t_marked t' = true <-> t_marked t = true \/ r_outdated r = true; took_always : t_always t' = t_always t;
  took_prepare : t_prepared t <= r_prepared r -> t_prepare t' = r_prepare r /\ t_prepared t' = r_prepared r;
  kept_prepare : r_prepared r < t_prepared t -> t_prepare t' = t_prepare t /\ t_prepared t' = t_prepared t }.
Lemma from_rad_took r t : took_over r t (from_rad r t).
Proof.
  unfold from_rad. split; cbn [t_commands t_prepare t_accesses t_prepared t_executed t_check t_marked t_always]; auto; [apply orb_true_iff|intros H|intros H].
  - rewrite (proj2 (Nat.ltb_ge _ _) H). auto.
  - rewrite (proj2 (Nat.ltb_lt _ _) H). auto.
Qed.

(** What one call does: nothing but [a], its transformer and the recorded data changes if the application is the same *)
Theorem rescue_same w a s r : sound_table (s_rads s) -> made w a -> find_rad (s_rads s) (a_path a) = Some r -> same_application w r (t_commands (s_trafos s (a_trafo a))) a ->
  exists a' s', rescue w a s = Some (a', s') /\ a_path a' = a_path a /\ a_updated a' = a_updated a /\ a_trafo a' = a_trafo a /\ a_time a' = r_time r /\
  (forall k, In k (a_children a') <-> In k (a_children a) \/ (In (k, true) (r_children r) /\ ~ In k (a_children a) /\ circular w (a_path a) k = false)) /\
  (forall k, In k (a_scanned a') <-> In k (a_scanned a) \/ (In (k, true) (r_children r) /\ ~ In k (a_children a) /\ circular w (a_path a) k = false)) /\
  (forall f, In f (a_files a') <-> In f (a_files a) \/ In f (r_files r)) /\
  took_over r (s_trafos s (a_trafo a)) (s_trafos s' (a_trafo a)) /\ (forall i, i <> a_trafo a -> s_trafos s' i = s_trafos s i) /\
  s_rads s' = remove_rad (s_rads s) (a_path a) /\ s_disk s' = s_disk s /\ s_reported s' = s_reported s.
Proof.
  intros ST MA F [C1 C2 C3 C4 C5]. unfold rescue. rewrite F. cbn [s_trafos drop]. rewrite (proj2 (cmds_eqb_eq _ _) C1).
  unfold check_children. destruct (check_children_spec w a MA (r_children r) true [] (drop (a_path a) s)) as (ok & l & s1 & E & A1 & A2 & _). rewrite E.
  assert (OK : ok = true).
  { apply A1. split; [reflexivity|]. intros [k b] I. unfold child_ok. cbn. destruct b; [split; [now apply C4|now left]|]. apply C2 in I. split; [now apply MA|now right]. }
  destruct (A2 OK) as [-> ->]. subst ok. destruct (check_files w (r_files r) (a_files a)) as [found fs] eqn:EF. destruct (check_files_spec w _ _ _ _ EF) as (B1 & B2 & B3 & B4). rewrite (proj2 B1 C5). cbn [andb app].
  assert (NR : NoDup (map fst (r_children r))) by (apply (proj2 ST (a_path a)); now apply find_In). destruct (count_children r a NR (proj1 MA)) as [LE EQ].
  rewrite (proj2 (Nat.ltb_ge _ _) LE), (proj2 (Nat.ltb_ge _ _) (proj2 EQ C3)). eexists _, _. split; [reflexivity|]. cbn [a_path a_updated a_trafo a_time a_children a_scanned a_files set_trafo drop s_trafos s_rads s_disk s_reported].
  assert (K : forall k, In k (filter (fun k => negb (circular w (a_path a) k)) (to_connect a (r_children r))) <-> In (k, true) (r_children r) /\ ~ In k (a_children a) /\ circular w (a_path a) k = false).
  { intros k. rewrite filter_In, negb_true_iff. unfold to_connect. rewrite in_map_iff. split.
    - intros [([k' b] & <- & I) NC]. apply filter_In in I as [I HN]. cbn in *. apply negb_true_iff, has_not in HN. destruct b; [auto|]. exfalso. auto.
    - intros (I & N & NC). split; [|assumption]. exists (k, true). split; [reflexivity|]. apply filter_In. split; [assumption|]. apply negb_true_iff. now apply has_not. }
  do 4 (split; [reflexivity|]). split; [intros k; now rewrite in_app_iff, K|]. split; [intros k; now rewrite in_app_iff, K|]. split.
  - intros f. split; [intros I; apply B3 in I as [I|[I _]]; auto|]. intros [I|I]; [auto|]. apply B4; [now apply B1|assumption].
  - split; [rewrite Nat.eqb_refl; apply from_rad_took|]. split; [|auto]. intros i NE. now rewrite (proj2 (Nat.eqb_neq _ _) NE).
Qed.
(** If it is not the same, the file is removed, and the artifact has no results.  Data and files of recorded children that are no artifacts any more go, too; other data and files stay. *)
Theorem rescue_other w a s r : sound_table (s_rads s) -> made w a -> find_rad (s_rads s) (a_path a) = Some r -> ~ same_application w r (t_commands (s_trafos s (a_trafo a))) a ->
  exists a' s', rescue w a s = Some (a', s') /\ a_path a' = a_path a /\ a_updated a' = a_updated a /\ a_trafo a' = a_trafo a /\ a_time a' = a_time a /\ a_children a' = a_children a /\ a_scanned a' = a_scanned a /\
  (forall f, In f (a_files a) -> In f (a_files a')) /\ (forall f, In f (a_files a') -> In f (a_files a) \/ (In f (r_files r) /\ In f (files w))) /\
  s_trafos s' = s_trafos s /\ sound_table (s_rads s') /\
  (forall p, find_rad (s_rads s') p = find_rad (s_rads s) p \/ (find_rad (s_rads s') p = None /\ (p = a_path a \/ missing w r p))) /\ find_rad (s_rads s') (a_path a) = None /\
  ~ In (a_path a) (s_disk s') /\ (forall p, In p (s_disk s') -> In p (s_disk s)) /\
  (forall p, In p (s_disk s) -> ~ In p (s_disk s') -> find_rad (s_rads s) p <> None /\ (p = a_path a \/ missing w r p)) /\
  (forall p, find_rad (s_rads s) p <> None -> find_rad (s_rads s') p = None -> ~ In p (s_disk s')) /\
  (forall p, In p (s_reported s') <-> In p (s_reported s) \/ p = a_path a).
Proof.
  intros ST MA F NS. unfold rescue. rewrite F. cbn [s_trafos drop].
  assert (ST1 : sound_table (remove_rad (s_rads s) (a_path a))) by now apply remove_sound.
  assert (DF : forall p l, In p (filter (fun q => negb (q =? a_path a)) l) <-> In p l /\ p <> a_path a) by (intros p l; now rewrite filter_In, negb_true_iff, Nat.eqb_neq).
  destruct (cmds_eqb (t_commands (s_trafos s (a_trafo a))) (r_commands r)) eqn:EC.
  - unfold check_children. destruct (check_children_spec w a MA (r_children r) true [] (drop (a_path a) s)) as (ok & l & s1 & E & A1 & A2 & A3 & A4 & A5 & A6 & A7 & x & A8 & A9). rewrite E.
    destruct (check_files w (r_files r) (a_files a)) as [found fs] eqn:EF. destruct (check_files_spec w _ _ _ _ EF) as (B1 & B2 & B3 & _).
    cbn [s_rads s_disk s_trafos s_reported drop] in A3, A5, A6, A7, A8. specialize (A6 ST1).
    assert (R : exists a', a' = mkArt (a_path a) (a_time a) (a_updated a) (a_children a) (a_scanned a) fs (a_trafo a) /\
      (if ok && found then if length l + length (a_children a) <? length (r_children r) then None else if length (r_children r) <? length l + length (a_children a)
       then Some (a', report (a_path a') (delete (a_path a') s1))
       else Some (mkArt (a_path a) (r_time r) (a_updated a) (a_children a ++ filter (fun k => negb (circular w (a_path a) k)) l) (a_scanned a ++ filter (fun k => negb (circular w (a_path a) k)) l) fs (a_trafo a), set_trafo (a_trafo a) (from_rad r (s_trafos s1 (a_trafo a))) s1)
       else Some (a', report (a_path a') (delete (a_path a') s1))) = Some (a', report (a_path a') (delete (a_path a') s1))).
    { eexists. split; [reflexivity|]. destruct ok; [|reflexivity]. destruct found; [|reflexivity]. cbn [andb]. destruct (A2 eq_refl) as [_ ->]. cbn [app].
      assert (NR : NoDup (map fst (r_children r))) by (apply (proj2 ST (a_path a)); now apply find_In). destruct (count_children r a NR (proj1 MA)) as [LE EQ]. rewrite (proj2 (Nat.ltb_ge _ _) LE).
      destruct (Nat.ltb_spec (length (r_children r)) (length (to_connect a (r_children r)) + length (a_children a))) as [_|LT]; [reflexivity|]. exfalso. apply NS. destruct (proj1 A1 eq_refl) as [_ CH].
      split; [now apply cmds_eqb_eq| | | |now apply B1]; [|now apply EQ|].
      - intros k I. destruct (CH _ I) as [_ [C|C]]; [discriminate|exact C].
      - intros k I. exact (proj1 (CH _ I)). }
    destruct R as (a' & Ea & R). exists a', (report (a_path a') (delete (a_path a') s1)). split; [subst a'; exact R|]. subst a'. cbn [a_path a_updated a_trafo a_time a_children a_scanned a_files s_trafos s_rads s_disk s_reported report delete].
    do 6 (split; [reflexivity|]). split; [exact B2|]. split; [exact B3|]. split; [assumption|]. split; [assumption|].
    assert (P0 : find_rad (s_rads s1) (a_path a) = None).
    { destruct (missing_dec w r (a_path a)) as [G|G]; [now apply A4|]. rewrite A5 by assumption. rewrite find_remove, Nat.eqb_refl. reflexivity. }
    split; [|split; [assumption|split; [rewrite DF; tauto|split; [|split; [|split]]]]].
    + intros p. destruct (missing_dec w r p) as [G|G]; [right; split; [now apply A4|now right]|]. rewrite A5 by assumption. rewrite find_remove. destruct (Nat.eqb_spec (a_path a) p) as [EQ|]; [right; auto|now left].
    + intros p I. apply DF in I as [I _]. now apply A7 in I as [I _].
    + intros p I NI. destruct (Nat.eq_dec p (a_path a)) as [->|NE]; [split; [congruence|now left]|]. destruct (missing_dec w r p) as [G|G].
      * split; [|now right]. intros C. apply NI. apply DF. split; [|assumption]. apply A7. split; [assumption|]. intros _. rewrite find_remove. now rewrite (proj2 (Nat.eqb_neq _ _) (fun e => NE (eq_sym e))).
      * exfalso. apply NI. apply DF. split; [|assumption]. apply A7. split; [assumption|]. intros C. contradiction.
    + intros p H1 H2 I. apply DF in I as [I NE]. apply A7 in I as [_ I]. destruct (missing_dec w r p) as [G|G].
      * apply H1. specialize (I G). rewrite find_remove in I. now rewrite (proj2 (Nat.eqb_neq _ _) (fun e => NE (eq_sym e))) in I.
      * rewrite A5, find_remove in H2 by assumption. rewrite (proj2 (Nat.eqb_neq _ _) (fun e => NE (eq_sym e))) in H2. contradiction.
    + intros p. rewrite A8, !in_app_iff. cbn. split; [intros [[I|I]|[<-|[]]]; auto|]. intros [I| ->]; auto.
  - exists a, (report (a_path a) (delete (a_path a) (drop (a_path a) s))). split; [reflexivity|]. do 6 (split; [reflexivity|]). split; [auto|]. split; [auto|]. cbn [s_trafos s_rads s_disk s_reported report delete drop]. split; [reflexivity|]. split; [assumption|].
    split; [|split; [now rewrite find_remove, Nat.eqb_refl|split; [rewrite DF; tauto|split; [intros p I; now apply DF in I|split; [|split]]]]].
    + intros p. rewrite find_remove. destruct (Nat.eqb_spec (a_path a) p) as [EQ|]; [right; auto|now left].
    + intros p I NI. rewrite DF in NI. destruct (Nat.eq_dec p (a_path a)) as [->|NE]; [split; [congruence|now left]|tauto].
    + intros p H1 H2 I. apply DF in I as [I NE]. rewrite find_remove, (proj2 (Nat.eqb_neq _ _) (fun e => NE (eq_sym e))) in H2. contradiction.
    + intros p. rewrite in_app_iff. cbn. split; [intros [?|[?|[]]]; auto|intros [?|?]; auto].
Qed.
Lemma rescue_none w a s : find_rad (s_rads s) (a_path a) = None -> rescue w a s = Some (a, s).
Proof. intros F. unfold rescue. now rewrite F. Qed.
(** The check in the code never fails *)
Theorem rescue_checks w a s : sound_table (s_rads s) -> made w a -> rescue w a s <> None.
Proof.
  intros ST MA. destruct (find_rad (s_rads s) (a_path a)) as [r|] eqn:F; [|rewrite (rescue_none w a s F); discriminate].
  destruct (same_dec w r (t_commands (s_trafos s (a_trafo a))) a) as [S|S]; [destruct (rescue_same w a s r ST MA F S) as (a' & s' & -> & _)|destruct (rescue_other w a s r ST MA F S) as (a' & s' & -> & _)]; discriminate.
Qed.

(** ** All artifacts *)

(** [a'] is [a] with the recorded results of [r] *)
Definition reused (w : project) (a : art) (s : state) (a' : art) (r : rad) : Prop :=
  find_rad (s_rads s) (a_path a) = Some r /\ same_application w r (t_commands (s_trafos s (a_trafo a))) a /\ a_time a' = r_time r /\
  (forall k, In k (a_children a') <-> In k (a_children a) \/ (In (k, true) (r_children r) /\ ~ In k (a_children a) /\ circular w (a_path a) k = false)) /\
  (forall f, In f (a_files a') <-> In f (a_files a) \/ In f (r_files r)).
Definition kept (a a' : art) : Prop := a_path a' = a_path a /\ a_updated a' = a_updated a /\ a_trafo a' = a_trafo a.
Definition fits (w : project) (a : art) (s : state) (a' : art) (o : option rad) : Prop :=
  made w a /\ kept a a' /\ match o with Some r => reused w a s a' r | None => a_time a' = a_time a /\ a_children a' = a_children a end.
(** One step, told by [o]: the recorded data that were taken over *)
Lemma step_cases w a s : sound_table (s_rads s) -> made w a -> exists a' o s', rescue w a s = Some (a', s') /\ sound_table (s_rads s') /\ fits w a s a' o /\
  (forall i, t_commands (s_trafos s' i) = t_commands (s_trafos s i)) /\ (forall p, find_rad (s_rads s') p = find_rad (s_rads s) p \/ find_rad (s_rads s') p = None) /\
  (forall i, match o with Some r => if i =? a_trafo a then took_over r (s_trafos s i) (s_trafos s' i) else s_trafos s' i = s_trafos s i | None => s_trafos s' i = s_trafos s i end) /\
  (forall p, find_rad (s_rads s) p <> None -> find_rad (s_rads s') p = None -> p = a_path a \/ exists r, find_rad (s_rads s) (a_path a) = Some r /\ missing w r p) /\
  (forall p, In p (s_disk s') -> In p (s_disk s)) /\
  (forall p, In p (s_disk s) -> ~ In p (s_disk s') -> find_rad (s_rads s) p <> None /\ ((p = a_path a /\ o = None) \/ exists r, find_rad (s_rads s) (a_path a) = Some r /\ missing w r p)) /\
  (forall p, find_rad (s_rads s) p <> None -> find_rad (s_rads s') p = None -> In p (s_disk s') -> p = a_path a /\ o <> None) /\
  (forall p, In p (s_reported s') <-> In p (s_reported s) \/ (p = a_path a /\ o = None /\ find_rad (s_rads s) p <> None)) /\
  (forall r, find_rad (s_rads s) (a_path a) = Some r -> same_application w r (t_commands (s_trafos s (a_trafo a))) a -> o = Some r).
Proof.
  intros ST MA. destruct (find_rad (s_rads s) (a_path a)) as [r|] eqn:F.
  - destruct (same_dec w r (t_commands (s_trafos s (a_trafo a))) a) as [S|S].
    + destruct (rescue_same w a s r ST MA F S) as (a' & s' & E & K1 & K2 & K3 & T & C & _ & FL & TK & TO & RS & DS & RP). exists a', (Some r), s'. split; [exact E|]. rewrite RS, DS, RP. split; [now apply remove_sound|].
      split; [split; [assumption|split; [split; auto|repeat split; try assumption; try apply C; try apply FL; apply S]]|]. split; [intros i; destruct (Nat.eq_dec i (a_trafo a)) as [->|NE]; [apply TK|now rewrite TO]|].
      split; [intros p; rewrite find_remove; destruct (a_path a =? p); auto|]. split; [intros i; destruct (Nat.eqb_spec i (a_trafo a)) as [->|NE]; auto|].
      split; [intros p H1 H2; rewrite find_remove in H2; destruct (Nat.eqb_spec (a_path a) p); [now left|contradiction]|]. split; [auto|]. split; [contradiction|].
      split; [intros p H1 H2 _; rewrite find_remove in H2; destruct (Nat.eqb_spec (a_path a) p); [split; [congruence|discriminate]|contradiction]|]. split; [|intros r' [= <-] _; reflexivity].
      intros p. split; [auto|]. intros [I|(_ & C' & _)]; [assumption|discriminate].
    + destruct (rescue_other w a s r ST MA F S) as (a' & s' & E & K1 & K2 & K3 & T & C & _ & _ & _ & TS & ST' & FD & F0 & ND & DI & DO & DG & RP). exists a', None, s'. split; [exact E|]. split; [assumption|]. split; [split; [assumption|split; [split; auto|auto]]|]. rewrite TS.
      split; [reflexivity|]. split; [intros p; destruct (FD p) as [H|[H _]]; auto|]. split; [reflexivity|].
      split; [intros p H1 H2; destruct (FD p) as [H|[_ [->|H]]]; [congruence|now left|right; eauto]|]. split; [assumption|]. split; [intros p H1 H2; destruct (DO p H1 H2) as [H3 [->|H4]]; [split; [assumption|left; auto]|split; [assumption|right; eauto]]|].
      split; [intros p H1 H2 H3; now apply DG in H3|]. split; [|intros r' [= <-] S'; contradiction]. intros p. rewrite RP. split; [intros [I| ->]; [auto|right; rewrite F; repeat split; discriminate]|]. intros [I|(-> & _)]; auto.
  - exists a, None, s. split; [now apply rescue_none|]. split; [assumption|]. split; [split; [assumption|split; [split; auto|auto]]|]. split; [reflexivity|]. split; [auto|]. split; [reflexivity|]. split; [congruence|]. split; [auto|]. split; [contradiction|]. split; [congruence|].
    split; [|discriminate]. intros p. split; [auto|]. intros [I|(-> & _ & C)]; [assumption|congruence].
Qed.
Lemma reused_mono w a s s1 a' r : (forall p, find_rad (s_rads s1) p = find_rad (s_rads s) p \/ find_rad (s_rads s1) p = None) -> (forall i, t_commands (s_trafos s1 i) = t_commands (s_trafos s i)) -> reused w a s1 a' r -> reused w a s a' r.
Proof. intros M C (F & S & R). split; [destruct (M (a_path a)); congruence|]. split; [now rewrite <- C|assumption]. Qed.

(** An element: the project and the artifact before, the artifact afterwards, the data it got *)
Definition row := (project * art * art * option rad)%type.
Definition x_project (x : row) : project := fst (fst (fst x)).
Definition x_before (x : row) : art := snd (fst (fst x)).
Definition x_after (x : row) : art := snd (fst x).
Definition x_data (x : row) : option rad := snd x.
Definition lost_child (s : state) (tr : list row) (p : nat) : Prop := exists x r, In x tr /\ find_rad (s_rads s) (a_path (x_before x)) = Some r /\ missing (x_project x) r p.
Lemma all_rows l : forall s, sound_table (s_rads s) -> (forall w a, In (w, a) l -> made w a) -> exists tr s', rescue_all l s = Some (map x_after tr, s') /\ l = map (fun x => (x_project x, x_before x)) tr /\ sound_table (s_rads s') /\
  (forall x, In x tr -> fits (x_project x) (x_before x) s (x_after x) (x_data x)) /\
  (forall k, (forall x, In x tr -> a_trafo (x_before x) = k -> x_data x = None) -> s_trafos s' k = s_trafos s k) /\
  (forall k, t_marked (s_trafos s' k) = true <-> t_marked (s_trafos s k) = true \/ exists x r, In x tr /\ a_trafo (x_before x) = k /\ x_data x = Some r /\ r_outdated r = true) /\
  (forall k x, In x tr -> a_trafo (x_before x) = k -> x_data x <> None ->
     t_check (s_trafos s' k) = true /\ exists y r, In y tr /\ a_trafo (x_before y) = k /\ x_data y = Some r /\ t_accesses (s_trafos s' k) = r_accesses r /\ t_executed (s_trafos s' k) = r_executed r) /\
  (forall k, t_always (s_trafos s' k) = t_always (s_trafos s k) /\ t_commands (s_trafos s' k) = t_commands (s_trafos s k)) /\
  (forall p, find_rad (s_rads s') p = find_rad (s_rads s) p \/ find_rad (s_rads s') p = None) /\
  (forall p, find_rad (s_rads s) p <> None -> find_rad (s_rads s') p = None -> (exists x, In x tr /\ a_path (x_before x) = p) \/ lost_child s tr p) /\
  (forall p, In p (s_disk s') -> In p (s_disk s)) /\
  (forall p, In p (s_disk s) -> ~ In p (s_disk s') -> find_rad (s_rads s) p <> None /\ ((exists x, In x tr /\ a_path (x_before x) = p /\ x_data x = None) \/ lost_child s tr p)) /\
  (forall p, find_rad (s_rads s) p <> None -> find_rad (s_rads s') p = None -> In p (s_disk s') -> exists x, In x tr /\ a_path (x_before x) = p /\ x_data x <> None) /\
  (forall p, In p (s_reported s') -> In p (s_reported s) \/ (find_rad (s_rads s) p <> None /\ exists x, In x tr /\ a_path (x_before x) = p /\ x_data x = None)) /\
  (forall p, In p (s_reported s) -> In p (s_reported s')) /\ (forall p, In p (s_disk s) -> ~ In p (s_disk s') -> In p (s_reported s') \/ lost_child s tr p) /\
  (NoDup (map (fun x => a_path (snd x)) l) -> forall x r, In x tr -> find_rad (s_rads s) (a_path (x_before x)) = Some r -> same_application (x_project x) r (t_commands (s_trafos s (a_trafo (x_before x)))) (x_before x) ->
     ~ lost_child s tr (a_path (x_before x)) -> x_data x = Some r).
Proof.
  induction l as [|[w a] l IH]; intros s ST HM; cbn [rescue_all].
  - exists [], s. split; [reflexivity|]. split; [reflexivity|]. split; [assumption|]. split; [intros x []|]. split; [reflexivity|]. split; [intros k; split; [auto|intros [H|(x & r & [] & _)]; assumption]|]. split; [intros k x []|]. split; [auto|]. split; [auto|].
    split; [contradiction|]. split; [auto|]. split; [contradiction|]. split; [contradiction|]. split; [auto|]. split; [auto|]. split; [contradiction|]. intros _ x r [].
  - destruct (step_cases w a s ST (HM w a (or_introl eq_refl))) as (a' & o & s1 & E & ST1 & FT & CM & MO & TR & RM & DI & DO & DG & RP & PR). rewrite E.
    destruct (IH s1 ST1 (fun w a I => HM w a (or_intror I))) as (tr & s' & E' & EL & ST' & B1 & B2 & B3 & B4 & B5 & B6 & B7 & B8 & B9 & B10 & B11 & B12 & B13 & B14). rewrite E'.
    set (x0 := (w, a, a', o) : row). exists (x0 :: tr), s'. split; [reflexivity|]. split; [cbn [map]; now rewrite <- EL|]. split; [assumption|].
    assert (LC : forall p, lost_child s1 tr p -> lost_child s (x0 :: tr) p).
    { intros p (x & r & I & F & M). exists x, r. split; [now right|]. split; [|assumption]. destruct (MO (a_path (x_before x))); congruence. }
    assert (FN : forall p, find_rad (s_rads s1) p <> None -> find_rad (s_rads s) p <> None) by (intros p H; destruct (MO p); congruence).
    split; [|split; [|split; [|split; [|split; [|split; [|split; [|split; [|split; [|split; [|split; [|split; [|split]]]]]]]]]]]].
    + intros x [<-|I]; [exact FT|]. destruct (B1 x I) as (M1 & K1 & D1). split; [assumption|]. split; [assumption|]. destruct (x_data x) as [r|]; [|assumption]. now apply (reused_mono _ _ s s1).
    + intros k H. rewrite B2 by (intros x I; apply H; now right). specialize (TR k). specialize (H x0 (or_introl eq_refl)). cbn in H. destruct o as [r|]; [|assumption]. destruct (Nat.eqb_spec k (a_trafo a)) as [EQ|]; [specialize (H (eq_sym EQ)); discriminate|assumption].
    + intros k. rewrite B3. specialize (TR k).
      assert (ST3 : t_marked (s_trafos s1 k) = true <-> t_marked (s_trafos s k) = true \/ exists r, a_trafo a = k /\ o = Some r /\ r_outdated r = true).
      { destruct o as [r|]; [|rewrite TR; split; [auto|intros [H|(r & _ & H & _)]; [assumption|discriminate]]]. destruct (Nat.eqb_spec k (a_trafo a)) as [EQ|NE].
        - rewrite (took_marked _ _ _ TR). split; [intros [H|H]; [auto|right; eauto]|]. intros [H|(r' & _ & [= <-] & H)]; auto.
        - rewrite TR. split; [auto|]. intros [H|(r' & H & _)]; [assumption|congruence]. }
      rewrite ST3. split.
      * intros [[H|(r & H)]|(x & r & I & H)]; [auto|right; exists x0, r; split; [now left|assumption]|right; exists x, r; split; [now right|assumption]].
      * intros [H|(x & r & [<-|I] & H)]; [auto|left; right; eauto|right; exists x, r; auto].
    + intros k x I TK XD. destruct (existsb (fun y => (a_trafo (x_before y) =? k) && match x_data y with Some _ => true | None => false end) tr) eqn:EX.
      * apply existsb_exists in EX as (y & IY & EY). apply andb_true_iff in EY as [EY1 EY2]. apply Nat.eqb_eq in EY1. assert (DY : x_data y <> None) by (destruct (x_data y); [discriminate|congruence]).
        destruct (B4 k y IY EY1 DY) as (C & z & r & IZ & H). split; [assumption|]. exists z, r. split; [now right|assumption].
      * assert (NO : forall y, In y tr -> a_trafo (x_before y) = k -> x_data y = None).
        { intros y IY TY. destruct (x_data y) as [r|] eqn:DY; [|reflexivity]. assert (C : existsb (fun y => (a_trafo (x_before y) =? k) && match x_data y with Some _ => true | None => false end) tr = true) by (apply existsb_exists; exists y; split; [assumption|]; rewrite DY, TY, Nat.eqb_refl; reflexivity). congruence. }
        destruct I as [<-|I]; [|exfalso; apply XD; now apply NO]. cbn in TK, XD. rewrite (B2 k NO). specialize (TR k). destruct o as [r|]; [|congruence]. subst k. rewrite Nat.eqb_refl in TR. split; [apply TR|]. exists x0, r. repeat split; auto; [now left|apply TR|apply TR].
    + intros k. destruct (B5 k) as [-> ->]. split; [|apply CM]. specialize (TR k). destruct o as [r|]; [|now rewrite TR]. destruct (k =? a_trafo a); [apply TR|now rewrite TR].
    + intros p. destruct (B6 p) as [H|H]; [rewrite H; apply MO|now right].
    + intros p H1 H2. destruct (find_rad (s_rads s1) p) as [r|] eqn:F1.
      * destruct (B7 p) as [(x & I & P)|H]; [congruence|assumption|left; exists x; split; [now right|assumption]|right; now apply LC].
      * destruct (RM p H1 F1) as [->|(r & F & M)]; [left; exists x0; split; [now left|reflexivity]|]. right. exists x0, r. split; [now left|auto].
    + intros p I. apply DI. now apply B8.
    + intros p I NI. destruct (in_dec Nat.eq_dec p (s_disk s1)) as [J|J].
      * destruct (B9 p J NI) as [H [(x & IX & P)|H']]; (split; [now apply FN|]); [left; exists x; split; [now right|assumption]|right; now apply LC].
      * destruct (DO p I J) as [H [[-> H']|(r & F & M)]]; (split; [assumption|]); [left; exists x0; split; [now left|auto]|right; exists x0, r; split; [now left|auto]].
    + intros p H1 H2 H3. destruct (find_rad (s_rads s1) p) as [r|] eqn:F1.
      * destruct (B10 p) as (x & I & P); [congruence|assumption|assumption|]. exists x. split; [now right|assumption].
      * destruct (DG p H1 F1 (B8 p H3)) as [-> H]. exists x0. split; [now left|auto].
    + intros p I. apply B11 in I as [I|(H & x & I & P)]; [|right; split; [now apply FN|exists x; split; [now right|assumption]]]. apply RP in I as [I|(-> & H & F)]; [auto|]. right. split; [assumption|]. exists x0. split; [now left|auto].
    + intros p I. apply B12. apply RP. now left.
    + intros p I NI. destruct (in_dec Nat.eq_dec p (s_disk s1)) as [J|J]; [destruct (B13 p J NI) as [H|H]; auto|]. destruct (DO p I J) as [H [[-> H']|(r & F & M)]]; [left; apply B12; apply RP; right; auto|right; exists x0, r; split; [now left|auto]].
    + cbn [map]. intros N. inversion N as [|? ? N1 N2]; subst. intros x r [<-|I] F S NL; [now apply PR|]. apply (B14 N2); [assumption| |now rewrite CM|].
      * destruct (find_rad (s_rads s1) (a_path (x_before x))) as [r1|] eqn:F1; [destruct (MO (a_path (x_before x))); congruence|]. exfalso. destruct (RM (a_path (x_before x))) as [P|(r1 & F2 & M)]; [congruence|assumption| |].
        -- apply N1. cbn [snd]. rewrite <- P. apply in_map_iff. exists (x_project x, x_before x). split; [reflexivity|]. apply in_map_iff. eauto.
        -- apply NL. exists x0, r1. split; [now left|auto].
      * intros L. apply NL. now apply LC.
Qed.
(** ** The theorems *)

Lemma up_to_date_spec ts fs a : up_to_date ts fs a = true <-> a_time a <> 0 /\ (forall k, In k (a_children a) -> ts k <= a_time a) /\ (forall f, In f (a_files a) -> fs f <> 0 /\ fs f <= a_time a).
Proof.
  unfold up_to_date. rewrite !andb_true_iff, negb_true_iff, Nat.eqb_neq, !forallb_forall. split.
  - intros [[A B] C]. split; [assumption|]. split; [intros k I; now apply Nat.leb_le, B|]. intros f I. apply C in I. now rewrite andb_true_iff, negb_true_iff, Nat.eqb_neq, Nat.leb_le in I.
  - intros (A & B & C). split; [split; [assumption|intros k I; now apply Nat.leb_le, B]|]. intros f I. rewrite andb_true_iff, negb_true_iff, Nat.eqb_neq, Nat.leb_le. auto.
Qed.
Lemma must_execute_spec ts fs changed t outs : must_execute ts fs changed t outs = false <->
  t_always t = false /\ t_marked t = false /\ (forall a, In a outs -> a_updated a = true -> up_to_date ts fs a = true) /\ (t_check t = true -> changed (t_accesses t) (t_executed t) = false) /\ exists a, In a outs /\ up_to_date ts fs a = true.
Proof.
  unfold must_execute. destruct (t_always t); cbn [orb]; [split; [discriminate|intros [C _]; discriminate]|]. destruct (t_marked t); [split; [discriminate|intros (_ & C & _); discriminate]|].
  destruct (existsb (fun a => negb (up_to_date ts fs a) && a_updated a) outs) eqn:E.
  - split; [discriminate|]. intros (_ & _ & H & _). apply existsb_exists in E as (a & I & E). apply andb_true_iff in E as [E1 E2]. rewrite (H a I E2) in E1. discriminate.
  - assert (H : forall a, In a outs -> a_updated a = true -> up_to_date ts fs a = true).
    { intros a I U. destruct (up_to_date ts fs a) eqn:UD; [reflexivity|]. assert (C : existsb (fun a => negb (up_to_date ts fs a) && a_updated a) outs = true) by (apply existsb_exists; exists a; split; [assumption|]; now rewrite UD, U). congruence. }
    destruct (t_check t && changed (t_accesses t) (t_executed t)) eqn:EC.
    + split; [discriminate|]. intros (_ & _ & _ & C & _). apply andb_true_iff in EC as [EC1 EC2]. rewrite (C EC1) in EC2. discriminate.
    + assert (HC : t_check t = true -> changed (t_accesses t) (t_executed t) = false) by (intros C; rewrite C in EC; exact EC). rewrite negb_false_iff, existsb_exists. split; [intros H'; repeat split; auto|tauto].
Qed.

(** A rule application is skipped only if the recorded one is the same, nothing marked it, nothing it depends on is newer, and what its commands had read has not changed *)
Theorem skipped_same l s l' s' k ts fs changed :
  sound_table (s_rads s) -> (forall w a, In (w, a) l -> made w a) -> (forall w a, In (w, a) l -> a_trafo a = k -> a_time a = 0) ->
  rescue_all l s = Some (l', s') -> must_execute ts fs changed (s_trafos s' k) (filter (fun a => a_trafo a =? k) l') = false ->
  t_always (s_trafos s k) = false /\ t_marked (s_trafos s k) = false /\
  (forall w a, In (w, a) l -> a_trafo a = k -> a_updated a = true -> exists r, find_rad (s_rads s) (a_path a) = Some r /\ same_application w r (t_commands (s_trafos s k)) a /\ r_outdated r = false /\ r_time r <> 0 /\
     (forall c, In c (a_children a) -> ts c <= r_time r) /\ (forall c, In (c, true) (r_children r) -> circular w (a_path a) c = false -> ts c <= r_time r) /\ (forall f, In f (r_files r) -> fs f <> 0 /\ fs f <= r_time r)) /\
  exists w a r, In (w, a) l /\ a_trafo a = k /\ find_rad (s_rads s) (a_path a) = Some r /\ same_application w r (t_commands (s_trafos s k)) a /\ changed (r_accesses r) (r_executed r) = false.
Proof.
  intros ST HM HT E ME. destruct (all_rows l s ST HM) as (tr & s1 & E1 & EL & _ & B1 & B2 & B3 & B4 & B5 & _). rewrite E1 in E. injection E as <- <-.
  apply must_execute_spec in ME as (AL & MK & UD & CH & UE). destruct (B5 k) as [AL' CM]. rewrite AL' in AL. split; [assumption|].
  assert (NM : t_marked (s_trafos s k) = false) by (destruct (t_marked (s_trafos s k)) eqn:X; [|reflexivity]; rewrite (proj2 (B3 k) (or_introl X)) in MK; discriminate). split; [assumption|].
  assert (RD : forall x, In x tr -> a_trafo (x_before x) = k -> up_to_date ts fs (x_after x) = true -> exists r, x_data x = Some r /\ reused (x_project x) (x_before x) s (x_after x) r).
  { intros x I TK UT. destruct (B1 x I) as (_ & _ & D). destruct (x_data x) as [r|]; [eauto|]. destruct D as [D _]. apply up_to_date_spec in UT as [UT _]. exfalso. apply UT. rewrite D. apply (HT (x_project x)); [|assumption]. rewrite EL. apply in_map_iff. eauto. }
  split.
  - intros w a I TK U. rewrite EL in I. apply in_map_iff in I as (x & EX & I). injection EX as <- <-. destruct (B1 x I) as (_ & (K1 & K2 & K3) & _).
    assert (UX : up_to_date ts fs (x_after x) = true). { apply UD; [|now rewrite K2]. apply filter_In. split; [now apply in_map|]. rewrite K3, TK. apply Nat.eqb_refl. }
    destruct (RD x I TK UX) as (r & DX & F & S & T & C & FL). rewrite TK in S. exists r. split; [assumption|]. split; [assumption|]. apply up_to_date_spec in UX as (U1 & U2 & U3). rewrite T in U1, U2, U3.
    split; [destruct (r_outdated r) eqn:X; [|reflexivity]; rewrite (proj2 (B3 k)) in MK; [discriminate|]; right; exists x, r; auto|]. split; [assumption|]. split; [intros c IC; apply U2, C; now left|]. split.
    + intros c IC NC. apply U2, C. destruct (key_in_dec c (a_children (x_before x))); [now left|right; auto].
    + intros f IF. apply U3, FL. now right.
  - destruct UE as (a' & I & UX). apply filter_In in I as [I TA]. apply Nat.eqb_eq in TA. apply in_map_iff in I as (x & <- & I). destruct (B1 x I) as (_ & (_ & _ & K3) & _). rewrite K3 in TA.
    destruct (RD x I TA UX) as (r & DX & _). destruct (B4 k x I TA) as (C1 & y & q & IY & TY & DY & A1 & A2); [congruence|]. destruct (B1 y IY) as (_ & _ & D). rewrite DY in D. destruct D as (F & S & _).
    exists (x_project y), (x_before y), q. split; [rewrite EL; apply in_map_iff; eauto|]. split; [assumption|]. split; [assumption|]. split; [now rewrite <- TY|]. rewrite <- A1, <- A2. now apply CH.
Qed.
(** The recorded data of the outputs of one rule application are those of one former application *)
Definition from_one (s : state) (l : list (project * art)) (k : nat) : Prop :=
  forall w a r w' a' r', In (w, a) l -> a_trafo a = k -> find_rad (s_rads s) (a_path a) = Some r -> In (w', a') l -> a_trafo a' = k -> find_rad (s_rads s) (a_path a') = Some r' -> r_accesses r = r_accesses r' /\ r_executed r = r_executed r'.
Theorem skipped_unchanged l s l' s' k ts fs changed w a r :
  sound_table (s_rads s) -> (forall w a, In (w, a) l -> made w a) -> (forall w a, In (w, a) l -> a_trafo a = k -> a_time a = 0) -> from_one s l k ->
  rescue_all l s = Some (l', s') -> must_execute ts fs changed (s_trafos s' k) (filter (fun a => a_trafo a =? k) l') = false ->
  In (w, a) l -> a_trafo a = k -> find_rad (s_rads s) (a_path a) = Some r -> changed (r_accesses r) (r_executed r) = false.
Proof.
  intros ST HM HT ONE E ME I TK F. destruct (skipped_same _ _ _ _ _ _ _ _ ST HM HT E ME) as (_ & _ & _ & w' & a' & r' & I' & TK' & F' & _ & CH). destruct (ONE w a r w' a' r' I TK F I' TK' F') as [-> ->]. assumption.
Qed.
(** And it is skipped whenever all that is so: nothing is made again without need *)
Theorem same_skipped l s k ts fs changed :
  sound_table (s_rads s) -> (forall w a, In (w, a) l -> made w a) -> NoDup (map (fun x => a_path (snd x)) l) -> from_one s l k ->
  t_always (s_trafos s k) = false -> t_marked (s_trafos s k) = false -> (exists w a, In (w, a) l /\ a_trafo a = k) ->
  (forall w a, In (w, a) l -> a_trafo a = k -> exists r, find_rad (s_rads s) (a_path a) = Some r /\ same_application w r (t_commands (s_trafos s k)) a /\ r_outdated r = false /\ r_time r <> 0 /\
     (forall c, In c (map fst (r_children r)) -> ts c <= r_time r) /\ (forall f, In f (a_files a) \/ In f (r_files r) -> fs f <> 0 /\ fs f <= r_time r) /\ changed (r_accesses r) (r_executed r) = false /\
     (forall w' a' r', In (w', a') l -> find_rad (s_rads s) (a_path a') = Some r' -> ~ missing w' r' (a_path a))) ->
  exists l' s', rescue_all l s = Some (l', s') /\ must_execute ts fs changed (s_trafos s' k) (filter (fun a => a_trafo a =? k) l') = false /\ forall a, In a l' -> a_trafo a = k -> In (a_path a) (s_disk s) -> In (a_path a) (s_disk s').
Proof.
  intros ST HM ND ONE AL MK (w0 & a0 & I0 & T0) H. destruct (all_rows l s ST HM) as (tr & s' & E & EL & ST' & B1 & B2 & B3 & B4 & B5 & B6 & B7 & B8 & B9 & _ & _ & _ & _ & B14). exists (map x_after tr), s'. split; [assumption|].
  assert (IL : forall x, In x tr -> In (x_project x, x_before x) l) by (intros x I; rewrite EL; apply in_map_iff; eauto).
  assert (XD : forall x, In x tr -> a_trafo (x_before x) = k -> exists r, x_data x = Some r /\ find_rad (s_rads s) (a_path (x_before x)) = Some r).
  { intros x I TK. destruct (H _ _ (IL x I) TK) as (r & F & S & _ & _ & _ & _ & _ & NM). exists r. split; [|assumption]. apply (B14 ND); [assumption|assumption|now rewrite TK|]. intros (y & q & IY & FY & M). exact (NM _ _ _ (IL y IY) FY M). }
  assert (UT : forall x, In x tr -> a_trafo (x_before x) = k -> up_to_date ts fs (x_after x) = true).
  { intros x I TK. destruct (XD x I TK) as (r & DX & F). destruct (B1 x I) as (_ & _ & D). rewrite DX in D. destruct D as (_ & _ & T & C & FL). destruct (H _ _ (IL x I) TK) as (r' & F' & S & _ & R1 & R2 & R3 & _). rewrite F in F'. injection F' as <-.
    apply up_to_date_spec. rewrite T. split; [assumption|]. split; [|intros f IF; apply R3; now apply FL]. intros c IC. apply R2. apply C in IC as [IC|[IC _]]; [now apply (same_children _ _ _ _ S)|]. apply in_map_iff. exists (c, true). auto. }
  assert (TK' : forall x, In x tr -> a_trafo (x_after x) = a_trafo (x_before x)) by (intros x I; now destruct (B1 x I) as (_ & (_ & _ & ?) & _)).
  split.
  - apply must_execute_spec. destruct (B5 k) as [-> _]. split; [assumption|]. split.
    + destruct (t_marked (s_trafos s' k)) eqn:X; [|reflexivity]. apply B3 in X as [X|(x & r & I & TK & DX & O)]; [congruence|]. destruct (XD x I TK) as (r1 & DX' & F). rewrite DX in DX'. injection DX' as <-. destruct (H _ _ (IL x I) TK) as (r' & F' & _ & O' & _). congruence.
    + split; [|split].
      * intros a' I _. apply filter_In in I as [I TK]. apply Nat.eqb_eq in TK. apply in_map_iff in I as (x & <- & I). apply UT; [assumption|]. now rewrite <- TK'.
      * intros _. rewrite EL in I0. apply in_map_iff in I0 as (x & EX & I). injection EX as <- <-. destruct (XD x I T0) as (r & DX & _). destruct (B4 k x I T0) as (_ & y & q & IY & TY & DY & -> & ->); [congruence|].
        destruct (XD y IY TY) as (q' & DY' & F). rewrite DY in DY'. injection DY' as <-. destruct (H _ _ (IL y IY) TY) as (r' & F' & _ & _ & _ & _ & _ & CH & _). congruence.
      * rewrite EL in I0. apply in_map_iff in I0 as (x & EX & I). injection EX as <- <-. exists (x_after x). split; [|now apply UT]. apply filter_In. split; [now apply in_map|]. rewrite TK', T0 by assumption. apply Nat.eqb_refl.
  - intros a' I TK IDK. apply in_map_iff in I as (x & <- & I). rewrite TK' in TK by assumption. destruct (B1 x I) as (_ & (K1 & _ & _) & _). rewrite K1 in *. destruct (in_dec Nat.eq_dec (a_path (x_before x)) (s_disk s')) as [J|J]; [assumption|]. exfalso.
    destruct (B9 _ IDK J) as [_ [(y & IY & PY & DY)|(y & q & IY & FY & M)]].
    + assert (y = x) as ->; [|destruct (XD x I TK) as (r & DX & _); congruence]. rewrite EL in ND. rewrite map_map in ND. cbn in ND. clear - ND I IY PY. induction tr as [|z tr IH]; [destruct I|]. cbn in ND. inversion ND as [|? ? N1 N2]; subst.
      destruct I as [<-|I], IY as [<-|IY]; auto; exfalso; apply N1; [rewrite <- PY|rewrite PY]; apply in_map_iff; eauto.
    + destruct (H _ _ (IL x I) TK) as (r & _ & _ & _ & _ & _ & _ & _ & NM). exact (NM _ _ _ (IL y IY) FY M).
Qed.

(** Files.  After the build of the product, a file of the last build is there only if nothing was recorded for it or if it belongs to the same rule application as before; files for which nothing was recorded stay. *)
Theorem left_over_removed l s l' s' p : sound_table (s_rads s) -> (forall w a, In (w, a) l -> made w a) -> rescue_all l s = Some (l', s') -> In p (s_disk (finish s')) ->
  In p (s_disk s) /\ forall r, find_rad (s_rads s) p = Some r -> exists w a, In (w, a) l /\ a_path a = p /\ same_application w r (t_commands (s_trafos s (a_trafo a))) a.
Proof.
  intros ST HM E I. destruct (all_rows l s ST HM) as (tr & s1 & E1 & EL & _ & B1 & _ & _ & _ & _ & _ & _ & B8 & _ & B10 & _). rewrite E1 in E. injection E as <- <-. cbn in I. apply filter_In in I as [I F].
  split; [now apply B8|]. intros r FR. destruct (find_rad (s_rads s1) p) eqn:F1; [discriminate|]. destruct (B10 p) as (x & IX & P & D); [congruence|assumption|assumption|]. destruct (x_data x) as [q|] eqn:DX; [|congruence].
  destruct (B1 x IX) as (_ & _ & R). rewrite DX in R. destruct R as (F2 & S & _). exists (x_project x), (x_before x). split; [rewrite EL; apply in_map_iff; eauto|]. split; [assumption|]. rewrite P in F2. assert (q = r) as <- by congruence. assumption.
Qed.
Theorem other_files_kept l s l' s' p : sound_table (s_rads s) -> (forall w a, In (w, a) l -> made w a) -> rescue_all l s = Some (l', s') -> In p (s_disk s) -> find_rad (s_rads s) p = None -> In p (s_disk s') /\ In p (s_disk (finish s')).
Proof.
  intros ST HM E I F. destruct (all_rows l s ST HM) as (tr & s1 & E1 & EL & _ & B1 & _ & _ & _ & _ & B6 & _ & B8 & B9 & _). rewrite E1 in E. injection E as <- <-.
  assert (J : In p (s_disk s1)) by (destruct (in_dec Nat.eq_dec p (s_disk s1)) as [J|J]; [assumption|]; now destruct (B9 p I J)). split; [assumption|]. cbn. apply filter_In. split; [assumption|]. destruct (B6 p) as [->| ->]; [now rewrite F|reflexivity].
Qed.
(** Every file that is removed has been reported, except for that of a recorded child which does not exist any more *)
Theorem removal_reported l s l' s' p : sound_table (s_rads s) -> (forall w a, In (w, a) l -> made w a) -> rescue_all l s = Some (l', s') -> In p (s_disk s) -> ~ In p (s_disk (finish s')) ->
  In p (s_reported (finish s')) \/ exists w a r, In (w, a) l /\ find_rad (s_rads s) (a_path a) = Some r /\ missing w r p.
Proof.
  intros ST HM E I NI. destruct (all_rows l s ST HM) as (tr & s1 & E1 & EL & _ & B1 & _ & _ & _ & _ & B6 & _ & B8 & B9 & _ & _ & _ & B13 & _). rewrite E1 in E. injection E as <- <-. cbn in NI |- *. destruct (in_dec Nat.eq_dec p (s_disk s1)) as [J|J].
  - left. apply in_app_iff. right. apply find_Some. intros C. apply NI. apply filter_In. split; [assumption|]. now rewrite C.
  - destruct (B13 p I J) as [H|(x & r & IX & F & M)]; [left; apply in_app_iff; now left|]. right. exists (x_project x), (x_before x), r. split; [rewrite EL; apply in_map_iff; eauto|auto].
Qed.
(** Only files of the last build are reported: those that are not made again, and those of other rule applications *)
Theorem reported_only l s l' s' p : sound_table (s_rads s) -> (forall w a, In (w, a) l -> made w a) -> s_reported s = [] -> rescue_all l s = Some (l', s') -> In p (s_reported (finish s')) -> find_rad (s_rads s) p <> None.
Proof.
  intros ST HM R0 E I. destruct (all_rows l s ST HM) as (tr & s1 & E1 & EL & _ & B1 & _ & _ & _ & _ & B6 & _ & B8 & B9 & _ & B11 & _). rewrite E1 in E. injection E as <- <-. cbn in I. apply in_app_iff in I as [I|I].
  - apply B11 in I as [I|[H _]]; [rewrite R0 in I; destruct I|assumption].
  - apply find_Some in I. destruct (B6 p) as [H|H]; congruence.
Qed.
(** Data that were recorded while the build was told to run all scripts anew make the rule application run *)
Lemma find_outdated s p : find_rad (s_rads (mark_outdated s)) p = option_map (fun r => mkRad (r_time r) (r_children r) (r_files r) true (r_prepare r) (r_accesses r) (r_commands r) (r_prepared r) (r_executed r)) (find_rad (s_rads s) p).
Proof. unfold mark_outdated. cbn [s_rads]. induction (s_rads s) as [|[i r] t IH]; [reflexivity|]. cbn [map fst snd]. rewrite !find_cons, IH. now destruct (i =? p). Qed.
Theorem outdated_runs l s l' s' k ts fs changed : sound_table (s_rads s) -> (forall w a, In (w, a) l -> made w a) -> (forall w a, In (w, a) l -> a_trafo a = k -> a_time a = 0) -> (exists w a, In (w, a) l /\ a_trafo a = k /\ a_updated a = true) ->
  rescue_all l (mark_outdated s) = Some (l', s') -> must_execute ts fs changed (s_trafos s' k) (filter (fun a => a_trafo a =? k) l') = true.
Proof.
  intros ST HM HT (w & a & I & TK & U) E. destruct (must_execute ts fs changed (s_trafos s' k) (filter (fun a => a_trafo a =? k) l')) eqn:ME; [reflexivity|]. exfalso.
  assert (ST' : sound_table (s_rads (mark_outdated s))).
  { destruct ST as [A B]. split; cbn; [now rewrite map_map|]. intros p r J. apply in_map_iff in J as ([q x] & EQ & J). cbn in EQ. injection EQ as <- <-. cbn. eauto. }
  destruct (skipped_same _ _ _ _ _ _ _ _ ST' HM HT E ME) as (_ & _ & H & _). destruct (H w a I TK U) as (r & F & _ & O & _). rewrite find_outdated in F. destruct (find_rad (s_rads s) (a_path a)); [|discriminate]. injection F as <-. discriminate.
Qed.

(** Altogether: the artifacts of the product as it was, then its new rules' outputs.  What is not made again was made by the same commands from the same inputs, and what these commands had read is as it was. *)
Theorem not_made_again olds is_new l trafos disk l' s' k ts fs changed w a :
  NoDup (map o_path olds) -> (forall o, In o olds -> NoDup (map fst (o_children o))) -> (forall w a, In (w, a) l -> made w a) -> (forall w a, In (w, a) l -> a_trafo a = k -> a_time a = 0) ->
  rescue_all l (mkState (collect [] is_new olds) trafos disk []) = Some (l', s') -> must_execute ts fs changed (s_trafos s' k) (filter (fun a => a_trafo a =? k) l') = false ->
  In (w, a) l -> a_trafo a = k -> a_updated a = true ->
  exists o f, In o olds /\ o_path o = a_path a /\ o_trafo o = Some f /\ is_new (o_path o) = false /\ t_commands (trafos k) = t_commands f /\ t_marked f = false /\ o_time o <> 0 /\
  (forall c, In (c, false) (o_children o) -> In c (a_children a)) /\ (forall c, In c (a_children a) -> In c (map fst (o_children o)) /\ ts c <= o_time o) /\
  (forall c, In (c, true) (o_children o) -> In c (artifacts w) /\ (circular w (a_path a) c = false -> ts c <= o_time o)) /\
  (o_children o <> [] -> forall x, In x (o_files o) -> In x (files w) /\ fs x <> 0 /\ fs x <= o_time o).
Proof.
  intros ND NC HM HT E ME I TK U.
  assert (ST : sound_table (collect [] is_new olds)) by (apply collect_sound; [split; [constructor|intros p r []]|assumption]).
  destruct (skipped_same l (mkState (collect [] is_new olds) trafos disk []) l' s' k ts fs changed ST HM HT E ME) as (_ & _ & H & _). destruct (H w a I TK U) as (r & F & [S1 S2 S3 S4 S5] & O & T & C1 & C2 & C3). cbn [s_rads s_trafos] in F, S1.
  assert (R : exists o f, recordable is_new olds (a_path a) o f).
  { destruct (existsb (fun o => (o_path o =? a_path a) && match o_trafo o with Some _ => true | None => false end && negb (is_new (a_path a))) olds) eqn:EX.
    - apply existsb_exists in EX as (o & IO & EX). apply andb_true_iff in EX as [EX E3]. apply andb_true_iff in EX as [E1 E2]. destruct (o_trafo o) as [f|] eqn:OT; [|discriminate]. exists o, f. repeat split; auto; [now apply Nat.eqb_eq|now apply negb_true_iff].
    - exfalso. rewrite older_kept in F; [discriminate|assumption|]. intros o IO P. destruct (o_trafo o) as [f|] eqn:OT; [|now left]. right. destruct (Bool.bool_dec (is_new (a_path a)) true) as [NW|NW]; [assumption|]. apply Bool.not_true_is_false in NW.
      assert (X : existsb (fun o => (o_path o =? a_path a) && match o_trafo o with Some _ => true | None => false end && negb (is_new (a_path a))) olds = true) by (apply existsb_exists; exists o; split; [assumption|]; now rewrite OT, NW, P, Nat.eqb_refl). congruence. }
  destruct R as (o & f & IO & P & OT & NW). destruct (recorded [] is_new olds (a_path a) o f ND IO P OT NW) as (r' & F' & R1 & R2 & R3 & R4 & R5 & R6 & R7 & R8 & R9). rewrite F in F'. injection F' as <-.
  exists o, f. split; [assumption|]. split; [assumption|]. split; [assumption|]. split; [now rewrite P|]. split; [congruence|]. split; [congruence|]. rewrite <- R1, <- R2. split; [assumption|]. split; [assumption|]. split; [auto|]. split; [auto|]. rewrite R2. intros NE x IX. apply (R9 NE) in IX. split; [auto|]. apply C3. assumption.
Qed.

(** ** What goes wrong *)

Definition plain (commands : list nat) : trafo := mkTrafo commands 0 0 0 0 false false false.
Definition world1 : project := mkProject [(1, 10); (1, 11); (1, 20); (1, 21)] [] (fun _ _ => false).
Definition trafo1 : trafo := mkTrafo [5] 100 101 7 8 false false false.
Definition quiet (r : nat) (t : time) : bool := false.

(** A file that a scanner had found becomes an input of the rule: the results are reused though the rule has got another input *)
Theorem inputs_differ_refuted : exists olds l trafos l' s' a, NoDup (map o_path olds) /\ (forall w a, In (w, a) l -> made w a /\ a_time a = 0) /\
  rescue_all l (mkState (collect [] (fun _ => false) olds) trafos [20] []) = Some (l', s') /\ must_execute (fun _ => 3) (fun _ => 3) quiet (s_trafos s' 0) l' = false /\
  l = [(world1, a)] /\ a_children a = [(1, 10); (1, 11)] /\ a_scanned a = [] /\ forall o, In o olds -> map fst (filter (fun c => negb (snd c)) (o_children o)) = [(1, 10)].
Proof.
  exists [mkOld 20 9 [((1, 10), false); ((1, 11), true)] [] (Some trafo1)], [(world1, mkArt 20 0 true [(1, 10); (1, 11)] [] [] 0)], (fun _ => plain [5]).
  eexists _, _, (mkArt 20 0 true [(1, 10); (1, 11)] [] [] 0). split; [constructor; [intros []|constructor]|]. split; [intros w a [[= <- <-]|[]]; split; [split; [constructor; [intros [H|[]]; discriminate|constructor; [intros []|constructor]]|intros k [<-|[<-|[]]]; cbn; auto]|reflexivity]|].
  split; [vm_compute; reflexivity|]. split; [vm_compute; reflexivity|]. repeat split. intros o [<-|[]]. reflexivity.
Qed.
(** A former output is deleted as a missing child; then the output is reported instead of it, and the emptied directory of the deleted one stays *)
Theorem child_unreported_refuted : exists s a r s' a', find_rad (s_rads s) (a_path a) = Some r /\ sound_table (s_rads s) /\ made world1 a /\ rescue world1 a s = Some (a', s') /\ In 30 (s_disk s) /\ ~ In 30 (s_disk (finish s')) /\ ~ In 30 (s_reported (finish s')).
Proof.
  exists (mkState (collect [] (fun _ => false) [mkOld 20 9 [((1, 30), true)] [] (Some trafo1); mkOld 30 9 [] [] (Some trafo1)]) (fun _ => plain [5]) [20; 30] []), (mkArt 20 0 true [] [] [] 0). eexists _, _, _. split; [vm_compute; reflexivity|].
  split; [apply collect_sound; [split; [constructor|intros p r []]|]; intros o [<-|[<-|[]]]; cbn; [constructor; [intros []|constructor]|constructor]|]. split; [split; [constructor|intros k []]|]. split; [vm_compute; reflexivity|]. cbn. split; [auto|]. split; [tauto|]. intros [H|[H|H]]; [discriminate|discriminate|exact H].
Qed.
(** An artifact without children loses its file dependencies: it is not made again though one of them is newer *)
Theorem childless_refuted : exists o f w l' s' a, o_trafo o = Some f /\ In 40 (o_files o) /\ In 40 (files w) /\ made w a /\ a_path a = o_path o /\
  rescue_all [(w, a)] (mkState (collect [] (fun _ => false) [o]) (fun _ => f) [20] []) = Some (l', s') /\ must_execute (fun _ => 3) (fun _ => 12) quiet (s_trafos s' 0) l' = false /\ o_time o < 12.
Proof.
  exists (mkOld 20 9 [] [40] (Some trafo1)), trafo1, (mkProject [(1, 20)] [40] (fun _ _ => false)). eexists _, _, (mkArt 20 0 true [] [] [] 0). split; [reflexivity|]. split; [now left|]. split; [now left|]. split; [split; [constructor|intros k []]|]. split; [reflexivity|].
  split; [vm_compute; reflexivity|]. split; [vm_compute; reflexivity|]. cbn. lia.
Qed.
(** Two outputs that were made by different rule applications with the same commands are made by one now: what the commands of the first had read is forgotten *)
Theorem accesses_lost_refuted : exists olds l trafos l' s' f, (forall w a, In (w, a) l -> made w a /\ a_time a = 0) /\ (exists o, In o olds /\ o_trafo o = Some f) /\
  rescue_all l (mkState (collect [] (fun _ => false) olds) trafos [20; 21] []) = Some (l', s') /\ must_execute (fun _ => 3) (fun _ => 3) (fun r _ => r =? t_accesses f) (s_trafos s' 0) l' = false /\
  map o_path olds = map (fun x => a_path (snd x)) l.
Proof.
  exists [mkOld 20 9 [((1, 10), false)] [] (Some trafo1); mkOld 21 9 [((1, 10), false)] [] (Some (mkTrafo [5] 100 102 7 8 false false false))], [(world1, mkArt 20 0 true [(1, 10)] [] [] 0); (world1, mkArt 21 0 true [(1, 10)] [] [] 0)], (fun _ => plain [5]).
  eexists _, _, trafo1. split; [intros w a [[= <- <-]|[[= <- <-]|[]]]; (split; [split; [constructor; [intros []|constructor]|intros k [<-|[]]; cbn; auto]|reflexivity])|]. split; [eexists; split; [now left|reflexivity]|].
  split; [vm_compute; reflexivity|]. split; [vm_compute; reflexivity|]. reflexivity.
Qed.
(** An output that is not always updated and cannot be rescued is deleted, yet not made again if another output of its rule application was rescued *)
Theorem deleted_not_made_refuted : exists olds l trafos l' s', (forall w a, In (w, a) l -> made w a /\ a_time a = 0 /\ a_trafo a = 0) /\
  rescue_all l (mkState (collect [] (fun _ => false) olds) trafos [20; 21] []) = Some (l', s') /\ must_execute (fun _ => 3) (fun _ => 3) quiet (s_trafos s' 0) l' = false /\
  map (fun x => a_path (snd x)) l = [20; 21] /\ s_disk s' = [20].
Proof.
  exists [mkOld 20 9 [((1, 10), false)] [] (Some trafo1); mkOld 21 9 [((1, 10), false); ((1, 50), true)] [] (Some trafo1)], [(world1, mkArt 20 0 true [(1, 10)] [] [] 0); (world1, mkArt 21 0 false [(1, 10)] [] [] 0)], (fun _ => plain [5]).
  eexists _, _. split; [intros w a [[= <- <-]|[[= <- <-]|[]]]; (split; [split; [constructor; [intros []|constructor]|intros k [<-|[]]; cbn; auto]|split; reflexivity])|]. split; [vm_compute; reflexivity|]. split; [vm_compute; reflexivity|]. split; reflexivity.
Qed.
(** An artifact that is not rescued gets some of the recorded file dependencies nevertheless *)
Theorem files_without_rescue_refuted : exists w a s r a' s', find_rad (s_rads s) (a_path a) = Some r /\ ~ same_application w r (t_commands (s_trafos s (a_trafo a))) a /\ rescue w a s = Some (a', s') /\ a_files a = [] /\ a_files a' = [40].
Proof.
  exists (mkProject [(1, 10)] [40] (fun _ _ => false)), (mkArt 20 0 true [(1, 10)] [] [] 0), (mkState (collect [] (fun _ => false) [mkOld 20 9 [((1, 10), false)] [40; 41] (Some trafo1)]) (fun _ => plain [5]) [20] []). eexists _, _, _.
  split; [vm_compute; reflexivity|]. split; [intros [_ _ _ _ X]; destruct (X 41) as [C|[]]; [vm_compute; auto|discriminate]|]. split; [vm_compute; reflexivity|]. split; reflexivity.
Qed.

(** ** A product that was set up anew: 20 and 21 are made by one rule application, 30 was made by another that does not exist any more *)
Module Demo.
  Definition w : project := mkProject [(1, 10); (1, 11); (2, 12); (1, 20); (1, 21)] [40] (fun _ _ => false).
  Definition olds : list old :=
    [mkOld 10 5 [] [] None; mkOld 20 9 [((1, 10), false); ((2, 12), true)] [40] (Some trafo1); mkOld 21 9 [((1, 10), false)] [] (Some trafo1); mkOld 30 9 [((1, 10), false)] [] (Some (plain [6]))].
  Definition l : list (project * art) := [(w, mkArt 20 0 true [(1, 10)] [] [] 0); (w, mkArt 21 0 true [(1, 10)] [] [] 0)].
  Definition s (commands : list nat) : state := mkState (collect [] (fun p => p =? 10) olds) (fun _ => plain commands) [10; 11; 20; 21; 30] [].
  Definition decide (ts : key -> time) (changed : nat -> time -> bool) (commands : list nat) : option (bool * list nat * list nat) :=
    match rescue_all l (s commands) with Some (l', s') => Some (must_execute ts (fun _ => 4) changed (s_trafos s' 0) l', s_disk (finish s'), s_reported (finish s')) | None => None end.
  Example same : decide (fun _ => 5) quiet [5] = Some (false, [10; 11; 20; 21], [30]). Proof. vm_compute. reflexivity. Qed.
  Example other_commands : decide (fun _ => 5) quiet [7] = Some (true, [10; 11], [20; 21; 30]). Proof. vm_compute. reflexivity. Qed.
  Example newer_include : decide (fun k => if snd k =? 12 then 10 else 5) quiet [5] = Some (true, [10; 11; 20; 21], [30]). Proof. vm_compute. reflexivity. Qed.
  Example changed_value : decide (fun _ => 5) (fun r _ => r =? 101) [5] = Some (true, [10; 11; 20; 21], [30]). Proof. vm_compute. reflexivity. Qed.
  Example made_l : forall w' a, In (w', a) l -> made w' a /\ a_time a = 0.
  Proof. intros w' a [[= <- <-]|[[= <- <-]|[]]]; (split; [split; [constructor; [intros []|constructor]|intros k [<-|[]]; cbn; auto]|reflexivity]). Qed.
  Example distinct : NoDup (map o_path olds) /\ (forall o, In o olds -> NoDup (map fst (o_children o))).
  Proof.
    split; [repeat (constructor; [cbn; intuition discriminate|]); constructor|]. intros o [<-|[<-|[<-|[<-|[]]]]]; cbn; repeat (constructor; [cbn; intuition discriminate|]); constructor.
  Qed.
  Example sound : sound_table (s_rads (s [5])).
  Proof. apply collect_sound; [split; [constructor|intros p r []]|]. apply distinct. Qed.
  (** The theorem about reuse applies to it *)
  Example applies : exists o f, In o olds /\ o_path o = 20 /\ o_trafo o = Some f /\ t_commands f = [5] /\ o_time o = 9.
  Proof.
    destruct (rescue_all l (s [5])) as [[l' s']|] eqn:E; [|vm_compute in E; discriminate].
    destruct (not_made_again olds (fun p => p =? 10) l (fun _ => plain [5]) [10; 11; 20; 21; 30] l' s' 0 (fun _ => 5) (fun _ => 4) quiet w (mkArt 20 0 true [(1, 10)] [] [] 0)) as (o & f & IO & P & OT & _ & CM & _ & T & _);
      [apply distinct|apply distinct|intros w' a I; now apply made_l|intros w' a I _; now apply (made_l w')|exact E|vm_compute in E; injection E as <- <-; vm_compute; reflexivity|now left|reflexivity|reflexivity|].
    exists o, f. cbn in P, CM. repeat split; auto. destruct IO as [<-|[<-|[<-|[<-|[]]]]]; try discriminate P; reflexivity.
  Qed.
  (** Marked while a forced run of all scripts was pending *)
  Example outdated : match rescue_all l (mark_outdated (s [5])) with Some (l', s') => must_execute (fun _ => 5) (fun _ => 4) quiet (s_trafos s' 0) l' | None => false end = true. Proof. vm_compute. reflexivity. Qed.
End Demo.

Print Assumptions recorded.
Print Assumptions older_kept.
Print Assumptions rescue_same.
Print Assumptions rescue_other.
Print Assumptions rescue_checks.
Print Assumptions skipped_same.
Print Assumptions skipped_unchanged.
Print Assumptions same_skipped.
Print Assumptions left_over_removed.
Print Assumptions other_files_kept.
Print Assumptions removal_reported.
Print Assumptions reported_only.
Print Assumptions outdated_runs.
Print Assumptions not_made_again.
Print Assumptions inputs_differ_refuted.
Print Assumptions child_unreported_refuted.
Print Assumptions childless_refuted.
Print Assumptions accesses_lost_refuted.
Print Assumptions deleted_not_made_refuted.
Print Assumptions files_without_rescue_refuted.
