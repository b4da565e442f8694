(** What merging module properties results in, whatever the order in which modules are loaded. *)
From Coq Require Import List Bool Arith ZArith NArith Lia Permutation Sorted.
From Verif Require Import Str MergeModel.
Import ListNotations.

(** ** Specification *)

(** Where a value comes from. *)
Inductive class := CInternal | CCommandLine | CProduct | CModule (distance : nat) | CProfile | CDefault | CAbsent.
Inductive class_of (e : env) (v : value) : class -> Prop :=
| class_internal : v_kind v = Variant -> v_profile v = false -> v_cmd v = false -> class_of e v CInternal
| class_command_line : v_cmd v = true -> class_of e v CCommandLine
| class_profile : v_cmd v = false -> v_profile v = true -> class_of e v CProfile
| class_default : v_kind v = Source -> v_cmd v = false -> v_profile v = false -> v_scope v = NoScope -> class_of e v CDefault
| class_product : v_kind v = Source -> v_cmd v = false -> v_profile v = false -> v_scope v = OfProduct -> class_of e v CProduct
| class_absent m : v_kind v = Source -> v_cmd v = false -> v_profile v = false -> v_scope v = OfModule m -> e_present e m = false -> class_of e v CAbsent
| class_module m n : v_kind v = Source -> v_cmd v = false -> v_profile v = false -> v_scope v = OfModule m -> e_present e m = true -> In (m, n) (e_modules e) ->
    class_of e v (CModule n).
Definition position (c : class) : nat :=
  match c with CInternal => 6 | CCommandLine => 5 | CProduct => 4 | CModule _ => 3 | CProfile => 2 | CDefault => 1 | CAbsent => 0 end.
(** Sources of values override each other in this order; modules closer to the product override the others. *)
Definition above (a b : class) : Prop := position b < position a \/ exists m n, a = CModule m /\ b = CModule n /\ m < n.
Inductive name_after : str -> str -> Prop :=
| after_nil x a : name_after (x :: a) []
| after_head x y a b : (y < x)%N -> name_after (x :: a) (y :: b)
| after_tail x a b : name_after a b -> name_after (x :: a) (x :: b).
Definition before (e : env) (v w : value) : Prop := exists a b, class_of e v a /\ class_of e w b /\ (above a b \/ a = b /\ name_after (v_name v) (v_name w)).

(** The modules of a product are listed once, and chains of dependencies have less than two billion elements. *)
Definition env_ok (e : env) : Prop := NoDup (map fst (e_modules e)) /\ forall m n, In (m, n) (e_modules e) -> (Z.of_nat n < 2147483600)%Z.

(** Values apart from the remembered priority. *)
Definition bare (v : value) : value := mkValue (v_id v) (v_kind v) (v_profile v) (v_cmd v) (v_scope v) (v_name v) (v_code v) None.
(** A property is set in some product or module, which is loaded when the modules of the product are as in [l_env]. *)
Record load := mkLoad { l_env : env; l_scope : scope; l_name : str; l_value : value }.
Definition given (l : load) : value :=
  mkValue (v_id (l_value l)) (v_kind (l_value l)) (v_profile (l_value l)) (v_cmd (l_value l)) (l_scope l) (l_name l) (v_code (l_value l)) None.
Fixpoint merges (ls : list load) (p : prop) : option prop :=
  match ls with [] => Some p | l :: ls => match merge (l_env l) (l_scope l) (l_name l) p (l_value l) with Some p => merges ls p | None => None end end.
Definition merged (e : env) (scalar : bool) (ls : list load) (d : value) : option (prop * bool) :=
  match merges ls (mkProp d []) with Some p => final e scalar p | None => None end.
(** Values from project files or modules that were not looked at yet, and a default value from the module itself or from the profile. *)
Definition from_files (l : load) : Prop :=
  v_kind (l_value l) = Source /\ v_cmd (l_value l) = false /\ v_profile (l_value l) = false /\ v_prio (l_value l) = None /\ l_scope l <> NoScope.
Definition default (d : value) : Prop :=
  v_cmd d = false /\ v_prio d = None /\ v_scope d = NoScope /\ (v_kind d = Source /\ v_profile d = false \/ v_kind d = Variant /\ v_profile d = true).
Definition all_values (d : value) (ls : list load) : list value := bare d :: map given ls.
Definition values (r : prop) : list value := map bare (p_main r :: p_cands r).

(** ** Priorities *)

Lemma internal_spec v : internal v = true <-> v_kind v = Variant /\ v_profile v = false /\ v_cmd v = false.
Proof.
  unfold internal. destruct (v_kind v), (v_profile v), (v_cmd v); cbn; split; try discriminate; intuition discriminate.
Qed.
Lemma find_module (l : list (N * nat)) m n : NoDup (map fst l) -> In (m, n) l -> find (fun x => N.eqb (fst x) m) l = Some (m, n).
Proof.
  induction l as [|[k j] l IH]; [easy|]. cbn [map fst]. intros ND [E|H]; cbn [find fst]; inversion ND as [|? ? NI ND']; subst.
  - injection E as -> ->. now rewrite N.eqb_refl.
  - destruct (N.eqb_spec k m) as [->|NE]; [|auto]. exfalso. apply NI. change m with (fst (m, n)). now apply in_map.
Qed.
Definition code (c : class) : Z :=
  match c with
  | CInternal => 2147483647 | CCommandLine => 2147483646 | CProduct => 2147483645 | CModule n => 2147483644 - Z.of_nat n | CProfile => 2 | CDefault => 1 | CAbsent => 0
  end%Z.
Lemma calculate_class e v c : env_ok e -> class_of e v c -> calculate e v = Some (code c).
Proof.
  intros [ND _] H. unfold calculate. destruct H as [K P C|C|C P|K C P S|K C P S|m K C P S PR|m n K C P S PR I]; unfold internal.
  - now rewrite K, P, C.
  - rewrite C. destruct (v_kind v), (v_profile v); reflexivity.
  - rewrite C, P. now destruct (v_kind v).
  - now rewrite K, C, P, S.
  - now rewrite K, C, P, S.
  - now rewrite K, C, P, S, PR.
  - rewrite K, C, P, S, PR. cbn [negb]. now rewrite (find_module _ _ _ ND I).
Qed.
Lemma some_inj {A} (a b : A) : Some a = Some b -> a = b.
Proof. congruence. Qed.
Lemma class_calculate e v p : calculate e v = Some p -> exists c, class_of e v c /\ p = code c.
Proof.
  unfold calculate, internal. destruct (v_cmd v) eqn:C.
  - intros H. exists CCommandLine. split; [now constructor|]. destruct (v_kind v), (v_profile v); now injection H as <-.
  - destruct (v_profile v) eqn:P.
    + intros H. exists CProfile. split; [now constructor|]. destruct (v_kind v); now injection H as <-.
    + destruct (v_kind v) eqn:K; cbn [negb andb]; [|intros [= <-]; exists CInternal; split; [now constructor|reflexivity]].
      destruct (v_scope v) as [| |m] eqn:S.
      * intros [= <-]. exists CDefault. split; [now constructor|reflexivity].
      * intros [= <-]. exists CProduct. split; [now apply class_product|reflexivity].
      * destruct (e_present e m) eqn:PR; cbn [negb].
        -- destruct (find _ (e_modules e)) as [[k n]|] eqn:F; [|discriminate]. intros H. apply some_inj in H. subst p. apply find_some in F as [I E]. apply N.eqb_eq in E. cbn in E. subst k.
           exists (CModule n). split; [eapply class_module; eauto|unfold code, int_max; cbn [snd]; lia].
        -- intros [= <-]. exists CAbsent. split; [eapply class_absent; eauto|reflexivity].
Qed.
Definition bounded (c : class) : Prop := match c with CModule n => (Z.of_nat n < 2147483600)%Z | _ => True end.
Lemma class_bounded e v c : env_ok e -> class_of e v c -> bounded c.
Proof. intros [_ B] H. destruct H; cbn; auto. eapply B; eauto. Qed.
Lemma code_above a b : bounded a -> bounded b -> (code b < code a)%Z <-> above a b.
Proof.
  intros A B. unfold above. destruct a as [| | |m| | |], b as [| | |n| | |]; cbn [code position bounded] in *;
    (split; [intros H; first [left; lia | right; exists m, n; repeat split; lia | exfalso; lia] | intros [H|(m' & n' & E1 & E2 & H)]; try lia; try discriminate; injection E1 as ->; injection E2 as ->; lia]).
Qed.
Lemma code_inj a b : bounded a -> bounded b -> code a = code b -> a = b.
Proof. destruct a, b; cbn [code bounded]; intros A B E; try reflexivity; try lia; f_equal; lia. Qed.
Lemma class_det e v a b : env_ok e -> class_of e v a -> class_of e v b -> a = b.
Proof.
  intros O A B. pose proof (calculate_class _ _ _ O A) as E. rewrite (calculate_class _ _ _ O B) in E. injection E as E.
  eapply code_inj; eauto using class_bounded.
Qed.
(** Values override each other according to where they come from. *)
Theorem priority_levels e v w a b p q :
  env_ok e -> class_of e v a -> class_of e w b -> calculate e v = Some p -> calculate e w = Some q -> ((q < p)%Z <-> above a b) /\ (p = q <-> a = b).
Proof.
  intros O A B P Q. rewrite (calculate_class _ _ _ O A) in P. rewrite (calculate_class _ _ _ O B) in Q. injection P as <-. injection Q as <-.
  split; [apply code_above; eapply class_bounded; eauto|]. split; [apply code_inj; eapply class_bounded; eauto|congruence].
Qed.
Lemma str_compare_gt a b : str_compare a b = Gt <-> name_after a b.
Proof.
  revert b. induction a as [|x a IH]; intros [|y b]; cbn [str_compare]; split; intros H; try discriminate; try (now inversion H).
  - constructor.
  - destruct (N.compare_spec x y) as [->|L|L]; try discriminate; [apply after_tail; now apply IH|now apply after_head].
  - inversion H; subst.
    + apply N.compare_gt_iff in H1. now rewrite H1.
    + rewrite N.compare_refl. now apply IH.
Qed.
Lemma str_compare_lt a b : str_compare a b = Lt <-> name_after b a.
Proof.
  rewrite <- str_compare_gt. revert b. induction a as [|x a IH]; intros [|y b]; cbn; try (split; discriminate || reflexivity).
  rewrite (N.compare_antisym x y). destruct (N.compare x y); cbn; [apply IH|split; auto|split; discriminate].
Qed.
Lemma str_compare_eq a b : str_compare a b = Eq <-> a = b.
Proof.
  revert b. induction a as [|x a IH]; intros [|y b]; cbn; split; intros H; try discriminate; auto.
  - destruct (N.compare_spec x y); try discriminate. subst. f_equal. now apply IH.
  - injection H as -> ->. rewrite N.compare_refl. now apply IH.
Qed.
Lemma after_trans a b c : name_after a b -> name_after b c -> name_after a c.
Proof.
  intros H. revert c. induction H as [x a|x y a b L|x a b H IH]; intros c G; inversion G; subst;
    first [apply after_nil | apply after_head; lia | apply after_tail; auto].
Qed.
Lemma after_irrefl a : ~ name_after a a.
Proof. induction a; intros H; inversion H; subst; [lia|auto]. Qed.
Lemma above_trans a b c : above a b -> above b c -> above a c.
Proof.
  unfold above. intros [H|(m & n & -> & -> & H)] [G|(m' & n' & E & -> & G)]; try injection E as <-; subst; cbn [position] in *; try (left; cbn; lia).
  right. exists m, n'. repeat split; lia.
Qed.
Lemma above_irrefl a : ~ above a a.
Proof. intros [H|(m & n & -> & E & H)]; [lia|]. injection E as ->. lia. Qed.
Lemma above_total a b : above a b \/ a = b \/ above b a.
Proof.
  unfold above. destruct (Nat.lt_trichotomy (position a) (position b)) as [L|[E|L]]; auto.
  destruct a as [| | |m| | |], b as [| | |n| | |]; cbn in E; try discriminate; auto.
  destruct (Nat.lt_trichotomy m n) as [L|[->|L]]; auto; [left; right|right; right; right]; eauto 10.
Qed.
Lemma before_trans e u v w : env_ok e -> before e u v -> before e v w -> before e u w.
Proof.
  intros O (a & b & A & B & H) (b' & c & B' & C & G). assert (b' = b) as -> by (eapply class_det; eauto). exists a, c. split; [auto|split; [auto|]].
  destruct H as [H|[-> H]], G as [G|[-> G]]; eauto using above_trans, after_trans.
Qed.
Lemma before_irrefl e v : env_ok e -> ~ before e v v.
Proof.
  intros O (a & b & A & B & H). assert (b = a) as -> by (eapply class_det; eauto). destruct H as [H|[_ H]]; [eapply above_irrefl|eapply after_irrefl]; eauto.
Qed.
Lemma class_bare e v c : class_of e (bare v) c <-> class_of e v c.
Proof. split; intros H; destruct H; cbn in *; eauto using class_of. Qed.
Lemma before_bare e v w : before e (bare v) (bare w) <-> before e v w.
Proof. unfold before. split; intros (a & b & A & B & H); exists a, b; repeat split; try (now apply class_bare); exact H. Qed.
Lemma bare_with_prio v p : bare (with_prio v p) = bare v.
Proof. reflexivity. Qed.
Lemma bare_bare v : bare (bare v) = bare v.
Proof. reflexivity. Qed.
Lemma class_same e v w c : bare v = bare w -> class_of e v c -> class_of e w c.
Proof. intros E H. apply class_bare. rewrite <- E. now apply class_bare. Qed.
Lemma calculate_bare e v w : bare v = bare w -> calculate e v = calculate e w.
Proof. intros E. destruct v, w. unfold bare in E. cbn in E. injection E as -> -> -> -> -> -> ->. reflexivity. Qed.
Lemma code_pos c : bounded c -> c <> CAbsent -> (1 <= code c)%Z.
Proof. destruct c; cbn [code bounded]; try lia. congruence. Qed.
Lemma code_zero c : bounded c -> code c = 0%Z -> c = CAbsent.
Proof. destruct c; cbn [code bounded]; try lia. auto. Qed.

(** ** Comparing, sorting *)

Lemma scope_eqb_spec a b : scope_eqb a b = true <-> a = b.
Proof.
  destruct a as [| |m], b as [| |n]; cbn; split; try discriminate; auto; intros H.
  - apply N.eqb_eq in H. now subst.
  - injection H as ->. apply N.eqb_refl.
Qed.
(** [keyed e l]: values with their priorities in [e]. *)
Definition keyed (e : env) (x : Z * value) : Prop := exists c, class_of e (snd x) c /\ fst x = code c.
Lemma compare_gt e x y : env_ok e -> keyed e x -> keyed e y -> compare (fst x) (snd x) (fst y) (snd y) = Some Gt -> before e (snd x) (snd y).
Proof.
  intros O (a & A & PA) (b & B & PB). unfold compare. destruct (_ || _ || _); [discriminate|]. rewrite PA, PB.
  destruct (Z.compare_spec (code a) (code b)) as [E|L|L]; try discriminate.
  - destruct (str_compare _ _) eqn:SC; try discriminate. intros _. apply str_compare_gt in SC. exists a, b.
    assert (a = b) as -> by (eapply code_inj; eauto using class_bounded). auto.
  - intros _. exists a, b. split; [auto|split; [auto|]]. left. apply code_above; eauto using class_bounded.
Qed.
Lemma compare_lt e x y : env_ok e -> keyed e x -> keyed e y -> compare (fst x) (snd x) (fst y) (snd y) = Some Lt -> before e (snd y) (snd x).
Proof.
  intros O (a & A & PA) (b & B & PB). unfold compare. destruct (_ || _ || _); [discriminate|]. rewrite PA, PB.
  destruct (Z.compare_spec (code a) (code b)) as [E|L|L]; try discriminate.
  - destruct (str_compare _ _) eqn:SC; try discriminate. intros _. apply str_compare_lt in SC. exists b, a.
    assert (a = b) as -> by (eapply code_inj; eauto using class_bounded). auto.
  - intros _. exists b, a. split; [auto|split; [auto|]]. left. apply code_above; eauto using class_bounded.
Qed.
Lemma compare_not_eq p v q w : compare p v q w <> Some Eq.
Proof. unfold compare. destruct (_ || _ || _); [discriminate|]. destruct (Z.compare p q); try discriminate. destruct (str_compare _ _); discriminate. Qed.
Lemma insert_perm x l : Permutation (insert_value x l) (x :: l).
Proof.
  induction l as [|y l IH]; cbn [insert_value]; [auto|]. destruct (compare _ _ _ _) as [[]|]; auto; rewrite IH; apply perm_swap.
Qed.
Lemma sort_perm l : Permutation (sort_values l) l.
Proof. induction l as [|x l IH]; cbn; [auto|]. etransitivity; [apply insert_perm|]. now constructor. Qed.
Definition zbefore (e : env) (x y : Z * value) : Prop := before e (snd x) (snd y).
Lemma insert_sorted e x l :
  env_ok e -> keyed e x -> Forall (keyed e) l -> Forall (fun y => compare (fst x) (snd x) (fst y) (snd y) <> None) l -> StronglySorted (zbefore e) l -> StronglySorted (zbefore e) (insert_value x l).
Proof.
  intros O KX. induction l as [|y l IH]; intros K C SS; cbn [insert_value]; [repeat constructor|].
  inversion K as [|? ? KY K']; subst. inversion C as [|? ? CY C']; subst. inversion SS as [|? ? SS' F]; subst.
  destruct (compare _ _ _ _) as [[]|] eqn:E; [now apply compare_not_eq in E| | |easy].
  - constructor; [now apply IH|]. eapply Permutation_Forall; [apply Permutation_sym, insert_perm|]. constructor; [|auto]. eapply compare_lt; eauto.
  - pose proof (compare_gt e x y O KX KY E) as B. constructor; [now constructor|]. constructor; [exact B|].
    eapply Forall_impl; [|exact F]. intros z Z. eapply before_trans; eauto.
Qed.
Lemma sort_sorted e l : env_ok e -> Forall (keyed e) l -> comparable l = true -> StronglySorted (zbefore e) (sort_values l).
Proof.
  intros O. induction l as [|x l IH]; cbn [sort_values fold_right comparable]; intros K C; [constructor|].
  apply andb_true_iff in C as [C1 C2]. inversion K; subst. apply insert_sorted; auto.
  - eapply Permutation_Forall; [apply Permutation_sym, sort_perm|auto].
  - eapply Permutation_Forall; [apply Permutation_sym, sort_perm|]. apply Forall_forall. intros y Y. rewrite forallb_forall in C1. specialize (C1 y Y).
    destruct (compare _ _ _ _); congruence.
Qed.
Lemma sorted_map {A B} (R : B -> B -> Prop) (f : A -> B) l : StronglySorted (fun x y => R (f x) (f y)) l -> StronglySorted R (map f l).
Proof. induction 1; cbn; constructor; auto. now apply Forall_map. Qed.

(** ** The highest priority *)

Lemma highest_spec l : forall best acc, acc <> [] ->
  exists top, (best <= top)%Z /\ (forall p v, In (p, v) l -> (p <= top)%Z) /\
    (highest best acc l = (if Z.eqb best top then acc else []) ++ map snd (filter (fun x => Z.eqb (fst x) top) l)) /\ highest best acc l <> [].
Proof.
  induction l as [|[p v] l IH]; intros best acc NE; cbn [highest].
  - exists best. rewrite Z.eqb_refl, app_nil_r. split; [lia|]. split; [easy|]. auto.
  - destruct (Z.ltb_spec p best) as [L|L].
    + destruct (IH best acc NE) as (top & T1 & T2 & T3 & T4). exists top. split; [auto|]. split.
      * intros q w [E|I]; [injection E as -> ->; lia|eauto].
      * split; [|auto]. rewrite T3. cbn [filter fst]. destruct (Z.eqb_spec p top); [lia|auto].
    + destruct (Z.ltb_spec best p) as [L'|L'].
      * destruct (IH p [v] ltac:(discriminate)) as (top & T1 & T2 & T3 & T4). exists top. split; [lia|]. split.
        -- intros q w [E|I]; [injection E as -> ->; lia|eauto].
        -- split; [|auto]. rewrite T3. cbn [filter fst]. destruct (Z.eqb_spec best top); [lia|]. now destruct (Z.eqb_spec p top).
      * assert (p = best) as -> by lia. destruct (IH best (acc ++ [v]) ltac:(now destruct acc)) as (top & T1 & T2 & T3 & T4). exists top. split; [auto|]. split.
        -- intros q w [E|I]; [injection E as -> ->; lia|eauto].
        -- split; [|auto]. rewrite T3. cbn [filter fst]. destruct (Z.eqb_spec best top); cbn; [now rewrite <- app_assoc|auto].
Qed.
Lemma all_some_spec {A B} (f : A -> option B) l r : all_some (map f l) = Some r <-> Forall2 (fun a b => f a = Some b) l r.
Proof.
  revert r. induction l as [|a l IH]; intros r; cbn [map all_some].
  - split; [intros [= <-]; constructor|intros H; now inversion H].
  - destruct (f a) as [b|] eqn:F.
    + destruct (all_some (map f l)) as [bs|] eqn:S.
      * split; [intros [= <-]; constructor; [auto|now apply IH]|]. intros H. inversion H; subst. apply IH in H4. congruence.
      * split; [discriminate|]. intros H. inversion H; subst. apply IH in H4. congruence.
    + split; [discriminate|]. intros H. inversion H; subst. congruence.
Qed.
Lemma remove_perm id l v : In v l -> v_id v = id -> NoDup (map v_id l) -> Permutation l (v :: remove_value id l).
Proof.
  induction l as [|w l IH]; [easy|]. cbn [remove_value map]. intros I E ND. inversion ND as [|? ? NI ND']; subst. destruct (N.eqb_spec (v_id w) (v_id v)) as [EE|NE].
  - destruct I as [->|I]; [auto|]. exfalso. apply NI. rewrite EE. now apply in_map.
  - destruct I as [->|I]; [congruence|]. rewrite perm_swap. constructor. auto.
Qed.

(** ** The final merge *)

Definition result_ok (e : env) (scalar : bool) (all : list value) (r : prop) (w : bool) : Prop :=
  (forall v, In v (values r) <-> In v all /\ ~ class_of e v CAbsent) /\
  NoDup (map v_id (values r)) /\
  (forall v, In v (values r) -> exists a b, class_of e v a /\ class_of e (p_main r) b /\ ~ above a b) /\
  StronglySorted (before e) (map bare (p_cands r)) /\
  (w = true <-> scalar = true /\ exists v c, In v all /\ class_of e v c /\ class_of e (p_main r) c /\ v_code v <> v_code (p_main r)).

Lemma keys_spec e l K : Forall2 (fun v x => calculated e v = Some x) l K ->
  map bare (map snd K) = map bare l /\ Forall (fun x => keyed e x /\ v_prio (snd x) = Some (fst x)) K.
Proof.
  induction 1 as [|v [p u] l K H F IH]; [split; constructor|]. unfold calculated in H. destruct (calculate e v) as [q|] eqn:C; [|discriminate]. injection H as <- <-.
  destruct IH as [IH1 IH2]. split; [cbn; f_equal; auto|]. constructor; [|auto]. cbn. split; [|auto].
  destruct (class_calculate _ _ _ C) as (c & CO & ->). exists c. split; [|auto]. cbn. eapply class_same; [|eauto]. reflexivity.
Qed.
Definition live_key (v : value) : list (Z * value) := match v_prio v with Some q => if Z.eqb q 0 then [] else [(q, v)] | None => [] end.
Lemma live_keys e l : env_ok e -> Forall (fun v => exists c, class_of e v c /\ v_prio v = Some (code c)) l ->
  Forall (keyed e) (flat_map live_key l) /\ map snd (flat_map live_key l) = filter (fun v => match v_prio v with Some q => negb (Z.eqb q 0) | None => false end) l.
Proof.
  intros O. induction 1 as [|v l (c & C & P) F [IH1 IH2]]; [split; constructor|]. cbn [flat_map filter]. unfold live_key at 1 3. rewrite P.
  destruct (Z.eqb (code c) 0); cbn [negb app map]; [auto|]. split; [constructor; [exists c; auto|auto]|cbn; f_equal; auto].
Qed.
Lemma in_map_bare v l : In v (map bare l) -> exists u, In u l /\ bare u = v.
Proof. intros H. apply in_map_iff in H as (u & E & I). eauto. Qed.
Lemma map_id_bare l : map v_id (map bare l) = map v_id l.
Proof. rewrite map_map. reflexivity. Qed.
Lemma nodup_filter {A B} (f : A -> B) (g : A -> bool) l : NoDup (map f l) -> NoDup (map f (filter g l)).
Proof.
  induction l as [|a l IH]; [auto|]. cbn. intros ND. inversion ND as [|? ? NI ND']; subst. destruct (g a); cbn; auto. constructor; auto.
  intros H. apply NI. apply in_map_iff in H as (b & E & I). apply filter_In in I as [I _]. rewrite <- E. now apply in_map.
Qed.
Lemma final_spec e scalar p r w :
  env_ok e -> v_kind (p_main p) = Source -> p_cands p <> [] -> NoDup (map v_id (p_main p :: p_cands p)) ->
  (exists v c, In v (p_main p :: p_cands p) /\ class_of e v c /\ c <> CAbsent) -> final e scalar p = Some (r, w) ->
  result_ok e scalar (map bare (p_main p :: p_cands p)) r w.
Proof.
  intros O K NE ND LIVE. unfold final. unfold is_source at 1. rewrite K. cbn [negb]. destruct (p_cands p) as [|c0 cs] eqn:CS; [easy|].
  destruct (all_some _) as [KS|] eqn:AS; [|discriminate]. apply all_some_spec in AS. pose proof AS as AS0. apply keys_spec in AS as [MB KK].
  destruct KS as [|[p0 main] rest]; [discriminate|].
  destruct (highest_spec rest p0 [main] ltac:(discriminate)) as (top & T1 & T2 & T3 & T4).
  destruct (highest p0 [main] rest) as [|chosen others] eqn:HI; [easy|].
  set (cands := if N.eqb (v_id chosen) (v_id main) then map snd rest else remove_value (v_id chosen) (map snd rest) ++ [main]).
  fold live_key. change (flat_map _ cands) with (flat_map live_key cands). destruct (comparable _) eqn:CM; [|discriminate]. intros [= <- <-].
  assert (NDK : NoDup (map v_id (map snd ((p0, main) :: rest)))) by (rewrite <- map_id_bare, MB, map_id_bare; exact ND).
  assert (NDM := NDK). cbn [map snd] in NDM.
  assert (CIN : In chosen (map snd ((p0, main) :: rest)) /\ v_prio chosen = Some top).
  { assert (IC : In chosen (chosen :: others)) by now left. rewrite T3 in IC. apply in_app_or in IC as [IC|IC].
    - destruct (Z.eqb_spec p0 top) as [->|]; [|easy]. destruct IC as [<-|[]]. split; [now left|]. inversion KK as [|? ? [_ V] _]; subst. exact V.
    - apply in_map_iff in IC as ([q v] & E & I). cbn in E. subst v. apply filter_In in I as [I E]. apply Z.eqb_eq in E. cbn in E. subst q.
      split; [right; change chosen with (snd (top, chosen)); now apply in_map|]. rewrite Forall_forall in KK. now destruct (KK (top, chosen) (or_intror I)). }
  destruct CIN as [CIN CPR].
  assert (PM : Permutation (map snd ((p0, main) :: rest)) (chosen :: cands)).
  { unfold cands. cbn [map snd]. destruct (N.eqb_spec (v_id chosen) (v_id main)) as [E|NEQ].
    - cbn [map snd] in CIN. destruct CIN as [->|I]; [auto|]. exfalso. inversion NDM as [|? ? NI _]; subst. apply NI. rewrite <- E. now apply in_map.
    - cbn [map snd] in CIN. destruct CIN as [->|I]; [easy|]. inversion NDM; subst. rewrite (remove_perm (v_id chosen) (map snd rest) chosen) at 1; auto.
      rewrite Permutation_app_comm. cbn. apply perm_swap. }
  assert (ALLC : Forall (fun v => exists c, class_of e v c /\ v_prio v = Some (code c)) (chosen :: cands)).
  { eapply Permutation_Forall; [exact PM|]. apply Forall_map. eapply Forall_impl; [|exact KK]. intros x [(c & C & E) P]. exists c. split; [auto|]. now rewrite P, E. }
  inversion ALLC as [|? ? (cc & CC & CP) ALLC']; subst. rewrite CPR in CP. injection CP as ->.
  destruct (live_keys e cands O ALLC') as [LK1 LK2].
  set (keys := flat_map live_key cands) in *.
  assert (PS : Permutation (map snd (sort_values keys)) (filter (fun v => match v_prio v with Some q => negb (Z.eqb q 0) | None => false end) cands)).
  { rewrite <- LK2. apply Permutation_map, sort_perm. }
  assert (BND := class_bounded _ _ _ O CC).
  assert (TOP : forall v c, In v (chosen :: cands) -> class_of e v c -> (code c <= code cc)%Z).
  { intros v c I C. apply (Permutation_in _ (Permutation_sym PM)) in I. cbn [map snd] in I.
    assert (PV : v_prio v = Some (code c)).
    { rewrite Forall_forall in ALLC. destruct (ALLC v) as (c' & C' & P'); [eapply Permutation_in; [exact PM|exact I]|]. now rewrite (class_det _ _ _ _ O C C'). }
    destruct I as [<-|I].
    - inversion KK as [|? ? [_ V] _]; subst. cbn in V. rewrite V in PV. injection PV as <-. exact T1.
    - apply in_map_iff in I as ([q u] & E & I). cbn in E. subst u. specialize (T2 _ _ I). rewrite Forall_forall in KK. destruct (KK (q, v) (or_intror I)) as [_ V]. cbn in V. rewrite V in PV. injection PV as ->. exact T2. }
  assert (CLIVE : cc <> CAbsent).
  { destruct LIVE as (v & c & I & C & NA). apply (in_map bare) in I. rewrite <- MB in I. apply (in_map_bare) in I as (u & I & E).
    intros ->. assert (C' : class_of e u c) by (eapply class_same; [symmetry; exact E|exact C]). specialize (TOP u c (Permutation_in _ PM I) C'). cbn [code] in TOP.
    pose proof (code_pos c (class_bounded _ _ _ O C) NA). lia. }
  assert (MEM : forall v, In v (map bare (chosen :: cands)) <-> In v (map bare (p_main p :: c0 :: cs))).
  { intros v. rewrite <- MB. split; apply Permutation_in, Permutation_map; [now apply Permutation_sym|exact PM]. }
  unfold result_ok, values. cbn [p_main p_cands].
  split; [|split; [|split; [|split]]].
  - intros v. rewrite <- MEM. split.
    + intros [<-|I].
      * split; [now left|]. intros C. apply -> class_bare in C. apply CLIVE. eapply class_det; eauto.
      * apply in_map_bare in I as (u & I & <-). apply (Permutation_in _ PS) in I. apply filter_In in I as [I Q]. split; [right; now apply in_map|].
        intros C. apply -> class_bare in C. rewrite Forall_forall in ALLC'. destruct (ALLC' u I) as (c & C' & P). rewrite P in Q.
        rewrite (class_det _ _ _ _ O C' C) in Q. discriminate.
    + intros [[<-|I] NA]; [now left|]. right. apply in_map_bare in I as (u & I & <-). apply in_map. apply (Permutation_in _ (Permutation_sym PS)). apply filter_In. split; [auto|].
      rewrite Forall_forall in ALLC'. destruct (ALLC' u I) as (c & C' & P). rewrite P. destruct (Z.eqb_spec (code c) 0) as [Z0|]; [|auto].
      exfalso. apply NA. apply <- class_bare. rewrite <- (code_zero c); eauto using class_bounded.
  - rewrite map_id_bare. cbn [map].
    assert (NDC : NoDup (map v_id (chosen :: cands))) by (eapply Permutation_NoDup; [apply Permutation_map; exact PM|exact NDK]).
    cbn [map] in NDC. inversion NDC as [|? ? NI NDC']; subst. constructor.
    + intros I. apply NI. apply (Permutation_in _ (Permutation_map v_id PS)) in I. apply in_map_iff in I as (u & E & I). apply filter_In in I as [I _]. rewrite <- E. now apply in_map.
    + eapply Permutation_NoDup; [apply Permutation_map, Permutation_sym, PS|]. now apply nodup_filter.
  - intros v I. assert (exists u, In u (chosen :: cands) /\ bare u = v) as (u & IU & <-).
    { destruct I as [<-|I]; [exists chosen; split; [now left|reflexivity]|]. apply in_map_bare in I as (u & I & <-). apply (Permutation_in _ PS) in I. apply filter_In in I as [I _].
      exists u. split; [now right|reflexivity]. }
    rewrite Forall_forall in ALLC. destruct (ALLC u IU) as (c & C & _). exists c, cc. split; [now apply class_bare|]. split; [auto|]. intros AB.
    rewrite <- code_above in AB; eauto using class_bounded. specialize (TOP u c IU C). lia.
  - rewrite map_map. apply sorted_map. pose proof (sort_sorted e keys O LK1 CM) as SS. clear -SS. induction SS as [|x l S IH F]; constructor; auto.
    eapply Forall_impl; [|exact F]. intros y Y. now apply before_bare.
  - rewrite andb_true_iff, existsb_exists. split.
    + intros [-> (v & I & D)]. split; [auto|]. assert (IV : In v (chosen :: others)) by now right. rewrite T3 in IV.
      assert (IK : In v (map snd ((p0, main) :: rest)) /\ v_prio v = Some (code cc)).
      { apply in_app_or in IV as [IV|IV].
        - destruct (Z.eqb_spec p0 (code cc)) as [E|]; [|easy]. destruct IV as [<-|[]]. split; [now left|]. inversion KK as [|? ? [_ V] _]; subst. exact V.
        - apply in_map_iff in IV as ([q u] & E & IV). cbn in E. subst u. apply filter_In in IV as [IV E]. apply Z.eqb_eq in E. cbn in E. subst q.
          split; [right; change v with (snd (code cc, v)); now apply in_map|]. rewrite Forall_forall in KK. now destruct (KK (code cc, v) (or_intror IV)). }
      destruct IK as [IK PV]. exists (bare v), cc. split; [apply MEM; apply in_map; eapply Permutation_in; [exact PM|exact IK]|]. split; [|split].
      * apply <- class_bare. rewrite Forall_forall in ALLC. destruct (ALLC v) as (c & C & P); [eapply Permutation_in; [exact PM|exact IK]|].
        rewrite P in PV. injection PV as E. rewrite <- (code_inj c cc); eauto using class_bounded.
      * exact CC.
      * cbn. intros E. rewrite E, str_eqb_refl in D. discriminate.
    + intros [-> (v & c & I & C & C' & D)]. split; [auto|]. assert (c = cc) as -> by (eapply class_det; eauto).
      apply MEM in I. apply in_map_bare in I as (u & I & <-). cbn in D. apply -> class_bare in C.
      assert (PU : v_prio u = Some (code cc)).
      { rewrite Forall_forall in ALLC. destruct (ALLC u I) as (c' & C2 & P). now rewrite P, (class_det _ _ _ _ O C2 C). }
      apply (Permutation_in _ (Permutation_sym PM)) in I.
      assert (IH : In u (chosen :: others)).
      { rewrite T3. apply in_or_app. cbn [map snd] in I. destruct I as [<-|I].
        - left. inversion KK as [|? ? [_ V] _]; subst. cbn in V. rewrite V in PU. injection PU as ->. rewrite Z.eqb_refl. now left.
        - right. apply in_map_iff in I as ([q x] & E & I). cbn in E. subst x. rewrite Forall_forall in KK. destruct (KK (q, u) (or_intror I)) as [_ V]. cbn in V.
          rewrite V in PU. injection PU as ->. apply in_map_iff. exists (code cc, u). split; [auto|]. apply filter_In. split; [auto|]. apply Z.eqb_refl. }
      destruct IH as [->|IH]; [easy|]. exists u. split; [auto|]. destruct (str_eqb (v_code u) (v_code chosen)) eqn:SE; [|auto]. apply str_eqb_eq in SE. easy.
Qed.

(** ** Merging step by step *)

Definition good (p : prop) : Prop :=
  v_cmd (p_main p) = false /\ internal (p_main p) = false /\ (v_kind (p_main p) = Source \/ v_profile (p_main p) = true /\ (v_prio (p_main p) = None \/ v_prio (p_main p) = Some 2%Z)).
Lemma priority_bare e v p u : priority e v = Some (p, u) -> bare u = bare v /\ v_prio u = Some p /\ (v_prio v = None -> calculate e v = Some p) /\ (forall q, v_prio v = Some q -> q = p).
Proof.
  unfold priority. destruct (v_prio v) as [q|] eqn:P; [intros [= <- <-]; split; [auto|split; [auto|split; congruence]]|].
  destruct (calculate e v) as [q|] eqn:C; [|discriminate]. intros H. apply some_inj in H. injection H as <- <-. split; [auto|split; [auto|split; congruence]].
Qed.
Lemma bare_fields v w : bare v = bare w -> v_id v = v_id w /\ v_kind v = v_kind w /\ v_profile v = v_profile w /\ v_cmd v = v_cmd w /\ v_scope v = v_scope w /\ v_name v = v_name w /\ v_code v = v_code w.
Proof. destruct v, w. unfold bare. cbn. intros [= -> -> -> -> -> -> ->]. repeat split. Qed.
Lemma internal_bare v w : bare v = bare w -> internal v = internal w.
Proof. intros E. apply bare_fields in E as (_ & K & P & C & _). unfold internal. now rewrite K, P, C. Qed.
Lemma given_internal l : from_files l -> internal (l_value l) = false.
Proof. intros (K & _). unfold internal. now rewrite K. Qed.
Lemma merge_step l p p' :
  env_ok (l_env l) -> from_files l -> good p -> merge (l_env l) (l_scope l) (l_name l) p (l_value l) = Some p' ->
  Permutation (values p') (values p ++ [given l]) /\ good p' /\ v_kind (p_main p') = Source.
Proof.
  intros O F (GC & GI & GK). unfold merge. rewrite (given_internal l F), GI, GC. cbn [orb].
  set (v := with_scope (l_value l) (l_scope l) (l_name l)). assert (BV : bare v = given l) by reflexivity.
  destruct F as (FK & FC & FP & FR & FS). assert (VK : v_kind v = Source) by exact FK. assert (VR : v_prio v = None) by exact FR.
  unfold is_source at 1. rewrite VK. cbn [negb].
  destruct (priority (l_env l) (p_main p)) as [[p1 m]|] eqn:P1; [|discriminate]. destruct (priority (l_env l) v) as [[p2 u]|] eqn:P2; [|discriminate].
  apply priority_bare in P1 as (B1 & R1 & C1 & C1'). apply priority_bare in P2 as (B2 & R2 & C2 & _). specialize (C2 VR).
  destruct (Z.eqb_spec p1 0) as [|N1]; [discriminate|]. destruct (Z.eqb_spec p2 0) as [|N2]; [discriminate|]. cbn [orb].
  assert (HI : (2 < p2)%Z).
  { destruct (class_calculate _ _ _ C2) as (c & CC & ->). pose proof (class_bounded _ _ _ O CC) as BC.
    assert (VC : v_cmd v = false) by exact FC. assert (VP : v_profile v = false) by exact FP. assert (VS : v_scope v <> NoScope) by exact FS.
    destruct CC; cbn [code bounded] in *; try lia; congruence. }
  pose proof (internal_bare _ _ B1) as IB. apply bare_fields in B1 as B1'. destruct B1' as (B1I & B1K & B1P & B1C & B1S & B1N & B1D).
  pose proof B2 as B2'. apply bare_fields in B2' as (B2I & B2K & B2P & B2C & B2S & B2N & B2D).
  destruct (compare p1 m p2 u) as [[]|] eqn:CMP; [now apply compare_not_eq in CMP| | |discriminate]; intros [= <-]; unfold values, good; cbn [p_main p_cands].
  - split; [|split; [|congruence]].
    + cbn [map]. rewrite map_app. cbn [map]. rewrite B1, B2, BV. cbn [app].
      apply Permutation_trans with (given l :: bare (p_main p) :: map bare (p_cands p)); [constructor; symmetry; apply Permutation_cons_append|].
      rewrite app_comm_cons. apply Permutation_cons_append.
    + split; [|split; [|left; congruence]].
      * rewrite B2C. exact FC.
      * unfold internal. now rewrite B2K, VK.
  - assert (KM : v_kind m = Source).
    { destruct GK as [GK|[GP GR]]; [congruence|]. exfalso.
      assert (p1 = 2%Z) as ->.
      { destruct GR as [GR|GR]; [|symmetry; auto]. specialize (C1 GR). unfold calculate in C1. rewrite GI, GC, GP in C1. now injection C1. }
      unfold compare in CMP. destruct (_ || _ || _); [discriminate|]. destruct (Z.compare_spec 2 p2); try discriminate; lia. }
    split; [|split; [|auto]].
    + cbn [map]. rewrite map_app. cbn [map]. rewrite B1, B2, BV. reflexivity.
    + split; [congruence|]. split; [now rewrite IB|auto].
Qed.
Lemma merges_perm ls : forall p p', Forall (fun l => env_ok (l_env l)) ls -> Forall from_files ls -> good p -> merges ls p = Some p' ->
  Permutation (values p') (values p ++ map given ls) /\ good p' /\ (ls <> [] -> v_kind (p_main p') = Source) /\ List.length (p_cands p') = List.length ls + List.length (p_cands p).
Proof.
  induction ls as [|l ls IH]; intros p p' O F G; cbn [merges].
  - intros [= <-]. cbn [map]. rewrite app_nil_r. split; [reflexivity|]. split; [auto|]. split; [easy|reflexivity].
  - inversion O as [|? ? O1 O2]; subst. inversion F as [|? ? F1 F2]; subst. destruct (merge _ _ _ _ _) as [q|] eqn:M; [|discriminate]. intros MS.
    destruct (merge_step _ _ _ O1 F1 G M) as (P1 & G1 & K1). destruct (IH _ _ O2 F2 G1 MS) as (P2 & G2 & K2 & L2).
    assert (PP : Permutation (values p') (values p ++ map given (l :: ls))).
    { rewrite P2, P1. cbn [map]. now rewrite <- app_assoc. }
    split; [exact PP|]. split; [auto|]. split.
    + intros _. destruct ls; [|now apply K2]. cbn in MS. injection MS as <-. exact K1.
    + apply Permutation_length in PP. unfold values in PP. rewrite app_length, !map_length in PP. cbn [List.length] in *. lia.
Qed.
Lemma default_good d : default d -> good (mkProp d []).
Proof.
  intros (C & R & SC & H). unfold good, internal. cbn. rewrite C, R. destruct H as [[-> ->]|[-> ->]]; cbn; repeat split; auto.
Qed.
Lemma default_class e d : default d -> exists c, class_of e d c /\ c <> CAbsent.
Proof.
  intros (C & R & SC & [[K P]|[K P]]); [exists CDefault|exists CProfile]; split; try discriminate; [now apply class_default|now apply class_profile].
Qed.
Lemma result_perm e scalar l l' r w : Permutation l l' -> result_ok e scalar l r w -> result_ok e scalar l' r w.
Proof.
  intros P (A & B & C & D & W). assert (M : forall v, In v l <-> In v l') by (intros v; split; apply Permutation_in; auto using Permutation_sym).
  split; [|split; [auto|split; [auto|split; [auto|]]]].
  - intros v. rewrite A. now rewrite M.
  - rewrite W. split; intros (S & v & c & I & H); (split; [auto|]; exists v, c; split; [now apply M|auto]).
Qed.
(** Whenever merging succeeds: the values are those of all items that are present, the first one has the highest priority, the others are sorted, and users are told about
    conflicts.  Priorities are those at the end, whatever they were when the values were added. *)
Theorem merged_result e scalar ls d r w :
  env_ok e -> Forall (fun l => env_ok (l_env l)) ls -> Forall from_files ls -> default d -> NoDup (map v_id (all_values d ls)) ->
  merged e scalar ls d = Some (r, w) -> result_ok e scalar (all_values d ls) r w.
Proof.
  intros O OL F D ND. unfold merged. destruct (merges ls (mkProp d [])) as [p|] eqn:M; [|discriminate].
  destruct (merges_perm _ _ _ OL F (default_good d D) M) as (P & G & K & L). cbn [p_cands List.length] in L. rewrite Nat.add_0_r in L.
  change (values (mkProp d []) ++ map given ls) with (all_values d ls) in P. intros FN.
  destruct ls as [|l0 ls'] eqn:LS.
  - cbn in M. injection M as <-. unfold final in FN. cbn in FN.
    assert (E : values r = [bare d] /\ w = false /\ bare (p_main r) = bare d /\ p_cands r = []).
    { destruct (negb (is_source d)); injection FN as <- <-; repeat split. }
    destruct E as (V & -> & BM & CE). destruct (default_class e d D) as (c & C & NA). unfold all_values. cbn [map]. unfold result_ok. rewrite V, CE. cbn [map].
    split; [|split; [|split; [|split]]].
    + intros v. split; [|tauto]. intros [<-|[]]. split; [now left|]. intros C'. apply -> class_bare in C'. apply NA. eapply class_det; eauto.
    + constructor; [easy|constructor].
    + intros v [<-|[]]. exists c, c. split; [now apply class_bare|]. split; [eapply class_same; [symmetry; exact BM|exact C]|apply above_irrefl].
    + constructor.
    + split; [discriminate|]. intros (_ & v & c' & [<-|[]] & _ & _ & NE). exfalso. apply NE. apply bare_fields in BM as (_ & _ & _ & _ & _ & _ & E). now rewrite E.
  - assert (PA := P). eapply result_perm; [exact P|]. unfold values. apply final_spec; auto.
    + now apply K.
    + intros E. rewrite E in L. discriminate.
    + rewrite <- map_id_bare. change (map bare (p_main p :: p_cands p)) with (values p). eapply Permutation_NoDup; [apply Permutation_map, Permutation_sym; exact P|exact ND].
    + destruct (default_class e d D) as (c & C & NA). assert (I : In (bare d) (values p)) by (eapply Permutation_in; [apply Permutation_sym; exact P|now left]).
      unfold values in I. apply in_map_bare in I as (u & I & E). exists u, c. split; [exact I|]. split; [|exact NA]. eapply class_same; [symmetry; exact E|exact C].
Qed.

(** ** The order in which modules are loaded *)

Lemma sorted_unique e l l' : env_ok e -> StronglySorted (before e) l -> StronglySorted (before e) l' -> (forall v, In v l <-> In v l') -> l = l'.
Proof.
  intros O S1. revert l'. induction S1 as [|x l S1 IH F]; intros l' S2 M.
  - destruct l' as [|y l']; [auto|]. exfalso. apply (M y). now left.
  - destruct S2 as [|y l' S2 F']; [exfalso; apply (M x); now left|].
    assert (x = y) as ->.
    { destruct (proj1 (M x) (or_introl eq_refl)) as [->|I]; [auto|]. destruct (proj2 (M y) (or_introl eq_refl)) as [->|J]; [auto|]. exfalso.
      rewrite Forall_forall in F, F'. eapply before_irrefl; [exact O|]. eapply before_trans; [exact O|apply (F y J)|apply (F' x I)]. }
    f_equal. apply IH; [auto|]. intros v. rewrite Forall_forall in F, F'. split; intros I.
    + destruct (proj1 (M v) (or_intror I)) as [->|J]; [|auto]. exfalso. eapply before_irrefl; [exact O|apply (F v I)].
    + destruct (proj2 (M v) (or_intror I)) as [->|J]; [|auto]. exfalso. eapply before_irrefl; [exact O|apply (F' v I)].
Qed.
Lemma result_unique e scalar all r1 w1 r2 w2 :
  env_ok e -> result_ok e scalar all r1 w1 -> result_ok e scalar all r2 w2 -> bare (p_main r1) = bare (p_main r2) -> values r1 = values r2 /\ w1 = w2.
Proof.
  intros O (A1 & N1 & C1 & S1 & W1) (A2 & N2 & C2 & S2 & W2) E. split.
  - unfold values in *. cbn [map] in *. f_equal; [exact E|]. apply (sorted_unique e); auto. intros v.
    assert (NI : forall r, NoDup (map v_id (bare (p_main r) :: map bare (p_cands r))) -> In v (map bare (p_cands r)) -> bare (p_main r) <> v).
    { intros r ND I EE. cbn [map] in ND. inversion ND as [|? ? NI _]. apply NI. rewrite <- EE in I. now apply (in_map v_id) in I. }
    split; intros I.
    + destruct (proj2 (A2 v) (proj1 (A1 v) (or_intror I))) as [J|J]; [|auto]. exfalso. apply (NI r1 N1 I). congruence.
    + destruct (proj2 (A1 v) (proj1 (A2 v) (or_intror I))) as [J|J]; [|auto]. exfalso. apply (NI r2 N2 I). congruence.
  - assert (w1 = true <-> w2 = true) as H.
    { rewrite W1, W2. assert (v_code (p_main r1) = v_code (p_main r2)) as -> by now apply bare_fields in E.
      split; intros (SC & v & c & I & CV & CM & D); (split; [auto|]; exists v, c; split; [auto|split; [auto|split; [|auto]]]); (eapply class_same; [|exact CM]); congruence. }
    destruct w1, w2; try reflexivity; [symmetry|]; apply H; reflexivity.
Qed.
(** If one item overrides all others, then the order in which values are added does not matter, nor how far the modules were from the product at that time. *)
Theorem order_independent e scalar ls1 ls2 d r1 w1 r2 w2 :
  env_ok e -> Forall (fun l => env_ok (l_env l)) ls1 -> Forall (fun l => env_ok (l_env l)) ls2 -> Forall from_files ls1 -> Forall from_files ls2 -> default d ->
  NoDup (map v_id (all_values d ls1)) -> Permutation (map given ls1) (map given ls2) ->
  (exists u c, In u (all_values d ls1) /\ class_of e u c /\ forall v b, In v (all_values d ls1) -> class_of e v b -> v = u \/ above c b) ->
  merged e scalar ls1 d = Some (r1, w1) -> merged e scalar ls2 d = Some (r2, w2) -> values r1 = values r2 /\ w1 = w2.
Proof.
  intros O O1 O2 F1 F2 D ND P (u & c & U & UC & TOP) M1 M2.
  assert (PA : Permutation (all_values d ls1) (all_values d ls2)) by (now apply perm_skip).
  assert (ND2 : NoDup (map v_id (all_values d ls2))) by (eapply Permutation_NoDup; [apply Permutation_map; exact PA|exact ND]).
  pose proof (merged_result _ _ _ _ _ _ O O1 F1 D ND M1) as R1. pose proof (merged_result _ _ _ _ _ _ O O2 F2 D ND2 M2) as R2.
  apply (result_perm _ _ _ (all_values d ls1)) in R2; [|now apply Permutation_sym].
  assert (MAIN : forall r w, result_ok e scalar (all_values d ls1) r w -> bare (p_main r) = u).
  { intros r w (A & _ & C & _). assert (I : In (bare (p_main r)) (values r)) by now left.
    destruct (proj1 (A _) I) as [J _].
    assert (LU : In u (values r)).
    { apply A. split; [auto|]. intros CA. assert (c = CAbsent) as -> by (eapply class_det; eauto).
      destruct (default_class e d D) as (cd & CD & NA). destruct (TOP (bare d) cd (or_introl eq_refl)) as [E|AB]; [now apply class_bare| |].
      - apply NA. rewrite <- E in CA. apply -> class_bare in CA. eapply class_det; eauto.
      - destruct AB as [AB|(m & n & AB & _)]; [cbn in AB; lia|discriminate]. }
    destruct (C _ LU) as (a & b & CU & CM & NAB). assert (a = c) as -> by (eapply class_det; eauto).
    destruct (TOP _ b J) as [E|AB]; [now apply class_bare|auto|]. easy. }
  eapply result_unique; eauto. rewrite (MAIN _ _ R1). now rewrite (MAIN _ _ R2).
Qed.

Lemma final_main e scalar p r w :
  env_ok e -> (forall v c a, In v (p_cands p) -> class_of e v c -> class_of e (p_main p) a -> ~ above c a) -> final e scalar p = Some (r, w) -> bare (p_main r) = bare (p_main p).
Proof.
  intros O T. unfold final. destruct (negb _); [intros [= <- <-]; reflexivity|]. destruct (p_cands p) as [|c0 cs] eqn:CS; [intros [= <- <-]; reflexivity|].
  destruct (all_some _) as [KS|] eqn:AS; [|discriminate]. apply all_some_spec in AS. inversion AS as [|? x ? rest HM HR]; subst. destruct x as [p0 main].
  assert (bare main = bare (p_main p) /\ keyed e (p0, main)) as [BM (a & A & PA)].
  { destruct (keys_spec e [p_main p] [(p0, main)]) as [B K]; [repeat constructor; exact HM|]. apply (f_equal (hd (bare main))) in B. cbn [map hd] in B. inversion K as [|? ? [KK _] _]; subst. auto. }
  cbn [fst snd] in A, PA.
  destruct (highest_spec rest p0 [main] ltac:(discriminate)) as (top & T1 & T2 & T3 & T4).
  assert (p0 = top) as E.
  { destruct (Z.eqb_spec p0 top) as [|NE]; [auto|]. exfalso. cbn [app] in T3. destruct (filter (fun x => Z.eqb (fst x) top) rest) as [|[q v] fl] eqn:FL; [rewrite T3 in T4; easy|].
    assert (I : In (q, v) (filter (fun x => Z.eqb (fst x) top) rest)) by (rewrite FL; now left). apply filter_In in I as [I E]. apply Z.eqb_eq in E. cbn in E. subst q.
    destruct (keys_spec _ _ _ HR) as [MB KK]. rewrite Forall_forall in KK. destruct (KK _ I) as [(c & C & PC) _]. cbn [fst snd] in C, PC.
    assert (IV : In (bare v) (map bare (map snd rest))) by (apply in_map; change v with (snd (top, v)); now apply in_map). rewrite MB in IV. apply in_map_bare in IV as (u & IU & EU).
    apply (T u c a IU); [eapply class_same; [symmetry; exact EU|exact C]|eapply class_same; [exact BM|exact A]|].
    apply code_above; [eapply class_bounded; eauto|eapply class_bounded; eauto|]. lia. }
  rewrite E, Z.eqb_refl in T3. rewrite E. rewrite T3. cbn [app]. rewrite N.eqb_refl. destruct (comparable _); [|discriminate]. intros [= <- <-]. exact BM.
Qed.
(** [kept e v]: no priority is remembered, or the one in [e]. *)
Definition kept (e : env) (v : value) : Prop := v_prio v = None \/ v_prio v = calculate e v.
Definition ordered (e : env) (p : prop) : Prop := kept e (p_main p) /\ Forall (before e (p_main p)) (p_cands p).
Lemma before_same e v v' w w' : bare v = bare v' -> bare w = bare w' -> before e v w -> before e v' w'.
Proof. intros A B H. apply before_bare. rewrite <- A, <- B. now apply before_bare. Qed.
Lemma merge_ordered l p p' :
  env_ok (l_env l) -> from_files l -> good p -> ordered (l_env l) p -> merge (l_env l) (l_scope l) (l_name l) p (l_value l) = Some p' -> ordered (l_env l) p'.
Proof.
  intros O F (GC & GI & GK) [OK OF]. unfold merge. rewrite (given_internal l F), GI, GC. cbn [orb].
  set (v := with_scope (l_value l) (l_scope l) (l_name l)). destruct F as (FK & FC & FP & FR & FS). assert (VR : v_prio v = None) by exact FR.
  destruct (negb (is_source v)); [discriminate|].
  destruct (priority (l_env l) (p_main p)) as [[p1 m]|] eqn:P1; [|discriminate]. destruct (priority (l_env l) v) as [[p2 u]|] eqn:P2; [|discriminate].
  apply priority_bare in P1 as (B1 & R1 & C1 & C1'). apply priority_bare in P2 as (B2 & R2 & C2 & _). specialize (C2 VR).
  assert (K1 : calculate (l_env l) (p_main p) = Some p1).
  { destruct OK as [OK|OK]; [auto|]. destruct (v_prio (p_main p)) as [q|] eqn:Q; [|auto]. rewrite <- OK. now rewrite (C1' q eq_refl). }
  assert (KM : keyed (l_env l) (p1, m)).
  { destruct (class_calculate _ _ _ K1) as (c & C & ->). exists c. split; [|auto]. cbn. eapply class_same; [symmetry; exact B1|exact C]. }
  assert (KU : keyed (l_env l) (p2, u)).
  { destruct (class_calculate _ _ _ C2) as (c & C & ->). exists c. split; [|auto]. cbn. eapply class_same; [symmetry; exact B2|exact C]. }
  destruct (_ || _); [discriminate|]. destruct (compare p1 m p2 u) as [[]|] eqn:CMP; [now apply compare_not_eq in CMP| | |discriminate]; intros [= <-]; unfold ordered; cbn [p_main p_cands].
  - pose proof (compare_lt (l_env l) (p1, m) (p2, u) O KM KU CMP) as B. cbn in B. split.
    + right. rewrite R2, <- C2. symmetry. now apply calculate_bare.
    + apply Forall_app. split; [|now constructor]. eapply Forall_impl; [|exact OF]. intros c H. eapply before_trans; [exact O|exact B|]. eapply before_same; [symmetry; exact B1|reflexivity|exact H].
  - pose proof (compare_gt (l_env l) (p1, m) (p2, u) O KM KU CMP) as B. cbn in B. split.
    + right. rewrite R1, <- K1. symmetry. now apply calculate_bare.
    + apply Forall_app. split; [|now constructor]. eapply Forall_impl; [|exact OF]. intros c H. eapply before_same; [symmetry; exact B1|reflexivity|exact H].
Qed.
Lemma merges_ordered e ls : forall p p', env_ok e -> Forall (fun l => l_env l = e) ls -> Forall from_files ls -> good p -> ordered e p -> merges ls p = Some p' -> ordered e p'.
Proof.
  induction ls as [|l ls IH]; intros p p' O E F G OD; cbn [merges]; [now intros [= <-]|].
  inversion E as [|? ? E1 E2]; subst. inversion F; subst. destruct (merge _ _ _ _ _) as [q|] eqn:M; [|discriminate]. intros MS.
  eapply IH; [| | | | |exact MS]; auto.
  - now destruct (merge_step _ _ _ O H1 G M) as (_ & ? & _).
  - eapply merge_ordered; eauto.
Qed.
(** If the modules of the product and their distances do not change any more while values are added, then all values end up sorted. *)
Theorem merged_sorted e scalar ls d r w :
  env_ok e -> Forall (fun l => l_env l = e) ls -> Forall from_files ls -> default d -> NoDup (map v_id (all_values d ls)) ->
  merged e scalar ls d = Some (r, w) -> StronglySorted (before e) (values r).
Proof.
  intros O E F D ND M. assert (OL : Forall (fun l => env_ok (l_env l)) ls) by (eapply Forall_impl; [|exact E]; now intros ? ->).
  pose proof (merged_result _ _ _ _ _ _ O OL F D ND M) as (A & N1 & C & SS & _).
  unfold merged in M. destruct (merges ls (mkProp d [])) as [p|] eqn:MS; [|discriminate].
  assert (OD : ordered e p).
  { apply (merges_ordered e ls (mkProp d []) p); auto; [now apply default_good|]. split; [left; apply D|constructor]. }
  destruct OD as [_ OD].
  assert (BM : bare (p_main r) = bare (p_main p)).
  { eapply final_main; [exact O| |exact M]. intros v c a I CV CM AB. rewrite Forall_forall in OD. destruct (OD v I) as (a' & c' & A' & C' & H).
    rewrite (class_det _ _ _ _ O CV C'), (class_det _ _ _ _ O CM A') in AB. destruct H as [H|[-> _]]; [|now apply above_irrefl in AB].
    apply (above_irrefl a'). eapply above_trans; eauto. }
  unfold values. cbn [map]. constructor; [exact SS|]. apply Forall_forall. intros v I. rewrite BM.
  destruct (merges_perm _ _ _ OL F (default_good d D) MS) as (P & _). change (values (mkProp d []) ++ map given ls) with (all_values d ls) in P.
  destruct (proj1 (A v) (or_intror I)) as [IA _]. apply (Permutation_in _ (Permutation_sym P)) in IA. unfold values in IA. cbn [map] in IA. destruct IA as [EV|IA].
  - exfalso. unfold values in N1. cbn [map] in N1. inversion N1 as [|? ? NI _]. apply NI. replace (v_id (p_main r)) with (v_id (bare (p_main r))) by reflexivity. rewrite BM, EV. now apply (in_map v_id).
  - apply in_map_bare in IA as (u & IU & <-). apply before_bare. rewrite Forall_forall in OD. auto.
Qed.
Theorem order_independent_sorted e scalar ls1 ls2 d r1 w1 r2 w2 :
  env_ok e -> Forall (fun l => l_env l = e) ls1 -> Forall (fun l => l_env l = e) ls2 -> Forall from_files ls1 -> Forall from_files ls2 -> default d ->
  NoDup (map v_id (all_values d ls1)) -> Permutation (map given ls1) (map given ls2) ->
  merged e scalar ls1 d = Some (r1, w1) -> merged e scalar ls2 d = Some (r2, w2) -> values r1 = values r2 /\ w1 = w2.
Proof.
  intros O E1 E2 F1 F2 D ND P M1 M2.
  assert (PA : Permutation (all_values d ls1) (all_values d ls2)) by (now apply perm_skip).
  assert (ND2 : NoDup (map v_id (all_values d ls2))) by (eapply Permutation_NoDup; [apply Permutation_map; exact PA|exact ND]).
  assert (OL1 : Forall (fun l => env_ok (l_env l)) ls1) by (eapply Forall_impl; [|exact E1]; now intros ? ->).
  assert (OL2 : Forall (fun l => env_ok (l_env l)) ls2) by (eapply Forall_impl; [|exact E2]; now intros ? ->).
  pose proof (merged_result _ _ _ _ _ _ O OL1 F1 D ND M1) as R1. pose proof (merged_result _ _ _ _ _ _ O OL2 F2 D ND2 M2) as R2.
  apply (result_perm _ _ _ (all_values d ls1)) in R2; [|now apply Permutation_sym].
  assert (V : values r1 = values r2).
  { assert (SS1 := merged_sorted _ _ _ _ _ _ O E1 F1 D ND M1). assert (SS2 := merged_sorted _ _ _ _ _ _ O E2 F2 D ND2 M2). apply (sorted_unique e); [auto|auto|auto|]. intros v. destruct R1 as [A1 _], R2 as [A2 _]. now rewrite A1, A2. }
  eapply result_unique; eauto. exact (f_equal (hd (bare (p_main r1))) V).
Qed.

(** ** Internal checks *)

(** Every item sets the property at most once, and different modules have different names. *)
Definition distinct_items (ls : list load) : Prop :=
  NoDup (map l_scope ls) /\ forall l1 l2 m1 m2, In l1 ls -> In l2 ls -> l_scope l1 = OfModule m1 -> l_scope l2 = OfModule m2 -> l_name l1 = l_name l2 -> m1 = m2.
Lemma nodup_map_inj {A B} (f : A -> B) l a b : NoDup (map f l) -> In a l -> In b l -> f a = f b -> a = b.
Proof.
  induction l as [|x l IH]; [easy|]. cbn. intros ND IA IB E. inversion ND as [|? ? NI ND']; subst. destruct IA as [->|IA], IB as [->|IB]; auto.
  - exfalso. apply NI. rewrite E. now apply in_map.
  - exfalso. apply NI. rewrite <- E. now apply in_map.
Qed.
Lemma default_class_is e d c : default d -> class_of e d c -> c = CDefault \/ c = CProfile.
Proof. intros (C & R & SC & [[K P]|[K P]]) H; destruct H; auto; congruence. Qed.
Lemma given_class_is e l c : from_files l -> class_of e (given l) c -> c = CAbsent \/ c = CProduct /\ l_scope l = OfProduct \/ exists n m, c = CModule n /\ l_scope l = OfModule m.
Proof. intros (K & C & P & R & SC) H. destruct H; cbn in *; try congruence; eauto 10. Qed.
Lemma compare_some p1 v p2 w : v_id v <> v_id w -> v_scope v <> v_scope w -> (v_kind v = Source \/ v_kind w = Source) -> (p1 = p2 -> v_name v <> v_name w) -> compare p1 v p2 w <> None.
Proof.
  intros I SC K N. unfold compare. destruct (N.eqb_spec (v_id v) (v_id w)) as [|_]; [easy|]. destruct (scope_eqb (v_scope v) (v_scope w)) eqn:SE; [apply scope_eqb_spec in SE; easy|].
  assert (is_source v || is_source w = true) as -> by (apply orb_true_iff; unfold is_source; destruct K as [-> | ->]; auto). cbn [orb negb].
  destruct (Z.compare_spec p1 p2) as [E|L|L]; try discriminate. destruct (str_compare _ _) eqn:C; try discriminate. apply str_compare_eq in C. exfalso. now apply N.
Qed.
Lemma compare_ok d ls e1 e2 v w c1 c2 :
  default d -> Forall from_files ls -> distinct_items ls -> env_ok e1 -> env_ok e2 -> In (bare v) (all_values d ls) -> In (bare w) (all_values d ls) -> v_id v <> v_id w ->
  class_of e1 v c1 -> class_of e2 w c2 -> c1 <> CAbsent -> c2 <> CAbsent -> compare (code c1) v (code c2) w <> None.
Proof.
  intros D F [NS NN] O1 O2 IV IW NI C1 C2 N1 N2. rewrite Forall_forall in F. pose proof (class_bounded _ _ _ O1 C1) as B1. pose proof (class_bounded _ _ _ O2 C2) as B2.
  assert (DS : v_scope d = NoScope) by apply D.
  unfold all_values in IV, IW. destruct IV as [EV|IV], IW as [EW|IW].
  - exfalso. apply NI. rewrite EV in EW. now apply bare_fields in EW.
  - apply in_map_iff in IW as (l & EL & IL). specialize (F l IL). assert (GL : bare (given l) = bare w) by (rewrite EL; reflexivity).
    pose proof EV as FV. apply bare_fields in FV as (_ & _ & _ & _ & SV & _). pose proof GL as GL'. apply bare_fields in GL' as (_ & KW & _ & _ & SW & _).
    assert (CV : class_of e1 d c1) by (eapply class_same; [symmetry; exact EV|exact C1]). assert (CW : class_of e2 (given l) c2) by (eapply class_same; [symmetry; exact GL|exact C2]).
    assert (LS : l_scope l <> NoScope) by apply F. assert (LK : v_kind (given l) = Source) by apply F.
    apply compare_some; [auto| | |].
    + rewrite <- SV, <- SW, DS. cbn. congruence.
    + right. congruence.
    + intros E. exfalso. apply code_inj in E; auto. subst c2. destruct (default_class_is _ _ _ D CV) as [-> | ->]; destruct (given_class_is _ _ _ F CW) as [A|[[A _]|(? & ? & A & _)]]; discriminate.
  - apply in_map_iff in IV as (l & EL & IL). specialize (F l IL). assert (GL : bare (given l) = bare v) by (rewrite EL; reflexivity).
    pose proof EW as FV. apply bare_fields in FV as (_ & _ & _ & _ & SV & _). pose proof GL as GL'. apply bare_fields in GL' as (_ & KW & _ & _ & SW & _).
    assert (CV : class_of e2 d c2) by (eapply class_same; [symmetry; exact EW|exact C2]). assert (CW : class_of e1 (given l) c1) by (eapply class_same; [symmetry; exact GL|exact C1]).
    assert (LS : l_scope l <> NoScope) by apply F. assert (LK : v_kind (given l) = Source) by apply F.
    apply compare_some; [auto| | |].
    + rewrite <- SV, <- SW, DS. cbn. congruence.
    + left. congruence.
    + intros E. exfalso. apply code_inj in E; auto. subst c2. destruct (default_class_is _ _ _ D CV) as [-> | ->]; destruct (given_class_is _ _ _ F CW) as [A|[[A _]|(? & ? & A & _)]]; discriminate.
  - apply in_map_iff in IV as (l1 & EL1 & IL1). apply in_map_iff in IW as (l2 & EL2 & IL2). pose proof (F l1 IL1) as F1. pose proof (F l2 IL2) as F2.
    assert (G1 : bare (given l1) = bare v) by (rewrite EL1; reflexivity). assert (G2 : bare (given l2) = bare w) by (rewrite EL2; reflexivity).
    assert (CV : class_of e1 (given l1) c1) by (eapply class_same; [symmetry; exact G1|exact C1]). assert (CW : class_of e2 (given l2) c2) by (eapply class_same; [symmetry; exact G2|exact C2]).
    apply bare_fields in G1 as (I1 & K1 & _ & _ & S1 & A1 & _). apply bare_fields in G2 as (I2 & K2 & _ & _ & S2 & A2 & _). cbn in I1, S1, A1, I2, S2, A2.
    assert (DIFF : l_scope l1 <> l_scope l2).
    { intros E. apply NI. rewrite (nodup_map_inj _ _ _ _ NS IL1 IL2 E) in I1. congruence. }
    apply compare_some; [auto|congruence|left; rewrite <- K1; apply F1|]. intros E. apply code_inj in E; auto. subst c2.
    destruct (given_class_is _ _ _ F1 CV) as [->|[[-> E1]|(n1 & m1 & -> & E1)]]; [easy| |]; (destruct (given_class_is _ _ _ F2 CW) as [A|[[A E2]|(n2 & m2 & A & E2)]]; try discriminate).
    + congruence.
    + intros EN. apply DIFF. rewrite E1, E2. f_equal. apply (NN l1 l2); auto. congruence.
Qed.
Definition remembered (p : prop) : Prop :=
  v_prio (p_main p) = None /\ v_scope (p_main p) = NoScope \/ exists e c, env_ok e /\ class_of e (p_main p) c /\ c <> CAbsent /\ v_prio (p_main p) = Some (code c).
Lemma priority_main e p d ls : env_ok e -> default d -> remembered p -> In (bare (p_main p)) (all_values d ls) -> Forall from_files ls ->
  exists e' c m, env_ok e' /\ class_of e' m c /\ c <> CAbsent /\ priority e (p_main p) = Some (code c, m) /\ bare m = bare (p_main p) /\ v_prio m = Some (code c).
Proof.
  intros O D R I F. unfold priority. destruct R as [[R SC]|(e' & c & O' & C & NA & R)]; rewrite R.
  - assert (B : bare (p_main p) = bare d).
    { destruct I as [I|I]; [auto|]. apply in_map_iff in I as (l & E & IL). rewrite Forall_forall in F. destruct (F l IL) as (_ & _ & _ & _ & NS). exfalso. apply NS.
      assert (G : bare (given l) = bare (p_main p)) by (rewrite E; reflexivity). apply bare_fields in G as (_ & _ & _ & _ & S & _). cbn in S. congruence. }
    destruct (default_class e d D) as (c & C & NA). assert (CM : class_of e (p_main p) c) by (eapply class_same; [symmetry; exact B|exact C]).
    rewrite (calculate_class _ _ _ O CM). exists e, c, (with_prio (p_main p) (Some (code c))). repeat split; auto; try apply O. eapply class_same; [|exact CM]. reflexivity.
  - exists e', c, (p_main p). repeat split; auto; try apply O'.
Qed.
Lemma merge_ok d ls0 l p :
  default d -> Forall from_files ls0 -> distinct_items ls0 -> env_ok (l_env l) -> In l ls0 -> good p -> remembered p -> In (bare (p_main p)) (all_values d ls0) ->
  v_id (p_main p) <> v_id (l_value l) -> (exists c, class_of (l_env l) (given l) c /\ c <> CAbsent) ->
  exists p', merge (l_env l) (l_scope l) (l_name l) p (l_value l) = Some p' /\ remembered p'.
Proof.
  intros D F DI O IL (GC & GI & GK) R IM NID (c2 & C2 & N2). rewrite Forall_forall in F. pose proof (F l IL) as FL. unfold merge. rewrite (given_internal l FL), GI, GC. cbn [orb].
  set (v := with_scope (l_value l) (l_scope l) (l_name l)). assert (BV : bare v = given l) by reflexivity.
  pose proof FL as (FK & FC & FP & FR & FS). assert (VK : v_kind v = Source) by exact FK. assert (VR : v_prio v = None) by exact FR.
  unfold is_source at 1. rewrite VK. cbn [negb].
  destruct (priority_main (l_env l) p d ls0 O D R IM) as (e1 & c1 & m & O1 & C1 & N1 & -> & BM & RM); [now apply Forall_forall|].
  assert (CV : class_of (l_env l) v c2) by (apply class_bare; exact (eq_ind_r (fun x => class_of (l_env l) x c2) C2 BV)).
  unfold priority. rewrite VR, (calculate_class _ _ _ O CV). set (u := with_prio v (Some (code c2))).
  pose proof (code_pos c1 (class_bounded _ _ _ O1 C1) N1). pose proof (code_pos c2 (class_bounded _ _ _ O CV) N2).
  destruct (Z.eqb_spec (code c1) 0) as [|_]; [lia|]. destruct (Z.eqb_spec (code c2) 0) as [|_]; [lia|]. cbn [orb].
  assert (CU : class_of (l_env l) u c2) by (eapply class_same; [|exact CV]; reflexivity).
  assert (CMP : compare (code c1) m (code c2) u <> None).
  { apply (compare_ok d ls0 e1 (l_env l)); auto.
    - now apply Forall_forall.
    - now rewrite BM.
    - right. change (bare u) with (given l). now apply in_map.
    - apply bare_fields in BM as (-> & _). exact NID. }
  destruct (compare (code c1) m (code c2) u) as [[]|] eqn:E; [now apply compare_not_eq in E| | |easy]; eexists; (split; [reflexivity|]); right.
  - exists (l_env l), c2. repeat split; auto; apply O.
  - exists e1, c1. repeat split; auto; apply O1.
Qed.
Lemma merges_ok d ls0 ls : forall p,
  default d -> Forall from_files ls0 -> distinct_items ls0 -> incl ls ls0 -> Forall (fun l => env_ok (l_env l)) ls -> good p -> remembered p -> incl (values p) (all_values d ls0) ->
  NoDup (map v_id (values p ++ map given ls)) -> Forall (fun l => exists c, class_of (l_env l) (given l) c /\ c <> CAbsent) ls ->
  exists p', merges ls p = Some p'.
Proof.
  induction ls as [|l ls IH]; intros p D F DI IN O G R IV ND P; cbn [merges]; [eauto|].
  inversion O as [|? ? O1 O2]; subst. inversion P as [|? ? P1 P2]; subst. assert (IL : In l ls0) by (apply IN; now left).
  assert (FL : from_files l) by (rewrite Forall_forall in F; auto).
  destruct (merge_ok d ls0 l p) as (p' & M & R'); auto.
  - apply IV. now left.
  - intros E. unfold values in ND. cbn [map app] in ND. inversion ND as [|? ? NI _]. apply NI. rewrite !map_app. apply in_or_app. right. left. symmetry. exact E.
  - rewrite M. destruct (merge_step _ _ _ O1 FL G M) as (PM & G' & _).
    apply IH; auto.
    + intros x I. apply IN. now right.
    + intros x I. apply (Permutation_in _ PM) in I. apply in_app_or in I as [I|[<-|[]]]; [auto|]. right. now apply in_map.
    + eapply Permutation_NoDup; [|exact ND]. apply Permutation_map. cbn [map]. rewrite (Permutation_app_tail _ PM). now rewrite <- app_assoc.
Qed.
Lemma comparable_ok l : (forall x y, In x l -> In y l -> v_id (snd x) <> v_id (snd y) -> compare (fst x) (snd x) (fst y) (snd y) <> None) -> NoDup (map v_id (map snd l)) -> comparable l = true.
Proof.
  induction l as [|x l IH]; intros H ND; [auto|]. cbn [comparable]. cbn [map] in ND. inversion ND as [|? ? NI ND']. subst. apply andb_true_iff. split.
  - apply forallb_forall. intros y I. specialize (H x y (or_introl eq_refl) (or_intror I)). destruct (compare _ _ _ _); [auto|]. exfalso. apply H; [|auto].
    intros E. apply NI. rewrite E. now apply in_map, in_map.
  - apply IH; [|auto]. intros; apply H; auto; now right.
Qed.
Lemma NoDup_app_comm_snoc {A} (f : A -> N) l a l0 : NoDup (map f l) -> incl l l0 -> ~ In (f a) (map f l0) -> NoDup (map f l ++ map f [a]).
Proof.
  intros ND I NI. cbn. apply (Permutation_NoDup (Permutation_cons_append _ _)). constructor; [|auto]. intros H. apply NI. apply in_map_iff in H as (b & E & IB). rewrite <- E. apply in_map. auto.
Qed.
Lemma remove_nodup id l : NoDup (map v_id l) -> NoDup (map v_id (remove_value id l)) /\ incl (remove_value id l) l.
Proof.
  induction l as [|v l IH]; cbn; [split; [auto|easy]|]. intros ND. inversion ND as [|? ? NI ND']; subst. destruct (IH ND') as [A B]. destruct (N.eqb _ _); [split; [auto|now right]|].
  split; [cbn; constructor; auto|].
  - intros H. apply NI. apply in_map_iff in H as (w & E & I). rewrite <- E. apply in_map. auto.
  - intros w [->|I]; [now left|right; auto].
Qed.
Theorem no_check_fails e scalar ls d :
  env_ok e -> Forall (fun l => env_ok (l_env l)) ls -> Forall from_files ls -> default d -> NoDup (map v_id (all_values d ls)) -> distinct_items ls ->
  Forall (fun l => exists c, class_of (l_env l) (given l) c /\ c <> CAbsent) ls -> Forall (fun l => exists c, class_of e (given l) c) ls ->
  exists r w, merged e scalar ls d = Some (r, w).
Proof.
  intros O OL F D ND DI PL PE. unfold merged.
  destruct (merges_ok d ls ls (mkProp d [])) as (p & M); auto.
  - apply incl_refl.
  - now apply default_good.
  - left. split; apply D.
  - intros x [<-|[]]. now left.
  - rewrite M. destruct (merges_perm _ _ _ OL F (default_good d D) M) as (P & G & K & L).
    change (values (mkProp d []) ++ map given ls) with (all_values d ls) in P.
    unfold final. destruct (negb (is_source (p_main p))); [eauto|]. destruct (p_cands p) as [|c0 cs] eqn:CS; [eauto|].
    assert (HC : forall v, In (bare v) (values p) -> exists c, class_of e v c).
    { intros v I. apply (Permutation_in _ P) in I. destruct I as [E|I].
      - destruct (default_class e d D) as (c & C & _). exists c. eapply class_same; [exact E|exact C].
      - apply in_map_iff in I as (l & E & IL). rewrite Forall_forall in PE. destruct (PE l IL) as (c & C). exists c. eapply class_same; [|exact C]. now rewrite E. }
    assert (HK : exists KS, all_some (map (calculated e) (p_main p :: c0 :: cs)) = Some KS).
    { assert (HC' : forall v, In v (p_main p :: c0 :: cs) -> exists c, class_of e v c).
      { intros v I. apply HC. unfold values. rewrite CS. now apply in_map. }
      revert HC'. generalize (p_main p :: c0 :: cs). induction l as [|v l IHl]; intros HC'; [now exists []|]. cbn [map all_some].
      destruct (HC' v (or_introl eq_refl)) as (c & C). unfold calculated at 1. rewrite (calculate_class _ _ _ O C).
      destruct IHl as (KS & ->); [intros; apply HC'; now right|]. eauto. }
    destruct HK as (KS & AS). rewrite AS. apply all_some_spec in AS. pose proof AS as AS0. apply keys_spec in AS as [MB KK].
    destruct KS as [|[p0 main] rest]; [inversion AS0|].
    destruct (highest_spec rest p0 [main] ltac:(discriminate)) as (top & T1 & T2 & T3 & T4).
    destruct (highest p0 [main] rest) as [|chosen others] eqn:HI; [easy|].
    set (cands := if N.eqb (v_id chosen) (v_id main) then map snd rest else remove_value (v_id chosen) (map snd rest) ++ [main]).
    change (flat_map _ cands) with (flat_map live_key cands).
    assert (VP : values p = map bare (p_main p :: c0 :: cs)) by (unfold values; now rewrite CS).
    assert (NDK : NoDup (map v_id (map snd ((p0, main) :: rest)))).
    { rewrite <- map_id_bare, MB, <- VP. eapply Permutation_NoDup; [apply Permutation_map, Permutation_sym; exact P|exact ND]. }
    cbn [map snd] in NDK. inversion NDK as [|? ? NI NDR]. subst.
    assert (CS1 : incl cands (map snd ((p0, main) :: rest)) /\ NoDup (map v_id cands)).
    { unfold cands. destruct (N.eqb _ _); [split; [now right|auto]|]. destruct (remove_nodup (v_id chosen) (map snd rest) NDR) as [A B]. split.
      - intros x I. apply in_app_or in I as [I|[<-|[]]]; [right; auto|now left].
      - rewrite map_app. eapply NoDup_app_comm_snoc; eauto. }
    destruct CS1 as [CS1 CS2].
    assert (ALLC : Forall (fun v => exists c, class_of e v c /\ v_prio v = Some (code c)) cands).
    { apply Forall_forall. intros v I. apply CS1 in I. apply in_map_iff in I as (x & <- & I). rewrite Forall_forall in KK. destruct (KK x I) as [(c & C & E) Q]. exists c. split; [auto|]. now rewrite Q, E. }
    destruct (live_keys e cands O ALLC) as [LK1 LK2].
    assert (CM : comparable (flat_map live_key cands) = true).
    { apply comparable_ok; [|rewrite LK2; now apply nodup_filter]. intros x y IX IY NID.
      assert (HX : forall z, In z (flat_map live_key cands) -> In (bare (snd z)) (all_values d ls) /\ exists c, class_of e (snd z) c /\ c <> CAbsent /\ fst z = code c).
      { intros z I. apply in_flat_map in I as (v & IV & IZ). pose proof (proj1 (Forall_forall _ _) ALLC v IV) as (c & C & Q). unfold live_key in IZ. rewrite Q in IZ.
        destruct (Z.eqb_spec (code c) 0) as [|NZ]; [easy|]. destruct IZ as [<-|[]]. cbn [fst snd]. split.
        - apply (Permutation_in _ P). rewrite VP, <- MB. apply in_map. auto.
        - exists c. split; [auto|split; [|auto]]. intros ->. now apply NZ. }
      destruct (HX x IX) as (I1 & c1 & C1 & N1 & ->). destruct (HX y IY) as (I2 & c2 & C2 & N2 & ->). apply (compare_ok d ls e e); auto. }
    rewrite CM. eauto.
Qed.

(** ** Values that override everything *)

(** Values given on the command line and values set by qbs itself are final. *)
Theorem absolute_override e scalar ls p :
  v_kind (p_main p) = Variant -> (v_cmd (p_main p) = true \/ v_profile (p_main p) = false) -> Forall (fun l => v_kind (l_value l) = Source) ls ->
  merges ls p = Some p /\ final e scalar p = Some (p, false).
Proof.
  intros K H F. split; [|unfold final, is_source; now rewrite K]. induction F as [|l ls FL F IH]; cbn [merges]; [auto|].
  unfold merge, internal. rewrite FL, K.
  assert (negb (v_profile (p_main p)) && negb (v_cmd (p_main p)) || v_cmd (p_main p) = true) as -> by (destruct H as [-> | ->]; destruct (v_cmd (p_main p)); cbn; auto using orb_true_r).
  exact IH.
Qed.
Theorem internal_wins ls1 l ls2 p q :
  merges ls1 p = Some q -> v_kind (l_value l) = Variant -> v_profile (l_value l) = false -> v_cmd (l_value l) = false -> Forall (fun l => v_kind (l_value l) = Source) ls2 ->
  merges (ls1 ++ l :: ls2) p = Some (mkProp (l_value l) []).
Proof.
  revert p. induction ls1 as [|l1 ls1 IH]; intros p M K P C F; cbn [merges app] in *.
  - injection M as ->. unfold merge at 1, internal at 1. rewrite K, P, C. cbn [negb andb]. now apply (absolute_override (mkEnv (fun _ => true) []) true ls2 (mkProp (l_value l) [])); auto.
  - destruct (merge _ _ _ _ _) as [p'|]; [|discriminate]. eapply IH; eauto.
Qed.

(** ** Evaluation: specification *)

Definition applies (a : alternative) : bool := negb (a_fallback a) && a_condition a.
Definition gives (v : js) : bool := match v with Arr _ | One _ => true | _ => false end.
Definition items (v : js) : list N := match v with Arr l => l | One n => [n] | _ => [] end.
(** The alternatives that are used in a list: all that apply, or the one without a condition if none of them has a value. *)
Definition used (s : source) : list js :=
  let matching := map a_value (filter applies (s_alternatives s)) in
  if existsb gives matching then matching else map a_value (filter a_fallback (s_alternatives s)).
Definition list_parts (s : source) : list js := if existsb gives (used s) && s_from_properties s then used s else used s ++ [s_value s].
Definition own_parts (c : content) : list js := match c with FromSource s => list_parts s | FromVariant v => [v] end.
Definition list_of (l : list js) : js := if existsb gives l then Arr (flat_map items l) else Undef.
(** The fallback is the last one. *)
Definition fallback_last (l : list alternative) : Prop := exists r f, l = r ++ f /\ Forall (fun a => a_fallback a = false) r /\ (f = [] \/ exists a, f = [a] /\ a_fallback a = true).
Definition well_formed (c : content) : Prop := match c with FromSource s => fallback_last (s_alternatives s) | _ => True end.
Definition overrides (s : source) : bool := s_exclusive s || existsb (fun a => a_override a && (a_condition a || a_fallback a)) (s_alternatives s).

(** ** Evaluation: proofs *)

Theorem alternatives_ordered l a l' : fallback_last l -> add_alternative l a = Some l' -> fallback_last l' /\ Permutation l' (a :: l) /\ (exists x y, l = x ++ y /\ l' = x ++ a :: y).
Proof.
  intros FL. assert (GEN : forall l l', add_alternative l a = Some l' -> (exists l0 x, l = l0 ++ [x] /\ a_fallback x = true /\ a_fallback a = false /\ l' = l0 ++ [a; x]) \/ ((forall l0 x, l = l0 ++ [x] -> a_fallback x = false) /\ l' = l ++ [a])).
  { clear. induction l as [|x l IH]; intros l' H.
    - cbn in H. injection H as <-. right. split; [|auto]. intros l0 y E. destruct l0; discriminate.
    - destruct l as [|y l].
      + cbn in H. destruct (a_fallback x) eqn:FX.
        * destruct (a_fallback a) eqn:FA; [discriminate|]. injection H as <-. left. exists [], x. auto.
        * injection H as <-. right. split; [|auto]. intros [|z l0] y E; [injection E as ->; auto|destruct l0; discriminate].
      + change (match add_alternative (y :: l) a with Some l => Some (x :: l) | None => None end = Some l') in H.
        destruct (add_alternative (y :: l) a) as [r|]; [|discriminate]. injection H as <-. destruct (IH r eq_refl) as [(l0 & z & E & FZ & FA & ->)|[H ->]].
        * left. exists (x :: l0), z. rewrite E. auto.
        * right. split; [|auto]. intros [|z l0] u E; [discriminate|]. injection E as -> E. eapply H; eauto. }
  intros H. destruct (GEN _ _ H) as [(l0 & x & -> & FX & FA & ->)|[NF ->]].
  - split; [|split].
    + destruct FL as (r & f & E & FR & [->|(b & -> & FB)]).
      * rewrite app_nil_r in E. rewrite <- E in FR. apply Forall_app in FR as [_ FR]. inversion FR; congruence.
      * apply app_inj_tail in E as [<- <-]. exists (l0 ++ [a]), [x]. rewrite <- app_assoc. split; [auto|]. split; [apply Forall_app; auto|eauto].
    + apply Permutation_trans with (l0 ++ a :: [x]); [auto|]. rewrite <- Permutation_middle. reflexivity.
    + exists l0, [x]. auto.
  - split; [|split].
    + destruct FL as (r & f & -> & FR & [->|(b & -> & FB)]); [|rewrite (NF r b eq_refl) in FB; discriminate]. rewrite app_nil_r. destruct (a_fallback a) eqn:FA.
      * exists r, [a]. split; [auto|]. split; [auto|eauto].
      * exists (r ++ [a]), []. rewrite app_nil_r. split; [auto|]. split; [apply Forall_app; auto|auto].
    + rewrite <- Permutation_cons_append. reflexivity.
    + exists l, []. now rewrite app_nil_r.
Qed.

Lemma defined_gives v : defined v = gives v.
Proof. now destruct v. Qed.
Lemma elements_items v : elements v = items v.
Proof. now destruct v. Qed.
Lemma items_gives l : flat_map items (filter gives l) = flat_map items l.
Proof. induction l as [|v l IH]; cbn; [auto|]. destruct v; cbn; rewrite ?IH; auto. Qed.
Lemma existsb_filter l : existsb gives l = match filter gives l with [] => false | _ => true end.
Proof. induction l as [|v l IH]; cbn; [auto|]. now destruct (gives v). Qed.
Definition or_else (m f : list js) : list js := match m with [] => f | _ => m end.
Lemma list_alternatives r f : Forall (fun a => a_fallback a = false) r -> (f = [] \/ exists a, f = [a] /\ a_fallback a = true) -> forall lst ex,
  exists ex', alternatives false (r ++ f) lst ex = (None, or_else (lst ++ filter gives (map a_value (filter applies r))) (filter gives (map a_value f)), ex') /\
    (ex || existsb (fun a => a_override a && (a_condition a || a_fallback a)) (r ++ f) = false -> ex' = false).
Proof.
  intros FR FF. induction FR as [|a r NA FR IH]; intros lst ex.
  - cbn [app filter map]. rewrite app_nil_r. destruct FF as [->|(a & -> & FA)]; cbn [alternatives].
    + exists ex. split; [destruct lst; auto|]. cbn. now rewrite orb_false_r.
    + rewrite FA. destruct lst as [|v lst]; cbn [andb negb orb].
      * destruct (a_value a) eqn:AV; cbn [defined map filter app]; rewrite ?AV; cbn [gives]; eexists; (split; [reflexivity|]); cbn; rewrite FA, orb_true_r, andb_true_r, orb_false_r; auto.
      * eexists. split; [reflexivity|]. intros E. apply orb_false_iff in E as [E _]. exact E.
  - cbn [app alternatives filter map]. unfold applies at 1. rewrite NA. cbn [andb negb orb]. destruct (a_condition a) eqn:CA; cbn [negb].
    + cbn [map filter]. destruct (a_value a) eqn:AV; cbn [gives defined].
      1, 2: destruct (IH lst (ex || a_override a)) as (ex' & -> & H); exists ex'; (split; [reflexivity|]); intros E; apply H; cbn [existsb] in E; rewrite CA in E; cbn [orb] in E; rewrite andb_true_r in E; now rewrite <- orb_assoc.
      1: destruct (IH (lst ++ [Arr l]) (ex || a_override a)) as (ex' & -> & H). 2: destruct (IH (lst ++ [One n]) (ex || a_override a)) as (ex' & -> & H).
      1, 2: exists ex'; (split; [now rewrite <- app_assoc|]); intros E; apply H; cbn [existsb] in E; rewrite CA in E; cbn [orb] in E; rewrite andb_true_r in E; now rewrite <- orb_assoc.
    + destruct (IH lst ex) as (ex' & -> & H). exists ex'. split; [reflexivity|]. intros E. apply H. cbn [existsb] in E. rewrite CA, NA in E. cbn [orb] in E. now rewrite andb_false_r in E.
Qed.
Lemma filter_none {A} (g : A -> bool) l : Forall (fun a => g a = false) l -> filter g l = [].
Proof. induction 1 as [|a l H F IH]; cbn; [auto|]. now rewrite H. Qed.
Lemma handle_list s : fallback_last (s_alternatives s) -> exists ex,
  handle_alternatives false s = (if existsb gives (list_parts s) then Arr (flat_map items (list_parts s)) else Uninit, ex) /\ (overrides s = false -> ex = false).
Proof.
  intros (r & f & E & FR & FF). unfold handle_alternatives. destruct (list_alternatives r f FR FF [] (s_exclusive s)) as (ex & A & H). rewrite E, A. cbn [app]. exists ex.
  split; [|unfold overrides; now rewrite E].
  assert (U : filter gives (used s) = or_else (filter gives (map a_value (filter applies r))) (filter gives (map a_value f))).
  { unfold used. rewrite E, !filter_app.
    assert (F1 : filter applies f = []) by (destruct FF as [->|(a & -> & FA)]; cbn; unfold applies; rewrite ?FA; auto).
    assert (F2 : filter a_fallback f = f) by (destruct FF as [->|(a & -> & FA)]; cbn; rewrite ?FA; auto).
    rewrite F1, F2, app_nil_r, (filter_none _ _ FR), existsb_filter. cbn [app]. destruct (filter gives (map a_value (filter applies r))) eqn:FG; auto. }
  rewrite <- U. set (u := filter gives (used s)) in *.
  unfold list_parts. assert (XU : existsb gives (used s) = negb (match u with [] => true | _ => false end)) by (rewrite existsb_filter; fold u; now destruct u).
  rewrite XU. destruct (s_from_properties s) eqn:FP; cbn [negb].
  - destruct u as [|x u'] eqn:EU; cbn [andb orb negb].
    + rewrite existsb_app. cbn [existsb]. rewrite XU. cbn [orb negb].
      rewrite flat_map_app. rewrite <- (items_gives (used s)). fold u. rewrite EU. cbn. destruct (s_value s); unfold merge_values; cbn; rewrite ?app_nil_r; auto.
    + rewrite XU. cbn [negb]. unfold merge_values. rewrite <- (items_gives (used s)). fold u. rewrite EU. f_equal.
  - rewrite andb_false_r, orb_true_r. rewrite existsb_app. cbn [existsb]. rewrite XU, orb_false_r, flat_map_app, <- (items_gives (used s)). fold u. cbn [flat_map]. rewrite app_nil_r.
    destruct u as [|x u'] eqn:EU.
    + cbn. destruct (s_value s); unfold merge_values; cbn; rewrite ?app_nil_r; auto.
    + cbn [negb orb]. destruct (defined (s_value s)) eqn:DV; cbn [app].
      * unfold merge_values. f_equal. f_equal. change (x :: u' ++ [s_value s]) with ((x :: u') ++ [s_value s]). rewrite flat_map_app. cbn [flat_map]. now rewrite app_nil_r.
      * unfold merge_values. f_equal. f_equal. assert (items (s_value s) = []) as -> by now destruct (s_value s). now rewrite app_nil_r.
Qed.
Lemma candidate_list c : well_formed c -> candidate_value false c = match c with FromSource _ => if existsb gives (own_parts c) then Arr (flat_map items (own_parts c)) else Uninit | FromVariant v => v end.
Proof. destruct c as [s|v]; cbn; [|auto]. intros W. destruct (handle_list s W) as (ex & -> & _). reflexivity. Qed.
Lemma candidate_items c : well_formed c -> gives (candidate_value false c) = existsb gives (own_parts c) /\ items (candidate_value false c) = flat_map items (own_parts c).
Proof.
  intros W. rewrite (candidate_list c W). destruct c as [s|v]; cbn.
  - destruct (existsb gives (list_parts s)) eqn:E; cbn; [auto|]. split; [auto|]. rewrite <- items_gives. rewrite existsb_filter in E. now destruct (filter gives (list_parts s)).
  - now rewrite orb_false_r, app_nil_r.
Qed.
Lemma filter_defined l : filter defined l = filter gives l.
Proof. apply filter_ext. apply defined_gives. Qed.
(** A list consists of the value of the item with the highest priority, followed by those of the other items, unless a Properties item says otherwise. *)
Theorem list_value s cands :
  fallback_last (s_alternatives s) -> Forall well_formed cands -> overrides s = false ->
  fst (evaluate false (FromSource s) cands) = list_of (list_parts s ++ flat_map own_parts cands).
Proof.
  intros FL W OV. unfold evaluate. destruct (handle_list s FL) as (ex & -> & H). rewrite (H OV), andb_false_r. cbn [fst].
  assert (CG : existsb gives (map (candidate_value false) cands) = existsb gives (flat_map own_parts cands) /\ flat_map items (map (candidate_value false) cands) = flat_map items (flat_map own_parts cands)).
  { induction W as [|c cs WC W [IH1 IH2]]; [auto|]. cbn [map existsb flat_map]. destruct (candidate_items c WC) as [A B]. now rewrite existsb_app, flat_map_app, A, B, IH1, IH2. }
  destruct CG as [CG CI]. unfold list_of. rewrite existsb_app, flat_map_app, <- CG, <- CI. generalize (map (candidate_value false) cands). intros vs. clear CG CI.
  assert (NG : existsb gives (list_parts s) = false -> flat_map items (list_parts s) = []).
  { intros E. rewrite <- items_gives. rewrite existsb_filter in E. now destruct (filter gives (list_parts s)). }
  unfold merge_with_candidates. rewrite filter_defined, (existsb_filter vs).
  destruct vs as [|v0 vs0]; [cbn [filter flat_map]; rewrite orb_false_r, app_nil_r; destruct (existsb gives (list_parts s)); reflexivity|].
  set (vs := v0 :: vs0). clearbody vs. rewrite <- (items_gives vs). destruct (existsb gives (list_parts s)) eqn:EL; cbn [defined orb].
  - cbn [app]. cbn [convert merge_values]. unfold merge_values. cbn [convert elements flat_map]. do 3 f_equal.
  - rewrite (NG eq_refl). cbn [app]. destruct (filter gives vs) as [|x xs]; [reflexivity|]. unfold merge_values. cbn [convert elements]. reflexivity.
Qed.
(** If a Properties item with a true condition overrides lists, then values from other items are left out. *)
Lemma exclusive_kept l : forall lst, snd (alternatives false l lst true) = true.
Proof.
  induction l as [|b l IH]; intros lst; cbn [alternatives]; [auto|]. destruct (_ && _); [auto|]. destruct (negb _); [auto|]. cbn [orb]. destruct (a_value b); apply IH.
Qed.
Lemma override_list r f a : Forall (fun a => a_fallback a = false) r -> In a r -> applies a = true -> a_override a = true -> forall lst ex, snd (alternatives false (r ++ f) lst ex) = true.
Proof.
  intros FR IA AP OV. induction FR as [|b r NB FR IH]; intros lst ex; [easy|]. cbn [app alternatives]. rewrite NB. cbn [andb orb]. destruct IA as [->|IA].
  - unfold applies in AP. rewrite NB in AP. cbn in AP. rewrite AP. cbn [negb]. rewrite OV, orb_true_r. destruct (a_value a); apply exclusive_kept.
  - destruct (negb (a_condition b)); [auto|]. destruct (a_value b); auto.
Qed.
Theorem override_value s cands a :
  fallback_last (s_alternatives s) -> In a (s_alternatives s) -> applies a = true -> a_override a = true -> existsb gives (list_parts s) = true ->
  fst (evaluate false (FromSource s) cands) = list_of (list_parts s).
Proof.
  intros FL IA AP OV G. unfold evaluate. destruct (handle_list s FL) as (ex & E & _).
  assert (ex = true) as ->.
  { destruct FL as (r & f & EL & FR & FF). assert (IR : In a r).
    { rewrite EL in IA. apply in_app_or in IA as [|IA]; [auto|]. destruct FF as [->|(b & -> & FB)]; [easy|]. destruct IA as [->|[]]. unfold applies in AP. now rewrite FB in AP. }
    assert (X := override_list r f a FR IR AP OV [] (s_exclusive s)). rewrite <- EL in X. unfold handle_alternatives in E.
    destruct (alternatives false (s_alternatives s) [] (s_exclusive s)) as [[o lst] x]. cbn in X. subst x. destruct o; [now injection E|]. destruct (_ || _); injection E; auto. }
  rewrite E, G. cbn [uninit negb andb fst convert]. unfold list_of. rewrite G. reflexivity.
Qed.
(** A scalar value is the one in the first Properties item that applies, otherwise the one without a condition, otherwise the one set outside. *)
Definition scalar_choice (s : source) : js :=
  match filter (fun a => applies a && negb (match a_value a with Uninit => true | _ => false end)) (s_alternatives s) with
  | a :: _ => a_value a
  | [] => match filter (fun a => a_fallback a && negb (match a_value a with Uninit => true | _ => false end)) (s_alternatives s) with a :: _ => a_value a | [] => s_value s end
  end.
Lemma scalar_alternatives r f : Forall (fun a => a_fallback a = false) r -> (f = [] \/ exists a, f = [a] /\ a_fallback a = true) -> forall ex,
  fst (alternatives true (r ++ f) [] ex) =
  (match filter (fun a => applies a && negb (match a_value a with Uninit => true | _ => false end)) r with
   | a :: _ => Some (a_value a)
   | [] => match filter (fun a => a_fallback a && negb (match a_value a with Uninit => true | _ => false end)) f with a :: _ => Some (a_value a) | [] => None end
   end, []).
Proof.
  intros FR FF. induction FR as [|a r NA FR IH]; intros ex; cbn [app filter].
  - destruct FF as [->|(a & -> & FA)]; [auto|]. cbn [alternatives filter]. rewrite FA. cbn [andb orb negb]. destruct (a_value a) eqn:AV; cbn; rewrite ?AV; auto.
  - cbn [alternatives]. rewrite NA. cbn [andb orb]. unfold applies at 1. rewrite NA. cbn [negb andb]. destruct (a_condition a); cbn [negb andb]; [|apply IH].
    destruct (a_value a) eqn:AV; cbn [negb fst]; rewrite ?AV; auto.
Qed.
Lemma handle_scalar s : fallback_last (s_alternatives s) -> fst (handle_alternatives true s) = scalar_choice s.
Proof.
  intros (r & f & E & FR & FF). unfold handle_alternatives, scalar_choice. pose proof (scalar_alternatives r f FR FF (s_exclusive s)) as H. rewrite E, !filter_app.
  assert (F1 : filter (fun a => applies a && negb (match a_value a with Uninit => true | _ => false end)) f = []).
  { destruct FF as [->|(a & -> & FA)]; [auto|]. cbn. unfold applies. now rewrite FA. }
  assert (F2 : filter (fun a => a_fallback a && negb (match a_value a with Uninit => true | _ => false end)) r = []).
  { apply filter_none. eapply Forall_impl; [|exact FR]. now intros a ->. }
  rewrite F1, F2, app_nil_r. cbn [app]. destruct (alternatives true (r ++ f) [] (s_exclusive s)) as [[o lst] ex]. cbn [fst] in H.
  destruct (filter (fun a => applies a && _) r) as [|a l].
  - destruct (filter (fun a => a_fallback a && _) f) as [|a l]; injection H as -> ->; reflexivity.
  - injection H as -> ->. reflexivity.
Qed.
Definition scalar_of (v : js) : js := match v with Uninit => Undef | _ => v end.
Theorem scalar_value s cands :
  fallback_last (s_alternatives s) -> Forall well_formed cands ->
  (scalar_choice s <> Uninit \/ s_from_properties s = false -> fst (evaluate true (FromSource s) cands) = scalar_of (scalar_choice s)) /\
  (scalar_choice s = Uninit -> s_from_properties s = true ->
     forall before v after, map (fun c => match c with FromSource s => scalar_choice s | FromVariant v => v end) cands = before ++ v :: after -> Forall (eq Uninit) before -> v <> Uninit ->
     fst (evaluate true (FromSource s) cands) = v).
Proof.
  intros FL W. unfold evaluate. pose proof (handle_scalar s FL) as H. destruct (handle_alternatives true s) as [v ex]. cbn in H. subst v. split.
  - intros OR. cbn [fst]. assert (X : (if negb (uninit (scalar_choice s)) && ex then scalar_choice s else if negb (uninit (scalar_choice s)) || negb (s_from_properties s) then scalar_choice s else first_init (map (candidate_value true) cands)) = scalar_choice s).
    { destruct (negb (uninit (scalar_choice s)) && ex); [auto|]. destruct OR as [NU|FP]; [|now rewrite FP, orb_true_r]. destruct (scalar_choice s); easy. }
    rewrite X. now destruct (scalar_choice s).
  - intros U FP b v a E FB NV. rewrite U, FP. cbn [uninit negb andb orb fst].
    assert (CE : map (candidate_value true) cands = b ++ v :: a).
    { rewrite <- E. apply map_ext_in. intros c I. rewrite Forall_forall in W. specialize (W c I). destruct c as [t|x]; cbn; [now apply handle_scalar|auto]. }
    rewrite CE. assert (FI : first_init (b ++ v :: a) = v).
    { clear -FB NV. induction FB as [|x b <- FB IH]; cbn; [now destruct v|auto]. }
    rewrite FI. now destruct v.
Qed.
(** Properties items that must be used only if no other one matches are also used if another one matches but its value is undefined. *)
Theorem fallback_after_undefined_refuted : exists s a f n,
  fallback_last (s_alternatives s) /\ In a (s_alternatives s) /\ applies a = true /\ In f (s_alternatives s) /\ a_fallback f = true /\ a_value f = Arr [n] /\
  fst (evaluate false (FromSource s) []) = Arr [n].
Proof.
  exists (mkSource [mkAlt false true false Undef; mkAlt true false false (Arr [7%N])] Undef true false), (mkAlt false true false Undef), (mkAlt true false false (Arr [7%N])), 7%N.
  split; [|cbn; intuition]. exists [mkAlt false true false Undef], [mkAlt true false false (Arr [7%N])]. repeat split; auto. right. eauto.
Qed.
(** Once a Properties item with overrideListProperties has applied, values of other items are left out for good, also when its condition does not hold any more. *)
Definition with_conditions (c : bool) (m : content) : content :=
  match m with FromSource s => FromSource (mkSource (map (fun a => mkAlt (a_fallback a) c (a_override a) (a_value a)) (s_alternatives s)) (s_value s) (s_from_properties s) (s_exclusive s)) | _ => m end.
Theorem override_sticks_refuted : exists m cands,
  let m' := snd (evaluate false (with_conditions true m) cands) in
  fst (evaluate false (with_conditions false m) cands) = Arr [1; 2]%N /\ fst (evaluate false (with_conditions false m') cands) = Arr [1]%N.
Proof. exists (FromSource (mkSource [mkAlt false true true (Arr [3%N])] (Arr [1%N]) false false)), [FromVariant (Arr [2%N])]. now vm_compute. Qed.

(** ** Where values come from *)

Definition origin := option (variant * (bool * bool)).
Fixpoint origins (l : list setting) (o : N -> origin) : N -> origin :=
  match l with
  | [] => o
  | SetByProfile n v :: l => origins l (fun k => if N.eqb k n then Some (v, (true, false)) else o k)
  | SetByCommandLine n v :: l => origins l (fun k => if N.eqb k n then Some (v, (false, true)) else o k)
  | SetByQbs n v :: l => origins l (fun k => if N.eqb k n then Some (v, (false, false)) else o k)
  | Clone n m :: l => origins l (fun k => if N.eqb k n then match o m with None => o n | x => x end else o k)
  end.
Definition settings (l : list setting) : heap := fold_left do_setting l empty_heap.
Definition origin_of (l : list setting) : N -> origin := origins l (fun _ => None).

Lemma ref_eqb_eq a b : ref_eqb a b = true <-> a = b.
Proof. destruct a, b; cbn; split; try discriminate; auto; intros H; [apply Nat.eqb_eq in H; now subst|injection H as ->; apply Nat.eqb_refl]. Qed.
Lemma ref_eqb_refl a : ref_eqb a a = true.
Proof. now apply ref_eqb_eq. Qed.
Local Arguments ref_eqb : simpl never.
Lemma ref_old q n : (forall k, q = RNew k -> k < n) -> ref_eqb q (RNew n) = false.
Proof. intros L. destruct q as [| | |j]; auto. apply Nat.eqb_neq. specialize (L j eq_refl). lia. Qed.
Definition heap_inv (h : heap) (o : N -> origin) : Prop :=
  (forall n, match h_props h n with
             | None => o n = None
             | Some (v, r) => exists fp fc, o n = Some (v, (fp, fc)) /\ (forall k, r = RNew k -> k < h_next h) /\
                 (fp = true -> f_profile (h_flags h r) = true) /\ (fc = true -> f_cmd (h_flags h r) = true) /\
                 (forall x, v = VOther x -> (exists k, r = RNew k) /\ h_flags h r = mkFlags fp fc)
             end).
Lemma inv_set h o n v r f fp fc :
  heap_inv h o -> (forall k, r = RNew k -> k < h_next h) ->
  (f_profile (h_flags h r) = true -> f_profile f = true) -> (f_cmd (h_flags h r) = true -> f_cmd f = true) ->
  (forall k, r = RNew k -> forall m w, h_props h m = Some (w, r) -> False) ->
  (fp = true -> f_profile f = true) -> (fc = true -> f_cmd f = true) -> (forall x, v = VOther x -> (exists k, r = RNew k) /\ f = mkFlags fp fc) ->
  heap_inv (set_prop (set_flags h r f) n (v, r)) (fun k => if N.eqb k n then Some (v, (fp, fc)) else o k).
Proof.
  intros H LT MP MC FRESH P C X k. unfold set_prop, set_flags. cbn [h_props h_flags h_next]. destruct (N.eqb_spec k n) as [->|NE].
  - rewrite ref_eqb_refl. exists fp, fc. repeat split; auto; now apply (X x).
  - specialize (H k). destruct (h_props h k) as [[w q]|] eqn:HP; [|auto]. destruct H as (gp & gc & E & L & A & B & D). exists gp, gc.
    destruct (ref_eqb q r) eqn:RE; [apply ref_eqb_eq in RE; subst q|].
    + repeat split; auto; try (now apply (D x)). exfalso. destruct (D x H) as [[j ->] _]. eapply FRESH; eauto.
    + repeat split; auto; now apply (D x).
Qed.
Lemma inv_ext h o o' : (forall n, o n = o' n) -> heap_inv h o -> heap_inv h o'.
Proof. intros E H n. specialize (H n). rewrite <- E. exact H. Qed.
Lemma create_inv h o v r h' : heap_inv h o -> create h v = (r, h') ->
  heap_inv h' o /\ h_props h' = h_props h /\ (forall k, r = RNew k -> k < h_next h' /\ forall m w, h_props h' m = Some (w, r) -> False) /\ (forall x, v = VOther x -> (exists k, r = RNew k) /\ h_flags h' r = mkFlags false false).
Proof.
  intros H. destruct v as [| | |x]; cbn; intros E; try (injection E as <- <-; repeat split; auto; intros; discriminate).
  unfold new_ref in E. injection E as <- <-. split; [|split; [reflexivity|split]].
  - intros n. specialize (H n). cbn. destruct (h_props h n) as [[w q]|]; [|auto]. destruct H as (gp & gc & E & L & A & B & D). exists gp, gc.
    rewrite (ref_old q _ L). repeat split; auto; try (now apply (D x0)). intros k ->. specialize (L k eq_refl). lia.
  - cbn. intros k [= <-]. split; [lia|]. intros m w E. specialize (H m). rewrite E in H. destruct H as (? & ? & _ & L & _). specialize (L _ eq_refl). lia.
  - cbn. intros y _. rewrite ref_eqb_refl. eauto.
Qed.
Lemma step_inv h o s : heap_inv h o -> heap_inv (do_setting h s) (origins [s] o).
Proof.
  intros H. destruct s as [n v|n v|n v|n m]; cbn [do_setting origins].
  - destruct (create h v) as [r h'] eqn:E. destruct (create_inv _ _ _ _ _ H E) as (H' & HP & FR & V). apply inv_set; auto.
    + intros k K. now apply (FR k).
    + intros k K. now apply (FR k).
    + discriminate.
    + intros x X. destruct (V x X) as [K ->]. auto.
  - destruct (create h v) as [r h'] eqn:E. destruct (create_inv _ _ _ _ _ H E) as (H' & HP & FR & V). apply inv_set; auto.
    + intros k K. now apply (FR k).
    + intros k K. now apply (FR k).
    + discriminate.
    + intros x X. destruct (V x X) as [K ->]. auto.
  - destruct (create h v) as [r h'] eqn:E. destruct (create_inv _ _ _ _ _ H E) as (H' & HP & FR & V). intros k. unfold set_prop. cbn. destruct (N.eqb_spec k n) as [->|NE]; [|apply H'].
    exists false, false. repeat split; try discriminate; auto; [intros k K; now apply (FR k)|now apply (V x)|]. destruct (V x H0) as [_ ->]. reflexivity.
  - pose proof (H m) as HM. destruct (h_props h m) as [[v r]|] eqn:HP.
    + destruct HM as (fp & fc & EO & L & A & B & D). unfold new_ref. rewrite EO.
      set (h1 := mkHeap (h_flags h) (S (h_next h)) (h_props h)).
      assert (H1 : heap_inv h1 o).
      { intros k. specialize (H k). cbn. destruct (h_props h k) as [[w q]|]; [|auto]. destruct H as (gp & gc & E' & L' & A' & B' & D'). exists gp, gc. repeat split; auto; try now apply (D' x). intros j J. specialize (L' j J). lia. }
      intros k. unfold set_prop, set_flags. cbn. destruct (N.eqb_spec k n) as [->|NE].
      * exists fp, fc. rewrite ref_eqb_refl. repeat split; auto; [intros j [= <-]; lia|eauto|]. now destruct (D x H0).
      * specialize (H k). destruct (h_props h k) as [[w q]|]; [|auto]. destruct H as (gp & gc & E' & L' & A' & B' & D'). exists gp, gc.
        rewrite (ref_old q _ L'). repeat split; auto; try now apply (D' x). intros j J. specialize (L' j J). lia.
    + rewrite HM. eapply inv_ext; [|exact H]. intros k. cbn. destruct (N.eqb_spec k n) as [->|]; auto.
Qed.
Lemma settings_inv l : heap_inv (settings l) (origin_of l).
Proof.
  unfold settings, origin_of. assert (G : forall l h o, heap_inv h o -> heap_inv (fold_left do_setting l h) (origins l o)).
  { clear. induction l as [|s l IH]; intros h o H; [exact H|]. cbn [fold_left]. pose proof (IH _ _ (step_inv h o s H)) as R. destruct s; exact R. }
  apply G. intros n. reflexivity.
Qed.
(** What is neither a bool nor invalid is known to come from where it comes from, whatever else is set; and no value loses the marks it was given. *)
Theorem origin_known l n x fp fc : origin_of l n = Some (VOther x, (fp, fc)) -> flags_of (settings l) n = Some (mkFlags fp fc).
Proof.
  intros E. pose proof (settings_inv l n) as H. unfold flags_of. destruct (h_props (settings l) n) as [[v r]|]; [|congruence].
  destruct H as (gp & gc & EO & _ & _ & _ & D). rewrite EO in E. injection E as -> -> ->. destruct (D x eq_refl) as [_ ->]. reflexivity.
Qed.
Theorem marks_kept l n v fp fc : origin_of l n = Some (v, (fp, fc)) -> exists f, flags_of (settings l) n = Some f /\ (fp = true -> f_profile f = true) /\ (fc = true -> f_cmd f = true).
Proof.
  intros E. pose proof (settings_inv l n) as H. unfold flags_of. destruct (h_props (settings l) n) as [[w r]|]; [|congruence].
  destruct H as (gp & gc & EO & _ & A & B & _). rewrite EO in E. injection E as -> -> ->. exists (h_flags (settings l) r). auto.
Qed.
(** Bools share their marks: one that comes from a profile is taken for one from the command line if another property was set to the same value there, so that project files cannot change it. *)
Theorem command_line_bool_refuted : exists l n, origin_of l n = Some (VTrue, (true, false)) /\ flags_of (settings l) n = Some (mkFlags true true).
Proof. exists [SetByCommandLine 1%N VTrue; SetByProfile 2%N VTrue; Clone 3%N 2%N], 3%N. now vm_compute. Qed.
(** And one set by qbs itself is taken for one from a profile, so that project files can change it. *)
Theorem internal_bool_refuted : exists l n, origin_of l n = Some (VFalse, (false, false)) /\ flags_of (settings l) n = Some (mkFlags true false).
Proof. exists [SetByProfile 1%N VFalse; SetByQbs 2%N VFalse], 2%N. now vm_compute. Qed.

(** Two modules at the same distance from the product at the end: which scalar value is used depends on when their values were added. *)
Definition ref_env (a b : nat) : env := mkEnv (fun _ => true) [(1%N, a); (2%N, b)].
Definition ref_default : value := mkValue 0 Source false false NoScope [] [] None.
Definition ref_value (id : N) : value := mkValue id Source false false NoScope [] [id] None.
Definition ref_load (e : env) (m : N) : load := mkLoad e (OfModule m) [m] (ref_value m).
Lemma ref_env_ok a b : a < 10 -> b < 10 -> env_ok (ref_env a b).
Proof.
  intros A B. split; [repeat constructor; cbn; intuition discriminate|]. intros m n [E|[E|[]]]; injection E as <- <-; lia.
Qed.
Theorem order_refuted : exists e ls1 ls2 d r1 w1 r2 w2,
  env_ok e /\ Forall (fun l => env_ok (l_env l)) ls1 /\ Forall (fun l => env_ok (l_env l)) ls2 /\ Forall from_files ls1 /\ Forall from_files ls2 /\ default d /\
  NoDup (map v_id (all_values d ls1)) /\ Permutation (map given ls1) (map given ls2) /\
  merged e true ls1 d = Some (r1, w1) /\ merged e true ls2 d = Some (r2, w2) /\ bare (p_main r1) <> bare (p_main r2).
Proof.
  exists (ref_env 2 2), [ref_load (ref_env 1 2) 1; ref_load (ref_env 1 2) 2], [ref_load (ref_env 2 2) 2; ref_load (ref_env 2 2) 1], ref_default.
  eexists _, _, _, _. split; [apply ref_env_ok; lia|].
  split; [repeat apply Forall_cons; try apply Forall_nil; apply ref_env_ok; lia|]. split; [repeat apply Forall_cons; try apply Forall_nil; apply ref_env_ok; lia|].
  split; [repeat constructor; discriminate|]. split; [repeat constructor; discriminate|].
  split; [repeat split; left; auto|]. split; [repeat constructor; cbn; intuition discriminate|]. split; [apply perm_swap|].
  split; [vm_compute; reflexivity|]. split; [vm_compute; reflexivity|]. discriminate.
Qed.

(** ** Examples *)
Module Demo.
(** A property with a default from the profile, set in the product, in a module at distance 1, and in one that turns out not to be present. *)
Definition e1 : env := mkEnv (fun _ => true) [(1%N, 1); (2%N, 2)].
Definition e2 : env := mkEnv (fun m => N.eqb m 1) [(1%N, 3); (2%N, 2)].
Definition d : value := mkValue 0 Variant true false NoScope [] [] None.
Definition loads : list load := [mkLoad e1 (OfModule 1) [97%N] (ref_value 1); mkLoad e1 OfProduct [112%N] (ref_value 2); mkLoad e1 (OfModule 2) [98%N] (ref_value 3)].
Example merged_ids : option_map (fun x => (map v_id (values (fst x)), snd x)) (merged e2 false loads d) = Some ([2; 1; 0]%N, false).
Proof. now vm_compute. Qed.
Example reverse_ids : option_map (fun x => (map v_id (values (fst x)), snd x)) (merged e2 false (rev loads) d) = Some ([2; 1; 0]%N, false).
Proof. now vm_compute. Qed.
Example env1 : env_ok e1.
Proof. split; [repeat constructor; cbn; intuition discriminate|]. intros m n [E|[E|[]]]; injection E as <- <-; lia. Qed.
Example env2 : env_ok e2.
Proof. split; [repeat constructor; cbn; intuition discriminate|]. intros m n [E|[E|[]]]; injection E as <- <-; lia. Qed.
Example files : Forall from_files loads /\ default d /\ NoDup (map v_id (all_values d loads)) /\ distinct_items loads.
Proof.
  split; [repeat constructor; discriminate|]. split; [repeat split; auto|]. split; [repeat constructor; cbn; intuition discriminate|]. split; [repeat constructor; cbn; intuition discriminate|].
  intros l1 l2 m1 m2 I1 I2. cbn in I1, I2. intros E1 E2 EN.
  repeat (destruct I1 as [<-|I1]; [|try easy]); repeat (destruct I2 as [<-|I2]; [|try easy]); cbn in *; try discriminate; congruence.
Qed.
Example classes : Forall (fun l => exists c, class_of (l_env l) (given l) c /\ c <> CAbsent) loads /\ Forall (fun l => exists c, class_of e2 (given l) c) loads.
Proof.
  split; repeat apply Forall_cons; try apply Forall_nil.
  - exists (CModule 1). split; [|discriminate]. eapply class_module; try reflexivity. now left.
  - exists CProduct. split; [|discriminate]. now apply class_product.
  - exists (CModule 2). split; [|discriminate]. eapply class_module; try reflexivity. right. now left.
  - exists (CModule 3). eapply class_module; try reflexivity. now left.
  - exists CProduct. now apply class_product.
  - exists CAbsent. eapply class_absent; reflexivity.
Qed.
(** The product overrides everything else. *)
Example unique : exists u c, In u (all_values d loads) /\ class_of e2 u c /\ forall v b, In v (all_values d loads) -> class_of e2 v b -> v = u \/ above c b.
Proof.
  exists (given (mkLoad e1 OfProduct [112%N] (ref_value 2))), CProduct. split; [right; right; now left|]. split; [now apply class_product|].
  intros v b I C. repeat (destruct I as [<-|I]; [|try easy]); auto; right; left; destruct C; cbn in *; try discriminate; lia.
Qed.
Example two_orders : exists r1 w1 r2 w2, merged e2 true loads d = Some (r1, w1) /\ merged e2 true (rev loads) d = Some (r2, w2) /\ values r1 = values r2 /\ w1 = w2.
Proof. eexists _, _, _, _. split; [vm_compute; reflexivity|]. split; [vm_compute; reflexivity|]. now vm_compute. Qed.
Example fixed_order : exists r w, merged e1 true [mkLoad e1 (OfModule 2) [98%N] (ref_value 3); mkLoad e1 (OfModule 1) [97%N] (ref_value 1)] d = Some (r, w) /\ map v_id (values r) = [1; 3; 0]%N /\ w = false.
Proof. eexists _, _. split; [vm_compute; reflexivity|]. now vm_compute. Qed.
Example warned : exists r, merged (ref_env 2 2) true [ref_load (ref_env 2 2) 2; ref_load (ref_env 2 2) 1] ref_default = Some (r, true).
Proof. eexists. vm_compute. reflexivity. Qed.
Example levels : class_of e1 (given (mkLoad e1 OfProduct [112%N] (ref_value 2))) CProduct /\ class_of e1 d CProfile /\ above CProduct CProfile.
Proof. split; [now apply class_product|]. split; [now apply class_profile|]. left. cbn. lia. Qed.
Example command_line : merges loads (mkProp (mkValue 9 Variant false true NoScope [] [] None) []) = Some (mkProp (mkValue 9 Variant false true NoScope [] [] None) []).
Proof. now vm_compute. Qed.
Example multiplexed : option_map (fun p => v_id (p_main p)) (merges (loads ++ mkLoad e1 OfProduct [112%N] (mkValue 8 Variant false false NoScope [] [] None) :: loads) (mkProp d [])) = Some 8%N.
Proof. now vm_compute. Qed.
(** Properties items: two matching ones, one that does not match, a value outside, and a module that adds to the list. *)
Definition s : source := mkSource [mkAlt false true false (Arr [1; 2]%N); mkAlt false false false (Arr [3%N]); mkAlt false true false (One 4%N); mkAlt true false false (Arr [5%N])] (Arr [6%N]) false false.
Example list_merged : fst (evaluate false (FromSource s) [FromVariant (Arr [7; 8]%N)]) = Arr [1; 2; 4; 6; 7; 8]%N.
Proof. now vm_compute. Qed.
Example scalar_first : fst (evaluate true (FromSource s) [FromVariant (One 9%N)]) = Arr [1; 2]%N.
Proof. now vm_compute. Qed.
Example s_ordered : fallback_last (s_alternatives s).
Proof. exists [mkAlt false true false (Arr [1; 2]%N); mkAlt false false false (Arr [3%N]); mkAlt false true false (One 4%N)], [mkAlt true false false (Arr [5%N])]. repeat split; auto. right. eauto. Qed.
Example overridden : fst (evaluate false (FromSource (mkSource [mkAlt false true true (Arr [1%N])] Undef true false)) [FromVariant (Arr [2%N])]) = Arr [1%N].
Proof. now vm_compute. Qed.
Example adding : add_alternative (s_alternatives s) (mkAlt false true false (One 10%N)) =
  Some [mkAlt false true false (Arr [1; 2]%N); mkAlt false false false (Arr [3%N]); mkAlt false true false (One 4%N); mkAlt false true false (One 10%N); mkAlt true false false (Arr [5%N])].
Proof. reflexivity. Qed.
Example adding_twice : add_alternative (s_alternatives s) (mkAlt true true false (One 10%N)) = None.
Proof. reflexivity. Qed.
Example candidate_used : fst (evaluate true (FromSource (mkSource [mkAlt false false false (One 1%N)] Uninit true false)) [FromSource (mkSource [] Uninit true false); FromVariant (One 9%N)]) = One 9%N.
Proof. now vm_compute. Qed.
Example strings_known : flags_of (settings [SetByCommandLine 1 (VOther 5); SetByProfile 2 (VOther 5); Clone 3 2]) 3 = Some (mkFlags true false).
Proof. now vm_compute. Qed.
End Demo.

Print Assumptions priority_levels.
Print Assumptions merged_result.
Print Assumptions order_independent.
Print Assumptions merged_sorted.
Print Assumptions order_independent_sorted.
Print Assumptions no_check_fails.
Print Assumptions absolute_override.
Print Assumptions internal_wins.
Print Assumptions alternatives_ordered.
Print Assumptions list_value.
Print Assumptions override_value.
Print Assumptions scalar_value.
Print Assumptions fallback_after_undefined_refuted.
Print Assumptions override_sticks_refuted.
Print Assumptions origin_known.
Print Assumptions marks_kept.
Print Assumptions command_line_bool_refuted.
Print Assumptions internal_bool_refuted.
Print Assumptions order_refuted.
