(** C38, C39, C52: values of settings, inheritance between profiles, preferences. *)
From Coq Require Import List Bool Arith NArith ZArith Lia Sorted Permutation.
From Verif Require Import Str JobLimitsModel SettingsModel.
Import ListNotations.
Local Open Scope N_scope.

(** * Specification *)

(** Profile [b] is the base profile of [a]: it is named there, and it exists. *)
Definition based (e : env) (a b : str) : Prop := base_profile e a = b /\ b <> [] /\ profile_exists e b = true.

(** A chain of profiles from [a] on: each has the next one as base. *)
Inductive chain (e : env) : list str -> Prop :=
| chain_one a : chain e [a]
| chain_more a b l : based e a b -> chain e (b :: l) -> chain e (a :: b :: l).

Definition lacks (e : env) (key : str) (a : str) : Prop := local_value e a key = None.

(** What [Profile::value] has to give for the profile named [name]. *)
Inductive value_spec (e : env) (name key : str) (def : option value) : presult (option value) -> Prop :=
| vs_found l a v : chain e (l ++ [a]) -> hd_error (l ++ [a]) = Some name -> NoDup (l ++ [a]) -> Forall (lacks e key) l ->
    local_value e a key = Some v -> value_spec e name key def (Found (Some v))
| vs_default l a : chain e (l ++ [a]) -> hd_error (l ++ [a]) = Some name -> NoDup (l ++ [a]) -> Forall (lacks e key) (l ++ [a]) ->
    base_profile e a = [] -> value_spec e name key def (Found def)
| vs_dangling l a b : chain e (l ++ [a]) -> hd_error (l ++ [a]) = Some name -> NoDup (l ++ [a]) -> Forall (lacks e key) (l ++ [a]) ->
    base_profile e a = b -> b <> [] -> profile_exists e b = false -> value_spec e name key def (Dangling a b)
| vs_circular l a : chain e (l ++ [a]) -> hd_error (l ++ [a]) = Some name -> NoDup l -> Forall (lacks e key) l -> In a l ->
    value_spec e name key def (Circular (l ++ [a])).

(** * Basics *)

Lemma mem_str_In s l : mem_str s l = true <-> In s l.
Proof.
  unfold mem_str. rewrite existsb_exists. split; [intros (x & H & E); apply str_eqb_eq in E; now subst|]. intros H. exists s. split; [exact H|apply str_eqb_refl].
Qed.
Lemma mem_str_not s l : mem_str s l = false <-> ~ In s l.
Proof. rewrite <- mem_str_In. destruct (mem_str s l); split; congruence. Qed.

Lemma chain_snoc e l a b : chain e (l ++ [a]) -> based e a b -> chain e (l ++ [a; b]).
Proof.
  induction l as [|x l IH]; intros C B; cbn in *.
  - constructor; [exact B|constructor].
  - destruct l as [|y l]; cbn in *.
    + inversion C; subst. constructor; [assumption|]. constructor; [exact B|constructor].
    + inversion C; subst. constructor; auto.
Qed.
Lemma chain_prefix e l m : chain e (l ++ m) -> l <> [] -> chain e l.
Proof.
  induction l as [|x l IH]; intros C N; [congruence|]. destruct l as [|y l]; [constructor|]. cbn in *. inversion C; subst. constructor; auto. apply IH; auto. discriminate.
Qed.
Lemma chain_link e l a b m : chain e (l ++ a :: b :: m) -> based e a b.
Proof.
  induction l as [|x l IH]; intros C; cbn in *; [now inversion C|]. apply IH. inversion C; auto. destruct l; discriminate.
Qed.

(** ** The value found *)

Lemma inherited_sound fuel : forall e name key def l, chain e (l ++ [name]) -> NoDup l -> Forall (lacks e key) l ->
  inherited fuel e name key def l <> TooDeep ->
  match inherited fuel e name key def l with
  | TooDeep => False
  | r => forall n0, hd_error (l ++ [name]) = Some n0 -> value_spec e n0 key def r
  end.
Proof.
  induction fuel as [|fuel IH]; intros e name key def l C Nd La; cbn [inherited]; [congruence|]. cbn zeta.
  destruct (mem_str name l) eqn:M.
  - intros _ n0 Hn. apply mem_str_In in M. exact (vs_circular e n0 key def l name C Hn Nd La M).
  - apply mem_str_not in M. assert (Nd' : NoDup (l ++ [name])).
    { apply (Permutation_NoDup (Permutation_cons_append l name)). now constructor. }
    destruct (local_value e name key) as [v|] eqn:L.
    + intros _ n0 Hn. exact (vs_found e n0 key def l name v C Hn Nd' La L).
    + assert (La' : Forall (lacks e key) (l ++ [name])) by (apply Forall_app; split; [exact La|constructor; [exact L|constructor]]).
      destruct (base_profile e name) as [|c b] eqn:B.
      * intros _ n0 Hn. exact (vs_default e n0 key def l name C Hn Nd' La' B).
      * destruct (profile_exists e (c :: b)) eqn:X.
        -- intros T. assert (C' : chain e ((l ++ [name]) ++ [c :: b])).
           { rewrite <- app_assoc. cbn. apply chain_snoc; [exact C|]. split; [exact B|split; [discriminate|exact X]]. }
           pose proof (IH e (c :: b) key def (l ++ [name]) C' Nd' La' T) as Y.
           destruct (inherited fuel e (c :: b) key def (l ++ [name])); auto; intros n0 Hn; apply Y; destruct l; cbn in *; exact Hn.
        -- intros _ n0 Hn. apply (vs_dangling e n0 key def l name (c :: b) C Hn Nd' La' B); [discriminate|exact X].
Qed.

(** What is to be found is determined. *)
Lemma chains_comparable e : forall l m, chain e l -> chain e m -> hd_error l = hd_error m ->
  (exists r, m = l ++ r) \/ (exists r, l = m ++ r).
Proof.
  induction l as [|a l IH]; intros m Cl Cm H; [inversion Cl|]. destruct m as [|b m]; [inversion Cm|]. cbn in H. injection H as <-.
  destruct l as [|x l]; [left; exists m; reflexivity|]. destruct m as [|y m]; [right; exists (x :: l); reflexivity|].
  inversion Cl as [|? ? ? B1 D1]; subst. inversion Cm as [|? ? ? B2 D2]; subst. destruct B1 as [E1 _], B2 as [E2 _].
  destruct (IH (y :: m)) as [(r & E)|(r & E)]; auto.
  - cbn. congruence.
  - left. exists r. cbn in *. congruence.
  - right. exists r. cbn in *. congruence.
Qed.

(** The ends of two chains with the same beginning, of which the first stops: it has a value, or no existing base, or has been there. *)
Definition stops (e : env) (key : str) (l : list str) (a : str) : Prop :=
  local_value e a key <> None \/ base_profile e a = [] \/ profile_exists e (base_profile e a) = false \/ In a l.

Lemma spec_end e name key def r : value_spec e name key def r -> exists l a, chain e (l ++ [a]) /\ hd_error (l ++ [a]) = Some name /\ NoDup l /\ Forall (lacks e key) l
  /\ stops e key l a /\
  r = (if mem_str a l then Circular (l ++ [a]) else match local_value e a key with Some v => Found (Some v)
       | None => match base_profile e a with [] => Found def | b => Dangling a b end end).
Proof.
  intros H. destruct H as [l a v C Hn N La L|l a C Hn N La B|l a b C Hn N La B Nb X|l a C Hn N La I1].
  - assert (M : ~ In a l) by (intros X; apply (NoDup_remove_2 l [] a) in N; apply N; rewrite app_nil_r; exact X).
    exists l, a. do 2 (split; [auto|]). split; [now apply NoDup_remove_1 in N; rewrite app_nil_r in N|]. split; [exact La|]. split; [left; congruence|].
    apply mem_str_not in M. now rewrite M, L.
  - assert (M : ~ In a l) by (intros X; apply (NoDup_remove_2 l [] a) in N; apply N; rewrite app_nil_r; exact X).
    apply Forall_app in La as [La Lb]. inversion Lb as [|x y Lx Ly]; subst.
    exists l, a. do 2 (split; [auto|]). split; [now apply NoDup_remove_1 in N; rewrite app_nil_r in N|]. split; [exact La|]. split; [right; now left|].
    apply mem_str_not in M. now rewrite M, Lx, B.
  - assert (M : ~ In a l) by (intros Y; apply (NoDup_remove_2 l [] a) in N; apply N; rewrite app_nil_r; exact Y).
    apply Forall_app in La as [La Lb]. inversion Lb as [|x y Lx Ly]; subst.
    exists l, a. do 2 (split; [auto|]). split; [now apply NoDup_remove_1 in N; rewrite app_nil_r in N|]. split; [exact La|]. split; [right; right; now left|].
    apply mem_str_not in M. rewrite M, Lx. destruct (base_profile e a); congruence.
  - exists l, a. do 4 (split; [auto|]). split; [do 3 right; exact I1|]. apply mem_str_In in I1. now rewrite I1.
Qed.

Theorem value_spec_unique e name key def r r' : value_spec e name key def r -> value_spec e name key def r' -> r = r'.
Proof.
  intros H H'. apply spec_end in H as (l & a & C & Hn & N & La & S1 & ->). apply spec_end in H' as (m & b & C' & Hm & N' & Lb & S2 & ->).
  assert (X : forall l a m b q, chain e (m ++ [b]) -> stops e key l a -> NoDup m -> Forall (lacks e key) m -> m ++ [b] = (l ++ [a]) ++ q -> q = []).
  { clear. intros l a m b q C St N La E. destruct q as [|c q] using rev_ind; [reflexivity|]. exfalso. clear IHq. rewrite app_assoc in E. apply app_inj_tail in E as [-> <-].
    rewrite <- !app_assoc in C. cbn in C. assert (B : exists c', based e a c').
    { destruct q as [|d q]; cbn in C; [exists b|exists d]; now apply (chain_link _ _ _ _ _ C). }
    destruct B as (c' & B1 & B2 & B3). destruct St as [St|[St|[St|St]]].
    - rewrite <- app_assoc in La. apply Forall_app in La as [_ La]. inversion La; contradiction.
    - congruence.
    - congruence.
    - rewrite <- app_assoc in N. apply NoDup_remove_2 in N. apply N, in_app_iff. now left. }
  destruct (chains_comparable e _ _ C C') as [(q & E)|(q & E)]; [congruence| |].
  - rewrite (X l a m b q C' S1 N' Lb E), app_nil_r in E. apply app_inj_tail in E as [<- <-]. reflexivity.
  - rewrite (X m b l a q C S2 N La E), app_nil_r in E. apply app_inj_tail in E as [<- <-]. reflexivity.
Qed.

(** ** The search ends *)

(** Everything that may be the name of a base profile. *)
Definition names_in (v : value) : list str := to_str v :: to_str (from_settings v) :: to_strs v.
Definition base_names (e : env) : list str :=
  flat_map (fun p => flat_map names_in (map snd (snd p))) (e_locals e)
  ++ flat_map names_in (map snd (user (e_settings e))) ++ flat_map names_in (map snd (system (e_settings e))).
Definition depth (e : env) : nat := S (S (length (base_names e))).

Lemma find_value_in f k v : find_value f k = Some v -> In (k, v) f.
Proof.
  unfold find_value. destruct (find (fun e => str_eqb (fst e) k) f) as [[x y]|] eqn:E; [|discriminate]. apply find_some in E as [E1 E2]. cbn in *. apply str_eqb_eq in E2 as ->. now intros [= <-].
Qed.
Lemma in_names (f : store) k v s : find_value f k = Some v -> In s (names_in v) -> In s (flat_map names_in (map snd f)).
Proof.
  intros Hf Hs. apply in_flat_map. exists v. split; [|exact Hs]. apply in_map_iff. exists (k, v). split; [reflexivity|exact (find_value_in f k v Hf)].
Qed.
Lemma get_value_names s k v : get_value s k all_scopes None = Some v -> to_str (from_settings v) = [] \/
  In (to_str (from_settings v)) (flat_map names_in (map snd (user s)) ++ flat_map names_in (map snd (system s))).
Proof.
  unfold get_value. cbn [in_user in_system all_scopes]. destruct (find_value (user s) (internal k)) as [u|] eqn:U; destruct (find_value (system s) (internal k)) as [w|] eqn:W; intros H.
  - assert (D : (exists l, u = VStrs l) \/ (exists l, u = VList l) \/ v = u) by (destruct u; eauto; right; right; congruence).
    destruct D as [(l & ->)|[(l & ->)| ->]].
    + injection H as <-. cbn [from_settings]. destruct l as [|x [|y l]]; cbn [app].
      * destruct (to_strs w) as [|y [|z r]] eqn:Tw; [now left| |now left]. right. apply in_app_iff. right. apply (in_names _ _ _ _ W). unfold names_in. rewrite Tw. cbn. auto.
      * destruct (to_strs w) as [|y r]; [|now left]. right. apply in_app_iff. left. apply (in_names _ _ _ _ U). unfold names_in. cbn. auto.
      * now left.
    + injection H as <-. now left.
    + right. apply in_app_iff. left. apply (in_names _ _ _ _ U). unfold names_in. cbn [In]. auto.
  - right. apply in_app_iff. left. assert (E : v = u) by (destruct u; congruence). subst. apply (in_names _ _ _ _ U). unfold names_in. cbn [In]. auto.
  - right. apply in_app_iff. right. assert (E : v = w) by congruence. subst. apply (in_names _ _ _ _ W). unfold names_in. cbn [In]. auto.
  - discriminate.
Qed.
Lemma base_in_names e a : base_profile e a <> [] -> In (base_profile e a) (base_names e).
Proof.
  unfold base_names, base_profile, local_value. intros Nn. apply in_app_iff. destruct (find_value (local_values e a) base_key) as [v|] eqn:F.
  - left. unfold local_values in F. destruct (find (fun p => str_eqb (fst p) a) (e_locals e)) as [p|] eqn:L; [|discriminate].
    apply find_some in L as [L _]. apply in_flat_map. exists p. split; [exact L|]. apply (in_names _ _ _ _ F). unfold names_in. cbn [In opt_str]. auto.
  - right. destruct (get_value (e_settings e) (profile_key a ++ 46 :: base_key) all_scopes None) as [v|] eqn:G; cbn [option_map opt_str] in *; [|congruence].
    destruct (get_value_names _ _ _ G) as [E|E]; [congruence|exact E].
Qed.

Lemma chain_tail e : forall l a, chain e (a :: l) -> incl l (base_names e).
Proof.
  induction l as [|b l IH]; intros a C x Hx; [destruct Hx|]. inversion C as [|? ? ? B D]; subst. destruct Hx as [<-|Hx]; [|exact (IH b D x Hx)].
  destruct B as (<- & B2 & _). now apply base_in_names.
Qed.
Lemma chain_length e l : chain e l -> NoDup l -> (length l <= S (length (base_names e)))%nat.
Proof.
  destruct l as [|a l]; cbn; intros C N; [lia|]. inversion N; subst. apply le_n_S. apply NoDup_incl_length; [assumption|]. exact (chain_tail e l a C).
Qed.

Lemma inherited_terminates fuel : forall e name key def l, chain e (l ++ [name]) -> NoDup l -> (depth e <= fuel + length l)%nat ->
  inherited fuel e name key def l <> TooDeep.
Proof.
  induction fuel as [|fuel IH]; intros e name key def l C N Lf.
  - exfalso. unfold depth in Lf. destruct l as [|a l]; [cbn in Lf; lia|]. assert (X := chain_length e (a :: l) (chain_prefix _ _ _ C ltac:(discriminate)) N). lia.
  - cbn [inherited]. cbn zeta. destruct (mem_str name l) eqn:M; [discriminate|]. apply mem_str_not in M. destruct (local_value e name key); [discriminate|].
    destruct (base_profile e name) as [|c b] eqn:B; [discriminate|]. destruct (profile_exists e (c :: b)) eqn:X; [|discriminate].
    apply IH.
    + rewrite <- app_assoc. cbn. apply chain_snoc; [exact C|]. split; [exact B|split; [discriminate|exact X]].
    + apply (Permutation_NoDup (Permutation_cons_append l name)). now constructor.
    + rewrite app_length. cbn. lia.
Qed.

(** C38: the value is that of the first profile along the chain of base profiles that has one; the default if none has one; an error
    if the chain comes back to a profile or leads to one that does not exist before a value is found. *)
Theorem profile_value_exact fuel e name key def r : (depth e <= fuel)%nat ->
  (profile_value fuel e name key def = r <-> value_spec e name key def r).
Proof.
  intros Lf. unfold profile_value.
  assert (T : inherited fuel e name key def [] <> TooDeep) by (apply inherited_terminates; [constructor|constructor|cbn; lia]).
  pose proof (inherited_sound fuel e name key def [] (chain_one e name) (NoDup_nil _) (Forall_nil _) T) as S1. cbn in S1.
  assert (S2 : value_spec e name key def (inherited fuel e name key def [])).
  { destruct (inherited fuel e name key def []); try contradiction; apply S1; reflexivity. }
  split; [intros <-; exact S2|]. intros H. exact (value_spec_unique e name key def _ _ S2 H).
Qed.

(** ** Lists of keys *)

Lemma str_leb_total a : forall b, str_leb a b = true \/ str_leb b a = true.
Proof.
  induction a as [|x a IH]; intros [|y b]; cbn; auto. destruct (N.ltb_spec x y), (N.ltb_spec y x); auto.
Qed.
Lemma str_leb_trans a : forall b c, str_leb a b = true -> str_leb b c = true -> str_leb a c = true.
Proof.
  induction a as [|x a IH]; intros [|y b] [|z c]; cbn; auto; try discriminate.
  destruct (N.ltb_spec x y), (N.ltb_spec y x), (N.ltb_spec y z), (N.ltb_spec z y), (N.ltb_spec x z), (N.ltb_spec z x); intros; try lia; try discriminate; eauto.
Qed.
Lemma str_leb_antisym a : forall b, str_leb a b = true -> str_leb b a = true -> a = b.
Proof.
  induction a as [|x a IH]; intros [|y b]; cbn; auto; try discriminate. destruct (N.ltb_spec x y), (N.ltb_spec y x); intros; try lia; try discriminate.
  assert (x = y) by lia. subst. f_equal. auto.
Qed.
Definition sorted (l : list str) : Prop := StronglySorted (fun a b => str_leb a b = true) l.
Lemma insert_str_perm s l : Permutation (s :: l) (insert_str s l).
Proof.
  induction l as [|x l IH]; cbn; [reflexivity|]. destruct (str_leb s x); [reflexivity|]. rewrite perm_swap. now constructor.
Qed.
Lemma sort_perm l : Permutation l (sort_strs l).
Proof. induction l as [|x l IH]; cbn; [reflexivity|]. rewrite IH at 1. apply insert_str_perm. Qed.
Lemma insert_sorted s l : sorted l -> sorted (insert_str s l).
Proof.
  unfold sorted. induction l as [|x l IH]; cbn; intros H; [repeat constructor|]. inversion H as [|? ? H1 H2]; subst.
  destruct (str_leb s x) eqn:E.
  - constructor; [exact H|]. constructor; [exact E|]. rewrite Forall_forall in *. intros y Hy. exact (str_leb_trans _ _ _ E (H2 y Hy)).
  - constructor; [auto|]. apply Forall_forall. intros y Hy. apply (Permutation_in _ (Permutation_sym (insert_str_perm s l))) in Hy as [<-|Hy].
    + destruct (str_leb_total s x); congruence.
    + rewrite Forall_forall in H2. auto.
Qed.
Lemma sort_sorted l : sorted (sort_strs l).
Proof. induction l as [|x l IH]; cbn; [constructor|now apply insert_sorted]. Qed.
Lemma sort_In l x : In x (sort_strs l) <-> In x l.
Proof. split; apply Permutation_in; [symmetry|]; apply sort_perm. Qed.

Lemma dedup_from_In l : forall seen x, In x (dedup_from seen l) <-> In x l /\ ~ In x seen.
Proof.
  induction l as [|y l IH]; intros seen x; cbn; [intuition|]. destruct (mem_str y seen) eqn:M.
  - apply mem_str_In in M. rewrite IH. split; [intuition|]. intros [[<-|H] Hn]; [contradiction|auto].
  - apply mem_str_not in M. cbn. rewrite IH. cbn. split.
    + intros [<-|[H1 H2]]; [auto|]. split; [auto|]. intros H. apply H2. now right.
    + intros [[<-|H1] H2]; [now left|]. destruct (str_dec y x) as [->|Ne]; [now left|]. right. split; [exact H1|]. intros [E|H]; auto.
Qed.
Lemma dedup_In l x : In x (dedup l) <-> In x l.
Proof. unfold dedup. rewrite dedup_from_In. cbn. intuition. Qed.
Lemma dedup_from_NoDup l : forall seen, NoDup (dedup_from seen l).
Proof.
  induction l as [|y l IH]; intros seen; cbn; [constructor|]. destruct (mem_str y seen); [apply IH|]. constructor; [|apply IH].
  rewrite dedup_from_In. cbn. intuition.
Qed.
Lemma dedup_from_sorted l : forall seen, sorted l -> sorted (dedup_from seen l).
Proof.
  unfold sorted. induction l as [|y l IH]; intros seen H; cbn; [constructor|]. inversion H as [|? ? H1 H2]; subst. destruct (mem_str y seen); [auto|].
  constructor; [auto|]. apply Forall_forall. intros x Hx. apply dedup_from_In in Hx as [Hx _]. rewrite Forall_forall in H2. auto.
Qed.
Lemma remove_one_In s l x : NoDup l -> (In x (remove_one s l) <-> In x l /\ x <> s).
Proof.
  induction l as [|y l IH]; cbn; intros N; [intuition|]. inversion N as [|? ? N1 N2]; subst. destruct (str_eqb y s) eqn:E.
  - apply str_eqb_eq in E as ->. split; [intros H; split; [auto|]; intros ->; contradiction|]. intros [[->|H] Hn]; [congruence|exact H].
  - apply str_eqb_neq in E. cbn. rewrite (IH N2). split; [intros [<-|[H1 H2]]; auto|]. intros [[->|H1] H2]; auto.
Qed.
Lemma remove_one_NoDup s l : NoDup l -> NoDup (remove_one s l).
Proof.
  induction l as [|y l IH]; cbn; intros N; [constructor|]. inversion N as [|? ? N1 N2]; subst. destruct (str_eqb y s); [exact N2|].
  constructor; [|auto]. rewrite remove_one_In by exact N2. intuition.
Qed.
Lemma sort_NoDup l : NoDup l -> NoDup (sort_strs l).
Proof. apply Permutation_NoDup, sort_perm. Qed.

(** Dots and slashes. *)
Definition no_char (c : N) (s : str) : Prop := ~ In c s.
Lemma external_no_slash s : no_char 47 (external s).
Proof. unfold no_char, external, replace_char. rewrite in_map_iff. intros (x & H & _). destruct (N.eqb_spec x 47); [discriminate|congruence]. Qed.
Lemma internal_no_dot s : no_char 46 (internal s).
Proof. unfold no_char, internal, replace_char. rewrite in_map_iff. intros (x & H & _). destruct (N.eqb_spec x 46); [discriminate|congruence]. Qed.
Lemma internal_external s : no_char 46 s -> internal (external s) = s.
Proof.
  unfold no_char, internal, external, replace_char. intros H. rewrite map_map. rewrite <- (map_id s) at 2. apply map_ext_in. intros c Hc.
  destruct (N.eqb_spec c 47) as [->|E]; [reflexivity|]. destruct (N.eqb_spec c 46) as [->|E2]; [contradiction|reflexivity].
Qed.
Lemma external_internal s : no_char 47 s -> external (internal s) = s.
Proof.
  unfold no_char, internal, external, replace_char. intros H. rewrite map_map. rewrite <- (map_id s) at 2. apply map_ext_in. intros c Hc.
  destruct (N.eqb_spec c 46) as [->|E]; [reflexivity|]. destruct (N.eqb_spec c 47) as [->|E2]; [contradiction|reflexivity].
Qed.
Lemma internal_app a b : internal (a ++ b) = internal a ++ internal b.
Proof. apply map_app. Qed.

(** The order stays the same: no character is between the dot and the slash. *)
Lemma external_leb a : forall b, no_char 46 a -> no_char 46 b -> str_leb (external a) (external b) = str_leb a b.
Proof.
  unfold no_char. induction a as [|x a IH]; intros [|y b] Ha Hb; cbn; auto. fold (external a) (external b).
  assert (Hx : x <> 46) by (intros ->; apply Ha; now left). assert (Hy : y <> 46) by (intros ->; apply Hb; now left).
  rewrite IH by (cbn in *; tauto).
  destruct (N.eqb_spec x 47), (N.eqb_spec y 47); subst; try reflexivity.
  - assert (E1 : (46 <? y) = (47 <? y)) by (destruct (N.ltb_spec 46 y), (N.ltb_spec 47 y); auto; lia).
    assert (E2 : (y <? 46) = (y <? 47)) by (destruct (N.ltb_spec y 46), (N.ltb_spec y 47); auto; lia). now rewrite E1, E2.
  - assert (E1 : (46 <? x) = (47 <? x)) by (destruct (N.ltb_spec 46 x), (N.ltb_spec 47 x); auto; lia).
    assert (E2 : (x <? 46) = (x <? 47)) by (destruct (N.ltb_spec x 46), (N.ltb_spec x 47); auto; exfalso; lia). now rewrite E1, E2.
Qed.

Lemma fixup_In l k : (forall s, In s l -> no_char 46 s) -> (In k (fixup l) <-> no_char 47 k /\ In (internal k) l).
Proof.
  intros H. unfold fixup. rewrite in_map_iff. split.
  - intros (x & <- & Hx). split; [apply external_no_slash|].
    assert (Hx' : In x l) by (now apply (proj1 (sort_In l x)), (proj1 (dedup_In (sort_strs l) x))). rewrite internal_external; auto.
  - intros [H1 H2]. exists (internal k). split; [now apply external_internal|]. apply dedup_In, sort_In, H2.
Qed.
Lemma fixup_sorted l : (forall s, In s l -> no_char 46 s) -> sorted (fixup l) /\ NoDup (fixup l).
Proof.
  intros H. unfold fixup. assert (H' : forall s, In s (dedup (sort_strs l)) -> no_char 46 s) by (intros s Hs; apply H, sort_In, dedup_In, Hs).
  assert (S1 : sorted (dedup (sort_strs l))) by (apply dedup_from_sorted, sort_sorted). assert (N1 : NoDup (dedup (sort_strs l))) by apply dedup_from_NoDup.
  revert H' S1 N1. generalize (dedup (sort_strs l)) as m. induction m as [|x m IH]; intros H' S1 N1; cbn; [split; constructor|].
  inversion S1 as [|? ? S2 S3]; subst. inversion N1 as [|? ? N2 N3]; subst. destruct (IH (fun s Hs => H' s (or_intror Hs)) S2 N3) as [A B].
  rewrite Forall_forall in S3. split; constructor; auto.
  - apply Forall_forall. intros y Hy. apply in_map_iff in Hy as (z & <- & Hz). rewrite external_leb; [auto|apply H'; now left|apply H'; now right].
  - intros Hx. apply in_map_iff in Hx as (z & E & Hz). apply (f_equal internal) in E. rewrite !internal_external in E; [congruence|apply H'; now left|apply H'; now right].
Qed.

(** ** Settings *)

(** No stored key has a dot in it, as is the case for keys written by qbs; each key is there once. *)
Definition clean (f : store) : Prop := forall k v, In (k, v) f -> no_char 46 k.
Definition clean_settings (s : settings) : Prop := clean (user s) /\ clean (system s).

Lemma find_value_some f k : find_value f k <> None <-> exists v, In (k, v) f.
Proof.
  split.
  - destruct (find_value f k) as [v|] eqn:E; [|congruence]. intros _. exists v. now apply find_value_in.
  - intros (v & H). unfold find_value. destruct (find (fun e => str_eqb (fst e) k) f) eqn:E; [discriminate|]. apply (find_none _ _ E) in H. cbn in H. now rewrite str_eqb_refl in H.
Qed.
Lemma stored_key f k : In k (map fst f) <-> find_value f k <> None.
Proof.
  rewrite find_value_some, in_map_iff. split.
  - intros ([x v] & <- & H). eauto.
  - intros (v & H). exists (k, v). auto.
Qed.
Lemma strip_spec p : forall s r, strip p s = Some r <-> s = p ++ r.
Proof.
  induction p as [|x p IH]; intros s r; cbn; [split; congruence|]. destruct s as [|y s]; [split; discriminate|]. destruct (N.eqb_spec x y) as [->|E].
  - rewrite IH. split; congruence.
  - split; [discriminate|]. intros [= H _]. congruence.
Qed.
Lemma strip_all_In p l r : In r (strip_all p l) <-> In (p ++ r) l.
Proof.
  induction l as [|s l IH]; cbn; [reflexivity|]. destruct (strip p s) as [q|] eqn:E.
  - apply strip_spec in E. cbn. rewrite IH. split; [intros [->|H]; auto|]. intros [H|H]; [|auto]. left. rewrite H in E. now apply app_inv_head in E.
  - rewrite IH. split; [auto|]. intros [H|H]; [|auto]. apply strip_spec in H. congruence.
Qed.

Lemma get_value_some s k sc : get_value s k sc None <> None <-> (in_user sc = true /\ find_value (user s) (internal k) <> None) \/ (in_system sc = true /\ find_value (system s) (internal k) <> None).
Proof.
  unfold get_value. destruct (in_user sc), (in_system sc); destruct (find_value (user s) (internal k)) as [u|], (find_value (system s) (internal k)); try destruct u;
    split; intros H; try congruence; try (left; split; [reflexivity|discriminate]); try (right; split; [reflexivity|discriminate]);
    destruct H as [[H1 H2]|[H1 H2]]; congruence.
Qed.

(** C39: the list of keys is sorted, without duplicates, and has exactly the keys for which there is a value. *)
Theorem all_keys_exact s sc : clean_settings s -> sorted (all_keys s sc) /\ NoDup (all_keys s sc) /\
  forall k, In k (all_keys s sc) <-> no_char 47 k /\ get_value s k sc None <> None.
Proof.
  intros [Cu Cs]. unfold all_keys. set (l := _ ++ _).
  assert (H : forall x, In x l -> no_char 46 x).
  { intros x Hx. apply in_app_iff in Hx as [Hx|Hx]; [destruct (in_user sc)|destruct (in_system sc)]; try destruct Hx; apply stored_key, find_value_some in Hx as (v & Hv); eauto. }
  destruct (fixup_sorted l H) as [A B]. split; [exact A|]. split; [exact B|]. intros k. rewrite (fixup_In l k H), get_value_some. unfold l. rewrite in_app_iff.
  assert (E : forall b f, In (internal k) (if b : bool then map fst f else []) <-> b = true /\ find_value f (internal k) <> None).
  { intros [] f; cbn; [rewrite stored_key; intuition|]. intuition. }
  rewrite !E. reflexivity.
Qed.

Theorem keys_with_prefix_exact s g sc : clean_settings s -> sorted (keys_with_prefix s g sc) /\ NoDup (keys_with_prefix s g sc) /\
  forall k, In k (keys_with_prefix s g sc) <-> no_char 47 k /\ get_value s (g ++ 46 :: k) sc None <> None.
Proof.
  intros [Cu Cs]. unfold keys_with_prefix. set (l := _ ++ _).
  assert (E : forall b f k, In k (if b : bool then group_keys f (internal g) else []) <-> b = true /\ find_value f (internal g ++ 47 :: k) <> None).
  { intros [] f k; cbn; [|intuition; discriminate]. unfold group_keys. rewrite strip_all_In, stored_key, <- app_assoc. cbn. intuition. }
  assert (H : forall x, In x l -> no_char 46 x).
  { assert (Q : forall f x, clean f -> find_value f (internal g ++ 47 :: x) <> None -> no_char 46 x).
    { intros f x C Hx. apply find_value_some in Hx as (v & Hv). apply C in Hv. unfold no_char in *. intros Hi. apply Hv, in_app_iff. right. now right. }
    intros x Hx. apply in_app_iff in Hx as [Hx|Hx]; apply E in Hx as [_ Hx]; eauto. }
  destruct (fixup_sorted l H) as [A B]. split; [exact A|]. split; [exact B|]. intros k. rewrite (fixup_In l k H), get_value_some. unfold l. rewrite in_app_iff, !E.
  rewrite internal_app. cbn. reflexivity.
Qed.

(** ** Changes *)

Lemma find_put f k v k' : find_value (put f k v) k' = if str_eqb k k' then Some v else find_value f k'.
Proof.
  unfold find_value. induction f as [|[x w] f IH]; cbn; [now destruct (str_eqb k k')|]. destruct (str_eqb x k) eqn:E; cbn.
  - apply str_eqb_eq in E as ->. now destruct (str_eqb k k').
  - destruct (str_eqb x k') eqn:E2; [|exact IH]. apply str_eqb_eq in E2 as ->. rewrite str_eqb_sym, E. reflexivity.
Qed.
Lemma find_take f k k' : find_value (take_away f k) k' = if str_eqb k' k || starts_with (k ++ [47]) k' then None else find_value f k'.
Proof.
  unfold find_value, take_away. induction f as [|[x w] f IH]; cbn; [now destruct (_ || _)|].
  destruct (str_eqb x k || starts_with (k ++ [47]) x) eqn:E; cbn.
  - rewrite IH. destruct (str_eqb x k') eqn:E2; [|reflexivity]. apply str_eqb_eq in E2 as ->. now rewrite E.
  - destruct (str_eqb x k') eqn:E2; [|exact IH]. apply str_eqb_eq in E2 as ->. now rewrite E.
Qed.

(** Operations of a program on its settings, and what they mean: one table of values for each of the two files. *)
Inductive op := Set_ (k : str) (v : value) | Remove (k : str) | Target (user : bool).
Definition run_op (s : settings) (o : op) : settings :=
  match o with
  | Set_ k v => match set_value s k v with Some s' => s' | None => s end
  | Remove k => remove_key s k
  | Target b => mkSettings (user s) (system s) b
  end.
Definition op_key (o : op) : str := match o with Set_ k _ | Remove k => k | Target _ => [] end.

Definition table := str -> option value.
Record tables := { t_user : table; t_system : table; t_target : bool }.
(** The name is that of a value below the group. *)
Definition in_group (g k : str) : Prop := exists r, k = g ++ 46 :: r.
Definition in_groupb (g k : str) : bool := starts_with (g ++ [46]) k.
Lemma in_groupb_spec g k : in_groupb g k = true <-> in_group g k.
Proof.
  unfold in_groupb, in_group. rewrite starts_with_spec. split; intros (r & ->); exists r; now rewrite <- app_assoc.
Qed.
Definition spec_set (k : str) (v : value) (t : table) : table := fun k' => if str_dec k k' then Some v else t k'.
Definition spec_remove (k : str) (t : table) : table := fun k' => if str_dec k k' then None else if in_groupb k k' then None else t k'.
Definition spec_on (t : tables) (f : table -> table) : tables :=
  if t_target t then {| t_user := f (t_user t); t_system := t_system t; t_target := true |}
  else {| t_user := t_user t; t_system := f (t_system t); t_target := false |}.
Definition spec_op (t : tables) (o : op) : tables :=
  match o with
  | Set_ k v => if starts_with (profiles_prefix ++ none_name) k then t else spec_on t (spec_set k v)
  | Remove k => spec_on t (spec_remove k)
  | Target b => {| t_user := t_user t; t_system := t_system t; t_target := b |}
  end.
Definition empty_settings : settings := mkSettings [] [] true.
Definition empty_tables : tables := {| t_user := fun _ => None; t_system := fun _ => None; t_target := true |}.

Definition agree (s : settings) (t : tables) : Prop :=
  clean_settings s /\ write_user s = t_target t /\
  forall k, no_char 47 k -> find_value (user s) (internal k) = t_user t k /\ find_value (system s) (internal k) = t_system t k.

Lemma put_clean f k v : clean f -> clean (put f (internal k) v).
Proof.
  intros C k' v' H. assert (X : find_value (put f (internal k) v) k' <> None) by (apply find_value_some; eauto). rewrite find_put in X.
  destruct (str_eqb (internal k) k') eqn:E; [apply str_eqb_eq in E as <-; apply internal_no_dot|]. apply find_value_some in X as (w & Hw). eauto.
Qed.
Lemma take_clean f k : clean f -> clean (take_away f k).
Proof. intros C k' v' H. apply filter_In in H as [H _]. eauto. Qed.

Lemma internal_inj a b : no_char 47 a -> no_char 47 b -> internal a = internal b -> a = b.
Proof. intros Ha Hb E. apply (f_equal external) in E. now rewrite !external_internal in E. Qed.

Lemma internal_group k k' : no_char 47 k -> no_char 47 k' -> starts_with (internal k ++ [47]) (internal k') = in_groupb k k'.
Proof.
  intros Hk Hk'. apply eq_true_iff_eq. rewrite in_groupb_spec, starts_with_spec. split.
  - intros (r & E). exists (external r). apply (f_equal external) in E. rewrite external_internal in E by exact Hk'. rewrite E. unfold external, replace_char. rewrite !map_app. cbn.
    fold (replace_char 47 46 (internal k)). fold (external (internal k)). rewrite external_internal by exact Hk. now rewrite <- app_assoc.
  - intros (r & ->). exists (internal r). rewrite internal_app. cbn. now rewrite <- app_assoc.
Qed.

Lemma agree_put s t k v : agree s t -> no_char 47 k -> agree (on_target s (fun f => put f (internal k) v)) (spec_on t (spec_set k v)).
Proof.
  intros ((Cu & Cs) & W & A) Hk. unfold on_target, spec_on. rewrite W.
  assert (E : forall f g, (forall k', no_char 47 k' -> find_value f (internal k') = g k') -> forall k', no_char 47 k' -> find_value (put f (internal k) v) (internal k') = spec_set k v g k').
  { intros f g H k' Hk'. rewrite find_put. unfold spec_set. destruct (str_dec k k') as [->|Ne]; [now rewrite str_eqb_refl|].
    destruct (str_eqb (internal k) (internal k')) eqn:E; [|auto]. apply str_eqb_eq in E. apply internal_inj in E; auto. congruence. }
  destruct (t_target t); (split; [split; cbn; auto using put_clean|split; [reflexivity|]]); intros k' Hk'; cbn; (split; [try (apply E; auto)|try (apply E; auto)]); try (apply A; auto); intros; now apply A.
Qed.
Lemma agree_take s t k : agree s t -> no_char 47 k -> agree (remove_key s k) (spec_on t (spec_remove k)).
Proof.
  intros ((Cu & Cs) & W & A) Hk. unfold remove_key, on_target, spec_on. rewrite W.
  assert (E : forall f g, (forall k', no_char 47 k' -> find_value f (internal k') = g k') -> forall k', no_char 47 k' -> find_value (take_away f (internal k)) (internal k') = spec_remove k g k').
  { intros f g H k' Hk'. rewrite find_take. unfold spec_remove. rewrite internal_group by auto. destruct (str_dec k k') as [->|Ne]; [now rewrite str_eqb_refl|].
    destruct (str_eqb (internal k') (internal k)) eqn:E; [apply str_eqb_eq in E; apply internal_inj in E; auto; congruence|]. cbn. destruct (in_groupb k k'); auto. }
  destruct (t_target t); (split; [split; cbn; auto using take_clean|split; [reflexivity|]]); intros k' Hk'; cbn; (split; [try (apply E; auto)|try (apply E; auto)]); try (apply A; auto); intros; now apply A.
Qed.

Lemma agree_run ops : forall s t, agree s t -> Forall (fun o => no_char 47 (op_key o)) ops -> agree (fold_left run_op ops s) (fold_left spec_op ops t).
Proof.
  induction ops as [|o ops IH]; intros s t A H; cbn; [exact A|]. inversion H as [|? ? H1 H2]; subst. apply IH; [|exact H2]. destruct o as [k v|k|b]; cbn in *.
  - unfold set_value. destruct (starts_with (profiles_prefix ++ none_name) k) eqn:E; cbn in E; rewrite E; [exact A|]. now apply agree_put.
  - now apply agree_take.
  - destruct A as (C & W & A). split; [exact C|]. split; [reflexivity|]. exact A.
Qed.

(** C39: after any sequence of changes, a value is the user's, or else the system's, or else the default; a list of the user's is followed by what the system has. *)
Definition merged (u w def : option value) : option value :=
  match u, w with
  | Some (VStrs l), Some v => Some (VStrs (l ++ to_strs v))
  | Some (VList l), Some v => Some (VList (l ++ to_list v))
  | Some v, _ => Some v
  | None, Some v => Some v
  | None, None => def
  end.
Theorem settings_exact ops k sc def : Forall (fun o => no_char 47 (op_key o)) ops -> no_char 47 k ->
  let t := fold_left spec_op ops empty_tables in
  get_value (fold_left run_op ops empty_settings) k sc def
  = merged (if in_user sc then t_user t k else None) (if in_system sc then t_system t k else None) def.
Proof.
  intros H Hk t. assert (A : agree (fold_left run_op ops empty_settings) t).
  { apply agree_run; [|exact H]. split; [split; intros x v []|]. split; [reflexivity|]. intros; split; reflexivity. }
  destruct A as (_ & _ & A). destruct (A k Hk) as [A1 A2]. unfold get_value. rewrite A1, A2.
  destruct (in_user sc), (in_system sc); destruct (t_user t k) as [u|]; destruct (t_system t k); try destruct u; reflexivity.
Qed.
Theorem settings_clean ops : clean_settings (fold_left run_op ops empty_settings).
Proof.
  assert (G : forall s, clean_settings s -> clean_settings (fold_left run_op ops s)); [|apply G; split; intros x v []].
  induction ops as [|o ops IH]; intros s C; cbn; [exact C|]. apply IH. destruct C as [C1 C2]. destruct o as [k v|k|b]; cbn.
  - unfold set_value. destruct (starts_with _ _); [split; auto|]. unfold on_target. destruct (write_user s); split; cbn; auto using put_clean.
  - unfold remove_key, on_target. destruct (write_user s); split; cbn; auto using take_clean.
  - split; auto.
Qed.

(** ** The profiles there are *)

Lemma group_of_spec s : forall g, group_of s = Some g <-> no_char 47 g /\ exists r, s = g ++ 47 :: r.
Proof.
  unfold no_char. induction s as [|c s IH]; intros g; cbn.
  - split; [discriminate|]. intros (_ & r & E). destruct g; discriminate.
  - destruct (N.eqb_spec c 47) as [-> |Ne].
    + split; [intros [= <-]; split; [intros []|exists s; reflexivity]|]. intros (H & r & E). destruct g as [|d g]; [reflexivity|]. injection E as <- _. exfalso. apply H. now left.
    + destruct (group_of s) as [g'|].
      * split.
        -- intros [= <-]. destruct (proj1 (IH g') eq_refl) as (H & r & ->). split; [intros [E|E]; auto|]. now exists r.
        -- intros (H & r & E). destruct g as [|d g]; [injection E as E _; congruence|]. injection E as <- ->. f_equal. f_equal.
           assert (X : Some g' = Some g) by (apply IH; split; [intros X; apply H; now right|eauto]). congruence.
      * split; [discriminate|]. intros (H & r & E). destruct g as [|d g]; [injection E as E _; congruence|]. injection E as <- ->.
        assert (X : None = Some g) by (apply IH; split; [intros X; apply H; now right|eauto]). discriminate.
Qed.
Lemma child_groups_In l g : In g (child_groups l) <-> no_char 47 g /\ exists r, In (g ++ 47 :: r) l.
Proof.
  induction l as [|s l IH]; cbn; [split; [intros []|intros (_ & r & [])]|]. destruct (group_of s) as [h|] eqn:E.
  - cbn. rewrite IH. split.
    + intros [<-|(H & r & Hr)]; [|eauto]. apply group_of_spec in E as (H & r & ->). eauto.
    + intros (H & r & [Hr|Hr]); [|eauto]. left. assert (X : group_of s = Some g) by (apply group_of_spec; eauto). congruence.
  - rewrite IH. split; [intros (H & r & Hr); eauto|]. intros (H & r & [Hr|Hr]); [|eauto]. assert (X : group_of s = Some g) by (apply group_of_spec; eauto). congruence.
Qed.
(** C39: the profiles that are listed are those for which there are values. *)
Theorem profile_names_exact s p : In p (profile_names s) <-> no_char 47 p /\
  exists r, (write_user s = true /\ find_value (user s) (internal (profiles_prefix) ++ p ++ 47 :: r) <> None) \/ find_value (system s) (internal profiles_prefix ++ p ++ 47 :: r) <> None.
Proof.
  unfold profile_names. rewrite dedup_In, in_app_iff.
  assert (E : forall f, In p (child_groups (group_keys f profiles_word)) <-> no_char 47 p /\ exists r, find_value f (internal profiles_prefix ++ p ++ 47 :: r) <> None).
  { intros f. rewrite child_groups_In. unfold group_keys. split; intros (H & r & Hr); (split; [exact H|]); exists r; [rewrite strip_all_In in Hr|rewrite strip_all_In]; now apply stored_key. }
  assert (E' : In p (if write_user s then child_groups (group_keys (user s) profiles_word) else []) <-> no_char 47 p /\ exists r, write_user s = true /\ find_value (user s) (internal profiles_prefix ++ p ++ 47 :: r) <> None).
  { destruct (write_user s); [rewrite E|cbn]; [split; intros (H & r & Hr); (split; [exact H|]); exists r; tauto|]. split; [intros []|]. intros (_ & r & X & _). discriminate. }
  rewrite E', E. split.
  - intros [(H & r & X)|(H & r & X)]; (split; [exact H|]); exists r; auto.
  - intros (H & r & [X|X]); [left|right]; split; eauto.
Qed.

(** C38: a profile exists if it is the reserved one, or the project or the settings (of any scope) have a value for it. *)
Theorem profile_exists_exact e name : clean_settings (e_settings e) -> (profile_exists e name = true <->
  name = none_name \/ (exists p k v, find (fun p => str_eqb (fst p) name) (e_locals e) = Some p /\ In (k, v) (snd p))
  \/ exists k, no_char 47 k /\ get_value (e_settings e) (profiles_prefix ++ name ++ 46 :: k) all_scopes None <> None).
Proof.
  intros C. unfold profile_exists. rewrite !orb_true_iff, str_eqb_eq.
  assert (A : match local_values e name with [] => false | _ => true end = true <-> exists p k v, find (fun p => str_eqb (fst p) name) (e_locals e) = Some p /\ In (k, v) (snd p)).
  { unfold local_values. destruct (find (fun p => str_eqb (fst p) name) (e_locals e)) as [[n l]|]; cbn.
    - split; [destruct l as [|[k v] l]; [discriminate|]; intros _; exists (n, (k, v) :: l), k, v; split; [reflexivity|now left]|].
      intros (p & k & v & E & H). injection E as <-. cbn in H. destruct l; [destruct H|reflexivity].
    - split; [discriminate|]. intros (p & k & v & E & _). discriminate. }
  assert (B : match keys_with_prefix (e_settings e) (profile_key name) all_scopes with [] => false | _ => true end = true
    <-> exists k, no_char 47 k /\ get_value (e_settings e) (profiles_prefix ++ name ++ 46 :: k) all_scopes None <> None).
  { destruct (keys_with_prefix_exact (e_settings e) (profile_key name) all_scopes C) as (_ & _ & K). unfold profile_key in *.
    split.
    - destruct (keys_with_prefix (e_settings e) (profiles_prefix ++ name) all_scopes) as [|k l]; [discriminate|]. intros _. exists k. rewrite app_assoc. apply K. now left.
    - intros (k & H). rewrite app_assoc in H. apply K in H. destruct (keys_with_prefix (e_settings e) (profiles_prefix ++ name) all_scopes); [destruct H|reflexivity]. }
  rewrite A, B. tauto.
Qed.

(** ** The keys of a profile *)

(** The whole chain of base profiles of the profile [name]. *)
Definition whole_chain (e : env) (name : str) (l : list str) : Prop :=
  exists m a, l = m ++ [a] /\ chain e l /\ hd_error l = Some name /\ NoDup l /\ base_profile e a = [].

(** Why there is no whole chain. *)
Inductive broken_chain (e : env) (name : str) : presult (list str) -> Prop :=
| bc_dangling l a b : chain e (l ++ [a]) -> hd_error (l ++ [a]) = Some name -> NoDup (l ++ [a]) ->
    base_profile e a = b -> b <> [] -> profile_exists e b = false -> broken_chain e name (Dangling a b)
| bc_circular l a : chain e (l ++ [a]) -> hd_error (l ++ [a]) = Some name -> NoDup l -> In a l -> broken_chain e name (Circular (l ++ [a])).

Lemma keys_of_sound fuel : forall e name l, chain e (l ++ [name]) -> NoDup l ->
  match keys_of fuel e name l with
  | TooDeep => (fuel + length l < depth e)%nat
  | Found ks => exists m a, chain e (l ++ m ++ [a]) /\ hd_error (m ++ [a]) = Some name /\ NoDup (l ++ m ++ [a]) /\ base_profile e a = [] /\
      (m <> [] -> sorted ks /\ NoDup ks) /\
      (m = [] -> ks = own_keys e name) /\
      forall k, In k ks <-> (exists b, In b (m ++ [a]) /\ In k (own_keys e b)) /\ (m = [] \/ k <> base_key)
  | r => forall n0, hd_error (l ++ [name]) = Some n0 -> broken_chain e n0 r
  end.
Proof.
  induction fuel as [|fuel IH]; intros e name l C Nd; cbn [keys_of].
  { unfold depth. destruct l as [|a l]; [cbn; lia|]. assert (X := chain_length e (a :: l) (chain_prefix _ _ _ C ltac:(discriminate)) Nd). cbn in *. lia. }
  cbn zeta. destruct (mem_str name l) eqn:M.
  - intros n0 Hn. apply mem_str_In in M. exact (bc_circular e n0 l name C Hn Nd M).
  - apply mem_str_not in M. assert (Nd' : NoDup (l ++ [name])).
    { apply (Permutation_NoDup (Permutation_cons_append l name)). now constructor. }
    destruct (base_profile e name) as [|c b] eqn:B.
    + exists [], name. cbn. do 4 (split; [auto|]). split; [congruence|]. split; [auto|]. intros k. split; [intros H; split; [exists name|]; auto|].
      intros [(b & [<-|[]] & H) _]. exact H.
    + destruct (profile_exists e (c :: b)) eqn:X.
      * assert (C' : chain e ((l ++ [name]) ++ [c :: b])).
        { rewrite <- app_assoc. cbn. apply chain_snoc; [exact C|]. split; [exact B|split; [discriminate|exact X]]. }
        specialize (IH e (c :: b) (l ++ [name]) C' Nd').
        destruct (keys_of fuel e (c :: b) (l ++ [name])) as [ks|ch|x y|].
        -- destruct IH as (m & a & C1 & H1 & N1 & B1 & _ & _ & K1). exists (name :: m), a. rewrite <- !app_assoc in *. cbn in *.
           do 4 (split; [auto|]).
           set (d := dedup (own_keys e name ++ ks)). assert (Dd : NoDup d) by apply dedup_from_NoDup.
           split; [intros _; split; [apply sort_sorted|apply sort_NoDup, remove_one_NoDup, Dd]|]. split; [discriminate|].
           intros k. rewrite sort_In, remove_one_In by exact Dd. unfold d. rewrite dedup_In, in_app_iff, K1. split.
           ++ intros [[H|[(q & Q1 & Q2) _]] Hk]; (split; [|now right]); [exists name; auto|exists q; auto].
           ++ intros [(q & [<-|Q1] & Q2) [Hk|Hk]]; try discriminate; (split; [|exact Hk]); [now left|]. right. split; [eauto|now right].
        -- intros n0 Hn. apply IH. destruct l; cbn in *; exact Hn.
        -- intros n0 Hn. apply IH. destruct l; cbn in *; exact Hn.
        -- rewrite app_length in IH. cbn in IH. lia.
      * intros n0 Hn. apply (bc_dangling e n0 l name (c :: b) C Hn Nd' B); [discriminate|exact X].
Qed.

(** C38: the keys of a profile are those of all profiles along the chain, sorted and without duplicates; the key for the base profile
    is left out, if there is one.  An error is reported exactly if the chain does not end. *)
Theorem profile_keys_exact fuel e name : (depth e <= fuel)%nat ->
  match profile_keys fuel e name with
  | Found ks => exists l, whole_chain e name l /\ (length l <> 1%nat -> sorted ks /\ NoDup ks) /\ (length l = 1%nat -> ks = own_keys e name) /\
      forall k, In k ks <-> (exists b, In b l /\ In k (own_keys e b)) /\ (length l = 1%nat \/ k <> base_key)
  | TooDeep => False
  | r => broken_chain e name r
  end.
Proof.
  intros Lf. unfold profile_keys. pose proof (keys_of_sound fuel e name [] (chain_one e name) (NoDup_nil _)) as H.
  destruct (keys_of fuel e name []) as [ks|ch|x y|]; cbn in H; try (apply H; reflexivity); try lia.
  destruct H as (m & a & C & Hn & N & B & S1 & S2 & K). exists (m ++ [a]).
  assert (E : length (m ++ [a]) = 1%nat <-> m = []) by (rewrite app_length; cbn; split; [destruct m; [auto|cbn; lia]|intros ->; reflexivity]).
  split; [exists m, a; auto|]. split; [intros H; apply S1; tauto|]. split; [intros H; apply S2; tauto|]. intros k. rewrite K, E. reflexivity.
Qed.
Lemma whole_not_broken e name l r : whole_chain e name l -> broken_chain e name r -> False.
Proof.
  intros (m & a & -> & C & Hn & N & B) H.
  assert (X : forall p b, chain e (p ++ [b]) -> hd_error (p ++ [b]) = Some name -> NoDup p -> exists q, m ++ [a] = (p ++ [b]) ++ q).
  { intros p b C' Hn' N'. destruct (chains_comparable e _ _ C C') as [(q & E)|(q & E)]; [congruence| |eauto].
    destruct q as [|c q]; [exists []; rewrite app_nil_r in *; congruence|]. exfalso. rewrite E, <- app_assoc in C'. cbn in C'.
    destruct (chain_link _ _ _ _ _ C') as (B1 & B2 & _). congruence. }
  destruct H as [p b c C' Hn' N' B1 B2 B3|p b C' Hn' N' I1].
  - assert (N'' := NoDup_remove_1 p [] b N'). rewrite app_nil_r in N''. destruct (X p b C' Hn' N'') as (q & E). destruct q as [|d q].
    + rewrite app_nil_r in E. apply app_inj_tail in E as [_ ->]. congruence.
    + rewrite E, <- app_assoc in C. cbn in C. destruct (chain_link _ _ _ _ _ C) as (D1 & D2 & D3). congruence.
  - destruct (X p b C' Hn' N') as (q & E). rewrite E, <- app_assoc in N. cbn in N. apply NoDup_remove_2 in N. apply N, in_app_iff. now left.
Qed.

(** A key that is listed for a profile itself has a value there. *)
Lemma own_key_value e b k : clean_settings (e_settings e) -> In k (own_keys e b) -> local_value e b k <> None.
Proof.
  intros C. unfold own_keys, local_value. destruct (map fst (local_values e b)) as [|x l] eqn:L.
  - intros H. destruct (find_value (local_values e b) k); [discriminate|]. apply (keys_with_prefix_exact (e_settings e) (profile_key b) all_scopes C) in H as [_ H].
    destruct (get_value _ _ _ _); [discriminate|congruence].
  - rewrite <- L. intros H. apply stored_key in H. destruct (find_value (local_values e b) k); [discriminate|congruence].
Qed.

(** C38: every key that is listed has a value. *)
Theorem listed_keys_have_values fuel e name ks k def : (depth e <= fuel)%nat -> clean_settings (e_settings e) ->
  profile_keys fuel e name = Found ks -> In k ks -> exists v, profile_value fuel e name k def = Found (Some v).
Proof.
  intros Lf Cl E Hk. pose proof (profile_keys_exact fuel e name Lf) as H. rewrite E in H. destruct H as (l & (m & a & El & C & Hn & N & B) & _ & _ & K).
  destruct (proj1 (K k) Hk) as [(b & Hb & Ho) _]. clear Hk. assert (Hk := own_key_value e b k Cl Ho).
  assert (X : exists l1 c l2 v, l = l1 ++ c :: l2 /\ Forall (lacks e k) l1 /\ local_value e c k = Some v).
  { clear -Hb Hk. induction l as [|x l IH]; [destruct Hb|]. destruct (local_value e x k) as [v|] eqn:Lx; [exists [], x, l, v; auto|].
    destruct Hb as [<-|Hb]; [congruence|]. destruct (IH Hb) as (l1 & c & l2 & v & -> & F & V). exists (x :: l1), c, l2, v. repeat split; auto. }
  destruct X as (l1 & c & l2 & v & E1 & F & V). exists v. apply profile_value_exact; [exact Lf|].
  assert (E2 : l = (l1 ++ [c]) ++ l2) by (rewrite <- app_assoc; exact E1). clear E1 El. subst l.
  apply (vs_found _ _ _ _ l1 c v).
  - apply (chain_prefix _ _ l2 C). destruct l1; discriminate.
  - destruct l1; exact Hn.
  - clear -N. induction (l1 ++ [c]) as [|x q IH]; [constructor|]. cbn in N. inversion N as [|? ? N1 N2]; subst. constructor; [|auto]. intros H. apply N1, in_app_iff. now left.
  - exact F.
  - exact V.
Qed.

(** C38: when the project defines no profiles of its own, every key with a value is listed. *)
Theorem values_are_listed fuel e name ks k v : (depth e <= fuel)%nat -> clean_settings (e_settings e) -> e_locals e = [] -> no_char 47 k -> k <> base_key ->
  profile_keys fuel e name = Found ks -> profile_value fuel e name k None = Found (Some v) -> In k ks.
Proof.
  intros Lf Cl El Nk Kb E V. pose proof (profile_keys_exact fuel e name Lf) as H. rewrite E in H. destruct H as (l & W & _ & _ & K).
  apply K. split; [|now right]. apply profile_value_exact in V; [|exact Lf]. inversion V as [p a w C Hn N La Lv|p a C Hn N La B| |]; subst.
  - exists a. split.
    + destruct W as (m & z & -> & C' & Hn' & N' & B'). destruct (chains_comparable e _ _ C C') as [(q & Eq)|(q & Eq)]; [congruence| |].
      * rewrite Eq. apply in_app_iff. left. apply in_app_iff. right. now left.
      * destruct q as [|y q]; [rewrite app_nil_r in Eq; rewrite <- Eq; apply in_app_iff; right; now left|]. exfalso.
        rewrite Eq, <- app_assoc in C. cbn in C. destruct (chain_link _ _ _ _ _ C) as (B1 & B2 & _). congruence.
    + unfold own_keys, local_value, local_values in *. rewrite El in *. cbn [find find_value map] in *. apply (keys_with_prefix_exact (e_settings e) (profile_key a) all_scopes Cl).
      split; [exact Nk|]. intros G. rewrite G in Lv. discriminate.
Qed.

(** ** The configuration for a profile *)

Definition find_conf (conf : list (str * option value)) (k : str) : option (option value) :=
  match find (fun e => str_eqb (fst e) k) conf with Some e => Some (snd e) | None => None end.

Lemma profile_config_spec fuel e name : forall keys conf conf', profile_config fuel e name keys conf = Some conf' ->
  (forall k, In k keys -> exists v, profile_value fuel e name k None = Found v) /\
  forall k, find_conf conf' k = if mem_str k keys then match profile_value fuel e name k None with Found v => Some v | _ => None end else find_conf conf k.
Proof.
  induction keys as [|x keys IH]; intros conf conf' H; cbn [profile_config] in H.
  - injection H as <-. split; [intros k []|reflexivity].
  - destruct (profile_value fuel e name x None) as [v| | |] eqn:V; try discriminate. destruct (IH _ _ H) as [A B]. split.
    + intros k [<-|Hk]; eauto.
    + intros k. rewrite B. change (mem_str k (x :: keys)) with (str_eqb k x || mem_str k keys). destruct (mem_str k keys) eqn:M; [now rewrite orb_true_r|]. rewrite orb_false_r.
      unfold find_conf at 1. cbn. rewrite (str_eqb_sym x k). destruct (str_eqb k x) eqn:E; [|reflexivity]. apply str_eqb_eq in E as ->. now rewrite V.
Qed.

(** C38: the configuration has the inherited value for every key of the profile, the name of the configuration, and nothing else. *)
Theorem configuration_exact fuel e name config conf : (depth e <= fuel)%nat -> clean_settings (e_settings e) ->
  expanded fuel e name config = Some conf ->
  find_conf conf config_name_key = Some (Some (VStr config)) /\
  forall k, k <> config_name_key ->
    match find_conf conf k with
    | Some v => name <> none_name /\ profile_exists e name = true /\ (exists ks, profile_keys fuel e name = Found ks /\ In k ks) /\ (exists w, v = Some w /\ value_spec e name k None (Found (Some w)))
    | None => name = none_name \/ profile_exists e name = false \/ exists ks, profile_keys fuel e name = Found ks /\ ~ In k ks
    end.
Proof.
  intros Lf Cl. unfold expanded.
  destruct (profile_exists e name && negb (str_eqb name none_name)) eqn:X.
  - apply andb_prop in X as [X1 X2]. apply negb_true_iff, str_eqb_neq in X2. destruct (profile_keys fuel e name) as [ks| | |] eqn:K; try discriminate.
    destruct ks as [|k0 ks']; [discriminate|]. set (ks := k0 :: ks') in *. destruct (profile_config fuel e name ks []) as [c|] eqn:P; [|discriminate].
    destruct config as [|x config]; [discriminate|]. intros [= <-]. apply profile_config_spec in P as [P1 P2]. split; [reflexivity|].
    intros k Hk. unfold find_conf. cbn [find fst]. assert (E : str_eqb config_name_key k = false) by (apply str_eqb_neq; congruence). rewrite E.
    fold (find_conf c k). rewrite P2. destruct (mem_str k ks) eqn:M.
    + apply mem_str_In in M. destruct (listed_keys_have_values fuel e name ks k None Lf Cl K M) as (v & V). rewrite V.
      split; [exact X2|]. split; [exact X1|]. split; [eauto|]. exists v. split; [reflexivity|]. now apply (profile_value_exact fuel).
    + apply mem_str_not in M. right. right. eauto.
  - destruct config as [|x config]; [discriminate|]. intros [= <-]. split; [reflexivity|]. intros k Hk. unfold find_conf. cbn [find fst].
    assert (E : str_eqb config_name_key k = false) by (apply str_eqb_neq; congruence). rewrite E. cbn.
    apply andb_false_iff in X as [X|X]; [now right; left|left]. apply negb_false_iff, str_eqb_eq in X. exact X.
Qed.

(** ** Preferences *)

(** How numbers and truth values are stored, and read by profiles. *)
Theorem stored_value v : (forall l, v <> VHash l) -> from_settings (to_settings v) = v.
Proof. destruct v; cbn; auto. intros H. now destruct (H l). Qed.

(** C52: a preference is that of the profile, if it or one of its bases has one, else the general one, else the default.  Search paths of
    the profile are followed by the general ones. *)
Theorem preference_exact fuel e name key def : (depth {| e_settings := e_settings e; e_locals := [] |} <= fuel)%nat -> name <> [] ->
  let p := {| p_env := e; p_profile := name; p_contents := [] |} in
  let full := preferences_word ++ 46 :: key in
  let sc := if ignore_system fuel p then user_scope else all_scopes in
  (forall v, value_spec {| e_settings := e_settings e; e_locals := [] |} name full None (Found (Some v)) ->
     (key <> search_paths_word -> preference fuel p key def = Some v) /\
     (key = search_paths_word -> preference fuel p key def = Some (VStrs (to_strs v ++ opt_strs (get_value (e_settings e) full sc None))))) /\
  ((forall v, ~ value_spec {| e_settings := e_settings e; e_locals := [] |} name full None (Found (Some v))) ->
     (key <> search_paths_word -> preference fuel p key def = get_value (e_settings e) full all_scopes def) /\
     (key = search_paths_word -> preference fuel p key def = get_value (e_settings e) full sc def)).
Proof.
  intros Lf Hn p full sc. destruct name as [|c name]; [congruence|]. unfold preference. fold sc. unfold preference_in. cbn [p_profile p_env p_contents p].
  fold full. set (e0 := {| e_settings := e_settings e; e_locals := [] |}) in *. split.
  - intros v V. apply (profile_value_exact fuel) in V; [|exact Lf]. rewrite V. cbn [quiet]. split.
    + intros Ne. apply str_eqb_neq in Ne. now rewrite Ne.
    + intros ->. rewrite str_eqb_refl. cbn [andb]. reflexivity.
  - intros H. assert (Q : quiet (profile_value fuel e0 (c :: name) full None) = None).
    { destruct (profile_value fuel e0 (c :: name) full None) as [[v|]| | |] eqn:V; try reflexivity. exfalso. apply (H v). now apply (profile_value_exact fuel). }
    rewrite Q. cbn [find_value find]. split.
    + intros Ne. apply str_eqb_neq in Ne. now rewrite Ne.
    + intros ->. rewrite str_eqb_refl. cbn [andb]. reflexivity.
Qed.
(** Without a profile, contents given for one come first. *)
Theorem preference_contents fuel e contents key def : key <> search_paths_word ->
  preference fuel {| p_env := e; p_profile := []; p_contents := contents |} key def =
  match find_value contents key with Some v => Some v | None => get_value (e_settings e) (preferences_word ++ 46 :: key) all_scopes def end.
Proof.
  intros Ne. unfold preference, preference_in. cbn [p_profile p_env p_contents]. apply str_eqb_neq in Ne. rewrite Ne. reflexivity.
Qed.

(** *** Limits for job pools *)

Lemma get_set_limit ls pool l pool' : get_limit (set_limit ls (job_limit pool l)) pool' = if str_eqb pool pool' then transform_limit l else get_limit ls pool'.
Proof.
  unfold job_limit. induction ls as [|[q x] ls IH]; cbn; [reflexivity|]. destruct (str_eqb q pool) eqn:E; cbn.
  - apply str_eqb_eq in E as ->. destruct (Z.eqb_spec x (transform_limit l)) as [->|Ne]; cbn; destruct (str_eqb pool pool') eqn:E2; auto.
  - destruct (str_eqb q pool') eqn:E2; [|exact IH]. apply str_eqb_eq in E2 as ->. rewrite str_eqb_sym, E. reflexivity.
Qed.

(** The limits from the general preferences. *)
Definition general_limit (s : settings) (pool : str) : Z :=
  match get_value s (job_limit_prefix ++ 46 :: pool) all_scopes None with Some v => transform_limit (to_int v) | None => (-1)%Z end.
Theorem general_limits_exact s pool : clean_settings s -> no_char 47 pool -> get_limit (general_limits s) pool = general_limit s pool.
Proof.
  intros C Np. destruct (keys_with_prefix_exact s job_limit_prefix all_scopes C) as (_ & _ & K). unfold general_limits, general_limit. specialize (K pool).
  assert (G : forall l ls, get_limit (fold_left (fun ls k => set_limit ls (job_limit k (opt_int (get_value s (job_limit_prefix ++ 46 :: k) all_scopes None)))) l ls) pool
    = if mem_str pool l then transform_limit (opt_int (get_value s (job_limit_prefix ++ 46 :: pool) all_scopes None)) else get_limit ls pool).
  { induction l as [|x l IH]; intros ls; [reflexivity|]. cbn [fold_left]. rewrite IH, get_set_limit. change (mem_str pool (x :: l)) with (str_eqb pool x || mem_str pool l).
    destruct (mem_str pool l); [now rewrite orb_true_r|]. rewrite orb_false_r, (str_eqb_sym x pool). destruct (str_eqb pool x) eqn:E; [|reflexivity]. apply str_eqb_eq in E as ->. reflexivity. }
  rewrite G. destruct (mem_str pool _) eqn:M.
  - apply mem_str_In, K in M as [_ M]. destruct (get_value s (job_limit_prefix ++ 46 :: pool) all_scopes None); [reflexivity|congruence].
  - apply mem_str_not in M. destruct (get_value s (job_limit_prefix ++ 46 :: pool) all_scopes None) eqn:V; [|reflexivity]. exfalso. apply M, K. split; [exact Np|discriminate].
Qed.

(** C52: the limit for a job pool is the profile's, if it is listed there and not negative, else the general one. *)
Theorem pref_limits_exact fuel e name pool : clean_settings (e_settings e) -> no_char 47 pool -> name <> [] -> (depth e <= fuel)%nat ->
  let key := job_limit_prefix ++ 46 :: pool in
  get_limit (pref_limits fuel {| p_env := e; p_profile := name; p_contents := [] |}) pool =
  match profile_keys fuel e name with
  | Found ks =>
      if mem_str key ks then
        match profile_value fuel e name key None with
        | Found (Some v) => if (0 <=? to_int v)%Z then transform_limit (to_int v) else general_limit (e_settings e) pool
        | _ => transform_limit 0
        end
      else general_limit (e_settings e) pool
  | _ => general_limit (e_settings e) pool
  end.
Proof.
  intros Cl Np Hn Lf key. assert (Ek : key = job_limit_prefix ++ 46 :: pool) by reflexivity. clearbody key. unfold pref_limits. cbn [p_env p_profile]. destruct name as [|c0 name0]; [congruence|]. set (name := c0 :: name0) in *.
  rewrite <- (general_limits_exact (e_settings e) pool Cl Np). set (g := general_limits (e_settings e)).
  destruct (profile_keys fuel e name) as [ks| | |]; try reflexivity. generalize g as ls. clear g. induction ks as [|k ks IH]; intros ls; [reflexivity|].
  cbn [fold_left]. rewrite IH. change (mem_str key (k :: ks)) with (str_eqb key k || mem_str key ks). destruct (mem_str key ks); [rewrite orb_true_r|rewrite orb_false_r].
  - destruct (profile_value fuel e name key None) as [[v|]| | |] eqn:V; try reflexivity. destruct (0 <=? to_int v)%Z eqn:P; [reflexivity|].
    destruct (strip (job_limit_prefix ++ [46]) k) as [q|] eqn:S1; [|reflexivity]. apply strip_spec in S1. rewrite <- app_assoc in S1. change ([46] ++ q) with (46 :: q) in S1. cbn zeta.
    destruct (str_eqb q pool) eqn:E; [apply str_eqb_eq in E as ->; rewrite <- Ek in S1; rewrite S1, V; cbn [quiet opt_int]; now rewrite P|].
    destruct (0 <=? opt_int (quiet (profile_value fuel e name k None)))%Z; [|reflexivity]. now rewrite get_set_limit, E.
  - destruct (strip (job_limit_prefix ++ [46]) k) as [q|] eqn:S1.
    + apply strip_spec in S1. rewrite <- app_assoc in S1. change ([46] ++ q) with (46 :: q) in S1. cbn zeta. destruct (str_eqb key k) eqn:E.
      * apply str_eqb_eq in E. assert (E2 : q = pool) by (rewrite <- E, Ek in S1; apply app_inv_head in S1; congruence). rewrite <- E, E2.
        destruct (profile_value fuel e name key None) as [[v|]| | |]; cbn [quiet opt_int]; try (destruct (0 <=? to_int v)%Z; [|reflexivity]);
          change (0 <=? 0)%Z with true; cbv iota; now rewrite get_set_limit, str_eqb_refl.
      * assert (Q : str_eqb q pool = false) by (apply str_eqb_neq; intros ->; apply str_eqb_neq in E; apply E; congruence).
        destruct (0 <=? opt_int (quiet (profile_value fuel e name k None)))%Z; [|reflexivity]. now rewrite get_set_limit, Q.
    + destruct (str_eqb key k) eqn:E; [|reflexivity]. apply str_eqb_eq in E. exfalso.
      assert (X : strip (job_limit_prefix ++ [46]) key = Some pool) by (apply strip_spec; rewrite Ek; now rewrite <- app_assoc). congruence.
Qed.

(** C53, as far as it holds: what the user sets is what they get, for the values of profiles and for all values that are neither
    numbers nor truth values. *)
Theorem set_takes_effect_partial s key v s' : set_value s key (to_settings v) = Some s' -> write_user s = true -> (forall l, v <> VHash l) ->
  find_value (system s) (internal key) = None ->
  (forall name k, key = profile_key name ++ 46 :: k -> local_value {| e_settings := s'; e_locals := [] |} name k = Some v)
  /\ ((forall z, v <> VNum z) -> (forall b, v <> VBool b) -> get_value s' key all_scopes None = Some v).
Proof.
  unfold set_value. destruct (starts_with (profiles_prefix ++ none_name) key); [discriminate|]. intros [= <-] W H Sy.
  assert (G : get_value (on_target s (fun f => put f (internal key) (to_settings v))) key all_scopes None = Some (to_settings v)).
  { unfold get_value, on_target. rewrite W. cbn [in_user in_system all_scopes user system]. rewrite find_put, str_eqb_refl, Sy. now destruct (to_settings v). }
  split.
  - intros name k ->. unfold local_value. cbn [local_values e_locals find find_value e_settings]. rewrite G. cbn [option_map]. now rewrite (stored_value v H).
  - intros H1 H2. rewrite G. destruct v; try reflexivity; [now destruct (H1 z)|now destruct (H2 b)].
Qed.

(** * Examples *)

Module Demo.
  Definition gcc : str := [103; 99; 99].
  Definition mine : str := [109; 121].
  Definition x : str := [120].
  Definition y : str := [121].
  Definition z : str := [122].
  Definition key (p k : str) : str := profile_key p ++ 46 :: k.
  (** Profile gcc has x and y; profile my is based on it and has y and z; the system's settings have y and a list z for gcc. *)
  Definition ops : list op :=
    [Set_ (key gcc x) (to_settings (VNum 1)); Set_ (key gcc y) (VStr x); Set_ (key mine y) (VStr y); Set_ (key mine z) (VStrs [x]); Set_ (key mine base_key) (VStr gcc);
     Target false; Set_ (key gcc y) (VStr z); Set_ (key mine z) (VStrs [y; z]); Target true].
  Definition s : settings := fold_left run_op ops empty_settings.
  Definition e : env := {| e_settings := s; e_locals := [] |}.

  Example ops_keys : Forall (fun o => no_char 47 (op_key o)) ops.
  Proof. unfold no_char. repeat (constructor; [cbn; intuition discriminate|]). constructor. Qed.
  Example values : profile_value 20 e mine x None = Found (Some (VNum 1)) /\ profile_value 20 e mine y None = Found (Some (VStr y))
    /\ profile_value 20 e mine z None = Found (Some (VStrs [x; y; z])) /\ profile_value 20 e gcc y None = Found (Some (VStr x))
    /\ profile_value 20 e mine gcc None = Found None.
  Proof. vm_compute. auto. Qed.
  Example deep_enough : (depth e <= 100)%nat.
  Proof. unfold depth. vm_compute. repeat constructor. Qed.
  Example keys : profile_keys 20 e mine = Found [x; y; z] /\ profile_keys 20 e gcc = Found [x; y] /\ profile_names s = [gcc; mine].
  Proof. vm_compute. auto. Qed.
  Example configuration : exists conf, expanded 20 e mine x = Some conf /\ find_conf conf y = Some (Some (VStr y)) /\ find_conf conf config_name_key = Some (Some (VStr x)) /\ find_conf conf gcc = None.
  Proof. eexists. split; [vm_compute; reflexivity|]. vm_compute. auto. Qed.
  (** After removing the profile gcc, its dependent cannot be used. *)
  Example dangling : let e' := {| e_settings := fold_left run_op [Remove (profile_key gcc); Target false; Remove (profile_key gcc)] s; e_locals := [] |} in
    profile_value 20 e' mine x None = Dangling mine gcc /\ profile_value 20 e' mine y None = Found (Some (VStr y)) /\ profile_keys 20 e' mine = Dangling mine gcc.
  Proof. vm_compute. auto. Qed.
  Example circular : let e' := {| e_settings := fold_left run_op [Set_ (key gcc base_key) (VStr mine)] s; e_locals := [] |} in
    profile_value 20 e' mine gcc None = Circular [mine; gcc; mine] /\ profile_value 20 e' mine x None = Found (Some (VNum 1)) /\ profile_keys 20 e' mine = Circular [mine; gcc; mine].
  Proof. vm_compute. auto. Qed.

  (** Preferences of a profile, and its limit for a job pool. *)
  Definition pool : str := [108; 105; 110; 107].
  Definition e2 : env := {| e_locals := []; e_settings := fold_left run_op
    [Set_ (key gcc (job_limit_prefix ++ 46 :: pool)) (to_settings (VNum 4)); Set_ (job_limit_prefix ++ 46 :: x) (VStr [55]);
     Set_ (key gcc (preferences_word ++ 46 :: search_paths_word)) (VStr y); Set_ (preferences_word ++ 46 :: search_paths_word) (VStrs [z])] s |}.
  Example limits_example : let l := pref_limits 20 {| p_env := e2; p_profile := mine; p_contents := [] |} in
    get_limit l pool = 4%Z /\ get_limit l x = 7%Z /\ get_limit l y = (-1)%Z.
  Proof. vm_compute. auto. Qed.
  Example search_example : path_list 20 {| p_env := e2; p_profile := mine; p_contents := [] |} search_paths_word x = [y; z; x].
  Proof. vm_compute. auto. Qed.
End Demo.

(** A general preference that is a number is stored in such a way (tools/settingsrepresentation.cpp 72-91) that reading it gives zero: the limit that the
    documentation says to set as in [qbs config preferences.jobLimit.linker 4] is no limit at all, and the number of jobs becomes zero. *)
Theorem numeric_preference_refuted : exists pool s s', clean_settings s /\
  set_value s (job_limit_prefix ++ 46 :: pool) (to_settings (VNum 4)) = Some s' /\ get_limit (general_limits s') pool = int_max
  /\ exists key s'' fuel, set_value s (preferences_word ++ 46 :: key) (to_settings (VNum 4)) = Some s''
     /\ option_map to_int (preference fuel {| p_env := {| e_settings := s''; e_locals := [] |}; p_profile := []; p_contents := [] |} key None) = Some 0%Z.
Proof.
  exists Demo.pool, empty_settings. eexists. split; [split; intros k v []|]. split; [vm_compute; reflexivity|]. split; [vm_compute; reflexivity|].
  exists [106; 111; 98; 115]. eexists. exists 10%nat. split; vm_compute; reflexivity.
Qed.

(** A key may have a value without being listed, when the project defines a profile that is also in the settings. *)
Theorem keys_with_values_refuted : exists e name k v ks fuel, (depth e <= fuel)%nat /\ clean_settings (e_settings e) /\ no_char 47 k /\ k <> base_key /\
  profile_keys fuel e name = Found ks /\ profile_value fuel e name k None = Found (Some v) /\ ~ In k ks.
Proof.
  exists {| e_settings := Demo.s; e_locals := [(Demo.gcc, [(Demo.z, VNum 5)])] |}, Demo.gcc, Demo.x. do 2 eexists. exists 100%nat.
  split; [unfold depth; vm_compute; repeat constructor|]. split; [apply settings_clean|]. split; [unfold no_char; cbn; intuition discriminate|]. split; [discriminate|].
  split; [vm_compute; reflexivity|]. split; [vm_compute; reflexivity|]. cbn. intuition discriminate.
Qed.

(** Values for other profiles whose names begin like the reserved one are refused. *)
Theorem reserved_name_refuted : exists s name k v, name <> none_name /\ starts_with (none_name ++ [46]) (name ++ 46 :: k) = false /\ set_value s (profile_key name ++ 46 :: k) v = None.
Proof.
  exists empty_settings, [110; 111; 110; 101; 120], Demo.x, (VNum 1). split; [discriminate|]. split; vm_compute; reflexivity.
Qed.

Print Assumptions value_spec_unique.
Print Assumptions profile_value_exact.
Print Assumptions profile_exists_exact.
Print Assumptions profile_keys_exact.
Print Assumptions whole_not_broken.
Print Assumptions listed_keys_have_values.
Print Assumptions values_are_listed.
Print Assumptions configuration_exact.
Print Assumptions all_keys_exact.
Print Assumptions keys_with_prefix_exact.
Print Assumptions settings_exact.
Print Assumptions settings_clean.
Print Assumptions profile_names_exact.
Print Assumptions stored_value.
Print Assumptions preference_exact.
Print Assumptions preference_contents.
Print Assumptions general_limits_exact.
Print Assumptions pref_limits_exact.
Print Assumptions set_takes_effect_partial.
Print Assumptions numeric_preference_refuted.
Print Assumptions keys_with_values_refuted.
Print Assumptions reserved_name_refuted.
