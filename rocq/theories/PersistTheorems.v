(** The build graph file: values and object graphs that are written are read back. *)
From Coq Require Import List Bool Arith NArith ZArith Lia.
From Verif Require Import Str LauncherModel LauncherTheorems PersistModel.
Import ListNotations.

(** ** Specification *)

Definition int_ok (i : ity) (z : Z) : Prop :=
  if ity_signed i then (- ity_size i <= 2 * z < ity_size i)%Z else (0 <= z < ity_size i)%Z.
Definition count_ok {A} (i : ity) (l : list A) : Prop := int_ok i (Z.of_nat (length l)).

(** What a variant may hold besides numbers: maps and lists of variants, strings and string lists (QMetaType 8 to 11). *)
Inductive variant_type : N -> ty -> Prop :=
| vt_map : variant_type 8%N (TMap I32 TStr TVariant)
| vt_list : variant_type 9%N (TList TVariant)
| vt_string : variant_type 10%N TStr
| vt_strings : variant_type 11%N TStrs.

Section Spec.
  Variable classes : nat -> list ty.
  (** Every object is referred to either by raw pointers or by shared pointers. *)
  Variable own : nat -> ownership.
  Variable H : heap.
  (** Whether null strings are excluded inside string lists and environments. *)
  Variable strict : bool.

  Definition inner_ok (s : qstr) : Prop := string_ok s /\ (strict = true -> s <> None).

  (** [typed t v]: the value [v] has the type [t], and numbers, lengths and characters are in the ranges of their C++ types. *)
  Inductive typed : ty * val -> Prop :=
  | t_int i z : int_ok i z -> typed (TInt i, VInt z)
  | t_str s : string_ok s -> typed (TStr, VStr s)
  | t_strs l : Forall inner_ok l -> count_ok I32 l -> typed (TStrs, VStrs l)
  | t_env e : Forall (fun kv => string_ok (Some (fst kv)) /\ fst kv <> [] /\ inner_ok (snd kv)) e -> NoDup (map fst e)
              -> count_ok I32 e -> typed (TEnv, VEnv e)
  | t_raw tid null data : raw_size tid = Some (length data) -> (null = false -> forall t, ~ variant_type tid t) -> typed (TVariant, VRaw tid null data)
  | t_held tid t v : variant_type tid t -> typed (t, v) -> typed (TVariant, VHeld tid v)
  | t_pair a b x y : typed (a, x) -> typed (b, y) -> typed (TPair a b, VPair x y)
  | t_list t l : Forall typed (map (pair t) l) -> count_ok I32 l -> typed (TList t, VList l)
  | t_map c k v l : Forall typed (entries k v l) -> NoDup (map fst l) -> count_ok c l -> typed (TMap c k v, VMap l)
  | t_none t : typed (TOpt t, VNone)
  | t_some t v : typed (t, v) -> typed (TOpt t, VSome v)
  | t_case cases tag t v : find_case tag cases = Some t -> int_ok U8 tag -> typed (t, v) -> typed (TUnion cases, VCase tag v)
  | t_null o c : typed (TPtr o c, VNull)
  | t_ptr o c a fields : own a = o -> H a = Some (c, fields) -> typed (TPtr o c, VPtr a).

  Definition heap_ok : Prop :=
    forall a c fields, H a = Some (c, fields) -> length fields = length (classes c) /\ Forall typed (combine (classes c) fields).

  (** [same names v v']: the value that was read is the one that was written, where the object number [i] of the reader
      is the object [names[i]] of the writer. *)
  Definition same_strs (l l' : list qstr) : Prop := if strict then l' = l else map plain l' = map plain l.
  Definition same_env (e e' : list (str * qstr)) : Prop := map fst e' = map fst e /\ same_strs (map snd e) (map snd e').
  Inductive same (names : list nat) : val -> val -> Prop :=
  | sm_int z : same names (VInt z) (VInt z)
  | sm_str s : same names (VStr s) (VStr s)
  | sm_strs l l' : same_strs l l' -> same names (VStrs l) (VStrs l')
  | sm_env e e' : same_env e e' -> same names (VEnv e) (VEnv e')
  | sm_raw t n d : same names (VRaw t n d) (VRaw t n d)
  | sm_held t v v' : same names v v' -> same names (VHeld t v) (VHeld t v')
  | sm_pair a b a' b' : same names a a' -> same names b b' -> same names (VPair a b) (VPair a' b')
  | sm_list l l' : Forall2 (same names) l l' -> same names (VList l) (VList l')
  | sm_map l l' : Forall2 (fun e e' => same names (fst e) (fst e') /\ same names (snd e) (snd e')) l l' -> same names (VMap l) (VMap l')
  | sm_none : same names VNone VNone
  | sm_some v v' : same names v v' -> same names (VSome v) (VSome v')
  | sm_case t v v' : same names v v' -> same names (VCase t v) (VCase t v')
  | sm_null : same names VNull VNull
  | sm_ptr a i : nth_error names i = Some a -> same names (VPtr a) (VPtr i).

  (** The object [i] that was read is the object [names[i]] that was written: same class, same fields. *)
  Fixpoint find_obj (i : nat) (h : list (nat * (nat * list val))) : option (nat * list val) :=
    match h with [] => None | (j, o) :: h => if i =? j then Some o else find_obj i h end.
  Definition same_object (names : list nat) (ld : lst) (i : nat) : Prop :=
    exists a c fields fields', nth_error names i = Some a /\ H a = Some (c, fields)
      /\ find_obj i (l_heap ld) = Some (c, fields') /\ Forall2 (same names) fields fields'.
End Spec.

(** No pointers. *)
Fixpoint pointer_free (v : val) : bool :=
  match v with
  | VHeld _ v | VSome v | VCase _ v => pointer_free v
  | VPair a b => pointer_free a && pointer_free b
  | VList l => forallb pointer_free l
  | VMap l => forallb (fun e => pointer_free (fst e) && pointer_free (snd e)) l
  | VPtr _ => false
  | _ => true
  end.

(** ** Proofs *)

Section ValInd.
  Variable P : val -> Prop.
  Hypothesis h_int : forall z, P (VInt z).
  Hypothesis h_str : forall s, P (VStr s).
  Hypothesis h_strs : forall l, P (VStrs l).
  Hypothesis h_env : forall e, P (VEnv e).
  Hypothesis h_raw : forall t n d, P (VRaw t n d).
  Hypothesis h_held : forall t v, P v -> P (VHeld t v).
  Hypothesis h_pair : forall a b, P a -> P b -> P (VPair a b).
  Hypothesis h_list : forall l, Forall P l -> P (VList l).
  Hypothesis h_map : forall l, Forall (fun e => P (fst e) /\ P (snd e)) l -> P (VMap l).
  Hypothesis h_none : P VNone.
  Hypothesis h_some : forall v, P v -> P (VSome v).
  Hypothesis h_case : forall t v, P v -> P (VCase t v).
  Hypothesis h_null : P VNull.
  Hypothesis h_ptr : forall a, P (VPtr a).
  Fixpoint val_ind' (v : val) : P v :=
    match v with
    | VInt z => h_int z | VStr s => h_str s | VStrs l => h_strs l | VEnv e => h_env e | VRaw t n d => h_raw t n d
    | VHeld t v => h_held t v (val_ind' v)
    | VPair a b => h_pair a b (val_ind' a) (val_ind' b)
    | VList l => h_list l ((fix go l : Forall P l := match l with [] => Forall_nil _ | v :: l => Forall_cons _ (val_ind' v) (go l) end) l)
    | VMap l => h_map l ((fix go l : Forall (fun e => P (fst e) /\ P (snd e)) l :=
                            match l with [] => Forall_nil _ | e :: l => Forall_cons _ (conj (val_ind' (fst e)) (val_ind' (snd e))) (go l) end) l)
    | VNone => h_none
    | VSome v => h_some v (val_ind' v)
    | VCase t v => h_case t v (val_ind' v)
    | VNull => h_null
    | VPtr a => h_ptr a
    end.
End ValInd.

Lemma Forall2_strengthen {A B} (P : A -> Prop) (Q Q' : A -> B -> Prop) l l' :
  Forall P l -> Forall2 Q l l' -> (forall a b, P a -> Q a b -> Q' a b) -> Forall2 Q' l l'.
Proof. intros HP F2 K. induction F2; inversion HP; subst; constructor; auto. Qed.

Lemma Forall2_len {A B} (P : A -> B -> Prop) l l' : Forall2 P l l' -> length l = length l'.
Proof. induction 1; cbn; auto. Qed.

(** *** Numbers and tables *)

Lemma ity_size_pos i : (0 < ity_size i)%Z. Proof. destruct i; reflexivity. Qed.
Lemma ity_size_even i : exists h, ity_size i = (2 * h)%Z /\ (0 < h)%Z.
Proof. destruct i; [exists 128%Z|exists 128%Z|exists 32768%Z|exists 32768%Z|exists 2147483648%Z|exists 2147483648%Z
                   |exists 9223372036854775808%Z|exists 9223372036854775808%Z]; split; reflexivity. Qed.
Lemma ity_size_N i : (256 ^ N.of_nat (ity_bytes i))%N = Z.to_N (ity_size i). Proof. destruct i; reflexivity. Qed.

Lemma reads_Int i z : int_ok i z -> reads (rInt i) (wInt i z) z.
Proof.
  intros Hz rest. unfold rInt, wInt, bind. rewrite take_be. unfold ret.
  pose proof (ity_size_pos i) as P. assert (B : (0 <= z mod ity_size i < ity_size i)%Z) by (apply Z.mod_pos_bound; lia).
  rewrite unbe_be by (rewrite ity_size_N; lia). f_equal. f_equal.
  unfold of_bytes, int_ok in *. rewrite Z2N.id by lia.
  destruct (ity_size_even i) as (h & Eh & Hh). destruct (ity_signed i); cbn [andb].
  - assert (M : (z mod ity_size i = if z <? 0 then z + ity_size i else z)%Z).
    { destruct (Z.ltb_spec z 0); [symmetry; apply (Z.mod_unique_pos z _ (-1)); lia|apply Z.mod_small; lia]. }
    rewrite M. destruct (Z.ltb_spec z 0); match goal with |- context [(?a <=? ?b)%Z] => destruct (Z.leb_spec a b) end; lia.
  - apply Z.mod_small. lia.
Qed.

Lemma int32_ok z : (-2147483648 <= z <= int_max)%Z -> int_ok I32 z.
Proof. unfold int_ok, int_max, ity_signed. change (ity_size I32) with 4294967296%Z. lia. Qed.
Lemma reads_Id n : fits n = true -> reads (rInt I32) (wId n) (Z.of_nat n).
Proof. unfold fits. rewrite Z.leb_le. intros F. apply reads_Int, int32_ok. lia. Qed.

Lemma read_reads {A B} (r : reader A) w a (k : A -> str -> result B) rest : reads r w a -> read r (w ++ rest) k = k a rest.
Proof. intros R. unfold read. now rewrite R. Qed.

Lemma index_of_some {A} (eqb : A -> A -> bool) (E : forall x y, eqb x y = true <-> x = y) x l i :
  index_of eqb x l = Some i -> nth_error l i = Some x.
Proof.
  revert i. induction l as [|y l IH]; intros i; cbn [index_of]; [discriminate|]. destruct (eqb x y) eqn:Q.
  - intros [= <-]. apply E in Q. now subst.
  - destruct (index_of eqb x l) as [j|]; [|discriminate]. intros [= <-]. now apply IH.
Qed.
Lemma index_of_none {A} (eqb : A -> A -> bool) (E : forall x y, eqb x y = true <-> x = y) x l :
  index_of eqb x l = None -> ~ In x l.
Proof.
  induction l as [|y l IH]; cbn [index_of]; [auto|]. destruct (eqb x y) eqn:Q; [discriminate|].
  destruct (index_of eqb x l) as [j|]; [discriminate|]. intros _ [->|K]; [|now apply IH].
  assert (eqb x x = true) by now apply E. congruence.
Qed.
Lemma list_eqb_eq {A} (eqb : A -> A -> bool) (E : forall x y, eqb x y = true <-> x = y) a b : list_eqb eqb a b = true <-> a = b.
Proof.
  revert b. induction a as [|x a IH]; intros [|y b]; cbn [list_eqb]; try (split; congruence).
  rewrite andb_true_iff, E, IH. split; [intros [-> ->]; auto|intros [= -> ->]; auto].
Qed.
Lemma var_eqb_eq a b : var_eqb a b = true <-> a = b.
Proof.
  destruct a, b. unfold var_eqb. cbn [fst snd]. rewrite andb_true_iff, !str_eqb_eq. split; [intros [-> ->]; auto|intros [= -> ->]; auto].
Qed.

Lemma put_end {A} (d : A) l x : put d l (length l) x = l ++ [x].
Proof. unfold put. now rewrite firstn_all, Nat.sub_diag. Qed.
Lemma put_nth {A} (d : A) l n x : length l <= n -> nth_error (put d l n x) n = Some x.
Proof.
  intros L. unfold put. rewrite firstn_all2 by lia. rewrite nth_error_app2 by lia.
  rewrite nth_error_app2 by (rewrite repeat_length; lia). rewrite repeat_length, Nat.sub_diag. reflexivity.
Qed.
Lemma put_old {A} (d : A) l n x i : length l <= n -> i < length l -> nth_error (put d l n x) i = nth_error l i.
Proof. intros L Hi. unfold put. rewrite firstn_all2 by lia. now rewrite nth_error_app1. Qed.
Lemma put_length {A} (d : A) l n x : length l <= n -> length (put d l n x) = S n.
Proof. intros L. unfold put. rewrite firstn_all2 by lia. rewrite !app_length, repeat_length. cbn. lia. Qed.

Lemma prepend_done {A} w (r : result (A * str)) st' w' :
  prepend w r = Done (st', w') -> exists w1, r = Done (st', w1) /\ w' = w ++ w1.
Proof. destruct r as [[a b]|]; cbn; [|discriminate]. intros [= -> <-]. eauto. Qed.

Lemma done_inj {A B} (a c : A) (b d : B) : Done (a, b) = Done (c, d) -> a = c /\ b = d.
Proof. intros [= -> ->]. auto. Qed.

Lemma plain_map_Some (l : list str) : map plain (map Some l) = l.
Proof. rewrite map_map. cbn. apply map_id. Qed.

Section Proofs.
  Variable classes : nat -> list ty.
  Variable own : nat -> ownership.
  Variable H : heap.
  Variable strict : bool.
  Notation typed := (typed own H strict).
  Notation same := (same strict).
  Notation same_object := (same_object H strict).
  Hypothesis HH : heap_ok classes own H strict.

  Definition no_null (s : qstr) : Prop := strict = true -> s <> None.

  (** Identifiers in use fit.  (They were written when they were new.) *)
  Definition ids_fit (st : sst) : Prop :=
    (forall i, i < length (s_strs st) -> fits i = true) /\ (forall i, i < length (s_lists st) -> fits i = true)
    /\ (forall i, i < length (s_envs st) -> fits i = true) /\ (forall i, i < length (s_objs st) -> fits i = true).

  (** The tables of the reader are in step with those of the writer. *)
  Record R (st : sst) (ld : lst) : Prop := {
    R_strs : l_strs ld = map Some (s_strs st);
    R_lists : map (map plain) (l_lists ld) = s_lists st;
    R_lists_null : Forall (Forall no_null) (l_lists ld);
    R_envs : map (map (fun kv => (fst kv, plain (snd kv)))) (l_envs ld) = s_envs st;
    R_envs_null : Forall (Forall (fun kv => no_null (snd kv))) (l_envs ld);
    R_next : l_next ld = length (s_objs st);
    R_objs : forall i a, nth_error (s_objs st) i = Some a -> nth_error (table (own a) ld) i = Some (Some i);
    R_table : forall o, length (table o ld) <= length (s_objs st);
    R_nodup : NoDup (s_objs st);
    R_fit : ids_fit st
  }.

  Record step (st st' : sst) (ld ld' : lst) : Prop := {
    P_R : R st' ld';
    P_objs : exists ext, s_objs st' = s_objs st ++ ext;
    P_old : forall i, i < length (s_objs st) -> find_obj i (l_heap ld') = find_obj i (l_heap ld);
    P_new : forall i, length (s_objs st) <= i < length (s_objs st') -> same_object (s_objs st') ld' i
  }.

  Definition extends (l l' : list nat) : Prop := exists ext, l' = l ++ ext.

  Lemma same_mono names names' : extends names names' -> forall v v', same names v v' -> same names' v v'.
  Proof.
    intros [ext ->] v. induction v using val_ind'; intros w K; inversion K; subst; constructor; auto.
    - eapply Forall2_strengthen; [exact H0|eassumption|auto].
    - eapply Forall2_strengthen; [exact H0|eassumption|]. cbn. intros ? ? [] []. auto.
    - rewrite nth_error_app1; auto. apply nth_error_Some. congruence.
  Qed.

  Lemma same_object_mono names names' ld ld' i : extends names names' -> i < length names ->
    find_obj i (l_heap ld') = find_obj i (l_heap ld) -> same_object names ld i -> same_object names' ld' i.
  Proof.
    intros E Hi Hf (a & c & fs & fs' & K1 & K2 & K3 & K4). exists a, c, fs, fs'.
    repeat split; auto.
    - destruct E as [ext ->]. now rewrite nth_error_app1.
    - congruence.
    - eapply Forall2_strengthen; [apply Forall_forall; intros ? _; exact I|exact K4|]. intros ? ? _. now apply same_mono.
  Qed.

  Lemma step_refl st ld : R st ld -> step st st ld ld.
  Proof. intros K. constructor; auto; [exists []; now rewrite app_nil_r|intros; lia]. Qed.

  Lemma step_trans st1 st2 st3 ld1 ld2 ld3 : step st1 st2 ld1 ld2 -> step st2 st3 ld2 ld3 -> step st1 st3 ld1 ld3.
  Proof.
    intros A B. pose proof (P_objs _ _ _ _ A) as [x Ex]. pose proof (P_objs _ _ _ _ B) as [y Ey].
    assert (L : length (s_objs st1) <= length (s_objs st2)) by (rewrite Ex, app_length; lia).
    constructor.
    - exact (P_R _ _ _ _ B).
    - exists (x ++ y). now rewrite Ey, Ex, app_assoc.
    - intros i Hi. rewrite (P_old _ _ _ _ B) by lia. now apply (P_old _ _ _ _ A).
    - intros i Hi. destruct (Nat.lt_ge_cases i (length (s_objs st2))) as [G|G].
      + apply (same_object_mono (s_objs st2) _ ld2); [eexists; eauto|exact G| |].
        * now apply (P_old _ _ _ _ B).
        * apply (P_new _ _ _ _ A). lia.
      + apply (P_new _ _ _ _ B). lia.
  Qed.

  (** Writer [f] and reader [g] agree on [x]. *)
  Definition good {X K Y} (f : sst -> X -> result (sst * str)) (g : lst -> K -> str -> result (Y * lst * str))
             (key : X -> K) (rel : list nat -> X -> Y -> Prop) (x : X) : Prop :=
    forall st st' w ld rest, f st x = Done (st', w) -> R st ld ->
      exists y ld', g ld (key x) (w ++ rest) = Done (y, ld', rest) /\ step st st' ld ld' /\ rel (s_objs st') x y.

  Lemma seq_good {X K Y} f g (key : X -> K) (rel : list nat -> X -> Y -> Prop) l :
    (forall n n' x y, extends n n' -> rel n x y -> rel n' x y) ->
    Forall (good f g key rel) l ->
    good (fun st l => store_seq f st l) (fun ld ks s => load_seq g ld ks s) (map key) (fun n l ys => Forall2 (rel n) l ys) l.
  Proof.
    intros M F. induction F as [|x l Hx F IH]; intros st st' w ld rest S0 HR; cbn [store_seq] in S0.
    - injection S0 as <- <-. exists [], ld. split; [reflexivity|]. split; [now apply step_refl|constructor].
    - destruct (f st x) as [[st1 w1]|] eqn:E1; [|discriminate]. apply prepend_done in S0. destruct S0 as (w2 & S0 & ->).
      destruct (Hx st st1 w1 ld (w2 ++ rest) E1 HR) as (y & ld1 & G1 & T1 & R1).
      destruct (IH st1 st' w2 ld1 rest S0 (P_R _ _ _ _ T1)) as (ys & ld2 & G2 & T2 & R2).
      exists (y :: ys), ld2. split; [|split].
      + cbn [map load_seq]. rewrite <- app_assoc, G1, G2. reflexivity.
      + eapply step_trans; eauto.
      + constructor; [|exact R2]. eapply M; [|exact R1]. exact (P_objs _ _ _ _ T2).
  Qed.

  (** *** Strings, string lists, environments *)

  (** Changing only the value tables. *)
  Lemma step_tables st ld ss ls es ss' ls' es' :
    R st ld ->
    R (mkS (s_objs st) ss ls es) (mkL ss' ls' es' (l_raw ld) (l_shared ld) (l_next ld) (l_heap ld)) ->
    step st (mkS (s_objs st) ss ls es) ld (mkL ss' ls' es' (l_raw ld) (l_shared ld) (l_next ld) (l_heap ld)).
  Proof. intros _ K. constructor; auto; cbn; [exists []; now rewrite app_nil_r|intros; lia]. Qed.

  Lemma nullid : int_ok I32 NullValueId. Proof. apply int32_ok. unfold NullValueId, int_max. lia. Qed.
  Lemma emptyid : int_ok I32 EmptyValueId. Proof. apply int32_ok. unfold EmptyValueId, int_max. lia. Qed.

  Lemma id_tests n : (Z.of_nat n =? NullValueId)%Z = false /\ (Z.of_nat n =? EmptyValueId)%Z = false /\ (Z.of_nat n <? 0)%Z = false.
  Proof. unfold NullValueId, EmptyValueId. repeat split; [apply Z.eqb_neq|apply Z.eqb_neq|apply Z.ltb_ge]; lia. Qed.

  Lemma nth_map_error {A B} (f : A -> B) l i d y : nth_error (map f l) i = Some y -> exists x, nth_error l i = Some x /\ nth i l d = x /\ f x = y.
  Proof.
    rewrite nth_error_map. destruct (nth_error l i) as [x|] eqn:E; cbn; [|discriminate]. intros [= <-].
    exists x. repeat split. now apply nth_error_nth.
  Qed.

  Lemma fits_le n m : n <= m -> fits m = true -> fits n = true.
  Proof. unfold fits. rewrite !Z.leb_le. lia. Qed.


  Lemma ids_fit_strs st u : ids_fit st -> fits (length (s_strs st)) = true -> ids_fit (mkS (s_objs st) (s_strs st ++ [u]) (s_lists st) (s_envs st)).
  Proof. intros (A & B & C & D) F. repeat split; cbn; auto. intros i. rewrite app_length. cbn. intros. apply (fits_le i (length (s_strs st))); [lia|auto]. Qed.
  Lemma ids_fit_lists st u : ids_fit st -> fits (length (s_lists st)) = true -> ids_fit (mkS (s_objs st) (s_strs st) (s_lists st ++ [u]) (s_envs st)).
  Proof. intros (A & B & C & D) F. repeat split; cbn; auto. intros i. rewrite app_length. cbn. intros. apply (fits_le i (length (s_lists st))); [lia|auto]. Qed.
  Lemma ids_fit_envs st u : ids_fit st -> fits (length (s_envs st)) = true -> ids_fit (mkS (s_objs st) (s_strs st) (s_lists st) (s_envs st ++ [u])).
  Proof. intros (A & B & C & D) F. repeat split; cbn; auto. intros i. rewrite app_length. cbn. intros. apply (fits_le i (length (s_envs st))); [lia|auto]. Qed.
  Lemma ids_fit_objs st u : ids_fit st -> fits (length (s_objs st)) = true -> ids_fit (mkS (s_objs st ++ [u]) (s_strs st) (s_lists st) (s_envs st)).
  Proof. intros (A & B & C & D) F. repeat split; cbn; auto. intros i. rewrite app_length. cbn. intros. apply (fits_le i (length (s_objs st))); [lia|auto]. Qed.

  Lemma str_good {K} (key : qstr -> K) s : string_ok s -> good store_str (fun ld (_ : K) s => load_str ld s) key (fun _ x y => y = x) s.
  Proof.
    intros Hs st st' w ld rest E HR. unfold store_str in E. destruct s as [[|c u]|].
    - apply done_inj in E; destruct E as [<- <-]. exists (Some []), ld. split; [|split; [now apply step_refl|auto]].
      unfold load_str. rewrite (read_reads _ _ _ _ rest (reads_Int _ _ emptyid)). reflexivity.
    - set (s := c :: u) in *. destruct (index_of str_eqb s (s_strs st)) as [id|] eqn:Q.
      + apply done_inj in E; destruct E as [<- <-]. apply (index_of_some _ str_eqb_eq) in Q.
        assert (L : id < length (s_strs st)) by (apply nth_error_Some; congruence).
        assert (F : fits id = true) by (destruct (R_fit _ _ HR) as (K1 & _); auto).
        exists (Some s), ld. split; [|split; [now apply step_refl|auto]].
        unfold load_str. rewrite (read_reads _ _ _ _ rest (reads_Id id F)).
        destruct (id_tests id) as (-> & -> & ->). rewrite Nat2Z.id, (R_strs _ _ HR), map_length.
        destruct (Nat.leb_spec (length (s_strs st)) id); [lia|].
        do 3 f_equal. exact (nth_error_nth _ _ None (map_nth_error Some id (s_strs st) Q)).
      + destruct (fits (length (s_strs st))) eqn:F; [|discriminate]. apply done_inj in E; destruct E as [<- <-].
        eexists (Some s), _. split; [|split; [|reflexivity]].
        * unfold load_str. rewrite <- app_assoc. rewrite (read_reads _ _ _ _ _ (reads_Id _ F)).
          destruct (id_tests (length (s_strs st))) as (-> & -> & ->). rewrite Nat2Z.id.
          destruct (Nat.leb_spec (length (l_strs ld)) (length (s_strs st))) as [G|G];
            [|rewrite (R_strs _ _ HR), map_length in G; lia].
          rewrite (read_reads _ _ _ _ _ (reads_String _ Hs)). reflexivity.
        * apply step_tables; [exact HR|]. destruct HR. constructor; cbn; auto.
          -- rewrite R_strs0, map_app. rewrite <- (map_length Some (s_strs st)). apply put_end.
          -- now apply ids_fit_strs.
    - apply done_inj in E; destruct E as [<- <-]. exists None, ld. split; [|split; [now apply step_refl|auto]].
      unfold load_str. rewrite (read_reads _ _ _ _ rest (reads_Int _ _ nullid)). reflexivity.
  Qed.

  Lemma load_seq_ignore {K K' Y} (g : lst -> str -> result (Y * lst * str)) (ks : list K) (ks' : list K') ld s :
    length ks = length ks' ->
    load_seq (fun ld (_ : K) s => g ld s) ld ks s = load_seq (fun ld (_ : K') s => g ld s) ld ks' s.
  Proof.
    revert ks' ld s. induction ks as [|k ks IH]; intros [|k' ks'] ld s L; try discriminate; [reflexivity|].
    cbn [load_seq]. destruct (g ld s) as [[[y ld'] s']|]; [|reflexivity]. rewrite (IH ks') by (cbn in L; lia). reflexivity.
  Qed.

  Lemma Forall2_eq {A} (l l' : list A) : Forall2 (fun x y => y = x) l l' -> l' = l.
  Proof. induction 1; subst; auto. Qed.

  Lemma same_strs_refl l : same_strs strict l l. Proof. unfold same_strs. now destruct strict. Qed.
  Lemma same_strs_plain l l' : same_strs strict l l' -> map plain l' = map plain l.
  Proof. unfold same_strs. destruct strict; congruence. Qed.

  Lemma plain_inj l l' : Forall no_null l -> Forall no_null l' -> map plain l' = map plain l -> same_strs strict l l'.
  Proof.
    unfold same_strs, no_null. destruct strict; [|auto]. intros F F'. revert l F. induction F' as [|x l' Hx F' IH]; intros [|y l] F E; try discriminate; [reflexivity|].
    cbn in E. injection E as E1 E2. inversion F; subst. f_equal; [|now apply IH].
    destruct x, y; cbn in E1; subst; auto; exfalso; (now apply Hx) || match goal with K : true = true -> None <> None |- _ => now apply K end.
  Qed.

  Lemma inner_null l : Forall (inner_ok strict) l -> Forall no_null l.
  Proof. apply Forall_impl. intros s [_ K]. exact K. Qed.

  Lemma count_id {A} (l : list A) : count_ok I32 l -> reads (rInt I32) (wInt I32 (Z.of_nat (length l))) (Z.of_nat (length l)).
  Proof. apply reads_Int. Qed.

  Lemma Forall_nth_error {A} (P : A -> Prop) l i x : Forall P l -> nth_error l i = Some x -> P x.
  Proof. intros F E. apply nth_error_In in E. rewrite Forall_forall in F. auto. Qed.

  Lemma strs_good {K} (key : list qstr -> K) l : Forall (inner_ok strict) l -> count_ok I32 l ->
    good store_strs (fun ld (_ : K) s => load_strs ld s) key (fun _ x y => same_strs strict x y) l.
  Proof.
    intros Fl Cl st st' w ld rest E HR. unfold store_strs in E. destruct l as [|x0 l0].
    - apply done_inj in E; destruct E as [<- <-]. exists [], ld. split; [|split; [now apply step_refl|apply same_strs_refl]].
      unfold load_strs. rewrite (read_reads _ _ _ _ rest (reads_Int _ _ emptyid)). reflexivity.
    - set (l := x0 :: l0) in *. destruct (index_of (list_eqb str_eqb) (map plain l) (s_lists st)) as [id|] eqn:Q.
      + apply done_inj in E; destruct E as [<- <-]. apply (index_of_some _ (list_eqb_eq _ str_eqb_eq)) in Q.
        assert (L : id < length (s_lists st)) by (apply nth_error_Some; congruence).
        assert (F : fits id = true) by (destruct (R_fit _ _ HR) as (_ & K1 & _); auto).
        rewrite <- (R_lists _ _ HR) in Q. destruct (nth_map_error _ _ _ [] _ Q) as (l' & E1 & E2 & E3).
        exists l', ld. split; [|split; [now apply step_refl|]].
        * unfold load_strs. rewrite (read_reads _ _ _ _ rest (reads_Id id F)).
          destruct (id_tests id) as (-> & -> & ->). cbn [orb]. rewrite Nat2Z.id.
          destruct (Nat.leb_spec (length (l_lists ld)) id) as [G|G].
          -- rewrite <- (R_lists _ _ HR), map_length in L. lia.
          -- now rewrite E2.
        * apply plain_inj; [now apply inner_null| |exact E3]. exact (Forall_nth_error _ _ _ _ (R_lists_null _ _ HR) E1).
      + destruct (fits (length (s_lists st))) eqn:F; [|discriminate]. apply prepend_done in E. destruct E as (w1 & E & ->).
        set (st1 := mkS (s_objs st) (s_strs st) (s_lists st ++ [map plain l]) (s_envs st)) in *.
        (* The list is entered only after its strings were read: the reader is compared with the writer without the list. *)
        assert (Sq : forall l st2 w2, store_seq store_str st1 l = Done (st2, w2) ->
                  s_lists st2 = s_lists st ++ [map plain (x0 :: l0)] /\ s_objs st2 = s_objs st /\ s_envs st2 = s_envs st
                  /\ store_seq store_str st l = Done (mkS (s_objs st2) (s_strs st2) (s_lists st) (s_envs st2), w2)).
        { assert (Gen : forall l sa sb st2 w2, s_strs sa = s_strs sb ->
                  store_seq store_str sa l = Done (st2, w2) ->
                  s_lists st2 = s_lists sa /\ s_objs st2 = s_objs sa /\ s_envs st2 = s_envs sa
                  /\ store_seq store_str sb l = Done (mkS (s_objs sb) (s_strs st2) (s_lists sb) (s_envs sb), w2)).
          { clear. induction l as [|s l IH]; intros sa sb st2 w2 Es; cbn [store_seq].
            - intros [= <- <-]. repeat split. rewrite Es. now destruct sb.
            - destruct (store_str sa s) as [[sa' wa]|] eqn:Ea; [|discriminate]. intros P. apply prepend_done in P. destruct P as (w3 & P & ->).
              assert (Hb : s_lists sa' = s_lists sa /\ s_objs sa' = s_objs sa /\ s_envs sa' = s_envs sa
                      /\ store_str sb s = Done (mkS (s_objs sb) (s_strs sa') (s_lists sb) (s_envs sb), wa)).
              { unfold store_str in *. rewrite <- Es. destruct s as [[|c u]|].
                - injection Ea as <- <-. rewrite Es. repeat split. now destruct sb.
                - destruct (index_of str_eqb (c :: u) (s_strs sa)); [injection Ea as <- <-; rewrite Es; repeat split; now destruct sb|].
                  destruct (fits (length (s_strs sa))); [|discriminate]. injection Ea as <- <-. repeat split.
                - injection Ea as <- <-. rewrite Es. repeat split. now destruct sb. }
              destruct Hb as (Hb1 & Hb2 & Hb3 & Hb4). rewrite Hb4.
              destruct (IH sa' (mkS (s_objs sb) (s_strs sa') (s_lists sb) (s_envs sb)) st2 w3 eq_refl P) as (I1 & I2 & I3 & I4).
              rewrite I4. cbn. repeat split; congruence. }
          intros l1 st2 w2 P. destruct (Gen l1 st1 st st2 w2 eq_refl P) as (I1 & I2 & I3 & I4). cbn in I1, I2, I3.
          rewrite I2, I3. auto. }
        destruct (Sq l st' w1 E) as (E1 & E2 & E3 & E4). clear Sq E.
        destruct st' as [so ss sl se]. cbn [s_objs s_strs s_lists s_envs] in E1, E2, E3, E4. fold l in E1. subst so sl se.
        assert (Fs : Forall (good store_str (fun ld (_ : unit) s => load_str ld s) (fun _ => tt) (fun _ x y => y = x)) l).
        { eapply Forall_impl; [|exact Fl]. intros s [K1 _]. now apply str_good. }
        destruct (seq_good _ _ (fun _ => tt) (fun _ x y => y = x) l ltac:(auto) Fs _ _ _ ld rest E4 HR) as (l' & ld1 & G1 & T1 & R1).
        apply Forall2_eq in R1. subst l'.
        eexists l, _. split; [|split; [|apply same_strs_refl]].
        * unfold load_strs. rewrite <- !app_assoc. rewrite (read_reads _ _ _ _ _ (reads_Id _ F)).
          destruct (id_tests (length (s_lists st))) as (-> & -> & ->). cbn [orb]. rewrite Nat2Z.id.
          destruct (Nat.leb_spec (length (l_lists ld)) (length (s_lists st))) as [G|G];
            [|rewrite <- (R_lists _ _ HR), map_length in G; lia].
          rewrite (read_reads _ _ _ _ _ (count_id l Cl)). rewrite Nat2Z.id.
          rewrite (load_seq_ignore load_str (repeat tt (length l)) (map (fun _ => tt) l)) by now rewrite repeat_length, map_length.
          rewrite G1. reflexivity.
        * eapply step_trans; [exact T1|]. pose proof (P_R _ _ _ _ T1) as R1.
          apply (step_tables (mkS (s_objs st) ss (s_lists st) (s_envs st))); [exact R1|].
          pose proof (R_fit _ _ R1) as Ft. destruct R1. cbn [s_objs s_strs s_lists s_envs] in *.
          assert (Ll : length (s_lists st) = length (l_lists ld1)) by now rewrite <- R_lists0, map_length.
          constructor; cbn [s_objs s_strs s_lists s_envs l_strs l_lists l_envs l_next]; auto.
          -- rewrite Ll, put_end, map_app, R_lists0. reflexivity.
          -- rewrite Ll, put_end. apply Forall_app. split; [auto|]. constructor; [now apply inner_null|constructor].
          -- apply (ids_fit_lists (mkS (s_objs st) ss (s_lists st) (s_envs st))); auto.
  Qed.

  (** Environments are entered by the writer before, by the reader after their contents; the contents do not depend on them. *)
  Definition with_envs (es : list (list (str * str))) (st : sst) : sst := mkS (s_objs st) (s_strs st) (s_lists st) es.
  Definition lifts {X} (f : sst -> X -> result (sst * str)) (x : X) : Prop :=
    forall st es st' w, f (with_envs es st) x = Done (st', w) ->
      exists st1, f st x = Done (st1, w) /\ st' = with_envs es st1 /\ s_envs st1 = s_envs st.
  Lemma lifts_str s : lifts store_str s.
  Proof.
    intros st es st' w E. unfold store_str in *. destruct s as [[|c u]|]; cbn [with_envs s_strs s_objs s_lists s_envs] in E.
    - apply done_inj in E. destruct E as [<- <-]. exists st. auto.
    - destruct (index_of str_eqb (c :: u) (s_strs st)); [apply done_inj in E; destruct E as [<- <-]; exists st; auto|].
      destruct (fits (length (s_strs st))); [|discriminate]. apply done_inj in E. destruct E as [<- <-]. eexists. repeat split.
    - apply done_inj in E. destruct E as [<- <-]. exists st. auto.
  Qed.
  Lemma lifts_seq {X} (f : sst -> X -> result (sst * str)) l : Forall (lifts f) l -> lifts (fun st l => store_seq f st l) l.
  Proof.
    intros F. induction F as [|x l Hx F IH]; intros st es st' w E; cbn [store_seq] in *.
    - apply done_inj in E. destruct E as [<- <-]. exists st. auto.
    - destruct (f (with_envs es st) x) as [[st1 w1]|] eqn:E1; [|discriminate]. apply prepend_done in E. destruct E as (w2 & E & ->).
      destruct (Hx _ _ _ _ E1) as (st2 & -> & -> & E3). destruct (IH _ _ _ _ E) as (st3 & -> & -> & E4).
      exists st3. cbn. repeat split; congruence.
  Qed.
  Lemma lifts_strs l : lifts store_strs l.
  Proof.
    intros st es st' w E. unfold store_strs in *. destruct l as [|x l0].
    - apply done_inj in E. destruct E as [<- <-]. exists st. auto.
    - set (l := x :: l0) in *. cbn [with_envs s_strs s_objs s_lists s_envs] in E.
      destruct (index_of (list_eqb str_eqb) (map plain l) (s_lists st)); [apply done_inj in E; destruct E as [<- <-]; exists st; auto|].
      destruct (fits (length (s_lists st))); [|discriminate]. apply prepend_done in E. destruct E as (w2 & E & ->).
      set (st0 := mkS (s_objs st) (s_strs st) (s_lists st ++ [map plain l]) (s_envs st)).
      destruct (lifts_seq store_str l ltac:(apply Forall_forall; intros; apply lifts_str) st0 es _ _ E) as (st1 & E1 & E2 & E3).
      exists st1. rewrite E1. auto.
  Qed.

  Lemma map_snd_fst_eq {A B} (l l' : list (A * B)) : map fst l = map fst l' -> map snd l = map snd l' -> l = l'.
  Proof.
    revert l'. induction l as [|[a b] l IH]; intros [|[a' b'] l']; try discriminate; cbn; auto.
    intros [= -> E1] [= -> E2]. f_equal. auto.
  Qed.
  Lemma combine_fst_snd {A B} (l : list (A * B)) : combine (map fst l) (map snd l) = l.
  Proof. induction l as [|[a b] l IH]; cbn; congruence. Qed.

  Definition env_ok (e : list (str * qstr)) : Prop :=
    Forall (fun kv => string_ok (Some (fst kv)) /\ fst kv <> [] /\ inner_ok strict (snd kv)) e.

  Lemma env_good {K} (key : list (str * qstr) -> K) e : env_ok e -> count_ok I32 e ->
    good store_env (fun ld (_ : K) s => load_env ld s) key (fun _ x y => same_env strict x y) e.
  Proof.
    intros Fe Ce st st' w ld rest E HR. unfold store_env in E. destruct e as [|kv0 e0].
    - apply done_inj in E; destruct E as [<- <-]. exists [], ld. split; [|split; [now apply step_refl|split; [auto|apply same_strs_refl]]].
      unfold load_env. rewrite (read_reads _ _ _ _ rest (reads_Int _ _ emptyid)). reflexivity.
    - set (e := kv0 :: e0) in *. set (k := map (fun kv => (fst kv, plain (snd kv))) e) in *.
      destruct (index_of (list_eqb var_eqb) k (s_envs st)) as [id|] eqn:Q.
      + apply done_inj in E; destruct E as [<- <-]. apply (index_of_some _ (list_eqb_eq _ var_eqb_eq)) in Q.
        assert (L : id < length (s_envs st)) by (apply nth_error_Some; congruence).
        assert (F : fits id = true) by (destruct (R_fit _ _ HR) as (_ & _ & K1 & _); auto).
        rewrite <- (R_envs _ _ HR) in Q. destruct (nth_map_error _ _ _ [] _ Q) as (e' & E1 & E2 & E3).
        exists e', ld. split; [|split; [now apply step_refl|]].
        * unfold load_env. rewrite (read_reads _ _ _ _ rest (reads_Id id F)).
          destruct (id_tests id) as (-> & -> & ->). cbn [orb]. rewrite Nat2Z.id.
          destruct (Nat.leb_spec (length (l_envs ld)) id) as [G|G].
          -- rewrite <- (R_envs _ _ HR), map_length in L. lia.
          -- now rewrite E2.
        * unfold k in E3. split.
          -- apply (f_equal (map fst)) in E3. rewrite !map_map in E3. exact E3.
          -- apply plain_inj.
             ++ apply Forall_map. eapply Forall_impl; [|exact Fe]. intros kv (_ & _ & _ & K1). exact K1.
             ++ apply Forall_map. exact (Forall_nth_error _ _ _ _ (R_envs_null _ _ HR) E1).
             ++ apply (f_equal (map snd)) in E3. rewrite !map_map in E3 |- *. exact E3.
      + destruct (fits (length (s_envs st))) eqn:F; [|discriminate].
        set (keys := map (fun kv : str * qstr => Some (fst kv)) e) in *.
        match type of E with context [store_strs ?s1 _] => change s1 with (with_envs (s_envs st ++ [k]) st) in E end.
        destruct (store_strs (with_envs (s_envs st ++ [k]) st) keys) as [[st1 w1]|] eqn:Ek; [|discriminate].
        apply prepend_done in E. destruct E as (w2 & E & ->).
        destruct (lifts_strs _ _ _ _ _ Ek) as (st2 & E2 & -> & E3).
        destruct (lifts_seq store_str (map snd e) ltac:(apply Forall_forall; intros; apply lifts_str) _ _ _ _ E) as (st3 & E4 & -> & E5).
        clear Ek E.
        assert (Kk : good store_strs (fun ld (_ : unit) s => load_strs ld s) (fun _ => tt) (fun _ x y => same_strs strict x y) keys).
        { apply strs_good.
          - apply Forall_map. eapply Forall_impl; [|exact Fe]. intros kv (K1 & _ & _). split; [exact K1|discriminate].
          - unfold keys, count_ok. rewrite map_length. exact Ce. }
        destruct (Kk _ _ _ ld (w2 ++ rest) E2 HR) as (keys' & ld1 & G1 & T1 & S1).
        assert (Fs : Forall (good store_str (fun ld (_ : unit) s => load_str ld s) (fun _ => tt) (fun _ x y => y = x)) (map snd e)).
        { apply Forall_map. eapply Forall_impl; [|exact Fe]. intros kv (_ & _ & K1 & _). now apply str_good. }
        destruct (seq_good _ _ (fun _ => tt) (fun _ x y => y = x) (map snd e) ltac:(auto) Fs _ _ _ ld1 rest E4 (P_R _ _ _ _ T1)) as (vs & ld2 & G2 & T2 & S2).
        apply Forall2_eq in S2. subst vs.
        apply same_strs_plain in S1. unfold keys in S1. rewrite map_map in S1. cbn [plain] in S1.
        assert (Lk : length keys' = length e) by now rewrite <- (map_length plain), S1, map_length.
        eexists e, _. split; [|split; [|split; [reflexivity|apply same_strs_refl]]].
        * unfold load_env. rewrite <- !app_assoc. rewrite (read_reads _ _ _ _ _ (reads_Id _ F)).
          destruct (id_tests (length (s_envs st))) as (-> & -> & ->). cbn [orb]. rewrite Nat2Z.id.
          destruct (Nat.leb_spec (length (l_envs ld)) (length (s_envs st))) as [G|G];
            [|rewrite <- (R_envs _ _ HR), map_length in G; lia].
          rewrite G1.
          rewrite (load_seq_ignore load_str keys' (map (fun _ => tt) (map snd e))) by now rewrite !map_length.
          rewrite G2, S1. change (map (fun x : str * qstr => fst x) e) with (map fst e). rewrite combine_fst_snd. reflexivity.
        * eapply step_trans; [eapply step_trans; [exact T1|exact T2]|]. pose proof (P_R _ _ _ _ T2) as R2.
          apply (step_tables st3); [exact R2|].
          pose proof (R_fit _ _ R2) as Ft. destruct R2. unfold with_envs in *. cbn [s_objs s_strs s_lists s_envs] in *.
          rewrite E3 in E5.
          assert (Ll : length (s_envs st) = length (l_envs ld2)) by now rewrite <- E5, <- R_envs0, map_length.
          constructor; cbn [s_objs s_strs s_lists s_envs l_strs l_lists l_envs l_next]; auto.
          -- rewrite Ll, put_end, map_app, R_envs0, E5. reflexivity.
          -- rewrite Ll, put_end. apply Forall_app. split; [auto|]. constructor; [|constructor].
             eapply Forall_impl; [|exact Fe]. intros kv (_ & _ & _ & K1). exact K1.
          -- rewrite <- E5. apply ids_fit_envs; auto. now rewrite E5.
  Qed.

  (** *** All values *)

  Lemma raw_reads tid null data : raw_size tid = Some (length data) -> reads rRaw (wRaw tid null data) (VRaw tid null data).
  Proof.
    intros E rest. unfold rRaw, wRaw, bind. rewrite <- !app_assoc.
    assert (T : (tid < two32)%N).
    { unfold raw_size in E. repeat match type of E with (if (tid =? ?c)%N then _ else _) = _ => destruct (N.eqb_spec tid c); [subst; reflexivity|] end. discriminate. }
    rewrite (reads_U32 _ T). rewrite (reads_U8 (if null then 1 else 0)%N) by (destruct null; reflexivity).
    rewrite E, take_app. unfold ret. now destruct null.
  Qed.
  Lemma raw_small tid k : raw_size tid = Some k -> (tid < two32)%N.
  Proof.
    intros E. unfold raw_size in E. repeat match type of E with (if (tid =? ?c)%N then _ else _) = _ => destruct (N.eqb_spec tid c); [subst; reflexivity|] end. discriminate.
  Qed.
  Lemma held_type tid t : variant_type tid t -> held tid = Some t.
  Proof. now intros []. Qed.
  Lemma held_none tid : (forall t, ~ variant_type tid t) -> held tid = None.
  Proof.
    intros N. destruct (held tid) as [t|] eqn:E; [|reflexivity]. exfalso. apply (N t). unfold held in E.
    repeat match type of E with (if (tid =? ?c)%N then _ else _) = _ => destruct (N.eqb_spec tid c); [subst; injection E as <-; constructor|] end. discriminate.
  Qed.
  Lemma held_small tid t : held tid = Some t -> (tid < two32)%N.
  Proof.
    intros E. unfold held in E. repeat match type of E with (if (tid =? ?c)%N then _ else _) = _ => destruct (N.eqb_spec tid c); [subst; reflexivity|] end. discriminate.
  Qed.

  Definition goodv n x := good (store classes n H) (fun ld t s => load classes n ld t s) fst (fun names x v => same names (snd x) v) x.

  Lemma goodv_seq n l : (forall x, typed x -> goodv n x) -> Forall typed l ->
    good (fun st l => store_seq (store classes n H) st l) (fun ld ts s => load_seq (load classes n) ld ts s) (map fst)
         (fun names l vs => Forall2 (fun x v => same names (snd x) v) l vs) l.
  Proof.
    intros IH F. apply (seq_good (store classes n H) (load classes n) fst (fun names x v => same names (snd x) v)).
    - intros ? ? ? ? E. now apply same_mono.
    - eapply Forall_impl; [|exact F]. apply IH.
  Qed.

  Lemma map_fst_pair {A B} (t : A) (l : list B) : map fst (map (pair t) l) = repeat t (length l).
  Proof. induction l; cbn; congruence. Qed.
  Lemma Forall2_map_l {A B C} (f : A -> B) (P : B -> C -> Prop) l l' : Forall2 P (map f l) l' <-> Forall2 (fun a c => P (f a) c) l l'.
  Proof.
    split.
    - revert l'. induction l as [|a l IH]; intros l' F; inversion F; subst; constructor; auto.
    - induction 1; constructor; auto.
  Qed.
  Lemma entries_types k v l : map fst (entries k v l) = concat (repeat [k; v] (length l)).
  Proof. unfold entries. induction l; cbn; congruence. Qed.
  Lemma entries_same names k v l vs : Forall2 (fun x w => same names (snd x) w) (entries k v l) vs ->
    Forall2 (fun e e' => same names (fst e) (fst e') /\ same names (snd e) (snd e')) l (pair_up vs).
  Proof.
    revert vs. induction l as [|e l IH]; intros vs F; cbn in F; inversion F as [|? a ? vs1 A1 F1]; subst; [constructor|].
    inversion F1 as [|? b ? vs2 A2 F2]; subst. cbn [pair_up]. constructor; [cbn in *; auto|]. now apply IH.
  Qed.
  Lemma combine_map_fst {A B} (l : list A) (l' : list B) : length l' = length l -> map fst (combine l l') = l.
  Proof. revert l'. induction l as [|a l IH]; intros [|b l']; cbn; try discriminate; auto. intros. f_equal. auto. Qed.
  Lemma combine_same names (l : list ty) (l' : list val) vs : length l' = length l ->
    Forall2 (fun x w => same names (snd x) w) (combine l l') vs -> Forall2 (same names) l' vs.
  Proof.
    revert l' vs. induction l as [|a l IH]; intros [|b l'] vs; cbn; try discriminate; intros L F; inversion F; subst; constructor; auto.
  Qed.

  Lemma create_R st ld o a c fields : own a = o -> H a = Some (c, fields) -> fits (length (s_objs st)) = true -> ~ In a (s_objs st) ->
    R st ld -> R (mkS (s_objs st ++ [a]) (s_strs st) (s_lists st) (s_envs st)) (create o (length (s_objs st)) ld).
  Proof.
    intros Eo Ea F Na HR. pose proof (ids_fit_objs _ a (R_fit _ _ HR) F) as Ft. destruct HR.
    constructor; cbn [s_objs s_strs s_lists s_envs create l_strs l_lists l_envs l_next]; auto.
    - rewrite app_length, R_next0. cbn. lia.
    - intros i b E. destruct (Nat.eq_dec i (length (s_objs st))) as [->|Ne].
      + rewrite nth_error_app2, Nat.sub_diag in E by lia. cbn in E. injection E as <-. rewrite Eo.
        destruct o; cbn [create table l_raw l_shared]; rewrite put_nth; rewrite ?R_next0; auto; apply (R_table0 Raw) || apply (R_table0 Shared).
      + assert (Hi : i < length (s_objs st)).
        { assert (i < length (s_objs st ++ [a])) by (apply nth_error_Some; congruence). rewrite app_length in *. cbn in *. lia. }
        rewrite nth_error_app1 in E by exact Hi. apply R_objs0 in E.
        assert (Li : i < length (table (own b) ld)) by (apply nth_error_Some; congruence).
        destruct o, (own b); cbn [create table l_raw l_shared] in *; auto; (rewrite put_old; [auto|first [exact (R_table0 Raw)|exact (R_table0 Shared)]|auto]).
    - intros o'. rewrite app_length. cbn [length].
      destruct o, o'; cbn [create table l_raw l_shared] in *; try rewrite put_length; try (pose proof (R_table0 Raw)); try (pose proof (R_table0 Shared)); cbn in *; lia.
    - apply NoDup_Add with (a := a) (l := s_objs st); [|split; auto]. rewrite <- (app_nil_r (s_objs st)) at 1.
      apply Add_app.
  Qed.

  Lemma prepend_bind {A} w (r : result (A * str)) st' w' rest :
    prepend w r = Done (st', w') -> exists w1, r = Done (st', w1) /\ w' ++ rest = w ++ (w1 ++ rest).
  Proof. intros E. apply prepend_done in E. destruct E as (w1 & -> & ->). exists w1. now rewrite app_assoc. Qed.

  Lemma minus1 : int_ok I32 (-1). Proof. apply int32_ok. unfold int_max. lia. Qed.
  Lemma minus2 : int_ok I32 (-2). Proof. apply int32_ok. unfold int_max. lia. Qed.

  Lemma store_good n : forall x, typed x -> goodv n x.
  Proof.
    induction n as [|n IH]; intros x Tx st st' w ld rest E HR; [discriminate|].
    pose proof (fun l => goodv_seq n l IH) as IHs. unfold goodv in IH.
    destruct Tx; cbn [fst snd store load] in *.
    - apply done_inj in E; destruct E as [<- <-]. exists (VInt z), ld. split; [|split; [now apply step_refl|constructor]].
      now rewrite (read_reads _ _ _ _ rest (reads_Int _ _ H0)).
    - destruct (str_good (fun _ => tt) s H0 _ _ _ _ rest E HR) as (y & ld' & G & T & ->).
      exists (VStr s), ld'. cbv beta in G. rewrite G. split; [auto|]. split; [auto|constructor].
    - destruct (strs_good (fun _ => tt) l H0 H1 _ _ _ _ rest E HR) as (y & ld' & G & T & Sm).
      exists (VStrs y), ld'. cbv beta in G. rewrite G. split; [auto|]. split; [auto|now constructor].
    - destruct (env_good (fun _ => tt) e H0 H2 _ _ _ _ rest E HR) as (y & ld' & G & T & Sm).
      exists (VEnv y), ld'. cbv beta in G. rewrite G. split; [auto|]. split; [auto|now constructor].
    - apply done_inj in E; destruct E as [<- <-]. exists (VRaw tid null data), ld. split; [|split; [now apply step_refl|constructor]].
      rewrite <- app_assoc. rewrite (read_reads rU32 _ (if null then meta_user else tid)).
      2:{ apply reads_U32. destruct null; [reflexivity|]. exact (raw_small _ _ H0). }
      replace (held (if null then meta_user else tid)) with (@None ty) by (destruct null; [reflexivity|symmetry; auto using held_none]).
      rewrite (read_reads _ _ _ _ rest (raw_reads _ null data H0)). reflexivity.
    - apply held_type in H0. rewrite H0 in E. apply prepend_bind with (rest := rest) in E. destruct E as (w1 & E & ->).
      destruct (IH (t, v) Tx _ _ _ _ rest E HR) as (y & ld' & G & T & Sm). cbn [fst snd] in *.
      exists (VHeld tid y), ld'. split; [|split; [auto|now constructor]].
      rewrite (read_reads _ _ _ _ _ (reads_U32 _ (held_small _ _ H0))), H0, G. reflexivity.
    - destruct (IHs [(a, x); (b, y)] ltac:(repeat constructor; auto) _ _ _ _ rest E HR) as (ys & ld' & G & T & Sm).
      inversion Sm as [|? x' ? l1 S1 F1]; subst. inversion F1 as [|? y' ? l2 S2 F2]; subst. inversion F2; subst. cbn [map fst snd] in *.
      exists (VPair x' y'), ld'. rewrite G. split; [auto|]. split; [auto|now constructor].
    - apply prepend_bind with (rest := rest) in E. destruct E as (w1 & E & ->).
      destruct (IHs (map (pair t) l) H0 _ _ _ _ rest E HR) as (ys & ld' & G & T & Sm). cbv beta in G.
      exists (VList ys), ld'. split; [|split; [auto|]].
      + rewrite (read_reads _ _ _ _ _ (reads_Int _ _ H1)), Nat2Z.id. rewrite map_fst_pair in G. rewrite G. reflexivity.
      + constructor. apply (proj1 (Forall2_map_l _ _ _ _)) in Sm. exact Sm.
    - apply prepend_bind with (rest := rest) in E. destruct E as (w1 & E & ->).
      destruct (IHs (entries k v l) H0 _ _ _ _ rest E HR) as (ys & ld' & G & T & Sm). cbv beta in G.
      exists (VMap (pair_up ys)), ld'. split; [|split; [auto|]].
      + rewrite (read_reads _ _ _ _ _ (reads_Int _ _ H2)), Nat2Z.id. rewrite entries_types in G. rewrite G. reflexivity.
      + constructor. eapply entries_same; exact Sm.
    - apply done_inj in E; destruct E as [<- <-]. exists VNone, ld. split; [|split; [now apply step_refl|constructor]].
      unfold load_marker. now rewrite (read_reads _ _ _ _ rest (reads_Int _ _ minus1)).
    - apply prepend_bind with (rest := rest) in E. destruct E as (w1 & E & ->).
      destruct (IH (t, v) Tx _ _ _ _ rest E HR) as (y & ld' & G & T & Sm). cbn [fst snd] in *.
      exists (VSome y), ld'. split; [|split; [auto|now constructor]].
      unfold load_marker. rewrite (read_reads _ _ _ _ _ (reads_Int _ _ minus2)). cbn [Z.eqb]. cbn. rewrite G. reflexivity.
    - rewrite H0 in E. apply prepend_bind with (rest := rest) in E. destruct E as (w1 & E & ->).
      destruct (IH (t, v) Tx _ _ _ _ rest E HR) as (y & ld' & G & T & Sm). cbn [fst snd] in *.
      exists (VCase tag y), ld'. split; [|split; [auto|now constructor]].
      rewrite (read_reads _ _ _ _ _ (reads_Int _ _ H1)), H0, G. reflexivity.
    - apply done_inj in E; destruct E as [<- <-]. exists VNull, ld. split; [|split; [now apply step_refl|constructor]].
      now rewrite (read_reads _ _ _ _ rest (reads_Int _ _ minus1)).
    - destruct (index_of Nat.eqb a (s_objs st)) as [id|] eqn:Q.
      + apply done_inj in E; destruct E as [<- <-]. apply (index_of_some _ Nat.eqb_eq) in Q.
        assert (L : id < length (s_objs st)) by (apply nth_error_Some; congruence).
        assert (F : fits id = true) by (destruct (R_fit _ _ HR) as (_ & _ & _ & K1); auto).
        pose proof (R_objs _ _ HR _ _ Q) as Et. rewrite H0 in Et.
        exists (VPtr id), ld. split; [|split; [now apply step_refl|now constructor]].
        rewrite (read_reads _ _ _ _ rest (reads_Id id F)). destruct (id_tests id) as (_ & _ & ->). rewrite Nat2Z.id.
        destruct (Nat.ltb_spec id (length (table o ld))) as [G|G].
        * now rewrite (nth_error_nth _ _ None Et).
        * apply nth_error_None in G. congruence.
      + destruct (fits (length (s_objs st))) eqn:F; [|discriminate]. rewrite H1 in E.
        apply prepend_bind with (rest := rest) in E. destruct E as (w1 & E & ->).
        apply (index_of_none _ Nat.eqb_eq) in Q. destruct (HH a c fields H1) as [Lf Tf].
        pose proof (create_R st ld o a c fields H0 H1 F Q HR) as HR1.
        set (st1 := mkS (s_objs st ++ [a]) (s_strs st) (s_lists st) (s_envs st)) in *.
        set (ld1 := create o (length (s_objs st)) ld) in *.
        destruct (IHs (combine (classes c) fields) Tf _ _ _ _ rest E HR1) as (ys & ld' & G & T & Sm).
        cbv beta in G, Sm. rewrite combine_map_fst in G by exact Lf. apply combine_same in Sm; [|exact Lf].
        pose proof (P_objs _ _ _ _ T) as [ext Ex]. cbn [st1 s_objs] in Ex.
        assert (Na : nth_error (s_objs st') (length (s_objs st)) = Some a).
        { rewrite Ex, <- app_assoc, nth_error_app2, Nat.sub_diag by lia. reflexivity. }
        exists (VPtr (l_next ld)), (filled (l_next ld) c ys ld'). split; [|split].
        * rewrite (read_reads _ _ _ _ _ (reads_Id _ F)). destruct (id_tests (length (s_objs st))) as (_ & _ & ->). rewrite Nat2Z.id.
          destruct (Nat.ltb_spec (length (s_objs st)) (length (table o ld))) as [K|K]; [pose proof (R_table _ _ HR o); lia|].
          fold ld1. rewrite G. reflexivity.
        * rewrite (R_next _ _ HR). constructor.
          -- pose proof (P_R _ _ _ _ T) as R1. destruct R1. constructor; auto.
          -- exists ([a] ++ ext). now rewrite Ex, <- app_assoc.
          -- intros i Hi. cbn [filled l_heap find_obj]. destruct (Nat.eqb_spec i (length (s_objs st))); [lia|].
             rewrite (P_old _ _ _ _ T) by (cbn [st1 s_objs]; rewrite app_length; cbn; lia). reflexivity.
          -- intros i Hi. destruct (Nat.eq_dec i (length (s_objs st))) as [->|Ne].
             ++ exists a, c, fields, ys. repeat split; auto. cbn [filled l_heap find_obj]. now rewrite Nat.eqb_refl.
             ++ assert (K : same_object (s_objs st') ld' i).
                { apply (P_new _ _ _ _ T). cbn [st1 s_objs]. rewrite app_length. cbn. lia. }
                destruct K as (a' & c' & f1 & f2 & K1 & K2 & K3 & K4). exists a', c', f1, f2. repeat split; auto.
                cbn [filled l_heap find_obj]. destruct (Nat.eqb_spec i (length (s_objs st))); [lia|exact K3].
        * constructor. now rewrite (R_next _ _ HR).
  Qed.

  Lemma R_empty : R s_empty l_empty.
  Proof.
    constructor; cbn.
    1,2,4,6: reflexivity.
    1,2,5: constructor.
    - intros [|i] a; discriminate.
    - intros []; cbn; lia.
    - repeat split; cbn; intros; lia.
  Qed.
End Proofs.

(** *** Writing comes to an end *)

Section Total.
  Variable classes : nat -> list ty.
  Variable own : nat -> ownership.
  Variable H : heap.
  Variable strict : bool.
  Notation typed := (typed own H strict).
  Hypothesis HH : heap_ok classes own H strict.
  Variable dom : list nat.
  Hypothesis Hdom : forall a, H a <> None -> In a dom.

  Definition finer {A} (r r' : result A) : Prop := r <> Fail OutOfFuel -> r' = r.

  Lemma finer_prepend {A} w (r r' : result (A * str)) : finer r r' -> finer (prepend w r) (prepend w r').
  Proof.
    unfold finer. intros K N. destruct r as [[a b]|f]; [now rewrite K by discriminate|].
    cbn in N. rewrite K; [reflexivity|]. intros [= ->]. congruence.
  Qed.
  Lemma finer_seq {X} (f g : sst -> X -> result (sst * str)) : (forall st x, finer (f st x) (g st x)) ->
    forall l st, finer (store_seq f st l) (store_seq g st l).
  Proof.
    intros K l. induction l as [|x l IH]; intros st; cbn [store_seq]; [intros _; reflexivity|].
    pose proof (K st x) as Kx. destruct (f st x) as [[st1 w1]|e] eqn:E.
    - rewrite Kx by discriminate. apply finer_prepend, IH.
    - intros N. rewrite Kx by (intros [= ->]; congruence). reflexivity.
  Qed.
  Lemma finer_refl {A} (r : result A) : finer r r. Proof. intros _. reflexivity. Qed.

  Lemma store_finer n : forall st x, finer (store classes n H st x) (store classes (S n) H st x).
  Proof.
    induction n as [|n IH]; intros st x; [intros K; now destruct K|].
    remember (S n) as m. destruct x as [t v]. rewrite Heqm at 1. cbn [store fst snd].
    destruct t, v; try apply finer_refl.
    - destruct (held tid); [apply finer_prepend, IH|apply finer_refl].
    - apply finer_seq, IH.
    - apply finer_prepend, finer_seq, IH.
    - apply finer_prepend, finer_seq, IH.
    - apply finer_prepend, IH.
    - destruct (find_case tag cases); [apply finer_prepend, IH|apply finer_refl].
    - destruct (index_of Nat.eqb a (s_objs st)); [apply finer_refl|]. destruct (fits (length (s_objs st))); [|apply finer_refl].
      destruct (H a) as [[c' fs]|]; [|apply finer_refl]. apply finer_prepend, finer_seq, IH.
  Qed.

  Definition ok (st : sst) (r : result (sst * str)) : Prop :=
    r = Fail Overflow \/ exists st' w, r = Done (st', w) /\ exists ext, s_objs st' = s_objs st ++ ext.

  Lemma ok_fuel st r : ok st r -> r <> Fail OutOfFuel.
  Proof. intros [->|(st' & w & -> & _)]; discriminate. Qed.
  Lemma store_more n m st x : n <= m -> ok st (store classes n H st x) -> store classes m H st x = store classes n H st x.
  Proof.
    intros L K. induction L as [|m L IH]; [reflexivity|]. rewrite <- IH. apply store_finer. rewrite IH. exact (ok_fuel _ _ K).
  Qed.
  Lemma seq_more n m st l : n <= m -> ok st (store_seq (store classes n H) st l) ->
    store_seq (store classes m H) st l = store_seq (store classes n H) st l.
  Proof.
    intros L K. induction L as [|m L IH]; [reflexivity|]. rewrite <- IH. apply finer_seq; [apply store_finer|]. rewrite IH. exact (ok_fuel _ _ K).
  Qed.

  Lemma ok_same st : forall w, ok st (Done (st, w)).
  Proof. intros w. right. exists st, w. split; [reflexivity|]. exists []. now rewrite app_nil_r. Qed.
  Lemma ok_prepend st w r : ok st r -> ok st (prepend w r).
  Proof. intros [->|(st' & w' & -> & K)]; [now left|]. right. exists st', (w ++ w'). auto. Qed.
  Lemma ok_str st s : ok st (store_str st s).
  Proof.
    unfold store_str. destruct s as [[|c u]|]; try apply ok_same. destruct (index_of _ _ _); [apply ok_same|].
    destruct (fits _); [|now left]. right. eexists _, _. split; [reflexivity|]. exists []. cbn. now rewrite app_nil_r.
  Qed.
  Lemma ok_seq {X} (f : sst -> X -> result (sst * str)) l : (forall st x, ok st (f st x)) -> forall st, ok st (store_seq f st l).
  Proof.
    intros K. induction l as [|x l IH]; intros st; cbn [store_seq]; [apply ok_same|].
    destruct (K st x) as [->|(st1 & w1 & -> & e1 & E1)]; [now left|]. apply ok_prepend.
    destruct (IH st1) as [->|(st2 & w2 & -> & e2 & E2)]; [now left|]. right. exists st2, w2. split; [auto|].
    exists (e1 ++ e2). now rewrite E2, E1, app_assoc.
  Qed.
  Lemma ok_same_objs st st0 r : s_objs st0 = s_objs st -> ok st0 r -> ok st r.
  Proof. unfold ok. now intros ->. Qed.
  Lemma ok_strs st l : ok st (store_strs st l).
  Proof.
    unfold store_strs. destruct l as [|x l]; [apply ok_same|]. destruct (index_of _ _ _); [apply ok_same|].
    destruct (fits _); [|now left]. apply ok_prepend. eapply ok_same_objs; [|apply ok_seq, ok_str]. reflexivity.
  Qed.
  Lemma ok_env st e : ok st (store_env st e).
  Proof.
    unfold store_env. destruct e as [|x e]; [apply ok_same|]. destruct (index_of _ _ _); [apply ok_same|].
    destruct (fits _); [|now left].
    match goal with |- context [store_strs ?s ?l] => destruct (ok_strs s l) as [->|(st1 & w1 & -> & e1 & E1)]; [now left|] end.
    apply ok_prepend. destruct (ok_seq store_str (map snd (x :: e)) ok_str st1) as [->|(st2 & w2 & -> & e2 & E2)]; [now left|].
    right. exists st2, w2. split; [auto|]. exists (e1 ++ e2). rewrite E2, E1. cbn. now rewrite app_assoc.
  Qed.

  (** The objects not yet written. *)
  Definition unseen (st : sst) : nat := length (filter (fun a => negb (existsb (Nat.eqb a) (s_objs st))) dom).

  Lemma filter_le {A} (f g : A -> bool) l : (forall x, f x = true -> g x = true) -> length (filter f l) <= length (filter g l).
  Proof. intros K. induction l as [|x l IH]; cbn; [lia|]. destruct (f x) eqn:E; [rewrite (K _ E); cbn; lia|]. destruct (g x); cbn; lia. Qed.
  Lemma filter_lt {A} (f g : A -> bool) l y : (forall x, f x = true -> g x = true) -> In y l -> f y = false -> g y = true ->
    length (filter f l) < length (filter g l).
  Proof.
    intros K. induction l as [|x l IH]; [intros []|]. intros [->|Hy] F G; cbn.
    - rewrite F, G. cbn. pose proof (filter_le f g l K). lia.
    - specialize (IH Hy F G). destruct (f x) eqn:E; [rewrite (K _ E); cbn; lia|]. destruct (g x); cbn; lia.
  Qed.
  Lemma unseen_ext st st' : (exists ext, s_objs st' = s_objs st ++ ext) -> unseen st' <= unseen st.
  Proof.
    intros [ext E]. unfold unseen. apply filter_le. intros a. rewrite E, existsb_app, !negb_true_iff. intros K. apply orb_false_iff in K. tauto.
  Qed.
  Lemma unseen_new st a ss ls es : In a dom -> ~ In a (s_objs st) -> unseen (mkS (s_objs st ++ [a]) ss ls es) < unseen st.
  Proof.
    intros Ha Na. unfold unseen. cbn. apply filter_lt with (y := a); auto.
    - intros b. rewrite existsb_app, !negb_true_iff. intros K. apply orb_false_iff in K. tauto.
    - rewrite existsb_app. cbn. rewrite Nat.eqb_refl. now rewrite orb_true_r.
    - apply negb_true_iff. apply not_true_iff_false. rewrite existsb_exists. intros (b & Hb & E). apply Nat.eqb_eq in E. now subst.
  Qed.

  Definition ends (k : nat) (x : ty * val) : Prop := forall st, unseen st <= k -> exists n, ok st (store classes n H st x).
  Lemma seq_ends k l : Forall (ends k) l -> forall st, unseen st <= k -> exists n, ok st (store_seq (store classes n H) st l).
  Proof.
    intros F. induction F as [|x l Hx F IH]; intros st U; [exists 0; apply ok_same|].
    destruct (Hx st U) as (n1 & K1). destruct K1 as [E1|(st1 & w1 & E1 & X1)].
    - exists n1. left. cbn [store_seq]. now rewrite E1.
    - destruct (IH st1) as (n2 & K2); [pose proof (unseen_ext _ _ X1); lia|]. exists (n1 + n2). cbn [store_seq].
      rewrite (store_more n1 (n1 + n2)) by (try lia; right; eauto). rewrite E1.
      rewrite (seq_more n2 (n1 + n2)) by (try lia; auto). apply ok_prepend.
      destruct K2 as [->|(st2 & w2 & -> & e2 & E2)]; [now left|]. destruct X1 as [e1 X1]. right. exists st2, w2. split; [auto|].
      exists (e1 ++ e2). now rewrite E2, X1, app_assoc.
  Qed.

  Lemma val_ends k : forall x, typed x -> ends k x.
  Proof.
    induction k as [k IHk] using lt_wf_ind.
    assert (Gen : forall v t, typed (t, v) -> ends k (t, v)).
    { intros v. induction v using val_ind'; intros t' T st U; inversion T; subst.
      - exists 1. apply ok_same.
      - exists 1. apply ok_str.
      - exists 1. apply ok_strs.
      - exists 1. apply ok_env.
      - exists 1. apply ok_same.
      - match goal with T' : typed (?t2, v) |- _ => destruct (IHv t2 T' st U) as (m & K) end.
        exists (S m). cbn [store fst snd]. match goal with E : variant_type _ _ |- _ => rewrite (held_type _ _ E) end. now apply ok_prepend.
      - destruct (seq_ends k [(a, v1); (b, v2)]) with (st := st) as (m & K); auto.
        exists (S m). exact K.
      - match goal with F : Forall typed (map (pair ?t) l) |- _ => destruct (seq_ends k (map (pair t) l)) with (st := st) as (m & K); auto end.
        + apply Forall_map. match goal with F : Forall typed (map _ l) |- _ => apply (proj1 (Forall_map _ _ _)) in F end.
          rewrite Forall_forall in *. intros v Hv. apply (H0 v Hv); auto.
        + exists (S m). cbn [store fst snd]. now apply ok_prepend.
      - match goal with F : Forall typed (entries ?kt ?vt l) |- _ => destruct (seq_ends k (entries kt vt l)) with (st := st) as (m & K); auto;
          [assert (F' := F); unfold entries in F'|] end.
        + unfold entries. rewrite Forall_concat in *. rewrite Forall_map in *. rewrite Forall_forall in *. intros e He.
          specialize (F' e He). destruct (H0 e He) as [K1 K2].
          inversion F' as [|? ? A1 F1]; subst. inversion F1 as [|? ? A2 F2]; subst. repeat constructor; auto.
        + exists (S m). cbn [store fst snd]. now apply ok_prepend.
      - exists 1. apply ok_same.
      - match goal with T' : typed (?t2, v) |- _ => destruct (IHv t2 T' st U) as (m & K) end. exists (S m). now apply ok_prepend.
      - match goal with T' : typed (?t2, v) |- _ => destruct (IHv t2 T' st U) as (m & K) end.
        exists (S m). cbn [store fst snd]. match goal with E : find_case _ _ = _ |- _ => rewrite E end. now apply ok_prepend.
      - exists 1. apply ok_same.
      - match goal with E : H a = Some _ |- _ => rename E into Ea end.
        destruct (index_of Nat.eqb a (s_objs st)) as [id|] eqn:Q; [exists 1; cbn [store fst snd]; rewrite Q; apply ok_same|].
        destruct (fits (length (s_objs st))) eqn:F; [|exists 1; cbn [store fst snd]; rewrite Q, F; now left].
        apply (index_of_none _ Nat.eqb_eq) in Q as Q'.
        set (st1 := mkS (s_objs st ++ [a]) (s_strs st) (s_lists st) (s_envs st)).
        assert (U1 : unseen st1 < unseen st) by (apply unseen_new; [apply Hdom; congruence|auto]).
        destruct (HH _ _ _ Ea) as [_ Tf].
        assert (Fe : Forall (ends (unseen st1)) (combine (classes c) fields)).
        { eapply Forall_impl; [|exact Tf]. intros x Tx. apply IHk; [lia|auto]. }
        destruct (seq_ends _ _ Fe st1 (le_n _)) as (m & K). exists (S m). cbn [store fst snd]. rewrite Q, F, Ea. fold st1.
        apply ok_prepend. destruct K as [->|(st2 & w2 & -> & e2 & E2)]; [now left|]. right. exists st2, w2. split; [auto|].
        exists ([a] ++ e2). rewrite E2. cbn [st1 s_objs]. now rewrite <- app_assoc. }
    intros [t v]. apply Gen.
  Qed.
End Total.

(** ** Theorems *)

(** Whatever is written, in any number and nesting, with any sharing and any cycles: it is read back as the same values and an
    isomorphic graph of objects, and reading stops exactly where writing stopped. *)
Theorem graph_roundtrip classes own H strict n l st w rest :
  heap_ok classes own H strict -> Forall (typed own H strict) l ->
  store_all classes n H l = Done (st, w) ->
  exists vs ld names,
    load_all classes n (map fst l) (w ++ rest) = Done (vs, ld, rest)
    /\ NoDup names
    /\ Forall2 (fun x v => same strict names (snd x) v) l vs
    /\ l_next ld = length names
    /\ forall i, i < length names -> same_object H strict names ld i.
Proof.
  intros HH Tl E.
  destruct (goodv_seq classes own H strict n l (store_good classes own H strict HH n) Tl _ _ _ l_empty rest E (R_empty own strict))
    as (vs & ld & G & T & Sm).
  exists vs, ld, (s_objs st). pose proof (P_R _ _ _ _ _ _ _ T) as HR. repeat split.
  - exact G.
  - exact (R_nodup _ _ _ _ HR).
  - exact Sm.
  - exact (R_next _ _ _ _ HR).
  - intros i Hi. apply (P_new _ _ _ _ _ _ _ T). cbn. lia.
Qed.


(** Two references to one object are read as references to one object, references to different objects as references to different
    ones; null stays null. *)
Theorem sharing_preserved classes own H strict n l st w rest vs ld r :
  heap_ok classes own H strict -> Forall (typed own H strict) l ->
  store_all classes n H l = Done (st, w) -> load_all classes n (map fst l) (w ++ rest) = Done (vs, ld, r) ->
  forall p q o1 o2 c1 c2 a b, nth_error l p = Some (TPtr o1 c1, VPtr a) -> nth_error l q = Some (TPtr o2 c2, VPtr b) ->
    exists i j, nth_error vs p = Some (VPtr i) /\ nth_error vs q = Some (VPtr j) /\ (a = b <-> i = j).
Proof.
  intros HH Tl E L p q o1 o2 c1 c2 a b Ha Hb.
  destruct (graph_roundtrip classes own H strict n l st w rest HH Tl E) as (vs' & ld' & names & G & Nd & Sm & _).
  rewrite L in G. injection G as <- <- _.
  assert (At : forall k o c x, nth_error l k = Some (TPtr o c, VPtr x) -> exists i, nth_error vs k = Some (VPtr i) /\ nth_error names i = Some x).
  { clear - Sm. intros k. revert k. induction Sm as [|x v l vs S1 Sm IH]; intros [|k] o c a E; try discriminate; cbn in E |- *.
    - injection E as ->. cbn in S1. inversion S1; subst. eauto.
    - eapply IH; eauto. }
  destruct (At _ _ _ _ Ha) as (i & A1 & A2). destruct (At _ _ _ _ Hb) as (j & B1 & B2).
  exists i, j. split; [auto|]. split; [auto|]. split.
  - intros ->. apply (proj1 (NoDup_nth_error names) Nd); [|congruence]. apply nth_error_Some. congruence.
  - intros ->. congruence.
Qed.

Lemma same_pointer_free names v : pointer_free v = true -> forall v', same true names v v' -> v' = v.
Proof.
  induction v using val_ind'; cbn [pointer_free]; intros P v' S; inversion S; subst; auto.
  - now match goal with K : same_strs _ _ _ |- _ => cbn in K; subst end.
  - match goal with K : same_env _ _ _ |- _ => destruct K as [K1 K2]; cbn in K2 end. f_equal. now apply map_snd_fst_eq.
  - f_equal; auto.
  - apply andb_true_iff in P. destruct P. f_equal; auto.
  - f_equal. match goal with F : Forall2 _ l _ |- _ => clear S; induction F end; [reflexivity|].
    match goal with F : Forall _ (_ :: _) |- _ => inversion F; subst end. cbn in P. apply andb_true_iff in P. destruct P. f_equal; auto.
  - f_equal. match goal with F : Forall2 _ l _ |- _ => clear S; induction F as [|[] [] ? ? []] end; [reflexivity|].
    match goal with F : Forall _ (_ :: _) |- _ => inversion F as [|? ? []]; subst end. cbn in *. apply andb_true_iff in P. destruct P as [P1 P2].
    apply andb_true_iff in P1. destruct P1. f_equal; [f_equal|]; auto.
  - f_equal; auto.
  - f_equal; auto.
  - discriminate.
Qed.

(** Values without pointers are read back identically, whatever was written before, in between and afterwards. *)
Theorem values_roundtrip classes own H n before v after st w rest :
  heap_ok classes own H true -> Forall (typed own H true) (before ++ v :: after) -> pointer_free (snd v) = true ->
  store_all classes n H (before ++ v :: after) = Done (st, w) ->
  exists vs ld, load_all classes n (map fst (before ++ v :: after)) (w ++ rest) = Done (vs, ld, rest)
             /\ nth_error vs (length before) = Some (snd v).
Proof.
  intros HH Tl P E. destruct (graph_roundtrip classes own H true n _ st w rest HH Tl E) as (vs & ld & names & G & _ & Sm & _).
  exists vs, ld. split; [exact G|]. apply Forall2_app_inv_l in Sm. destruct Sm as (v1 & v2 & S1 & S2 & ->).
  inversion S2 as [|? y ? v3 S3 _]; subst. rewrite nth_error_app2; rewrite (Forall2_len _ _ _ S1); [|lia].
  rewrite Nat.sub_diag. cbn. f_equal. eapply same_pointer_free; eauto.
Qed.

(** Writing a finite graph comes to an end, also when it has cycles; the only obstacle are more than 2^31 - 1 strings, lists, environments or
    objects. *)
Theorem store_terminates classes own H strict dom l :
  heap_ok classes own H strict -> (forall a, H a <> None -> In a dom) -> Forall (typed own H strict) l ->
  exists n, forall m, n <= m -> (exists st w, store_all classes m H l = Done (st, w)) \/ store_all classes m H l = Fail Overflow.
Proof.
  intros HH Hd Tl.
  destruct (seq_ends classes H dom (unseen dom s_empty) l) with (st := s_empty) as (n & K); [|lia|].
  { eapply Forall_impl; [|exact Tl]. intros x Tx. apply (val_ends classes own H strict HH dom Hd); auto. }
  exists n. intros m L. unfold store_all. rewrite (seq_more classes H n m _ _ L K).
  destruct K as [->|(st & w & -> & _)]; [now right|left; eauto].
Qed.

(** A null string inside a string list can come back as an empty one (and the other way round): the list is found in the table by Qt's
    comparison, for which the two are equal. *)
Theorem null_in_list_refuted : exists own H l n st w vs ld,
  Forall (typed own H false) l /\ store_all (fun _ => []) n H l = Done (st, w)
  /\ load_all (fun _ => []) n (map fst l) w = Done (vs, ld, []) /\ vs <> map snd l.
Proof.
  exists (fun _ => Raw), (fun _ => None), [(TStrs, VStrs [Some []]); (TStrs, VStrs [None])], 1.
  eexists _, _, _, _. split; [|split; [vm_compute; reflexivity|split; [vm_compute; reflexivity|discriminate]]].
  repeat constructor; vm_compute; try discriminate; auto.
Qed.

(** Reading an optional without a value leaves the variable it is read into as it was. *)
Theorem optional_not_reset_refuted : exists old st w,
  store (fun _ => []) 1 (fun _ => None) s_empty (TOpt (TInt I32), VNone) = Done (st, w)
  /\ load_marker old w (fun s => load (fun _ => []) 1 l_empty (TInt I32) s) l_empty = Done (old, l_empty, []) /\ old <> VNone.
Proof. exists (VSome (VInt 5)), s_empty. eexists. split; [vm_compute; reflexivity|]. split; [reflexivity|discriminate]. Qed.

(** An object that is referred to by a raw and by a shared pointer is read as two objects: the hypothesis on ownership is needed. *)
Theorem mixed_pointers_refuted : exists H l n st w vs ld,
  store_all (fun _ => []) n H l = Done (st, w) /\ map snd l = [VPtr 7; VPtr 7]
  /\ load_all (fun _ => []) n (map fst l) w = Done (vs, ld, []) /\ vs = [VPtr 0; VPtr 1].
Proof.
  exists (fun _ => Some (0, [])), [(TPtr Raw 0, VPtr 7); (TPtr Shared 0, VPtr 7)], 2.
  eexists _, _, _, _. split; [vm_compute; reflexivity|]. split; [reflexivity|]. split; [vm_compute; reflexivity|reflexivity].
Qed.

(** ** Examples *)

Module Demo.
  (** Class 0: a name, a pointer to the next object of the class, a list of shared objects of class 1; class 1: a variant and an
      optional pointer back. *)
  Definition cls (c : nat) : list ty :=
    match c with
    | 0 => [TStr; TPtr Raw 0; TList (TPtr Shared 1)]
    | _ => [TVariant; TOpt (TPtr Raw 0)]
    end.
  Definition a_ : qstr := Some [97%N].
  (** Objects 10 and 20 point to each other and share object 30. *)
  Definition h (a : nat) : option (nat * list val) :=
    if a =? 10 then Some (0, [VStr a_; VPtr 20; VList [VPtr 30; VPtr 30]])
    else if a =? 20 then Some (0, [VStr None; VPtr 10; VList [VPtr 30]])
    else if a =? 30 then Some (1, [VHeld 8 (VMap [(VStr a_, VHeld 11 (VStrs [a_; Some []])); (VStr (Some []), VRaw 2 false [0; 0; 0; 7]%N)]); VSome (VPtr 20)])
    else None.
  Definition own (a : nat) : ownership := if a =? 30 then Shared else Raw.
  Definition roots : list (ty * val) :=
    [(TPtr Raw 0, VPtr 10); (TEnv, VEnv [([80; 65]%N, a_)]); (TUnion [(0%Z, TInt I64); (1%Z, TPtr Shared 1)], VCase 1 (VPtr 30)); (TInt I8, VInt (-5))].

  Ltac chk := repeat (first [progress (unfold count_ok, int_ok, inner_ok, string_ok; cbn) | split | constructor | discriminate | lia | reflexivity | (intros; discriminate) | (intuition discriminate)]).
  Example h_ok : heap_ok cls own h true.
  Proof.
    intros a c fs E. unfold h in E.
    destruct (a =? 10); [injection E as <- <-|destruct (a =? 20); [injection E as <- <-|destruct (a =? 30); [injection E as <- <-|discriminate]]];
      (split; [reflexivity|]); cbn [cls combine].
    - constructor; [chk|]. constructor; [eapply t_ptr; reflexivity|]. constructor; [|constructor].
      apply t_list; [repeat (constructor; [eapply t_ptr; reflexivity|]); constructor|chk].
    - constructor; [chk|]. constructor; [eapply t_ptr; reflexivity|]. constructor; [|constructor].
      apply t_list; [repeat (constructor; [eapply t_ptr; reflexivity|]); constructor|chk].
    - constructor.
      + eapply t_held; [constructor|]. apply t_map; [|chk|chk]. cbn.
        constructor; [chk|]. constructor; [eapply t_held; [constructor|]; apply t_strs; chk|]. constructor; [chk|]. constructor; [|constructor].
        apply t_raw; [reflexivity|intros _ t V; inversion V].
      + constructor; [|constructor]. apply t_some. eapply t_ptr; reflexivity.
  Qed.
  Example roots_ok : Forall (typed own h true) roots.
  Proof.
    constructor; [eapply t_ptr; reflexivity|]. constructor; [apply t_env; chk|]. constructor.
    - eapply t_case; [reflexivity|chk|]. eapply t_ptr; reflexivity.
    - constructor; [apply t_int; unfold int_ok; cbn; lia|constructor].
  Qed.
  Example roots_stored : exists st w, store_all cls 9 h roots = Done (st, w) /\ s_objs st = [10; 20; 30]
    /\ exists ld, load_all cls 9 (map fst roots) w = Done ([VPtr 0; VEnv [([80; 65]%N, a_)]; VCase 1 (VPtr 2); VInt (-5)], ld, [])
                 /\ find_obj 1 (l_heap ld) = Some (0, [VStr None; VPtr 0; VList [VPtr 2]]).
  Proof. eexists _, _. split; [vm_compute; reflexivity|]. split; [reflexivity|]. eexists. split; vm_compute; reflexivity. Qed.
  Example not_a_cycle_of_length_0 : store_all cls 3 h roots = Fail OutOfFuel. Proof. vm_compute. reflexivity. Qed.
End Demo.

Print Assumptions graph_roundtrip.
Print Assumptions sharing_preserved.
Print Assumptions values_roundtrip.
Print Assumptions store_terminates.
Print Assumptions null_in_list_refuted.
Print Assumptions optional_not_reset_refuted.
Print Assumptions mixed_pointers_refuted.
