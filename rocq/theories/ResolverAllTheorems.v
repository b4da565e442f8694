(** More theorems about the scheduling of products when a project is resolved: these hold with dependency cycles, too. *)
From Coq Require Import List Bool Arith Lia Sorting.Permutation Wellfounded.
From Verif Require Import ResolverModel ResolverTheorems.
Import ListNotations.

(** ** The invariant *)

(** The products that are somewhere, with their loader states; the ones without, which are in the queue. *)
Definition owns (s : state) (p l : nat) : Prop :=
  In (p, Some l) (map (fun e => (q_product e, q_state e)) (queue s)) \/ In (p, l) (map (fun j => (j_product j, j_state j)) (running s)) \/
  In (p, l) (vals (single s)) \/ In (p, l) (bulk s) \/ (exists v, In (l, v) (for_state s) /\ In p (map fst v)) \/ In (p, l) (map fst (directs s)).
Definition fresh (x : nat) (l : list queued) : nat := sm (fun e => match q_state e with None => ind x (q_product e) | Some _ => 0 end) l.
Definition somewhere (s : state) (p : nat) : Prop := 0 < fresh p (queue s) \/ exists l, owns s p l.

Record GInv (products : list nat) (states : list nat) (plan : nat -> list dep) (s : state) : Prop := {
  g_where : forall x, In x (to_handle s) -> somewhere s x;
  g_known : forall x, somewhere s x \/ In x (to_handle s) \/ In x (finished s) -> In x products;
  g_th : forall x, In x products -> In x (to_handle s) \/ In x (finished s);
  g_used : forall x, used x s = sm (ind x) states;
  g_home : forall p l l', owns s p l -> owns s p l' -> l = l';
  g_fresh : forall p, fresh p (queue s) <= 1 /\ (0 < fresh p (queue s) -> forall l, ~ owns s p l);
  g_keys : NoDup (map fst (single s));
  g_single : forall q l, In (q, l) (single s) -> l <> [] /\ In q (to_handle s);
  g_fkeys : NoDup (map fst (for_state s));
  g_for : forall k v, In (k, v) (for_state s) -> v <> [] ->
    In k (map j_state (running s)) \/ In k (map (fun e => snd (fst e)) (directs s)) \/ In (Some k) (map q_state (queue s));
  g_states : forall p l, owns s p l -> In l states;
  g_end : forall j, In j (running s) -> (forall d, j_phase j <> Runs d) ->
    todo s (j_product j) = [] \/ In (j_product j) (failed s) \/ (exists q i r, todo s (j_product j) = Single q i :: r) \/ (exists c r, todo s (j_product j) = Bulk c :: r);
  g_pc : match pc s with
         | Failed => False
         | Waiting => running s <> []
         | Scheduling => forall j, In j (running s) -> j_phase j <> Done
         | Finished => to_handle s = []
         | Handling _ => True end;
  g_max : max_jobs s <= length states /\ (products <> [] -> 1 <= max_jobs s);
  g_names : forall p q, In p products -> ~ In p (failed s) -> In q (direct_names (plan p)) -> In q (to_handle s) -> In q (direct_names (todo s p));
  g_order : forall a p b q, finished s = a ++ p :: b -> In q (direct_names (plan p)) -> ~ In p (failed s) -> In q products -> In q a }.

Lemma nodup_map_trans {A} (f g : A -> nat) l : NoDup (map f l) -> (forall a b, In a l -> In b l -> g a = g b -> f a = f b) -> NoDup (map g l).
Proof.
  induction l as [|x l IH]; [constructor|]. cbn [map]. intros N H. inversion N as [|? ? NI N']; subst. constructor.
  - intros I. apply in_map_iff in I as (y & E & I). apply NI. rewrite (H x y); [now apply in_map|now left|now right|congruence].
  - apply IH; auto. intros a b Ia Ib. apply H; now right.
Qed.
Lemma put_old {A} k (l : list A) m k' v : k' <> k -> In (k', v) m -> In (k', v) (put k l m).
Proof. intros N. induction m as [|(a, b) m IH]; cbn [put]; [intros []|]. destruct (Nat.eqb_spec k a) as [<-|]; cbn [In]; intros [E|I]; auto. injection E as <- _. congruence. Qed.
Lemma put_new {A} k (l : list A) m : In (k, l) (put k l m).
Proof. induction m as [|(a, b) m IH]; cbn [put]; [now left|]. destruct (k =? a); [now left|now right]. Qed.
Lemma fresh_app x a b : fresh x (a ++ b) = fresh x a + fresh x b. Proof. apply sm_app. Qed.
Lemma fresh_in x l : 0 < fresh x l <-> exists e, In e l /\ q_state e = None /\ q_product e = x.
Proof.
  unfold fresh. rewrite sm_pos. split; intros (e & I & P).
  - exists e. destruct (q_state e); [lia|]. apply ind_pos in P. auto.
  - exists e. split; auto. destruct P as [-> <-]. rewrite ind_same. lia.
Qed.

Section Steps.
Context (products states : list nat) (plan : nat -> list dep).
Context (NDs : NoDup states).
Notation INV := (GInv products states plan).
Ltac proj := cbn [pc max_jobs queue running single bulk for_state available to_handle finished failed todo with_job with_pc with_queue j_product j_state j_phase q_product q_state q_count fst snd].

Lemma g_used_le s x : INV s -> used x s <= 1.
Proof. intros H. rewrite (g_used _ _ _ _ H). now apply nodup_sm. Qed.
Lemma run_states s : INV s -> NoDup (map j_state (running s)).
Proof. intros H. apply nodup_sm. intros x. rewrite sm_map. pose proof (g_used_le s x H). unfold used in *. lia. Qed.
Lemma run_owns s j : In j (running s) -> owns s (j_product j) (j_state j).
Proof. intros I. right. left. apply in_map_iff. eauto. Qed.
Lemma run_nodup s : INV s -> NoDup (map j_product (running s)).
Proof.
  intros H. apply (nodup_map_trans j_state j_product); [now apply run_states|]. intros a b Ia Ib E. apply (g_home _ _ _ _ H (j_product a)); [now apply run_owns|rewrite E; now apply run_owns].
Qed.
Lemma run_known s j : INV s -> In j (running s) -> In (j_product j) products.
Proof. intros H I. apply (g_known _ _ _ _ H). left. right. exists (j_state j). now apply run_owns. Qed.

(** Steps that leave where the products are. *)
Definition same (s s' : state) : Prop := queue s' = queue s /\ map (fun j => (j_product j, j_state j)) (running s') = map (fun j => (j_product j, j_state j)) (running s) /\
  single s' = single s /\ bulk s' = bulk s /\ for_state s' = for_state s /\ directs s' = directs s /\ available s' = available s /\ to_handle s' = to_handle s /\ finished s' = finished s /\
  max_jobs s' = max_jobs s.
Lemma same_owns s s' p l : same s s' -> owns s' p l <-> owns s p l.
Proof. intros (E1 & E2 & E3 & E4 & E5 & E6 & _). unfold owns. now rewrite E1, E2, E3, E4, E5, E6. Qed.
Lemma same_states s s' : same s s' -> map j_state (running s') = map j_state (running s).
Proof. intros (_ & E & _). apply (f_equal (map snd)) in E. now rewrite !map_map in E. Qed.
Lemma same_inv s s' : INV s -> same s s' ->
  (forall j, In j (running s') -> (forall d, j_phase j <> Runs d) ->
    todo s' (j_product j) = [] \/ In (j_product j) (failed s') \/ (exists q i r, todo s' (j_product j) = Single q i :: r) \/ (exists c r, todo s' (j_product j) = Bulk c :: r)) ->
  match pc s' with
         | Failed => False
         | Waiting => running s' <> []
         | Scheduling => forall j, In j (running s') -> j_phase j <> Done
         | Finished => to_handle s' = []
         | Handling _ => True end ->
  (forall p q, In p products -> ~ In p (failed s') -> In q (direct_names (plan p)) -> In q (to_handle s) -> In q (direct_names (todo s' p))) ->
  incl (failed s) (failed s') -> INV s'.
Proof.
  intros H S E P N F. pose proof (fun p l => same_owns s s' p l S) as O. pose proof (same_states s s' S) as ST. destruct H as [H1 H2 H3 H4 H5 H6 H7 H8 H9 H10 H11 H12 H13 H14 H15 H16].
  assert (W : forall x, somewhere s' x <-> somewhere s x). { intros x. unfold somewhere. setoid_rewrite O. destruct S as (-> & _). reflexivity. }
  destruct S as (E1 & E2 & E3 & E4 & E5 & E6 & E7 & E8 & E9 & E10). constructor; rewrite ?E1, ?E3, ?E4, ?E5, ?E6, ?E7, ?E8, ?E9, ?E10, ?ST; auto.
  - intros x I. apply W. auto.
  - intros x I. rewrite W in I. auto.
  - intros x. rewrite <- H4. unfold used. rewrite E7, E6, <- (sm_map j_state (ind x)), ST, sm_map. reflexivity.
  - intros p l l' A B. apply O in A. apply O in B. eauto.
  - intros p. destruct (H6 p) as [A B]. split; auto. intros C l D. apply O in D. now apply (B C l).
  - intros p l A. apply O in A. eauto.
  - now rewrite <- E8.
  - intros a p b q X Y Z V. apply (H16 a p b q); auto.
Qed.
Lemma g_with_job s p j ph t f :
  INV s -> find_job p (running s) = Some j -> (f = failed s \/ f = p :: failed s) ->
  (ph = Done -> pc s = Waiting) ->
  ((forall d, ph <> Runs d) -> t = [] \/ In p f \/ (exists q i r, t = Single q i :: r) \/ (exists c r, t = Bulk c :: r)) ->
  (~ In p f -> forall q, In q (direct_names (todo s p)) -> In q (to_handle s) -> In q (direct_names t)) ->
  INV (with_job s p ph t f).
Proof.
  intros H F FF DN EN NM. destruct (find_job_some _ _ _ F) as [JI JP].
  assert (OF : forall x, In x f <-> In x (failed s) \/ (x = p /\ In p f)) by (intros x; destruct FF as [->| ->]; cbn [In]; intuition; subst; auto).
  assert (ST : forall x, x <> p -> set (todo s) p t x = todo s x) by (intros x N; unfold set; apply Nat.eqb_neq in N; now rewrite N).
  assert (SP : set (todo s) p t p = t) by (unfold set; now rewrite Nat.eqb_refl).
  apply (same_inv s); auto; proj.
  - repeat split; auto. proj. unfold set_phase. rewrite map_map. apply map_ext. intros k. destruct (Nat.eqb_spec (j_product k) p); cbn; congruence.
  - intros k I N. apply set_phase_in in I as [[A B]|[I NE]].
    + rewrite A, SP. apply EN. rewrite <- B. exact N.
    + rewrite ST by auto. destruct (g_end _ _ _ _ H k I N) as [X|[X|X]]; auto. right. left. apply OF. auto.
  - pose proof (g_pc _ _ _ _ H) as H9. destruct (pc s) eqn:PC; auto.
    + intros k I. apply set_phase_in in I as [[A B]|[I NE]]; [|auto]. rewrite B. intros D. specialize (DN D). discriminate.
    + intros E. apply H9. apply (f_equal (map j_product)) in E. rewrite set_phase_product in E. now destruct (running s).
  - intros x q I NF J K. pose proof (g_names _ _ _ _ H) as H12. destruct (Nat.eq_dec x p) as [->|NE].
    + rewrite SP. apply NM; auto. apply H12; auto. intros X. apply NF, OF. auto.
    + rewrite ST by auto. apply H12; auto. intros X. apply NF, OF. auto.
  - intros x I. apply OF. auto.
Qed.
Lemma g_job_step s p use picks s' : INV s -> job_step p use picks s = Some s' -> INV s'.
Proof.
  intros H E. unfold job_step in E. destruct (find_job p (running s)) as [[jp l [d| |]]|] eqn:F; try discriminate. injection E as <-.
  assert (LOAD : forall inner rest, 
    (~ In p (failed s) -> forall q, In q (direct_names (todo s p)) -> In q (to_handle s) -> In q (direct_names rest)) ->
    INV (with_job s p (Runs (if use then Allowed else d)) ((if use then inner else []) ++ rest) (failed s))).
  { intros inner rest NM. eapply g_with_job; eauto.
    - discriminate.
    - intros X. now destruct (X (if use then Allowed else d)).
    - intros NF q I J. rewrite dnames_app. right. auto. }
  destruct (todo s p) as [|[q inner|inner|cands] rest] eqn:T.
  - eapply g_with_job; eauto; try discriminate. rewrite T. auto.
  - destruct (Nat.eqb_spec q p) as [->|NE].
    + eapply g_with_job; eauto; try discriminate; [intros X; now destruct (X d)|]. intros X. destruct X. now left.
    + destruct (mem q (to_handle s)) eqn:M.
      * destruct d.
        -- eapply g_with_job; eauto; try discriminate; try (rewrite T; now auto). intros _. right. right. left. eauto.
        -- eapply g_with_job; eauto; try discriminate; [intros X; now destruct (X NotAllowed)|]. intros X. destruct X. now left.
      * apply LOAD. intros _ x [X|X] Y; [subst x; apply mem_no in M; tauto|exact X].
  - apply LOAD. intros _ x X Y. exact X.
  - destruct d.
    + eapply g_with_job; eauto; try discriminate; try (rewrite T; now auto). intros _. right. right. right. eauto.
    + eapply g_with_job; eauto; try discriminate.
      * intros X. now destruct (X Allowed).
      * rewrite T. intros _ x X Y. rewrite dnames_app. right. exact X.
Qed.
Lemma g_job_error s p n s' : INV s -> job_error p n s = Some s' -> INV s'.
Proof.
  intros H E. unfold job_error in E. destruct (find_job p (running s)) as [[jp l [d| |]]|] eqn:F; try discriminate. injection E as <-.
  assert (A : INV (with_job s p Ended (todo s p) (p :: failed s))).
  { eapply g_with_job; eauto; try discriminate. intros _. right. left. now left. }
  destruct n as [|n]; [exact A|]. destruct (todo s p) as [|x r] eqn:T; [exact A|].
  eapply g_with_job; eauto; try discriminate; [intros X; now destruct (X d)|]. intros X. destruct X. now left.
Qed.
Lemma g_mark s p s' : INV s -> mark p s = Some s' -> INV s'.
Proof.
  intros H E. unfold mark in E. destruct (pc s) eqn:PC; try discriminate. destruct (find_job p (running s)) as [[jp l [d| |]]|] eqn:F; try discriminate. injection E as <-.
  pose proof (find_job_some _ _ _ F) as [JI JP]. cbn in JP. subst jp. eapply g_with_job; eauto.
  intros _. apply (g_end _ _ _ _ H _ JI). discriminate.
Qed.

Lemma queue_known s e : In e (queue s) -> somewhere s (q_product e).
Proof.
  intros I. destruct (q_state e) as [l|] eqn:E.
  - right. exists l. left. apply in_map_iff. exists e. rewrite E. auto.
  - left. apply fresh_in. eauto.
Qed.
(** The changes of [handle]. *)
Lemma handle_cases s p s' : handle p s = Some s' -> exists l direct' fs q sg bk th fin pc',
  find_job p (running s) = Some {| j_product := p; j_state := l; j_phase := Done |} /\
  (direct', fs) = match entry l (for_state s) with (p', d) :: t => (directs s ++ [(p', l, d)], put l t (for_state s)) | [] => (directs s, for_state s) end /\
  s' = {| pc := pc'; max_jobs := max_jobs s; queue := q; running := drop_job p (running s); single := sg; bulk := bk; for_state := fs;
          available := match entry l (for_state s) with [] => l :: available s | _ => available s end; to_handle := th; finished := fin; failed := failed s; todo := todo s |} /\
  ((pc' = Handling direct' /\ (In p (failed s) \/ todo s p = []) /\
    q = queue s ++ map (fun e : nat * nat => {| q_product := fst e; q_state := Some (snd e); q_count := None |}) (entry p (single s)) /\
    sg = erase p (single s) /\ bk = bulk s /\ th = drop p (to_handle s) /\ fin = finished s ++ [p])
   \/ (~ In p (failed s) /\ todo s p <> [] /\ th = to_handle s /\ fin = finished s /\
      ((exists c r, pc' = Handling direct' /\ todo s p = Bulk c :: r /\ q = queue s /\ sg = single s /\ bk = bulk s ++ [(p, l)])
       \/ (exists x i r, pc' = Handling direct' /\ todo s p = Single x i :: r /\ In x (to_handle s) /\ q = queue s /\ sg = put x (entry x (single s) ++ [(p, l)]) (single s) /\ bk = bulk s)
       \/ (exists x i r, pc' = Handling direct' /\ todo s p = Single x i :: r /\ ~ In x (to_handle s) /\ q = queue s ++ [{| q_product := p; q_state := Some l; q_count := None |}] /\ sg = single s /\ bk = bulk s)
       \/ (exists i r, todo s p = Plain i :: r)))).
Proof.
  intros E. assert (G : exists l, find_job p (running s) = Some {| j_product := p; j_state := l; j_phase := Done |}).
  { unfold handle in E. destruct (find_job p (running s)) as [[jp l [d| |]]|] eqn:F; try (destruct (pc s); discriminate). exists l. apply find_job_some in F as [_ <-]. reflexivity. }
  destruct G as (l & F). unfold handle in E. rewrite F in E.
  set (D := match entry l (for_state s) with (p', d) :: t => (directs s ++ [(p', l, d)], put l t (for_state s)) | [] => (directs s, for_state s) end).
  destruct D as (direct', fs) eqn:DE. subst D. exists l, direct', fs.
  assert (P : (pc s = Waiting /\ directs s = []) \/ pc s = Handling (directs s)) by (unfold directs; destruct (pc s); auto; discriminate).
  assert (E' : (let res pc q sg bk th fin :=
          Some {| pc := pc; max_jobs := max_jobs s; queue := q; running := drop_job p (running s); single := sg; bulk := bk; for_state := fs;
                  available := match entry l (for_state s) with [] => l :: available s | _ => available s end;
                  to_handle := th; finished := fin; failed := failed s; todo := todo s |} in
        if mem p (failed s) || (match todo s p with [] => true | _ => false end) then
          res (Handling direct')
            (queue s ++ map (fun e : nat * nat => {| q_product := fst e; q_state := Some (snd e); q_count := None |}) (entry p (single s)))
            (erase p (single s)) (bulk s) (drop p (to_handle s)) (finished s ++ [p])
        else match todo s p with
             | Bulk _ :: _ => res (Handling direct') (queue s) (single s) (bulk s ++ [(p, l)]) (to_handle s) (finished s)
             | Single q _ :: _ =>
                 if mem q (to_handle s) then res (Handling direct') (queue s) (put q (entry q (single s) ++ [(p, l)]) (single s)) (bulk s) (to_handle s) (finished s)
                 else res (Handling direct') (queue s ++ [{| q_product := p; q_state := Some l; q_count := None |}]) (single s) (bulk s) (to_handle s) (finished s)
             | _ => res Failed (queue s) (single s) (bulk s) (to_handle s) (finished s)
             end) = Some s').
  { rewrite <- E. destruct P as [[-> X]| ->]; [rewrite X in DE|]; rewrite DE; reflexivity. }
  clear E P. cbv zeta in E'. destruct (mem p (failed s)) eqn:MF; cbn [orb] in E'.
  - apply mem_in in MF. injection E' as <-. do 6 eexists. split; [exact F|]. split; [exact (eq_sym DE)|]. split; [reflexivity|]. left. repeat split; auto.
  - apply mem_no in MF. destruct (todo s p) as [|[q i|i|c] r] eqn:T.
    + injection E' as <-. do 6 eexists. split; [exact F|]. split; [exact (eq_sym DE)|]. split; [reflexivity|]. left. repeat split; auto.
    + destruct (mem q (to_handle s)) eqn:M; injection E' as <-; do 6 eexists; (split; [exact F|]); (split; [exact (eq_sym DE)|]); (split; [reflexivity|]); right; (split; [exact MF|]); (split; [discriminate|]); (split; [reflexivity|]); (split; [reflexivity|]).
      * apply mem_in in M. right. left. exists q, i, r. repeat split; auto.
      * apply mem_no in M. right. right. left. exists q, i, r. repeat split; auto.
    + injection E' as <-. do 6 eexists. split; [exact F|]. split; [exact (eq_sym DE)|]. split; [reflexivity|]. right. split; [exact MF|]. split; [discriminate|]. split; [reflexivity|]. split; [reflexivity|]. right. right. right. eauto.
    + injection E' as <-. do 6 eexists. split; [exact F|]. split; [exact (eq_sym DE)|]. split; [reflexivity|]. right. split; [exact MF|]. split; [discriminate|]. split; [reflexivity|]. split; [reflexivity|]. left. exists c, r. repeat split; auto.
Qed.
(** What becomes of the loader state of a job that is done. *)
Lemma g_release s p l direct' fs :
  INV s -> find_job p (running s) = Some {| j_product := p; j_state := l; j_phase := Done |} ->
  (direct', fs) = match entry l (for_state s) with (p', d) :: t => (directs s ++ [(p', l, d)], put l t (for_state s)) | [] => (directs s, for_state s) end ->
  (forall x, sm (ind x) (match entry l (for_state s) with [] => l :: available s | _ => available s end) + sm (fun j => ind x (j_state j)) (drop_job p (running s)) + sm (fun e => ind x (snd (fst e))) direct' = used x s) /\
  (forall k v, In (k, v) fs -> v <> [] ->
     In k (map j_state (drop_job p (running s))) \/ In k (map (fun e => snd (fst e)) direct') \/ In (Some k) (map q_state (queue s))) /\
  NoDup (map fst fs) /\
  (forall x k, ((exists v, In (k, v) fs /\ In x (map fst v)) \/ In (x, k) (map fst direct')) <-> ((exists v, In (k, v) (for_state s) /\ In x (map fst v)) \/ In (x, k) (map fst (directs s)))).
Proof.
  intros H F D. pose proof (run_nodup s H) as ND.
  pose proof (fun x => sm_drop_job (fun j => ind x (j_state j)) p (running s) _ ND F) as DR. cbn [j_state] in DR.
  assert (RS : forall k, In k (map j_state (running s)) -> k = l \/ In k (map j_state (drop_job p (running s)))).
  { intros k I. apply ind_in in I. rewrite DR in I. destruct (Nat.eq_dec k l); [auto|]. right. apply ind_in. assert (ind k l = 0) by (unfold ind; apply Nat.eqb_neq in n; now rewrite n). lia. }
  pose proof (g_for _ _ _ _ H) as IF. pose proof (g_fkeys _ _ _ _ H) as FK.
  destruct (entry l (for_state s)) as [|(p', d) t] eqn:E; injection D as -> ->.
  - repeat split; auto.
    + intros x. unfold used. rewrite (DR x), sm_cons. lia.
    + intros k v I N. destruct (IF k v I N) as [X|[X|X]]; auto. apply RS in X as [->|X]; auto. apply (entry_nodup _ _ _ FK) in I. congruence.
  - split; [|split; [|split; [now apply put_keys|]]].
    + intros x. unfold used. rewrite (DR x), sm_app, sm_cons, sm_nil. cbn [fst snd]. lia.
    + intros k v I N. rewrite map_app, in_app_iff. cbn [map fst snd In]. apply put_in in I as [[-> ->]|I]; [tauto|].
      destruct (IF k v I N) as [X|[X|X]]; auto. apply RS in X as [->|X]; auto.
    + assert (EI : In (l, (p', d) :: t) (for_state s)). { destruct (entry_in l (for_state s) (p', d)) as (v & I & _); [rewrite E; now left|]. pose proof (entry_nodup _ _ _ FK I) as X. rewrite E in X. now subst v. }
      intros x k. rewrite map_app, in_app_iff. cbn [map fst In]. split.
      * intros [(v & I & J)|[I|[I|[]]]].
        -- apply put_in in I as [[-> ->]|I]; [|eauto]. left. exists ((p', d) :: t). split; auto. cbn [map fst]. now right.
        -- auto.
        -- injection I as <- <-. left. exists ((p', d) :: t). split; auto. now left.
      * intros [(v & I & J)|I]; [|auto]. destruct (Nat.eq_dec k l) as [->|NE].
        -- assert (v = (p', d) :: t). { apply (entry_nodup _ _ _ FK) in I. congruence. } subst v. cbn [map fst In] in J. destruct J as [<-|J]; [auto|]. left. exists t. split; [apply put_new|exact J].
        -- left. exists v. split; auto. now apply put_old.
Qed.
Lemma owns_single_put s x l0 q p l : NoDup (map fst (single s)) -> In (x, l0) (vals (put q (entry q (single s) ++ [(p, l)]) (single s))) <-> In (x, l0) (vals (single s)) \/ (x = p /\ l0 = l).
Proof.
  intros N. rewrite !vals_in. split.
  - intros (k & v & I & J). apply put_in in I as [[-> ->]|I]; [|eauto]. apply in_app_or in J as [J|[J|[]]]; [left; apply entry_in in J as (v & J & K); eauto|injection J as <- <-; auto].
  - intros [(k & v & I & J)|[-> ->]].
    + destruct (Nat.eq_dec k q) as [->|NE].
      * exists q, (entry q (single s) ++ [(p, l)]). split; [apply put_new|]. apply in_or_app. left. apply (entry_nodup _ _ _ N) in I. now rewrite I.
      * exists k, v. split; auto. now apply put_old.
    + exists q, (entry q (single s) ++ [(p, l)]). split; [apply put_new|]. apply in_or_app. right. now left.
Qed.
Lemma vals_erase {A} (e : A) q m : NoDup (map fst m) -> In e (vals m) <-> In e (entry q m) \/ In e (vals (erase q m)).
Proof.
  intros N. rewrite !vals_in. split.
  - intros (k & v & I & J). destruct (Nat.eq_dec k q) as [->|NE]; [left; apply (entry_nodup _ _ _ N) in I; now rewrite I|]. right. exists k, v. split; auto. apply filter_In. split; auto. now apply negb_true_iff, Nat.eqb_neq.
  - intros [I|(k & v & I & J)]; [apply entry_in in I as (v & I & J); eauto|]. apply filter_In in I as [I _]. eauto.
Qed.
Lemma fresh_some {A} x (f : A -> nat) (g : A -> nat) (c : A -> option nat) l : fresh x (map (fun e => {| q_product := f e; q_state := Some (g e); q_count := c e |}) l) = 0.
Proof. unfold fresh. rewrite sm_map. cbn [q_state]. induction l as [|y l IH]; [reflexivity|]. now rewrite sm_cons, IH. Qed.
Lemma erase_keys {A} q (m : list (nat * list A)) : NoDup (map fst m) -> NoDup (map fst (erase q m)).
Proof.
  intros H4. unfold erase. induction m as [|(a, b) m IH]; [exact H4|]. cbn [map fst filter] in *. inversion H4 as [|? ? NI N']; subst. destruct (negb (a =? q)); [|auto].
  cbn [map fst]. constructor; auto. intros I. apply NI. apply in_map_iff in I as ((c, d) & <- & I). apply filter_In in I as [I _]. apply in_map_iff. exists (c, d). auto.
Qed.

Lemma g_handle s p s' : INV s -> handle p s = Some s' -> INV s'.
Proof.
  intros H E. destruct (handle_cases s p s' E) as (l & direct' & fs & q & sg & bk & th & fin & pc' & F & D & SE & C). clear E.
  pose proof (run_nodup s H) as ND. destruct (find_job_some _ _ _ F) as [JI _].
  destruct (g_release s p l direct' fs H F D) as (R2 & R3 & R4 & R5). set (av := match entry l (for_state s) with [] => l :: available s | _ => available s end) in *. clearbody av.
  pose proof (run_known s _ H JI) as IP. cbn [j_product] in IP.
  assert (PO : owns s p l) by exact (run_owns s _ JI).
  assert (EN := g_end _ _ _ _ H _ JI). cbn [j_product j_phase] in EN. specialize (EN ltac:(discriminate)).
  assert (RE : forall j, In j (drop_job p (running s)) -> In j (running s)) by (intros j I; now apply drop_job_in in I).
  assert (RO : forall x k, In (x, k) (map (fun j => (j_product j, j_state j)) (running s)) -> (x = p /\ k = l) \/ In (x, k) (map (fun j => (j_product j, j_state j)) (drop_job p (running s)))).
  { intros x k I. apply in_map_iff in I as (j & E & I). injection E as <- <-. destruct (Nat.eq_dec (j_product j) p) as [EP|NE].
    - left. split; auto. apply (g_home _ _ _ _ H p); auto. rewrite <- EP. now apply run_owns.
    - right. apply in_map_iff. exists j. split; auto. apply drop_job_in. auto. }
  assert (RO' : forall x k, In (x, k) (map (fun j => (j_product j, j_state j)) (drop_job p (running s))) -> In (x, k) (map (fun j => (j_product j, j_state j)) (running s))).
  { intros x k I. apply in_map_iff in I as (j & E & I). apply in_map_iff. eauto. }
  (* the queue, the maps and the lists with the product that is no longer running, but for a finished one *)
  assert (CC : pc' = Handling direct' /\ (forall x, fresh x q = fresh x (queue s)) /\
     (forall x k, (In (x, Some k) (map (fun e => (q_product e, q_state e)) q) \/ In (x, k) (vals sg) \/ In (x, k) bk) ->
        owns s x k) /\
     (forall x k, (In (x, Some k) (map (fun e => (q_product e, q_state e)) (queue s)) \/ In (x, k) (vals (single s)) \/ In (x, k) (bulk s) \/ (x = p /\ k = l /\ In p th)) ->
        (In (x, Some k) (map (fun e => (q_product e, q_state e)) q) \/ In (x, k) (vals sg) \/ In (x, k) bk)) /\
     NoDup (map fst sg) /\ (forall a v, In (a, v) sg -> v <> [] /\ In a th) /\ (forall k, In (Some k) (map q_state (queue s)) -> In (Some k) (map q_state q)) /\
     ((th = drop p (to_handle s) /\ fin = finished s ++ [p] /\ (In p (failed s) \/ todo s p = [])) \/ (th = to_handle s /\ fin = finished s))).
  { pose proof (g_keys _ _ _ _ H) as GK. pose proof (g_single _ _ _ _ H) as GS. destruct C as [(-> & FT & -> & -> & -> & -> & ->)|(NF & TN & -> & -> & C)].
    - split; [reflexivity|]. split; [intros x; rewrite fresh_app, (fresh_some x fst snd); lia|]. split; [|split; [|split; [now apply erase_keys|split; [|split; [|auto]]]]].
      + intros x k [X|[X|X]].
        * rewrite map_app, in_app_iff, map_map in X. destruct X as [X|X]; [left; exact X|]. right. right. left. apply in_map_iff in X as ((a, b) & E & X). cbn [q_product q_state fst snd] in E. injection E as <- <-. now apply entry_vals in X.
        * right. right. left. apply (vals_erase _ p _ GK). auto.
        * right. right. right. left. exact X.
      + intros x k [X|[X|[X|(_ & _ & X)]]].
        * left. rewrite map_app. apply in_or_app. auto.
        * apply (vals_erase _ p _ GK) in X as [X|X]; auto. left. rewrite map_app, map_map. apply in_or_app. right. apply in_map_iff. exists (x, k). auto.
        * auto.
        * apply drop_in in X. tauto.
      + intros a v I. apply filter_In in I as [I NE]. cbn [fst] in NE. apply negb_true_iff, Nat.eqb_neq in NE. destruct (GS a v I). split; auto. apply drop_in. auto.
      + intros k I. rewrite map_app. apply in_or_app. auto.
    - destruct C as [(c & r & -> & T & -> & -> & ->)|[(x0 & i & r & -> & T & M & -> & -> & ->)|[(x0 & i & r & -> & T & M & -> & -> & ->)|(i & r & T)]]].
      + split; [reflexivity|]. split; [auto|]. split; [|split; [|auto 10]].
        * intros x k [X|[X|X]]; unfold owns; auto. apply in_app_or in X as [X|[X|[]]]; [auto 10|]. injection X as <- <-. exact PO.
        * intros x k [X|[X|[X|(-> & -> & X)]]]; auto; right; right; apply in_or_app; [auto|right; now left].
      + split; [reflexivity|]. split; [auto|]. split; [|split; [|split; [now apply put_keys|split; [|auto]]]].
        * intros x k [X|[X|X]]; unfold owns; auto 10. apply (owns_single_put s _ _ _ _ _ GK) in X as [X|[-> ->]]; [auto|exact PO].
        * intros x k X. rewrite (owns_single_put s _ _ _ _ _ GK). tauto.
        * intros a v I. apply put_in in I as [[-> ->]|I]; [|auto]. split; auto. destruct (entry x0 (single s)); discriminate.
      + split; [reflexivity|]. split; [intros x; rewrite fresh_app; cbn [fresh sm map list_sum q_state]; unfold fresh at 2; rewrite sm_cons, sm_nil; cbn [q_state]; lia|]. split; [|split; [|split; [auto|split; [auto|split; [|auto]]]]].
        * intros x k [X|[X|X]]; unfold owns; auto 10. rewrite map_app, in_app_iff in X. destruct X as [X|[X|[]]]; auto. injection X as <- <-. exact PO.
        * intros x k. rewrite map_app, in_app_iff. cbn [map In q_product q_state]. intros [X|[X|[X|(-> & -> & _)]]]; auto.
        * intros k I. rewrite map_app. apply in_or_app. auto.
      + exfalso. destruct EN as [X|[X|[(q' & i' & r' & X)|(c & r' & X)]]]; congruence. }
  clear C. destruct CC as (-> & FR & OL & OK & KN & SI & QS & FT).
  assert (OS : forall x k, owns s' x k -> owns s x k).
  { intros x k. rewrite SE. intros [X|[X|[X|[X|[X|X]]]]].
    - apply OL. auto.
    - right. left. now apply RO'.
    - apply OL. auto.
    - apply OL. auto.
    - unfold owns. assert (Y := proj1 (R5 x k) (or_introl X)). tauto.
    - unfold owns. assert (Y := proj1 (R5 x k) (or_intror X)). tauto. }
  assert (OT : forall x k, owns s x k -> (x = p /\ ~ In p th) \/ owns s' x k).
  { intros x k O. destruct (in_dec Nat.eq_dec p th) as [IT|NT].
    2: destruct (Nat.eq_dec x p) as [->|NE]; [auto|].
    all: right; rewrite SE.
    all: assert (A1 : (In (x, Some k) (map (fun e => (q_product e, q_state e)) q) \/ In (x, k) (vals sg) \/ In (x, k) bk) \/ In (x, k) (map (fun j => (j_product j, j_state j)) (drop_job p (running s))) \/
       ((exists v, In (k, v) fs /\ In x (map fst v)) \/ In (x, k) (map fst direct'))).
    1, 3: destruct O as [X|[X|[X|[X|X]]]]; [left; apply OK; auto| |left; apply OK; auto|left; apply OK; auto|right; right; now apply R5]; destruct (RO x k X) as [[? ?]|Y]; [|auto]; first [congruence|left; apply OK; auto 10].
    all: destruct A1 as [[X|[X|X]]|[X|[X|X]]]; [left; exact X|right; right; left; exact X|right; right; right; left; exact X|right; left; exact X|right; right; right; right; left; exact X|right; right; right; right; right; exact X]. }
  assert (Q' : queue s' = q) by now rewrite SE. assert (TH' : to_handle s' = th) by now rewrite SE. assert (FN' : finished s' = fin) by now rewrite SE.
  pose proof H as [H1 H2 H3 H4 H5 H6 H7 H8 H9 H10 H11 H12 H13 H14 H15 H16].
  assert (TI : forall x, In x th -> In x (to_handle s)). { intros x I. destruct FT as [(-> & _)|(-> & _)]; auto. now apply drop_in in I. }
  assert (SW : forall x, somewhere s' x -> somewhere s x). { intros x [W|(k & W)]; [left; now rewrite Q', FR in W|right; exists k; auto]. }
  constructor; rewrite ?Q', ?TH', ?FN'.
  - intros x I. destruct (H1 x (TI x I)) as [W|(k & W)]; [left; now rewrite Q', FR|]. destruct (OT x k W) as [[-> NI]|O]; [tauto|]. right. eauto.
  - intros x [W|[W|W]]; [auto|auto|]. destruct FT as [(_ & -> & _)|(_ & ->)]; [|auto]. apply in_app_or in W as [W|[<-|[]]]; auto.
  - intros x I. destruct FT as [(-> & -> & _)|(-> & ->)]; [|auto]. rewrite drop_in, in_app_iff. cbn [In]. destruct (Nat.eq_dec x p) as [->|]; [auto|]. destruct (H3 x I); auto.
  - intros x. rewrite <- H4, <- R2, SE. reflexivity.
  - intros x k k' A B. eauto.
  - intros x. rewrite FR. destruct (H6 x) as [A B]. split; auto. intros Y k O. apply (B Y k). auto.
  - now rewrite SE.
  - rewrite SE. exact SI.
  - now rewrite SE.
  - intros k v I N. rewrite SE in I. proj. assert (I' : In (k, v) fs) by exact I. rewrite SE. proj. destruct (R3 k v I' N) as [X|[X|X]]; auto.
  - intros x k O. eauto.
  - rewrite SE. proj. intros j I N. apply H12; auto.
  - rewrite SE. exact Logic.I.
  - rewrite SE. exact H14.
  - rewrite SE. proj. intros x y A B C D'. apply H15; auto.
  - rewrite SE. proj. intros a x b y E A B C. destruct FT as [(-> & -> & FT)|(-> & ->)]; [|eauto]. apply snoc_split in E as [(-> & -> & ->)|(b' & -> & E)]; [|eauto].
    destruct FT as [FT|FT]; [tauto|]. specialize (H15 p y IP B A). rewrite FT in H15. destruct (H3 y C) as [X|X]; [destruct (H15 X)|exact X].
Qed.

Lemma g_start s pc' p l d ok av q :
  INV s -> (match pc' with Handling _ => True | Scheduling => forall j, In j (running s) -> j_phase j <> Done | _ => False end) ->
  let dr := match pc' with Handling d => d | _ => [] end in
  incl q (queue s) -> incl dr (directs s) -> In p products ->
  (forall e, In e (queue s) -> In e q \/ (q_product e = p /\ (q_state e = None \/ q_state e = Some l))) ->
  (forall e, In e (directs s) -> In e dr \/ fst e = (p, l)) ->
  (forall k, owns s p k -> k = l) ->
  fresh p q = 0 -> (forall x, x <> p -> fresh x q = fresh x (queue s)) ->
  (forall x, sm (ind x) (available s) + sm (fun e => ind x (snd (fst e))) (directs s) = ind x l + sm (ind x) av + sm (fun e => ind x (snd (fst e))) dr) ->
  INV (start s pc' p l d ok av q).
Proof.
  intros H P dr IQ ID IP KQ KD HM FP FX U.
  assert (DD : forall m0 q0 r0 s0 b0 f0 a0 t0 fi0 fa0 td0, directs (Build_state pc' m0 q0 r0 s0 b0 f0 a0 t0 fi0 fa0 td0) = dr) by reflexivity.
  pose proof (g_used_le s l H) as UL. assert (LR : sm (fun j => ind l (j_state j)) (running s) = 0) by (specialize (U l); rewrite ind_same in U; unfold used in UL; lia).
  assert (FN : find_job p (running s) = None).
  { destruct (find_job p (running s)) as [j|] eqn:F; auto. apply find_job_some in F as [I E]. assert (j_state j = l) by (apply HM; rewrite <- E; now apply run_owns). assert (0 < sm (fun j => ind l (j_state j)) (running s)); [|lia]. apply ind_in. apply in_map_iff. eauto. }
  assert (SL : In l states). { apply ind_in'. rewrite <- (g_used _ _ _ _ H). unfold used. specialize (U l). rewrite ind_same in U. lia. }
  set (s' := start s pc' p l d ok av q).
  assert (PL : owns s' p l /\ directs s' = dr /\ (forall x, fresh x (queue s') = fresh x q) /\ single s' = single s /\ bulk s' = bulk s /\ for_state s' = for_state s /\ to_handle s' = to_handle s /\ finished s' = finished s /\
    failed s' = failed s /\ todo s' = todo s /\ pc s' = pc' /\
    (forall x, used x s' = used x s) /\ (forall j, In j (running s') -> In j (running s) \/ j_phase j = Runs d) /\
    (forall x k, In (x, k) (map (fun j => (j_product j, j_state j)) (running s')) \/ In (x, Some k) (map (fun e => (q_product e, q_state e)) (queue s')) <->
       In (x, k) (map (fun j => (j_product j, j_state j)) (running s)) \/ In (x, Some k) (map (fun e => (q_product e, q_state e)) q) \/ (x = p /\ k = l)) /\
    (max_jobs s' = max_jobs s \/ (2 <= max_jobs s /\ max_jobs s' = max_jobs s / 2))).
  { unfold s', start. rewrite FN. destruct ok; proj; rewrite ?DD.
    - split; [right; left; proj; rewrite map_app; apply in_or_app; right; now left|]. repeat (split; [reflexivity|]). split; [|split; [|split; [|auto]]].
      + intros x. unfold used. rewrite DD. proj. rewrite sm_app, sm_cons, sm_nil. proj. specialize (U x). lia.
      + intros j I. apply in_app_or in I as [I|[<-|[]]]; auto.
      + intros x k. rewrite map_app, in_app_iff. cbn [map In j_product j_state]. intuition congruence.
    - split; [left; proj; rewrite map_app; apply in_or_app; right; now left|]. split; [reflexivity|]. split; [intros x; rewrite fresh_app; unfold fresh at 2; rewrite sm_cons, sm_nil; cbn [q_state]; lia|]. repeat (split; [reflexivity|]). split; [|split; [|split]].
      + intros x. unfold used. rewrite DD. proj. rewrite sm_cons. specialize (U x). lia.
      + auto.
      + intros x k. rewrite map_app, in_app_iff. cbn [map In q_product q_state]. intuition congruence.
      + destruct (Nat.leb_spec 2 (max_jobs s)); auto. }
  clearbody s'. destruct PL as (PO & DS & FR & ES & EB & EF & ET & EFI & EFA & ETO & EP & EU & ER & EO & EM).
  assert (OS : forall x k, owns s' x k -> (x = p /\ k = l) \/ owns s x k).
  { intros x k O. unfold owns in O. rewrite ES, EB, EF, DS in O. specialize (EO x k). unfold owns.
    assert (Q1 : In (x, Some k) (map (fun e => (q_product e, q_state e)) q) -> In (x, Some k) (map (fun e => (q_product e, q_state e)) (queue s))) by (intros I; apply in_map_iff in I as (e & E & I); apply in_map_iff; eauto).
    assert (D1 : In (x, k) (map fst dr) -> In (x, k) (map fst (directs s))) by (intros I; apply in_map_iff in I as (e & E & I); apply in_map_iff; eauto).
    assert (RQ : In (x, k) (map (fun j => (j_product j, j_state j)) (running s)) \/ In (x, Some k) (map (fun e => (q_product e, q_state e)) q) \/ (x = p /\ k = l) -> (x = p /\ k = l) \/ owns s x k).
    { intros [X|[X|X]]; [right; right; left; exact X|right; left; now apply Q1|now left]. }
    destruct O as [X|[X|X]]; [apply RQ, EO; now right|apply RQ, EO; now left|]. right. right. right. destruct X as [X|[X|[X|X]]]; [now left|right; now left|right; right; now left|right; right; right; now apply D1]. }
  assert (OT : forall x k, owns s x k -> owns s' x k).
  { intros x k O. destruct (Nat.eq_dec x p) as [->|NE]; [rewrite (HM k O); exact PO|]. unfold owns in *. rewrite ES, EB, EF, DS. specialize (EO x k).
    assert (Q1 : In (x, Some k) (map (fun e => (q_product e, q_state e)) (queue s)) -> In (x, Some k) (map (fun e => (q_product e, q_state e)) q)).
    { intros I; apply in_map_iff in I as (e & E & I). injection E as E1 E2. apply in_map_iff. exists e. rewrite E1, E2. split; auto. destruct (KQ e I) as [X|[X _]]; [auto|congruence]. }
    assert (D1 : In (x, k) (map fst (directs s)) -> In (x, k) (map fst dr)). { intros I; apply in_map_iff in I as (e & E & I). apply in_map_iff. exists e. split; auto. destruct (KD e I) as [X|X]; [auto|congruence]. }
    assert (RQ : In (x, k) (map (fun j => (j_product j, j_state j)) (running s)) \/ In (x, Some k) (map (fun e => (q_product e, q_state e)) q) \/ (x = p /\ k = l) ->
      In (x, Some k) (map (fun e => (q_product e, q_state e)) (queue s')) \/ In (x, k) (map (fun j => (j_product j, j_state j)) (running s'))) by (intros X; apply EO in X; destruct X; auto).
    destruct O as [X|[X|X]]; [destruct RQ; auto|destruct RQ; auto|]. right. right. destruct X as [X|[X|[X|X]]]; [now left|right; now left|right; right; now left|right; right; right; now apply D1]. }
  assert (FL : forall x, fresh x (queue s') <= fresh x (queue s)). { intros x. rewrite FR. destruct (Nat.eq_dec x p) as [->|NE]; [lia|rewrite FX; auto]. }
  pose proof H as [H1 H2 H3 H4 H5 H6 H7 H8 H9 H10 H11 H12 H13 H14 H15 H16].
  constructor; rewrite ?ES, ?EB, ?EF, ?ET, ?EFI, ?EFA, ?ETO, ?DS; auto.
  - intros x I. destruct (H1 x I) as [W|(k & W)]; [|right; eauto]. destruct (Nat.eq_dec x p) as [->|NE]; [right; eauto|]. left. rewrite FR, FX; auto.
  - intros x [[W|(k & W)]|W].
    + apply H2. left. left. specialize (FL x). lia.
    + destruct (OS x k W) as [[-> ->]|O]; [exact IP|]. apply H2. left. right. eauto.
    + apply H2. auto.
  - intros x. rewrite EU. auto.
  - intros x k k' A B. destruct (OS _ _ A) as [[-> ->]|A'], (OS _ _ B) as [[E ->]|B']; subst; auto; [symmetry|]; eauto.
  - intros x. specialize (H6 x) as [A B]. specialize (FL x). split; [lia|]. intros C k O. destruct (OS x k O) as [[-> ->]|O']; [rewrite FR, FP in C; lia|]. apply (B ltac:(lia) k O').
  - intros k v I N. assert (PK : In l (map j_state (running s')) \/ In (Some l) (map q_state (queue s'))).
    { destruct (proj2 (EO p l)) as [X|X]; [auto| |]; apply in_map_iff in X as (e & E & X); injection E as E1 E2; [left|right]; apply in_map_iff; eauto. }
    assert (RK : In k (map j_state (running s)) -> In k (map j_state (running s')) \/ In (Some k) (map q_state (queue s'))).
    { intros X. apply in_map_iff in X as (j & <- & X). destruct (proj2 (EO (j_product j) (j_state j))) as [Y|Y]; [left; apply in_map_iff; eauto| |]; apply in_map_iff in Y as (e & E & Y); injection E as E1 E2; [left|right]; apply in_map_iff; eauto. }
    destruct (H10 k v I N) as [X|[X|X]].
    + destruct (RK X); auto.
    + apply in_map_iff in X as (e & <- & X). destruct (KD e X) as [Y|Y]; [right; left; apply in_map_iff; eauto|]. rewrite Y. cbn [snd]. tauto.
    + apply in_map_iff in X as (e & EQ & X). destruct (KQ e X) as [Y|[EP' Y]].
      * destruct (proj2 (EO (q_product e) k)) as [Z|Z]; [right; left; apply in_map_iff; exists e; rewrite EQ; auto| |]; apply in_map_iff in Z as (e' & E' & Z); injection E' as E1 E2; [left|right; right]; apply in_map_iff; eauto.
      * assert (k = l) by (destruct Y; congruence). subst k. tauto.
  - intros x k O. destruct (OS x k O) as [[-> ->]|O']; eauto.
  - intros j I N. destruct (ER j I) as [J|J]; [auto|]. destruct (N d J).
  - rewrite EP. destruct pc'; try tauto. intros j I. destruct (ER j I) as [J|J]; [auto|congruence].
  - destruct H14 as [A B]. destruct EM as [->|[M ->]]; [auto|]. pose proof (Nat.div_le_upper_bound (max_jobs s) 2 (max_jobs s)). pose proof (Nat.div_le_lower_bound (max_jobs s) 2 1). split; [|intros _]; lia.
Qed.

Lemma with_pc_inv s pc' : INV s -> directs s = [] -> match pc' with
         | Failed | Handling _ => False
         | Waiting => running s <> []
         | Scheduling => forall j, In j (running s) -> j_phase j <> Done
         | Finished => to_handle s = [] end -> INV (with_pc s pc').
Proof.
  intros H DE P. assert (DP : directs (with_pc s pc') = []) by (destruct pc'; auto; destruct P). apply (same_inv s); auto; proj.
  - repeat split; auto. congruence.
  - exact (g_end _ _ _ _ H).
  - destruct pc'; auto.
  - exact (g_names _ _ _ _ H).
  - now intros x I.
Qed.
Lemma requeue_inv s l : INV s -> pc s = Scheduling -> incl l (vals (single s) ++ bulk s) ->
  incl (bulk s) l -> INV (with_queue s (queue s ++ map (no_deferral s) l) []).
Proof.
  intros H PC IL LI. set (s' := with_queue s _ []).
  assert (OO : forall x k, owns s' x k <-> owns s x k).
  { intros x k. unfold owns. change (directs s') with (directs s). subst s'. proj. rewrite map_app, in_app_iff, map_map. proj.
    assert (A : In (x, Some k) (map (fun e => (q_product (no_deferral s e), q_state (no_deferral s e))) l) <-> In (x, k) l).
    { rewrite in_map_iff. split; [intros ((a, b) & E & I); injection E as <- <-; exact I|intros I; exists (x, k); auto]. }
    rewrite A. split.
    - intros [[X|X]|[X|[X|[[]|X]]]]; [left; exact X| |right; left; exact X|right; right; left; exact X|right; right; right; right; exact X].
      apply IL in X. apply in_app_or in X as [X|X]; [right; right; left; exact X|right; right; right; left; exact X].
    - intros [X|[X|[X|[X|X]]]]; [left; left; exact X|right; left; exact X|right; right; left; exact X|left; right; apply LI, X|right; right; right; right; exact X]. }
  assert (FR : forall x, fresh x (queue s') = fresh x (queue s)).
  { intros x. subst s'. proj. rewrite fresh_app. change (map (no_deferral s) l) with (map (fun e : nat * nat => {| q_product := fst e; q_state := Some (snd e); q_count := Some (length (to_handle s)) |}) l). rewrite (fresh_some x fst snd (fun _ => Some (length (to_handle s)))). lia. }
  assert (SW : forall x, somewhere s' x <-> somewhere s x) by (intros x; unfold somewhere; rewrite FR; setoid_rewrite OO; reflexivity).
  pose proof H as [H1 H2 H3 H4 H5 H6 H7 H8 H9 H10 H11 H12 H13 H14 H15 H16].
  constructor; try assumption.
  - intros x I. apply SW. auto.
  - intros x I. rewrite SW in I. auto.
  - intros x k k' A B. apply OO in A. apply OO in B. eauto.
  - intros x. rewrite FR. destruct (H6 x) as [A B]. split; auto. intros C k O. apply OO in O. now apply (B C k).
  - intros k v I N. destruct (H10 k v I N) as [X|[X|X]]; auto. right. right. subst s'. proj. rewrite map_app. apply in_or_app. auto.
  - intros x k O. apply OO in O. eauto.
Qed.
Lemma nothing_left s : INV s -> pc s = Scheduling -> running s = [] -> queue s = [] -> forall x k, owns s x k -> In (x, k) (vals (single s)) \/ In (x, k) (bulk s).
Proof.
  intros H PC RU Q x k O. assert (DE : directs s = []) by (unfold directs; now rewrite PC). unfold owns in O. rewrite RU, Q, DE in O.
  destruct O as [[]|[[]|[X|[X|[(v & I & J)|[]]]]]]; auto. exfalso.
  destruct v as [|y v]; [destruct J|]. destruct (g_for _ _ _ _ H k _ I ltac:(discriminate)) as [X|[X|X]]; [rewrite RU in X; destruct X|rewrite DE in X; destruct X|rewrite Q in X; destruct X].
Qed.
Lemma g_sched s ok s' : INV s -> sched ok s = Some s' -> INV s'.
Proof.
  intros H E. unfold sched in E. pose proof H as [H1 H2 H3 H4 H5 H6 H7 H8 H9 H10 H11 H12 H13 H14 H15 H16].
  destruct (pc s) eqn:PC; try discriminate.
  - injection E as <-. assert (DE : directs s = []) by (unfold directs; now rewrite PC).
    destruct (if length (running s) <? max_jobs s then queue s else []) as [|e q] eqn:QE.
    + destruct (running s) as [|j0 jr] eqn:RU; [|apply with_pc_inv; auto; rewrite RU; discriminate].
      cbn [length] in QE. assert (Q : queue s = []).
      { destruct (Nat.ltb_spec 0 (max_jobs s)) as [L|L]; [auto|]. destruct products as [|x0 px] eqn:PX; [|exfalso; destruct H14 as [_ X]; specialize (X ltac:(discriminate)); lia].
        destruct (queue s) as [|e q] eqn:Q; auto. destruct (H2 (q_product e)). left. apply queue_known. rewrite Q. now left. }
      pose proof (nothing_left s H PC RU Q) as NL. rewrite Q.
      destruct (bulk s) as [|b bs] eqn:B.
      * destruct (single s) as [|sg sr] eqn:SG.
        -- assert (TH : to_handle s = []).
           { destruct (to_handle s) as [|x th] eqn:TH; auto. exfalso. destruct (H1 x ltac:(now left)) as [W|(k & W)]; [rewrite Q in W; cbn in W; lia|]. destruct (NL x k W) as [[]|[]]. }
           rewrite TH. apply with_pc_inv; auto.
        -- destruct (flat_map snd (sg :: sr)) as [|y ys] eqn:FL.
           { exfalso. destruct sg as (q0, l0). destruct (H8 q0 l0 ltac:(now left)) as [X _]. cbn [flat_map snd] in FL. apply app_eq_nil in FL as [FL _]. auto. }
           change (no_deferral s y :: map (no_deferral s) ys) with (map (no_deferral s) (y :: ys)). rewrite <- FL. change (flat_map snd (sg :: sr)) with (vals (sg :: sr)). rewrite <- SG.
           assert (RQ := requeue_inv s (vals (single s)) H PC). rewrite Q in RQ. apply RQ; [intros x I; apply in_or_app; auto|rewrite B; intros x []].
      * change (no_deferral s b :: map (no_deferral s) bs) with (map (no_deferral s) (b :: bs)). rewrite <- B. assert (RQ := requeue_inv s (bulk s) H PC). rewrite Q in RQ. apply RQ; [intros x I; apply in_or_app; auto|now intros x I].
    + destruct (length (running s) <? max_jobs s) eqn:L; [|discriminate]. apply Nat.ltb_lt in L.
      set (d := match q_count e with None => Allowed | Some n => if length (to_handle s) <? n then Allowed else NotAllowed end).
      destruct (available s) as [|a0 ar] eqn:AV.
      { exfalso. assert (P : Permutation (map j_state (running s)) states).
        { apply perm_sm. intros x. rewrite <- H4, sm_map. unfold used. now rewrite AV, DE, !sm_nil, Nat.add_0_r. }
        apply Permutation_length in P. rewrite map_length in P. lia. }
      assert (EI : In e (queue s)) by (rewrite QE; now left). assert (EP : In (q_product e) products) by (apply H2; left; now apply queue_known).
      destruct (q_state e) as [l|] eqn:QS.
      * assert (EO : owns s (q_product e) l) by (left; apply in_map_iff; exists e; rewrite QS; auto).
        assert (FE : fresh (q_product e) (queue s) = 0). { destruct (fresh (q_product e) (queue s)) eqn:Z; auto. destruct (H6 (q_product e)) as [_ X]. destruct (X ltac:(lia) l EO). }
        assert (FQ : forall x, fresh x q = fresh x (queue s)) by (intros x; rewrite QE; unfold fresh at 2; rewrite sm_cons, QS; reflexivity).
        change ((l =? a0) || mem l ar) with (mem l (a0 :: ar)). change (if negb (l =? a0) then a0 :: drop l ar else drop l ar) with (drop l (a0 :: ar)). rewrite <- AV. destruct (mem l (available s)) eqn:M.
        -- apply g_start; auto.
           ++ rewrite QE. intros x I. now right.
           ++ intros x [].
           ++ intros e' I. rewrite QE in I. destruct I as [<-|I]; auto.
           ++ intros e' I. rewrite DE in I. destruct I.
           ++ intros k O. apply (H5 _ _ _ O EO).
           ++ now rewrite FQ.
           ++ intros x. rewrite DE, !sm_nil, ind_drop. apply mem_in, ind_in' in M. pose proof (g_used_le s l H) as UL. unfold used in UL. unfold ind at 2. rewrite (Nat.eqb_sym x l). destruct (Nat.eqb_spec l x) as [<-|]; lia.
        -- assert (LR : In l (map j_state (running s))).
           { apply mem_no in M. assert (LS : In l states) by (eapply H11; eauto). apply ind_in' in LS. rewrite <- H4 in LS. unfold used in LS. rewrite DE, sm_nil in LS. apply ind_in. destruct (sm (ind l) (available s)) eqn:Z; [lia|]. destruct M. apply ind_in'. lia. }
           set (s' := {| pc := Scheduling; for_state := _ |}).
           assert (OO : forall x k, owns s' x k <-> owns s x k).
           { intros x k. unfold owns. change (directs s') with (@nil (nat * nat * deferral)). rewrite DE. subst s'. proj. rewrite QE. cbn [map In]. rewrite QS.
             assert (FS : (exists v, In (k, v) (put l (entry l (for_state s) ++ [(q_product e, d)]) (for_state s)) /\ In x (map fst v)) <-> (exists v, In (k, v) (for_state s) /\ In x (map fst v)) \/ (q_product e, Some l) = (x, Some k)).
             { split.
               - intros (v & I & J). apply put_in in I as [[-> ->]|I]; [|eauto]. rewrite map_app, in_app_iff in J. destruct J as [J|[<-|[]]]; [|auto]. left. apply in_map_iff in J as (y & <- & J). apply entry_in in J as (v & J & K). exists v. split; auto. now apply in_map.
               - intros [(v & I & J)|X].
                 + destruct (Nat.eq_dec k l) as [->|NE]; [|exists v; split; auto; now apply put_old]. eexists. split; [apply put_new|]. rewrite map_app. apply in_or_app. left. now rewrite (entry_nodup _ _ _ H9 I).
                 + injection X as <- <-. eexists. split; [apply put_new|]. rewrite map_app. apply in_or_app. right. now left. }
             rewrite FS. clear. tauto. }
           assert (FR : forall x, fresh x (queue s') = fresh x (queue s)) by exact FQ.
           assert (SW : forall x, somewhere s' x <-> somewhere s x) by (intros x; unfold somewhere; rewrite FR; setoid_rewrite OO; reflexivity).
           constructor; try assumption.
           ++ intros x I. apply SW. auto.
           ++ intros x I. rewrite SW in I. auto.
           ++ intros x. rewrite <- H4. unfold used. change (directs s') with (@nil (nat * nat * deferral)). now rewrite DE.
           ++ intros x k k' A B. apply OO in A. apply OO in B. eauto.
           ++ intros x. rewrite FR. destruct (H6 x) as [A B]. split; auto. intros C k O. apply OO in O. now apply (B C k).
           ++ now apply put_keys.
           ++ intros k v I N. apply put_in in I as [[-> _]|I]; auto. destruct (H10 k v I N) as [X|[X|X]]; auto; [rewrite DE in X; destruct X|]. rewrite QE in X. destruct X as [X|X]; auto. rewrite QS in X. injection X as <-. auto.
           ++ intros x k O. apply OO in O. eauto.
      * assert (FE : 0 < fresh (q_product e) (queue s)) by (apply fresh_in; eauto). destruct (H6 (q_product e)) as [F1 F2].
        assert (FQ : forall x, fresh x (queue s) = ind x (q_product e) + fresh x q) by (intros x; rewrite QE; unfold fresh; rewrite sm_cons, QS; reflexivity).
        apply g_start; auto.
        -- rewrite QE. intros x I. now right.
        -- intros x [].
        -- intros e' I. rewrite QE in I. destruct I as [<-|I]; auto.
        -- intros e' I. rewrite DE in I. destruct I.
        -- intros k O. destruct (F2 FE k O).
        -- specialize (FQ (q_product e)). rewrite ind_same in FQ. lia.
        -- intros x NE. rewrite FQ. unfold ind. apply Nat.eqb_neq in NE. now rewrite NE.
        -- intros x. rewrite AV, DE, !sm_nil, sm_cons. lia.
  - destruct (existsb is_done (running s)) eqn:D; [discriminate|]. destruct direct as [|((p, l), d) t]; injection E as <-.
    + assert (DE : directs s = []) by (unfold directs; now rewrite PC). apply with_pc_inv; auto.
      intros j I X. assert (existsb is_done (running s) = true); [|congruence]. apply existsb_exists. exists j. split; auto. unfold is_done. now rewrite X.
    + assert (DE : directs s = (p, l, d) :: t) by (unfold directs; now rewrite PC).
      assert (PO : owns s p l) by (right; right; right; right; right; rewrite DE; now left).
      assert (FE : fresh p (queue s) = 0). { destruct (fresh p (queue s)) eqn:Z; auto. destruct (H6 p) as [_ X]. destruct (X ltac:(lia) l PO). }
      apply g_start; auto; rewrite ?DE.
      * now intros x I.
      * intros x I. now right.
      * apply H2. left. right. eauto.
      * intros e [<-|I]; auto.
      * intros k O. apply (H5 _ _ _ O PO).
      * intros x. rewrite sm_cons. cbn [fst snd]. lia.
Qed.
Lemma g_step s e s' : INV s -> step s e = Some s' -> INV s'.
Proof.
  intros H E. destruct e; cbn [step] in E; eauto using g_job_step, g_job_error, g_mark, g_handle, g_sched.
  destruct (pc s) eqn:PC; try discriminate. destruct (existsb is_done (running s)) eqn:D; [discriminate|]. injection E as <-.
  apply with_pc_inv; auto; [unfold directs; now rewrite PC|].
  intros j I X. assert (existsb is_done (running s) = true); [|congruence]. apply existsb_exists. exists j. split; auto. unfold is_done. now rewrite X.
Qed.
End Steps.

Lemma g_init products max plan : NoDup products -> 1 <= max ->
  GInv products (seq 0 (Nat.max 1 (Nat.min max (length products)))) plan (init products max plan).
Proof.
  intros N M. assert (O : forall x k, ~ owns (init products max plan) x k).
  { intros x k O. unfold owns in O. cbn [init queue running single bulk for_state directs vals flat_map pc map In] in O. destruct O as [X|[[]|[[]|[[]|[(v & [] & _)|[]]]]]]. rewrite map_map in X. apply in_map_iff in X as (y & E & _). discriminate. }
  assert (F : forall x, fresh x (queue (init products max plan)) = sm (ind x) products) by (intros x; cbn [init queue]; unfold fresh; now rewrite sm_map).
  constructor; try (cbn [init pc running single for_state finished failed todo to_handle map]; try tauto; now constructor).
  - intros x I. left. rewrite F. now apply ind_in'.
  - intros x [[W|(k & W)]|[W|W]]; [rewrite F in W; now apply ind_in'|now apply O in W|exact W|destruct W].
  - intros x. unfold used. change (directs (init products max plan)) with (@nil (nat * nat * deferral)). cbn [init running available]. rewrite !sm_nil, !Nat.add_0_r. rewrite <- !count_sm. apply Permutation_count_occ. symmetry. apply Permutation_rev.
  - intros x k k' A. now apply O in A.
  - intros x. rewrite F. split; [now apply nodup_sm|]. intros _ l A. now apply O in A.
  - intros x k A. now apply O in A.
  - cbn [init max_jobs]. rewrite seq_length. split; [lia|]. intros NE. destruct products; [congruence|]. cbn [length]. lia.
  - intros a p b q E. cbn [init finished] in E. destruct a; discriminate.
Qed.
Lemma g_reachable products max plan s : NoDup products -> 1 <= max -> reachable products max plan s ->
  GInv products (seq 0 (Nat.max 1 (Nat.min max (length products)))) plan s.
Proof. intros N M H. induction H; [now apply g_init|]. eapply g_step; eauto. apply seq_NoDup. Qed.

(** ** Safety *)

(** No check fails; there are at most as many jobs as allowed, for different products, and with different loader states. *)
Theorem resolver_safe products max plan s : NoDup products -> 1 <= max -> reachable products max plan s ->
  pc s <> Failed /\ length (running s) <= max /\ NoDup (map j_product (running s)) /\ NoDup (map j_state (running s)) /\
  incl (map j_product (running s) ++ finished s) products.
Proof.
  intros N M H. pose proof (g_reachable products max plan s N M H) as V. set (states := seq 0 _) in V.
  assert (NS : NoDup states) by apply seq_NoDup. pose proof (run_states products states plan NS s V) as RS.
  split; [|split; [|split; [|split]]]; auto.
  - intros E. pose proof (g_pc _ _ _ _ V) as P. now rewrite E in P.
  - assert (L : length (map j_state (running s)) <= length states).
    { apply NoDup_incl_length; [exact RS|]. intros x I. apply in_map_iff in I as (j & <- & I). apply (g_states _ _ _ _ V (j_product j)). now apply run_owns. }
    rewrite map_length in L. unfold states in L. rewrite seq_length in L. lia.
  - now apply (run_nodup products states plan NS).
  - intros x I. apply in_app_or in I as [I|I]; [|apply (g_known _ _ _ _ V); auto]. apply in_map_iff in I as (j & <- & I). now apply (run_known products states plan s).
Qed.
(** At the end, each product is finished. *)
Theorem resolver_complete products max plan s : NoDup products -> 1 <= max -> reachable products max plan s -> pc s = Finished ->
  to_handle s = [] /\ forall p, In p (finished s) <-> In p products.
Proof.
  intros N M H F. pose proof (g_reachable products max plan s N M H) as V. pose proof (g_pc _ _ _ _ V) as P. rewrite F in P. split; [exact P|].
  intros p. split; [intros I; apply (g_known _ _ _ _ V); auto|]. intros I. destruct (g_th _ _ _ _ V p I) as [X|X]; [rewrite P in X; destruct X|exact X].
Qed.
(** A product without error is finished after the products that it names. *)
Theorem resolver_order products max plan s a p b q : NoDup products -> 1 <= max -> reachable products max plan s ->
  finished s = a ++ p :: b -> ~ In p (failed s) -> In q (direct_names (plan p)) -> In q products -> In q a.
Proof. intros N M H E F D. pose proof (g_reachable products max plan s N M H) as V. exact (g_order _ _ _ _ V a p b q E D F). Qed.

(** ** The scheduler is never stuck *)

Theorem resolver_progress products max plan s : NoDup products -> 1 <= max -> reachable products max plan s ->
  pc s = Finished \/ exists e s', ordinary e /\ step s e = Some s'.
Proof.
  intros N M H. pose proof (g_reachable products max plan s N M H) as V. pose proof (g_pc _ _ _ _ V) as P.
  pose proof (run_nodup products _ plan (seq_NoDup _ _) s V) as ND.
  assert (ST : exists s', sched true s = Some s' -> ordinary (Sched true)) by (exists s; split; discriminate).
  assert (HD : forall j, In j (running s) -> j_phase j = Done -> (pc s = Waiting \/ exists d, pc s = Handling d) -> exists s', handle (j_product j) s = Some s').
  { intros j I D PP. pose proof (find_job_in (j_product j) (running s) j ND I eq_refl) as F. destruct j as [jp l ph]. cbn [j_product j_phase] in *. subst ph.
    assert (G : forall x y : option state, (exists s', x = Some s') -> (exists s', y = Some s') -> forall b : bool, exists s', (if b then x else y) = Some s') by (intros x y X Y []; auto).
    unfold handle. rewrite F. destruct PP as [-> |(d & ->)]; destruct (entry l (for_state s)) as [|(p', d') t]; (apply G; [eauto|]); destruct (todo s jp) as [|[q i|i|c] r]; try (now eexists); destruct (mem q (to_handle s)); eauto. }
  destruct (pc s) eqn:PC; [right|right|right|now left|destruct P].
  - exists (Sched true). cbn [step]. unfold sched. rewrite PC. eexists. split; [split; discriminate|reflexivity].
  - destruct (running s) as [|j r] eqn:RU; [congruence|]. assert (I : In j (running s)) by (rewrite RU; now left). rewrite <- RU in ND, HD. pose proof (find_job_in (j_product j) (running s) j ND I eq_refl) as F.
    destruct j as [jp l [d| |]]; cbn [j_product] in *.
    + exists (Job jp false []). cbn [step]. unfold job_step. rewrite F. eexists. split; [split; discriminate|reflexivity].
    + exists (Mark jp). cbn [step]. unfold mark. rewrite F, PC. eexists. split; [split; discriminate|reflexivity].
    + destruct (HD _ I eq_refl) as (s' & E); [auto|]. exists (Handle jp), s'. split; [split; discriminate|exact E].
  - destruct (existsb is_done (running s)) eqn:D.
    + apply existsb_exists in D as (j & I & D). unfold is_done in D. destruct (j_phase j) eqn:J; try discriminate. destruct (HD j I J) as (s' & E); [eauto|]. exists (Handle (j_product j)), s'. split; [split; discriminate|exact E].
    + exists (Sched true). cbn [step]. unfold sched. rewrite PC, D. destruct direct as [|((p, l), d) t]; eexists; (split; [split; discriminate|reflexivity]).
Qed.

(** ** The scheduler comes to an end *)

Fixpoint weight (d : dep) : nat :=
  match d with
  | Single _ inner => S (list_sum (map weight inner))
  | Plain inner => S (list_sum (map weight inner))
  | Bulk cands => S (list_sum (map weight cands))
  end.
Definition wt (l : list dep) : nat := sm weight l.
Definition m_work (products : list nat) (s : state) : nat := sm (fun p => wt (todo s p)) products + length (to_handle s).
(** How far a job is from its end, how many steps are left for it. *)
Definition v_end (s : state) (p : nat) : nat :=
  if mem p (failed s) then 6 else match todo s p with [] => 6 | Single q _ :: _ => if mem q (to_handle s) then 16 else 21 | _ => 16 end.
Definition v_job (s : state) (j : job) : nat :=
  match j_phase j with Runs Allowed => 18 | Runs NotAllowed => 8 | Ended => S (v_end s (j_product j)) | Done => v_end s (j_product j) end.
Definition v_deferral (d : deferral) : nat := match d with Allowed => 19 | NotAllowed => 9 end.
Definition v_queued (s : state) (e : queued) : nat :=
  match q_count e with None => 20 | Some n => if length (to_handle s) <? n then 20 else 10 end.
Definition m_places (s : state) : nat :=
  sm (v_queued s) (queue s) + sm (v_job s) (running s) + sm (fun _ => 15) (bulk s) + sm (fun e => v_deferral (snd e)) (vals (for_state s))
  + sm (fun e => v_deferral (snd e)) (directs s).
Definition m_pc (s : state) : nat := match pc s with Handling _ => 2 | Scheduling => 1 | _ => 0 end.

Lemma wt_app a b : wt (a ++ b) = wt a + wt b. Proof. apply sm_app. Qed.
Lemma wt_skip n : forall l, l <> [] -> 0 < n -> wt (skipn n l) < wt l.
Proof.
  assert (L : forall n l, wt (skipn n l) <= wt l) by (clear; induction n as [|n IH]; intros [|x l]; cbn [skipn]; auto; specialize (IH l); unfold wt in *; rewrite sm_cons; lia).
  destruct n as [|n]; [lia|]. intros [|x l] NE _; [congruence|]. cbn [skipn]. specialize (L n l). unfold wt in *. rewrite sm_cons. assert (0 < weight x) by (destruct x; cbn; lia). lia.
Qed.
Lemma wt_pick bs : forall l, wt (pick bs l) <= wt l.
Proof. induction bs as [|b bs IH]; intros [|x l]; cbn [pick]; unfold wt in *; rewrite ?sm_nil, ?sm_cons; try lia. specialize (IH l). destruct b; rewrite ?sm_cons; lia. Qed.
Lemma sm_set (f : nat -> list dep) p t products : NoDup products -> In p products -> sm (fun x => wt (set f p t x)) products + wt (f p) = sm (fun x => wt (f x)) products + wt t.
Proof.
  induction products as [|x l IH]; [intros _ []|]. intros N I. inversion N as [|? ? NI N']; subst. rewrite !sm_cons. unfold set at 1. destruct (Nat.eqb_spec x p) as [->|NE].
  - assert (E : sm (fun x => wt (set f p t x)) l = sm (fun x => wt (f x)) l); [|lia]. apply sm_ext. intros y J. unfold set. destruct (Nat.eqb_spec y p) as [->|]; [tauto|reflexivity].
  - destruct I as [->|I]; [congruence|]. specialize (IH N' I). lia.
Qed.
Lemma drop_set_phase p ph l : drop_job p (set_phase p ph l) = drop_job p l.
Proof. unfold drop_job, set_phase. induction l as [|j l IH]; [reflexivity|]. cbn [map filter]. destruct (Nat.eqb_spec (j_product j) p) as [E|E]; cbn [j_product]; [rewrite Nat.eqb_refl|apply Nat.eqb_neq in E; rewrite E]; cbn [negb]; now rewrite IH. Qed.
Lemma find_set_phase p ph l j : find_job p l = Some j -> find_job p (set_phase p ph l) = Some {| j_product := p; j_state := j_state j; j_phase := ph |}.
Proof. unfold find_job, set_phase. induction l as [|k l IH]; [discriminate|]. cbn [find map]. destruct (j_product k =? p) eqn:E; cbn [j_product]; [rewrite Nat.eqb_refl; intros X; now injection X as <-|rewrite E; exact IH]. Qed.
Lemma mem_cons_ne x p l : x <> p -> mem x (p :: l) = mem x l.
Proof. intros N. unfold mem. cbn [existsb]. apply Nat.eqb_neq in N. now rewrite N. Qed.
Lemma drop_le x l : In x l -> length (drop x l) < length l.
Proof. unfold drop. induction l as [|y l IH]; [intros []|]. assert (L : length (filter (fun y => negb (x =? y)) l) <= length l) by (clear; induction l as [|z l IH]; cbn [filter]; [lia|]; destruct (negb (x =? z)); cbn [length]; lia). cbn [filter]. destruct (Nat.eqb_spec x y) as [<-|N]; cbn [negb length]; [lia|]. intros [E|I]; [congruence|]. specialize (IH I). lia. Qed.


(** A place with a product that cannot be deferred: the work gets less when it is its turn. *)
Definition u_queued (s : state) (e : queued) : nat :=
  if mem (q_product e) (to_handle s) then match q_count e with None => 0 | Some n => if length (to_handle s) <? n then 0 else 1 end else 0.
Definition u_job (s : state) (j : job) : nat :=
  if mem (j_product j) (to_handle s) then
    match j_phase j with
    | Runs Allowed => 0
    | Runs NotAllowed => 1
    | _ => if mem (j_product j) (failed s) then 1 else match todo s (j_product j) with [] => 1 | _ => 0 end end
  else 0.
Definition u_waiting (s : state) (e : nat * deferral) : nat :=
  if mem (fst e) (to_handle s) then match snd e with Allowed => 0 | NotAllowed => 1 end else 0.
Definition m_urgent (s : state) : nat :=
  sm (u_queued s) (queue s) + sm (u_job s) (running s) + sm (u_waiting s) (vals (for_state s)) + sm (fun e => u_waiting s (fst (fst e), snd e)) (directs s).
Definition m_flag (s : state) : nat := match m_urgent s with O => 1 | _ => 0 end.

Lemma drop_id x l : ~ In x l -> drop x l = l.
Proof.
  unfold drop. induction l as [|y l IH]; [reflexivity|]. cbn [In filter]. intros N. destruct (Nat.eqb_spec x y); [subst; tauto|]. cbn [negb]. now rewrite IH by tauto.
Qed.
Lemma release_sm s l direct' fs (g : nat * deferral -> nat) :
  (direct', fs) = match entry l (for_state s) with (p', d) :: t => (directs s ++ [(p', l, d)], put l t (for_state s)) | [] => (directs s, for_state s) end ->
  sm g (vals (for_state s)) + sm (fun e => g (fst (fst e), snd e)) (directs s) = sm g (vals fs) + sm (fun e => g (fst (fst e), snd e)) direct'.
Proof.
  intros D. destruct (entry l (for_state s)) as [|(p', d) t] eqn:E; injection D as -> ->; [reflexivity|].
  pose proof (sm_put g l t (for_state s)). rewrite E in *. rewrite sm_cons in *. rewrite sm_app, sm_cons, sm_nil. cbn [fst snd]. lia.
Qed.

Section Ends.
Context (products states : list nat) (plan : nat -> list dep).
Context (NDp : NoDup products) (NDs : NoDup states).
Notation INV := (GInv products states plan).
Definition less (s' s : state) : Prop :=
  m_work products s' < m_work products s \/
  (m_work products s' = m_work products s /\
   ((m_urgent s = 0 /\ 0 < m_urgent s') \/
    (m_urgent s <= m_urgent s' /\ (m_places s' < m_places s \/ (m_places s' = m_places s /\ m_pc s' < m_pc s))))).

Lemma with_job_work s p j ph t f : INV s -> find_job p (running s) = Some j -> wt t < wt (todo s p) -> less (with_job s p ph t f) s.
Proof.
  intros H F L. left. unfold m_work. cbn [with_job todo to_handle]. destruct (find_job_some _ _ _ F) as [JI JP]. pose proof (run_known products states plan s j H JI) as IP. rewrite JP in IP.
  pose proof (sm_set (todo s) p t products NDp IP). lia.
Qed.
Lemma with_job_place s p j ph f : INV s -> find_job p (running s) = Some j -> (f = failed s \/ f = p :: failed s) ->
  v_job (with_job s p ph (todo s p) f) {| j_product := p; j_state := j_state j; j_phase := ph |} < v_job s j ->
  u_job s j <= u_job (with_job s p ph (todo s p) f) {| j_product := p; j_state := j_state j; j_phase := ph |} ->
  less (with_job s p ph (todo s p) f) s.
Proof.
  intros H F FF L UL. right. destruct (find_job_some _ _ _ F) as [JI JP]. pose proof (run_known products states plan s j H JI) as IP. rewrite JP in IP. split.
  - unfold m_work. cbn [with_job todo to_handle]. pose proof (sm_set (todo s) p (todo s p) products NDp IP). lia.
  - right. pose proof (run_nodup products states plan NDs s H) as ND. unfold m_places, m_urgent. change (directs (with_job s p ph (todo s p) f)) with (directs s). cbn [with_job queue running bulk for_state].
    assert (ND' : NoDup (map j_product (set_phase p ph (running s)))) by now rewrite set_phase_product.
    set (s' := with_job s p ph (todo s p) f) in *.
    rewrite (sm_drop_job (v_job s) p _ _ ND F), (sm_drop_job (v_job s') p _ _ ND' (find_set_phase p ph _ _ F)), (sm_drop_job (u_job s) p _ _ ND F), (sm_drop_job (u_job s') p _ _ ND' (find_set_phase p ph _ _ F)), drop_set_phase.
    assert (MF : forall k, In k (drop_job p (running s)) -> mem (j_product k) f = mem (j_product k) (failed s) /\ set (todo s) p (todo s p) (j_product k) = todo s (j_product k)).
    { intros k I. apply drop_job_in in I as [_ NE]. unfold set. apply Nat.eqb_neq in NE as NE'. rewrite NE'. split; [|reflexivity]. destruct FF as [->| ->]; rewrite ?mem_cons_ne by auto; reflexivity. }
    assert (E : sm (v_job s') (drop_job p (running s)) = sm (v_job s) (drop_job p (running s))).
    { apply sm_ext. intros k I. destruct (MF k I) as [A B]. unfold v_job, v_end. subst s'. cbn [with_job failed todo to_handle]. now rewrite A, B. }
    assert (E' : sm (u_job s') (drop_job p (running s)) = sm (u_job s) (drop_job p (running s))).
    { apply sm_ext. intros k I. destruct (MF k I) as [A B]. unfold u_job. subst s'. cbn [with_job failed todo to_handle]. now rewrite A, B. }
    change (v_queued s') with (v_queued s). change (u_queued s') with (u_queued s). change (u_waiting s') with (u_waiting s). rewrite E, E'. split; [lia|left; lia].
Qed.
Ltac fields := cbn [queue running bulk for_state directs pc to_handle todo failed j_phase j_product with_job].
Ltac sames s := repeat match goal with
  | |- context [sm (v_queued ?x) _] => progress change (v_queued x) with (v_queued s)
  | |- context [sm (u_queued ?x) _] => progress change (u_queued x) with (u_queued s)
  | |- context [sm (v_job ?x) _] => progress change (v_job x) with (v_job s)
  | |- context [sm (u_job ?x) _] => progress change (u_job x) with (u_job s)
  | |- context [sm (u_waiting ?x) _] => progress change (u_waiting x) with (u_waiting s)
  end.
Lemma step_less s e s' : INV s -> ordinary e -> step s e = Some s' -> less s' s.
Proof.
  intros H [O1 O2] E. destruct e as [p use picks|p n|p|p|ok|]; cbn [step] in E; [..|congruence].
  - unfold job_step in E. destruct (find_job p (running s)) as [[jp l [d| |]]|] eqn:F; try discriminate. injection E as <-.
    assert (T0 : forall j rest, todo s p = j :: rest -> wt rest < wt (todo s p)) by (intros j rest ->; unfold wt; rewrite sm_cons; destruct j; cbn [weight]; lia).
    pose proof (find_job_some _ _ _ F) as [_ X]. cbn [j_product] in X. subst jp.
    destruct (todo s p) as [|[q inner|inner|cands] rest] eqn:T.
    + rewrite <- T. eapply with_job_place; eauto.
      * unfold v_job, v_end. fields. unfold set. rewrite Nat.eqb_refl, T. destruct (mem p (failed s)), d; lia.
      * unfold u_job. fields. unfold set. rewrite Nat.eqb_refl, T. destruct (mem p (to_handle s)), (mem p (failed s)), d; lia.
    + destruct (Nat.eqb_spec q p) as [->|NE].
      * eapply with_job_work; eauto. rewrite T. eauto.
      * destruct (mem q (to_handle s)) eqn:M.
        -- destruct d.
           ++ rewrite <- T. eapply with_job_place; eauto.
              ** unfold v_job, v_end. fields. unfold set. rewrite Nat.eqb_refl, T, M. destruct (mem p (failed s)); lia.
              ** unfold u_job at 1. fields. destruct (mem p (to_handle s)); lia.
           ++ eapply with_job_work; eauto. rewrite T. eauto.
        -- eapply with_job_work; eauto. rewrite T, wt_app. unfold wt. rewrite sm_cons. cbn [weight]. fold (sm weight inner). destruct use; rewrite ?sm_nil; lia.
    + eapply with_job_work; eauto. rewrite T, wt_app. unfold wt. rewrite sm_cons. cbn [weight]. fold (sm weight inner). destruct use; rewrite ?sm_nil; lia.
    + destruct d.
      * rewrite <- T. eapply with_job_place; eauto.
        -- unfold v_job, v_end. fields. unfold set. rewrite Nat.eqb_refl, T. destruct (mem p (failed s)); lia.
        -- unfold u_job at 1. fields. destruct (mem p (to_handle s)); lia.
      * eapply with_job_work; eauto. rewrite T, wt_app. pose proof (wt_pick picks cands). unfold wt in *. rewrite sm_cons. cbn [weight]. fold (sm weight cands). lia.
  - unfold job_error in E. destruct (find_job p (running s)) as [[jp l [d| |]]|] eqn:F; try discriminate. injection E as <-.
    pose proof (find_job_some _ _ _ F) as [_ X]. cbn [j_product] in X. subst jp.
    assert (MP : mem p (p :: failed s) = true) by (unfold mem; cbn [existsb]; now rewrite Nat.eqb_refl).
    assert (A : less (with_job s p Ended (todo s p) (p :: failed s)) s).
    { eapply with_job_place; eauto.
      - unfold v_job, v_end. fields. rewrite MP. destruct d; lia.
      - unfold u_job. fields. rewrite MP. destruct (mem p (to_handle s)), d; lia. }
    destruct n as [|n]; [exact A|]. destruct (todo s p) as [|x r] eqn:T; [exact A|]. eapply with_job_work; eauto. rewrite T. apply wt_skip; [discriminate|lia].
  - unfold mark in E. destruct (pc s) eqn:PC; try discriminate. destruct (find_job p (running s)) as [[jp l [d| |]]|] eqn:F; try discriminate. injection E as <-.
    pose proof (find_job_some _ _ _ F) as [_ X]. cbn [j_product] in X. subst jp.
    eapply with_job_place; eauto.
    + unfold v_job, v_end. fields. unfold set. rewrite Nat.eqb_refl. lia.
    + unfold u_job. fields. unfold set. rewrite Nat.eqb_refl. lia.
  - pose proof (g_handle products states plan NDs s p s' H E) as H'.
    destruct (handle_cases s p s' E) as (l & direct' & fs & q & sg & bk & th & fin & pc' & F & D & SE & C). clear E.
    pose proof (run_nodup products states plan NDs s H) as ND.
    pose proof (release_sm s l direct' fs (fun e => v_deferral (snd e)) D) as R1. pose proof (release_sm s l direct' fs (u_waiting s) D) as R2. cbn [snd] in R1.
    set (av := match entry l (for_state s) with [] => l :: available s | _ => available s end) in *. clearbody av.
    assert (K : pc' = Handling direct' -> th = to_handle s -> u_job s {| j_product := p; j_state := l; j_phase := Done |} = 0 -> sm (u_queued s) (queue s) <= sm (u_queued s) q ->
       sm (v_queued s) q + sm (fun _ => 15) bk < sm (v_queued s) (queue s) + sm (fun _ => 15) (bulk s) + v_end s p -> less s' s).
    { intros -> -> UJ UQ VQ. rewrite SE. right. split; [reflexivity|]. right. unfold m_urgent, m_places. rewrite (sm_drop_job (v_job s) p (running s) _ ND F), (sm_drop_job (u_job s) p (running s) _ ND F), UJ.
      change (v_job s {| j_product := p; j_state := l; j_phase := Done |}) with (v_end s p). fields. sames s.
      match goal with |- context [sm (fun e => u_waiting ?x (fst (fst e), snd e)) direct'] => change (u_waiting x) with (u_waiting s) end.
      split; [lia|left; lia]. }
    destruct C as [(PE & FT & -> & -> & -> & -> & ->)|(NF & TN & -> & -> & C)].
    + destruct (in_dec Nat.eq_dec p (to_handle s)) as [IT|NT].
      * left. rewrite SE. unfold m_work. cbn [todo to_handle]. pose proof (drop_le p (to_handle s) IT). lia.
      * assert (EE : entry p (single s) = []).
        { destruct (entry p (single s)) as [|y ys] eqn:EE; auto. destruct (entry_in p (single s) y) as (v & I & _); [rewrite EE; now left|]. destruct (g_single _ _ _ _ H p v I). tauto. }
        apply K; auto.
        -- now apply drop_id.
        -- unfold u_job. fields. apply mem_no in NT. now rewrite NT.
        -- rewrite sm_app. lia.
        -- rewrite EE. cbn [map]. rewrite app_nil_r. assert (0 < v_end s p); [|lia]. unfold v_end. destruct (mem p (failed s)); [lia|]. destruct (todo s p) as [|[]]; try lia. destruct (mem q (to_handle s)); lia.
    + apply mem_no in NF. assert (UJ : u_job s {| j_product := p; j_state := l; j_phase := Done |} = 0).
      { unfold u_job. fields. rewrite NF. destruct (mem p (to_handle s)); [|reflexivity]. destruct (todo s p); [congruence|reflexivity]. }
      destruct C as [(c & r & -> & T & -> & -> & ->)|[(x0 & i & r & -> & T & M & -> & -> & ->)|[(x0 & i & r & -> & T & M & -> & -> & ->)|(i & r & T)]]].
      * apply K; auto. rewrite sm_app, sm_cons, sm_nil. unfold v_end. rewrite NF, T. lia.
      * apply K; auto. unfold v_end. rewrite NF, T. apply mem_in in M. rewrite M. lia.
      * apply K; auto; rewrite sm_app; [lia|]. rewrite sm_cons, sm_nil. change (v_queued s {| q_product := p; q_state := Some l; q_count := None |}) with 20. unfold v_end. rewrite NF, T. apply mem_no in M. rewrite M. lia.
      * exfalso. destruct (find_job_some _ _ _ F) as [JI _]. assert (EN := g_end _ _ _ _ H _ JI). fields. specialize (EN ltac:(discriminate)). cbn [j_product] in EN. apply mem_no in NF. destruct EN as [X|[X|[(q' & i' & r' & X)|(c & r' & X)]]]; congruence.
  - destruct ok; [|congruence]. clear O1 O2. pose proof H as [H1 H2 H3 H4 H5 H6 H7 H8 H9 H10 H11 H12 H13 H14 H15 H16].
    pose proof (g_sched products states plan NDs s true s' H E) as H'. unfold sched in E. destruct (pc s) eqn:PC; try discriminate.
    + injection E as <-. assert (DE : directs s = []) by (unfold directs; now rewrite PC).
      assert (PL : forall pc', match pc' with Handling _ | Scheduling => False | _ => True end -> less (with_pc s pc') s).
      { intros pc' PP. right. split; [reflexivity|]. right. unfold m_places, m_pc, m_urgent. rewrite DE, PC. destruct pc'; try tauto; (split; [apply Nat.le_refl|]; right; split; [reflexivity|cbn [with_pc pc]; lia]). }
      destruct (if length (running s) <? max_jobs s then queue s else []) as [|e q] eqn:QE.
      * destruct (running s) as [|j0 jr] eqn:RU; [|apply PL; exact Logic.I]. destruct (queue s) eqn:Q; [|apply PL; exact Logic.I].
        pose proof (nothing_left products states plan s H PC RU Q) as NL.
        assert (UN : forall y, u_queued s (no_deferral s y) = if mem (fst y) (to_handle s) then 1 else 0) by (intros y; unfold u_queued; cbn [no_deferral q_product q_count]; now rewrite Nat.ltb_irrefl).
        assert (FE : vals (for_state s) = []).
        { apply vals_empty. intros k v I. destruct v as [|y v]; [auto|]. destruct (H10 k _ I ltac:(discriminate)) as [X|[X|X]]; [destruct X|rewrite DE in X; destruct X|destruct X]. }
        destruct (bulk s) as [|b bs] eqn:B.
        -- destruct (single s) as [|sg sr] eqn:SG; [apply PL; destruct (to_handle s); exact Logic.I|]. destruct (flat_map snd (sg :: sr)) as [|y ys] eqn:FL; [apply PL; exact Logic.I|].
           change (no_deferral s y :: map (no_deferral s) ys) with (map (no_deferral s) (y :: ys)). rewrite <- FL. right. split; [reflexivity|]. left. split.
           ++ unfold m_urgent. now rewrite DE, RU, Q, FE, !sm_nil.
           ++ assert (P : 0 < sm (u_queued s) (map (no_deferral s) (flat_map snd (sg :: sr)))).
              { destruct sg as (q0, l0). destruct (H8 q0 l0 ltac:(now left)) as [_ TH]. destruct (H1 q0 TH) as [W|(k & W)]; [rewrite Q in W; cbn in W; lia|]. destruct (NL q0 k W) as [X|[]].
                apply sm_pos. exists (no_deferral s (q0, k)). split; [apply in_map; exact X|]. rewrite UN. cbn [fst]. apply mem_in in TH. rewrite TH. lia. }
              unfold m_urgent. cbn [with_queue queue running for_state]. sames s. lia.
        -- change (no_deferral s b :: map (no_deferral s) bs) with (map (no_deferral s) (b :: bs)). right. split; [reflexivity|]. right. split; [unfold m_urgent; rewrite DE, RU, Q, FE, !sm_nil; lia|].
           left. unfold m_places. change (directs (with_queue s (map (no_deferral s) (b :: bs)) [])) with (directs s). cbn [with_queue queue running bulk for_state]. rewrite DE, RU, Q, B, sm_map, !sm_nil.
           match goal with |- sm ?f _ + _ + _ + _ + _ < _ => rewrite (sm_ext f (fun _ => 10)) end.
           ++ rewrite !sm_cons. assert (sm (fun _ : nat * nat => 10) bs <= sm (fun _ => 15) bs) by (clear; induction bs as [|y bs IH]; rewrite ?sm_cons, ?sm_nil; lia). lia.
           ++ intros x _. unfold v_queued. cbn [no_deferral q_count with_queue to_handle]. now rewrite Nat.ltb_irrefl.
      * destruct (length (running s) <? max_jobs s); [|discriminate]. set (d := match q_count e with None => Allowed | Some n => if length (to_handle s) <? n then Allowed else NotAllowed end) in *.
        assert (VQ : v_queued s e = S (v_deferral d)). { unfold v_queued, d. destruct (q_count e) as [n|]; [destruct (length (to_handle s) <? n)|]; reflexivity. }
        assert (UQ : u_queued s e = u_waiting s (q_product e, d)). { unfold u_queued, u_waiting, d. cbn [fst snd]. destruct (mem (q_product e) (to_handle s)); [|reflexivity]. destruct (q_count e) as [n|]; [destruct (length (to_handle s) <? n)|]; reflexivity. }
        clearbody d.
        assert (SL : forall l av, INV (start s Scheduling (q_product e) l d true av q) -> less (start s Scheduling (q_product e) l d true av q) s).
        { intros l av V. unfold start in *. destruct (find_job (q_product e) (running s)); [destruct (g_pc _ _ _ _ V)|]. right. split; [reflexivity|]. right. unfold m_places, m_urgent. rewrite DE, QE. fields. sames s. rewrite !sm_app, !sm_cons, !sm_nil, VQ, UQ.
          assert (VJ : v_job s {| j_product := q_product e; j_state := l; j_phase := Runs d |} < v_deferral d) by (unfold v_job; fields; destruct d; cbn [v_deferral]; lia).
          assert (UJ : u_job s {| j_product := q_product e; j_state := l; j_phase := Runs d |} = u_waiting s (q_product e, d)) by (unfold u_job, u_waiting; fields; cbn [fst snd]; destruct d; reflexivity).
          split; [lia|left; lia]. }
        destruct (available s) as [|a0 ar] eqn:AV; [apply PL; exact Logic.I|]. destruct (q_state e) as [l|]; [|now apply SL].
        change ((l =? a0) || mem l ar) with (mem l (a0 :: ar)) in *. change (if negb (l =? a0) then a0 :: drop l ar else drop l ar) with (drop l (a0 :: ar)) in *.
        destruct (mem l (a0 :: ar)); [now apply SL|]. right. split; [reflexivity|]. right. unfold m_places, m_urgent. rewrite DE, QE. fields. sames s. rewrite !sm_cons, !sm_nil, VQ, UQ.
        pose proof (sm_put (fun e => v_deferral (snd e)) l (entry l (for_state s) ++ [(q_product e, d)]) (for_state s)) as SP. rewrite sm_app, sm_cons, sm_nil in SP. cbn [snd] in SP.
        pose proof (sm_put (u_waiting s) l (entry l (for_state s) ++ [(q_product e, d)]) (for_state s)) as SU. rewrite sm_app, sm_cons, sm_nil in SU. split; [lia|left; lia].
    + destruct (existsb is_done (running s)); [discriminate|]. destruct direct as [|((p, l), d) t]; injection E as <-.
      * right. split; [reflexivity|]. right. unfold m_places, m_pc, m_urgent. rewrite PC. assert (DE : directs s = []) by (unfold directs; now rewrite PC). rewrite DE. split; [apply Nat.le_refl|]. right. split; [reflexivity|]. cbn [with_pc pc]. lia.
      * assert (DE : directs s = (p, l, d) :: t) by (unfold directs; now rewrite PC). unfold start in *. destruct (find_job p (running s)); [destruct (g_pc _ _ _ _ H')|]. right. split; [reflexivity|]. right. unfold m_places, m_urgent. rewrite DE. fields. sames s.
        match goal with |- context [sm (fun e => u_waiting ?x (fst (fst e), snd e)) t] => change (u_waiting x) with (u_waiting s) end.
        rewrite !sm_app, !sm_cons, !sm_nil. cbn [fst snd].
        assert (VJ : v_job s {| j_product := p; j_state := l; j_phase := Runs d |} < v_deferral d) by (unfold v_job; fields; destruct d; cbn [v_deferral]; lia).
        assert (UJ : u_job s {| j_product := p; j_state := l; j_phase := Runs d |} = u_waiting s (p, d)) by (unfold u_job, u_waiting; fields; cbn [fst snd]; destruct d; reflexivity).
        split; [lia|left; lia].
Qed.
Lemma inv_acc : forall a f b c s, INV s -> m_work products s = a -> m_flag s = f -> m_places s = b -> m_pc s = c -> Acc (fun s' s => exists e, ordinary e /\ step s e = Some s') s.
Proof.
  induction a as [a IHa] using lt_wf_ind. induction f as [f IHf] using lt_wf_ind. induction b as [b IHb] using lt_wf_ind. induction c as [c IHc] using lt_wf_ind. intros s H <- <- <- <-. constructor. intros s' (e & O & E).
  assert (H' : INV s') by (eapply g_step; eauto). destruct (step_less s e s' H O E) as [L|[E1 [[U U']|[U L]]]]; [eapply IHa; eauto| |].
  - eapply IHf; eauto. unfold m_flag. rewrite U. destruct (m_urgent s'); lia.
  - assert (FL : m_flag s' <= m_flag s) by (unfold m_flag; destruct (m_urgent s), (m_urgent s'); lia).
    destruct (Nat.eq_dec (m_flag s') (m_flag s)) as [FE|FE]; [|eapply IHf; eauto; lia]. destruct L as [L|[E2 L]]; [eapply IHb|eapply IHc]; eauto.
Qed.
End Ends.
(** There is no endless run of steps, unless threads cannot be created or there are wakings without cause again and again. *)
Theorem resolver_ends products max plan s : NoDup products -> 1 <= max -> reachable products max plan s ->
  Acc (fun s' s => exists e, ordinary e /\ step s e = Some s') s.
Proof. intros N M H. eapply inv_acc; [exact N|apply (seq_NoDup (Nat.max 1 (Nat.min max (length products))) 0)|exact (g_reachable products max plan s N M H)|reflexivity..]. Qed.
(** So in whatever order the steps are done: from each state the end can be reached, and if only such steps are done, it is. *)
Corollary resolver_resolves_all products max plan s : NoDup products -> 1 <= max -> reachable products max plan s ->
  exists es s', Forall ordinary es /\ run s es = Some s' /\ pc s' = Finished /\ forall p, In p (finished s') <-> In p products.
Proof.
  intros N M H. pose proof (resolver_ends products max plan s N M H) as A. induction A as [s _ IH].
  destruct (resolver_progress products max plan s N M H) as [F|(e & s' & O & E)].
  - exists [], s. split; [constructor|]. split; [reflexivity|]. split; [exact F|]. now apply (resolver_complete products max plan).
  - destruct (IH s') as (es & s'' & A & B & C); [eauto|econstructor; eauto|]. exists (e :: es), s''. split; [now constructor|]. cbn [run]. rewrite E. auto.
Qed.

(** ** Dependency cycles are found, and only these *)

(** Of the products of a cycle, one at least is finished with an error. *)
Theorem resolver_cycle_found products max plan s (cycle : list nat) : NoDup products -> 1 <= max -> reachable products max plan s -> pc s = Finished ->
  cycle <> [] -> incl cycle products -> (forall p, In p cycle -> exists q, In q cycle /\ In q (direct_names (plan p))) -> exists p, In p cycle /\ In p (failed s).
Proof.
  intros N M H F NE IC CY. destruct (resolver_complete products max plan s N M H F) as [_ C].
  destruct (Exists_dec (fun p => In p (failed s)) cycle (fun p => in_dec Nat.eq_dec p (failed s))) as [X|X]; [apply Exists_exists in X; exact X|]. exfalso.
  assert (NF : forall p, In p cycle -> ~ In p (failed s)) by (intros p I J; apply X, Exists_exists; eauto).
  assert (L : forall n a p b, length a < n -> finished s = a ++ p :: b -> In p cycle -> False).
  { induction n as [|n IH]; [lia|]. intros a p b LA E I. destruct (CY p I) as (q & J & D). pose proof (resolver_order products max plan s a p b q N M H E (NF p I) D (IC q J)) as IA.
    apply in_split in IA as (a1 & a2 & ->). rewrite app_length in LA. cbn [length] in LA. apply (IH a1 q (a2 ++ p :: b)); auto; [lia|]. rewrite E, <- app_assoc. reflexivity. }
  destruct cycle as [|p cs]; [congruence|]. assert (I : In p (finished s)) by (apply C, IC; now left). apply in_split in I as (a & b & E). apply (L (S (length a)) a p b); auto. now left.
Qed.

(** A product that cannot be deferred. *)
Definition hard (s : state) (x : nat) : Prop :=
  (exists e, In e (queue s) /\ q_product e = x /\ q_count e <> None) \/ In (x, NotAllowed) (vals (for_state s)) \/ (exists l, In (x, l, NotAllowed) (directs s)) \/
  (exists j, In j (running s) /\ j_product j = x /\ j_phase j = Runs NotAllowed).
Definition Soft (s : state) : Prop := (forall x, hard s x -> exists c r, todo s x = Bulk c :: r) /\ failed s = [].

Section Sound.
Context (products states : list nat) (rank : nat -> nat) (plan : nat -> list dep).
Context (NDp : NoDup products) (NDs : NoDup states).
Notation INV := (Inv products states rank plan).
Lemma soft_with_job s p j ph t : INV s -> Soft s -> find_job p (running s) = Some j -> (ph = Runs NotAllowed -> exists c r, t = Bulk c :: r) -> Soft (with_job s p ph t (failed s)).
Proof.
  intros H [S1 S2] F P. split; [|exact S2]. destruct (find_job_some _ _ _ F) as [JI JP].
  assert (T2 : sm (fun j => ind p (j_product j)) (running s) >= 1). { assert (0 < sm (fun j => ind p (j_product j)) (running s)); [|lia]. apply ind_in, in_map_iff. eauto. }
  pose proof (tok_le products states rank plan NDp s p H) as TL. unfold tok in TL.
  intros x X. cbn [with_job todo]. unfold set. destruct (Nat.eqb_spec x p) as [->|NE].
  - destruct X as [(e & I & E & C)|[I|[(l & I)|(k & I & E & C)]]].
    + cbn [with_job queue] in I. exfalso. assert (0 < sm (fun e => ind p (q_product e)) (queue s)); [|lia]. apply ind_in, in_map_iff. eauto.
    + cbn [with_job for_state] in I. exfalso. assert (0 < sm (fun e : nat * deferral => ind p (fst e)) (vals (for_state s))); [|lia]. apply ind_in, in_map_iff. exists (p, NotAllowed). auto.
    + change (directs (with_job s p ph t (failed s))) with (directs s) in I. exfalso. assert (0 < sm (fun e : nat * nat * deferral => ind p (fst (fst e))) (directs s)); [|lia]. apply (ind_in (fun e => fst (fst e))), in_map_iff. exists (p, l, NotAllowed). auto.
    + cbn [with_job running] in I. apply set_phase_in in I as [[_ B]|[_ B]]; [|congruence]. apply P. congruence.
  - apply S1. destruct X as [X|[X|[X|(k & I & E & C)]]]; [left; exact X|right; left; exact X|right; right; left; exact X|]. cbn [with_job running] in I. apply set_phase_in in I as [[B _]|[I _]]; [congruence|].
    right. right. right. eauto.
Qed.
Lemma soft_start s pc' p l d ok av q : INV s -> Soft s -> let dr := match pc' with Handling d => d | _ => [] end in
  incl q (queue s) -> incl dr (directs s) -> find_job p (running s) = None -> (d = NotAllowed -> hard s p) -> Soft (start s pc' p l d ok av q).
Proof.
  intros H [S1 S2] dr IQ ID F HD. unfold start. rewrite F.
  assert (K : forall s', pc s' = pc' -> for_state s' = for_state s -> todo s' = todo s -> failed s' = failed s -> (forall e, In e (queue s') -> In e q \/ (q_product e = p /\ (q_count e <> None -> d = NotAllowed))) ->
    (forall j, In j (running s') -> In j (running s) \/ (j_product j = p /\ j_phase j = Runs d)) -> Soft s').
  { intros s' E1 E2 E3 E4 E5 E6. split; [|now rewrite E4]. intros x X. rewrite E3. apply S1. destruct X as [(e & I & E & C)|[I|[(k & I)|(j & I & E & C)]]].
    - destruct (E5 e I) as [J|[J K]]; [left; exists e; auto|]. rewrite <- E, J. auto.
    - right. left. now rewrite <- E2.
    - right. right. left. exists k. apply ID. unfold directs in I. now rewrite E1 in I.
    - destruct (E6 j I) as [J|[J K]]; [right; right; right; eauto|]. rewrite <- E, J. apply HD. congruence. }
  destruct ok; apply K; try reflexivity; cbn [queue running]; auto; intros e I; apply in_app_or in I as [I|[<-|[]]]; auto. right. split; [reflexivity|]. cbn [q_count]. destruct d; congruence.
Qed.
Lemma soft_step s e s' : INV s -> Soft s -> (forall p n, e <> Error p n) -> step s e = Some s' -> Soft s'.
Proof.
  intros H S NE E. pose proof S as [S1 S2]. assert (H' : INV s') by (eapply step_inv; eauto). destruct e as [p use picks|p n|p|p|ok|]; cbn [step] in E.
  - unfold job_step in E. destruct (find_job p (running s)) as [[jp l [d| |]]|] eqn:F; try discriminate. injection E as <-.
    destruct (find_job_some _ _ _ F) as [JI JP]. cbn [j_product] in JP. subst jp.
    assert (HB : d = NotAllowed -> exists c r, todo s p = Bulk c :: r). { intros ->. apply S1. right. right. right. eexists. split; [exact JI|auto]. }
    assert (IP : In p products). { apply (in_products products states rank plan s p H). unfold tok. assert (0 < sm (fun j => ind p (j_product j)) (running s)); [|lia]. apply ind_in, in_map_iff. eexists. split; [|exact JI]. reflexivity. }
    pose proof (i_rank _ _ _ _ _ H p) as RK.
    destruct (todo s p) as [|[q inner|inner|cands] rest] eqn:T.
    + eapply soft_with_job; eauto. discriminate.
    + assert (DA : d = Allowed). { destruct d; [reflexivity|]. destruct (HB eq_refl) as (c & r & X). discriminate. } subst d.
      destruct (Nat.eqb_spec q p) as [->|NQ]; [exfalso; specialize (RK p IP (or_introl eq_refl)); lia|]. destruct (mem q (to_handle s)); eapply soft_with_job; eauto; try discriminate. destruct use; discriminate.
    + assert (DA : d = Allowed). { destruct d; [reflexivity|]. destruct (HB eq_refl) as (c & r & X). discriminate. } subst d. eapply soft_with_job; eauto. destruct use; discriminate.
    + destruct d; eapply soft_with_job; eauto; discriminate.
  - now destruct (NE p n).
  - unfold mark in E. destruct (pc s) eqn:PC; try discriminate. destruct (find_job p (running s)) as [[jp l [d| |]]|] eqn:F; try discriminate. injection E as <-. eapply soft_with_job; eauto. discriminate.
  - destruct (handle_cases s p s' E) as (l & direct' & fs & q & sg & bk & th & fin & pc' & F & D & SE & C).
    assert (K : pc' = Handling direct' -> (forall e, In e q -> In e (queue s) \/ q_count e = None) -> Soft s').
    { intros PE QK. rewrite SE. split; [|exact S2]. cbn [todo]. intros x X. apply S1.
      assert (FD : (In (x, NotAllowed) (vals fs) \/ (exists k, In (x, k, NotAllowed) direct')) -> In (x, NotAllowed) (vals (for_state s)) \/ (exists k, In (x, k, NotAllowed) (directs s))).
      { destruct (entry l (for_state s)) as [|(p', d) t] eqn:EE; injection D as -> ->; [auto|]. intros [X'|(k & X')].
        - left. apply vals_in in X' as (k & v & I & J). apply vals_in. apply put_in in I as [[-> ->]|I]; [|eauto]. destruct (entry_in l (for_state s) (x, NotAllowed)) as (v & A & B); [rewrite EE; now right|]. eauto.
        - apply in_app_or in X' as [X'|[X'|[]]]; [eauto|]. injection X' as -> -> ->. left. apply vals_in. destruct (entry_in k (for_state s) (x, NotAllowed)) as (v & A & B); [rewrite EE; now left|]. eauto. }
      destruct X as [(e & I & EP & C')|[I|[(k & I)|(j & I & EP & C')]]]; cbn [queue for_state running] in I.
      - destruct (QK e I) as [J|J]; [left; eauto|congruence].
      - destruct FD as [X|X]; [auto|right; left; exact X|right; right; left; exact X].
      - unfold directs in I. cbn [pc] in I. rewrite PE in I. destruct FD as [X|X]; [eauto|right; left; exact X|right; right; left; exact X].
      - apply drop_job_in in I as [I _]. right. right. right. eauto. }
    destruct C as [(PE & FT & -> & -> & -> & -> & ->)|(NF & TN & -> & -> & C)].
    + apply K; auto. intros e I. apply in_app_or in I as [I|I]; [auto|]. apply in_map_iff in I as (y & <- & _). auto.
    + destruct C as [(c & r & PE & T & -> & -> & ->)|[(x0 & i & r & PE & T & M & -> & -> & ->)|[(x0 & i & r & PE & T & M & -> & -> & ->)|(i & r & T)]]].
      * apply K; auto.
      * apply K; auto.
      * apply K; auto. intros e I. apply in_app_or in I as [I|[<-|[]]]; auto.
      * exfalso. destruct (find_job_some _ _ _ F) as [JI _]. assert (EN := i_end _ _ _ _ _ H _ JI). cbn [j_phase j_product] in EN. specialize (EN ltac:(discriminate)). destruct EN as [X|[X|[(q' & i' & r' & X)|(c & r' & X)]]]; congruence.
  - unfold sched in E. destruct (pc s) eqn:PC; try discriminate.
    + injection E as <-. assert (DE : directs s = []) by (unfold directs; now rewrite PC).
      assert (PL : forall pc', match pc' with Handling _ => False | _ => True end -> Soft (with_pc s pc')).
      { intros pc' PP. split; [|exact S2]. intros x X. apply S1. destruct X as [X|[X|[(k & X)|X]]]; [left; exact X|right; left; exact X|exfalso; destruct pc'; destruct X||destruct PP|right; right; right; exact X]. }
      destruct (if length (running s) <? max_jobs s then queue s else []) as [|e q] eqn:QE.
      * destruct (running s) as [|j0 jr] eqn:RU; [|apply PL; exact Logic.I]. destruct (queue s) eqn:Q; [|apply PL; exact Logic.I]. destruct (bulk s) as [|b bs] eqn:B.
        -- assert (X : single s = []) by now apply (no_cycle products states rank plan NDp s H PC). rewrite X. apply PL. destruct (to_handle s); exact Logic.I.
        -- split; [|exact S2]. intros x X. destruct X as [(e & I & EP & C')|[X|[X|(j & I & _)]]].
           ++ assert (I' : In e (map (no_deferral s) (b :: bs))) by exact I. apply in_map_iff in I' as (y & <- & I'). rewrite <- B in I'. destruct (i_bulk _ _ _ _ _ H y I') as [Y _]. rewrite <- EP. exact Y.
           ++ apply S1. right. left. exact X.
           ++ apply S1. right. right. left. exact X.
           ++ cbn [with_queue running] in I. rewrite RU in I. destruct I.
      * destruct (length (running s) <? max_jobs s); [|discriminate]. set (d := match q_count e with None => Allowed | Some n => if length (to_handle s) <? n then Allowed else NotAllowed end) in *.
        assert (EI : In e (queue s)) by (rewrite QE; now left).
        assert (HD : d = NotAllowed -> hard s (q_product e)). { intros X. left. exists e. split; [exact EI|]. split; [reflexivity|]. unfold d in X. destruct (q_count e); [discriminate|congruence]. }
        clearbody d.
        assert (FN : find_job (q_product e) (running s) = None).
        { destruct (find_job (q_product e) (running s)) as [j|] eqn:F; auto. apply find_job_some in F as [I EP]. pose proof (tok_le products states rank plan NDp s (q_product e) H) as TL. unfold tok in TL.
          assert (0 < sm (fun k => ind (q_product e) (j_product k)) (running s)) by (apply ind_in, in_map_iff; eauto). assert (0 < sm (fun k => ind (q_product e) (q_product k)) (queue s)) by (apply ind_in, in_map_iff; eauto). lia. }
        assert (IQ : incl q (queue s)) by (rewrite QE; intros y I; now right).
        assert (ID : incl (match Scheduling with Handling d => d | _ => [] end) (directs s)) by (intros y []).
        destruct (available s) as [|a0 ar] eqn:AV; [apply PL; exact Logic.I|]. destruct (q_state e) as [l|]; [|now apply soft_start].
        change ((l =? a0) || mem l ar) with (mem l (a0 :: ar)) in *. change (if negb (l =? a0) then a0 :: drop l ar else drop l ar) with (drop l (a0 :: ar)) in *.
        destruct (mem l (a0 :: ar)); [now apply soft_start|]. split; [|exact S2]. intros x X. apply S1. destruct X as [(e' & I & EP & C')|[X|[(k & [])|X]]].
        -- left. exists e'. auto.
        -- cbn [for_state] in X. apply vals_in in X as (k & v & I & J). apply put_in in I as [[-> ->]|I]; [|right; left; apply vals_in; eauto]. apply in_app_or in J as [J|[J|[]]].
           ++ right. left. now apply entry_vals in J.
           ++ injection J as <- J. now apply HD.
        -- right. right. right. exact X.
    + destruct (existsb is_done (running s)); [discriminate|]. destruct direct as [|((p, l), d) t]; injection E as <-.
      * split; [|exact S2]. intros x X. apply S1. destruct X as [X|[X|[(k & [])|X]]]; [left; exact X|right; left; exact X|right; right; right; exact X].
      * assert (DE : directs s = (p, l, d) :: t) by (unfold directs; now rewrite PC). apply soft_start; auto.
        -- now intros y I.
        -- rewrite DE. intros y I. now right.
        -- destruct (find_job p (running s)) as [j|] eqn:F; auto. apply find_job_some in F as [I EP]. pose proof (tok_le products states rank plan NDp s p H) as TL. unfold tok in TL.
           assert (0 < sm (fun k => ind p (j_product k)) (running s)) by (apply ind_in, in_map_iff; eauto). rewrite DE, sm_cons in TL. cbn [fst] in TL. rewrite ind_same in TL. lia.
        -- intros ->. right. right. left. exists l. rewrite DE. now left.
  - destruct (pc s) eqn:PC; try discriminate. destruct (existsb is_done (running s)); [discriminate|]. injection E as <-. split; [|exact S2]. intros x X. apply S1.
    destruct X as [X|[X|[(k & [])|X]]]; [left; exact X|right; left; exact X|right; right; right; exact X].
Qed.
End Sound.
(** Without dependency cycles, no error about one is reported: a product fails only if there is an error of another kind. *)
Theorem resolver_no_false_cycle rank products max plan es s : NoDup products -> 1 <= max -> ranked rank products plan ->
  Forall (fun e => forall p n, e <> Error p n) es -> run (init products max plan) es = Some s -> failed s = [].
Proof.
  intros N M R FE. assert (G : forall es s0, reachable products max plan s0 -> Soft s0 -> Forall (fun e => forall p n, e <> Error p n) es -> run s0 es = Some s -> Soft s).
  { clear es FE. induction es as [|e es IH]; intros s0 RS S FE E; cbn [run] in E; [now injection E as <-|]. inversion FE as [|? ? FE1 FE2]; subst. destruct (step s0 e) as [s1|] eqn:E1; [|discriminate].
    apply (IH s1); auto; [econstructor; eauto|]. eapply soft_step; [exact N|apply (seq_NoDup (Nat.max 1 (Nat.min max (length products))) 0)|exact (reachable_inv rank products max plan s0 N M R RS)|exact S|exact FE1|exact E1]. }
  intros E. apply (G es (init products max plan)); auto; [constructor|]. split; [|reflexivity].
  intros x [(e & I & _ & C)|[[]|[(k & [])|(j & [] & _)]]]. cbn [init queue] in I. apply in_map_iff in I as (y & <- & _). cbn in C. congruence.
Qed.

Module Demo.
Definition cyc (p : nat) : list dep := match p with 0 => [Single 1 []] | 1 => [Single 0 []] | _ => [] end.
Example demo_cycle : let s := Verif.ResolverTheorems.Demo.drive 100 (init [0; 1; 2] 2 cyc) in pc s = Finished /\ incl [0; 1; 2] (finished s) /\ failed s = [1; 0].
Proof. vm_compute. split; [reflexivity|]. split; [|reflexivity]. intros x H. repeat (destruct H as [<-|H]; [tauto|]). destruct H. Qed.
Example demo_in_cycle : forall p, In p [0; 1] -> exists q, In q [0; 1] /\ In q (direct_names (cyc p)).
Proof. intros p [<-|[<-|[]]]; [exists 1|exists 0]; cbn; auto. Qed.
End Demo.

Print Assumptions resolver_safe.
Print Assumptions resolver_complete.
Print Assumptions resolver_order.
Print Assumptions resolver_progress.
Print Assumptions resolver_ends.
Print Assumptions resolver_resolves_all.
Print Assumptions resolver_cycle_found.
Print Assumptions resolver_no_false_cycle.
