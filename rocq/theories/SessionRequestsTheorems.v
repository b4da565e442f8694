(** The requests of a session and their replies (C99 to C102). *)

From Coq Require Import List Bool Arith NArith Lia.
From Verif Require Import SessionRequestsModel.
Import ListNotations.

(** * Specification *)

(** The reply to each request, from the documentation of the JSON API. *)
Definition reply_to (k : kind) : option reply_type :=
  match k with
  | ResolveProject => Some ProjectResolved
  | BuildProject => Some ProjectBuilt
  | CleanProject => Some ProjectCleaned
  | InstallProject => Some InstallDone
  | AddFiles => Some FilesAdded
  | RemoveFiles => Some FilesRemoved
  | RenameFiles => Some FilesRenamed
  | AddDependencies => Some DependenciesAdded
  | GetRunEnvironment => Some RunEnvironment
  | GetGeneratedFiles => Some GeneratedFiles
  | ReleaseProject => Some ProjectReleased
  | OtherType => Some ProtocolError
  | Quit | CancelJob => None
  end.

(** Requests that are answered later. *)
Definition takes_time (k : kind) : Prop :=
  In k [ResolveProject; BuildProject; CleanProject; InstallProject].

(** A conversation with a client that keeps to the rules: while a request is not
    answered, it only sends requests to cancel or to quit. [pending]: the request
    that is not answered. *)
Fixpoint conversation (pending : option kind) (l : list (input * list reply)) : Prop :=
  match l with
  | [] => True
  | (Incoming r, out) :: rest =>
      match r_kind r with
      | CancelJob => out = [] /\ conversation pending rest
      | Quit => out = [] /\ forall x, In x rest -> snd x = []
      | k =>
          match pending with
          | Some _ => True (* against the rules *)
          | None =>
              (exists a, out = [a] /\ Some (a_type a) = reply_to k
                 /\ (takes_time k -> a_error a = true) /\ conversation None rest)
              \/ (out = [] /\ takes_time k /\ conversation (Some k) rest)
          end
      end
  | (Finished success _ _, out) :: rest =>
      match pending with
      | None => True (* there is no job *)
      | Some k =>
          exists a, out = [a] /\ Some (a_type a) = reply_to k /\ a_error a = negb success
            /\ conversation None rest
      end
  end.

(** How often there is a reply, or a request for it. *)
Definition reply_type_dec (a b : reply_type) : {a = b} + {a <> b}.
Proof. decide equality. Defined.
Arguments reply_type_dec : simpl never.

Definition replies (t : reply_type) (l : list (input * list reply)) : nat :=
  count_occ reply_type_dec (List.map a_type (flat_map snd l)) t.

Definition asks (t : reply_type) (i : input) : bool :=
  match i with
  | Incoming r =>
      match reply_to (r_kind r) with
      | Some u => if reply_type_dec u t then true else false
      | None => false
      end
  | _ => false
  end.

Definition requests (t : reply_type) (l : list input) : nat := length (filter (asks t) l).

(** All products of a project. *)
Fixpoint all_products (t : project) : list product :=
  match t with Tree ps subs => ps ++ flat_map all_products subs end.

(** The data without the prefixes of groups. *)
Definition product_without_prefixes (p : product) : product :=
  Product (p_name p) (p_enabled p) (List.map (fun g => Group (g_name g) 0 (g_files g)) (p_groups p)).
Fixpoint without_prefixes (t : project) : project :=
  match t with Tree p s => Tree (List.map product_without_prefixes p) (List.map without_prefixes s) end.

(** What a client knows: the last data it got, if any. *)
Fixpoint view (known : option (option project * list N)) (l : list (input * list reply))
  : option (option project * list N) :=
  match l with
  | [] => known
  | (_, out) :: rest =>
      view (fold_left (fun k a => match a_data a with Some d => Some d | None => k end) out known) rest
  end.

(** * Proofs *)

Section Proofs.

Variable world : Type.
Variable add_file remove_file : world -> N -> N -> N -> world * bool.
Variable add_dependencies : world -> N -> N -> list N -> world * bool.
Variable run_environment : world -> N -> bool.

Notation state := (state world).
Notation step := (step world add_file remove_file add_dependencies run_environment).
Notation run := (run world add_file remove_file add_dependencies run_environment).
Notation handle_request := (handle_request world add_file remove_file add_dependencies run_environment).

Lemma run_cons s i l : run s (i :: l) = (fst (run (fst (step s i)) l), (i, snd (step s i)) :: snd (run (fst (step s i)) l)).
Proof.
  cbn [SessionRequestsModel.run]. destruct (step s i) as [n out]. cbn [fst snd]. destruct (run n l) as [m outs]. reflexivity.
Qed.

Definition job_request (j : job) : kind :=
  match j_kind j with
  | SetupJob => ResolveProject
  | BuildJob => BuildProject
  | CleanJob => CleanProject
  | InstallJob => InstallProject
  end.

Definition fits (s : state) (pending : option kind) : Prop :=
  s_quit _ s = false /\ s_waiting _ s = None /\ option_map job_request (s_job _ s) = pending.

Lemma update_files_spec t f s r :
  s_job _ (fst (update_files world t f s r)) = s_job _ s
  /\ s_waiting _ (fst (update_files world t f s r)) = s_waiting _ s
  /\ s_quit _ (fst (update_files world t f s r)) = s_quit _ s
  /\ exists a, snd (update_files world t f s r) = [a] /\ a_type a = t.
Proof.
  unfold update_files. destruct (update_fails world s r); [simpl; eauto 10|].
  destruct (each_file world (f (r_product r) (r_group r)) (s_world world s) (r_files r)) as [w failed]. simpl. eauto 10.
Qed.

Lemma quiet_after_quit l : forall s, s_quit _ s = true -> forall x, In x (snd (run s l)) -> snd x = [].
Proof.
  induction l as [|i l IH]; intros s Q x; [intros []|].
  rewrite run_cons. assert (E : step s i = (s, [])) by (unfold SessionRequestsModel.step; rewrite Q; reflexivity).
  rewrite E. simpl. intros [<-|I1]; [reflexivity|]. eapply IH; eauto.
Qed.

(** C99. With a client that keeps to the rules, each request but those to cancel
    or to quit is answered exactly once, by a reply of its type; the reply for a
    job comes at its end and has an error if and only if it failed; a job is
    refused with an error at once otherwise. *)
Theorem session_conversation : forall w inputs, conversation None (snd (run (start world w) inputs)).
Proof.
  intros w inputs.
  assert (G : forall l s pending, fits s pending -> conversation pending (snd (run s l))).
  { induction l as [|i l IH]; intros s pending (Q & W & J); [exact Logic.I|].
    rewrite run_cons. cbn [snd]. unfold SessionRequestsModel.step. rewrite Q.
    destruct i as [r|success after lost].
    - unfold SessionRequestsModel.handle_request. cbn [conversation].
      destruct (r_kind r) eqn:K.
      + (* resolve *)
        destruct pending as [k|]; [exact Logic.I|]. destruct (s_job _ s) as [j|] eqn:Ej; [discriminate|].
        unfold setup_project. rewrite Ej. cbn [fst snd]. right. split; [reflexivity|]. split; [left; reflexivity|].
        apply IH. split; [exact Q|]. split; [exact W|]. reflexivity.
      + destruct pending as [k|]; [exact Logic.I|]. destruct (s_job _ s) as [j|] eqn:Ej; [discriminate|].
        unfold build_project, not_ready. rewrite Ej. destruct (s_project _ s) as [p|] eqn:P; cbn [fst snd].
        * right. split; [reflexivity|]. split; [right; left; reflexivity|].
          apply IH. split; [exact Q|]. split; [exact W|]. reflexivity.
        * left. eexists. split; [reflexivity|]. split; [reflexivity|]. split; [reflexivity|].
          apply IH. split; [exact Q|]. split; [exact W|]. rewrite Ej. reflexivity.
      + destruct pending as [k|]; [exact Logic.I|]. destruct (s_job _ s) as [j|] eqn:Ej; [discriminate|].
        unfold clean_project, not_ready. rewrite Ej. destruct (s_project _ s) as [p|] eqn:P; cbn [fst snd].
        * right. split; [reflexivity|]. split; [right; right; left; reflexivity|].
          apply IH. split; [exact Q|]. split; [exact W|]. reflexivity.
        * left. eexists. split; [reflexivity|]. split; [reflexivity|]. split; [reflexivity|].
          apply IH. split; [exact Q|]. split; [exact W|]. rewrite Ej. reflexivity.
      + destruct pending as [k|]; [exact Logic.I|]. destruct (s_job _ s) as [j|] eqn:Ej; [discriminate|].
        unfold install_project, not_ready. rewrite Ej. destruct (s_project _ s) as [p|] eqn:P; cbn [fst snd].
        * right. split; [reflexivity|]. split; [right; right; right; left; reflexivity|].
          apply IH. split; [exact Q|]. split; [exact W|]. reflexivity.
        * left. eexists. split; [reflexivity|]. split; [reflexivity|]. split; [reflexivity|].
          apply IH. split; [exact Q|]. split; [exact W|]. rewrite Ej. reflexivity.
      + destruct pending as [k|]; [exact Logic.I|]. left.
        destruct (update_files_spec FilesAdded (fun p g w x => add_file w p g (fst x)) s r) as (E1 & E2 & E3 & a & E4 & E5).
        exists a. split; [exact E4|]. split; [rewrite E5; reflexivity|]. split; [intros [X|[X|[X|[X|[]]]]]; discriminate|].
        apply IH. split; [congruence|]. split; [congruence|]. rewrite E1. exact J.
      + destruct pending as [k|]; [exact Logic.I|]. left.
        destruct (update_files_spec FilesRemoved (fun p g w x => remove_file w p g (fst x)) s r) as (E1 & E2 & E3 & a & E4 & E5).
        exists a. split; [exact E4|]. split; [rewrite E5; reflexivity|]. split; [intros [X|[X|[X|[X|[]]]]]; discriminate|].
        apply IH. split; [congruence|]. split; [congruence|]. rewrite E1. exact J.
      + destruct pending as [k|]; [exact Logic.I|]. left.
        destruct (update_files_spec FilesRenamed (rename_file world add_file remove_file) s r) as (E1 & E2 & E3 & a & E4 & E5).
        exists a. split; [exact E4|]. split; [rewrite E5; reflexivity|]. split; [intros [X|[X|[X|[X|[]]]]]; discriminate|].
        apply IH. split; [congruence|]. split; [congruence|]. rewrite E1. exact J.
      + destruct pending as [k|]; [exact Logic.I|]. left. unfold update_dependencies.
        destruct (update_fails world s r); [|destruct (add_dependencies (s_world world s) (r_product r) (r_group r) (map fst (r_files r))) as [w1 b]];
          cbn [fst snd]; (eexists; split; [reflexivity|]; split; [reflexivity|]; split; [intros [X|[X|[X|[X|[]]]]]; discriminate|];
            apply IH; split; [exact Q|]; split; [exact W|exact J]).
      + destruct pending as [k|]; [exact Logic.I|]. left. cbn [fst snd]. unfold get_run_environment, not_ready.
        destruct (s_job _ s) as [j|] eqn:Ej; [discriminate|].
        destruct (s_project _ s); [destruct (product_by_name world s (r_product r))|];
          (eexists; split; [reflexivity|]; split; [reflexivity|]; split; [intros [X|[X|[X|[X|[]]]]]; discriminate|];
            apply IH; split; [exact Q|]; split; [exact W|rewrite Ej; reflexivity]).
      + destruct pending as [k|]; [exact Logic.I|]. left. cbn [fst snd]. unfold get_generated_files, not_ready.
        destruct (s_job _ s) as [j|] eqn:Ej; [discriminate|].
        destruct (s_project _ s);
          (eexists; split; [reflexivity|]; split; [reflexivity|]; split; [intros [X|[X|[X|[X|[]]]]]; discriminate|];
            apply IH; split; [exact Q|]; split; [exact W|rewrite Ej; reflexivity]).
      + destruct pending as [k|]; [exact Logic.I|]. left. unfold release_project.
        destruct (s_project _ s); cbn [fst snd];
          (eexists; split; [reflexivity|]; split; [reflexivity|]; split; [intros [X|[X|[X|[X|[]]]]]; discriminate|];
            apply IH; split; [exact Q|]; split; [first [exact W|reflexivity]|first [exact J|reflexivity]]).
      + split; [reflexivity|]. apply quiet_after_quit. reflexivity.
      + split; [reflexivity|]. apply IH. cbn [fst]. unfold cancel_job. destruct (s_job _ s) as [j|] eqn:Ej.
        * split; [exact Q|]. split; [reflexivity|]. cbn. rewrite <- J. reflexivity.
        * split; [exact Q|]. split; [exact W|]. rewrite Ej. exact J.
      + destruct pending as [k|]; [exact Logic.I|]. left. cbn [fst snd].
        eexists. split; [reflexivity|]. split; [reflexivity|]. split; [intros [X|[X|[X|[X|[]]]]]; discriminate|].
        apply IH. split; [exact Q|]. split; [exact W|exact J].
    - cbn [conversation]. destruct pending as [k|]; [|exact Logic.I].
      destruct (s_job _ s) as [j|] eqn:Ej; [|discriminate]. simpl in J. injection J as J.
      unfold handle_finished. rewrite Ej, W. unfold job_request in J. destruct (j_kind j); subst k; cbn [fst snd];
        (eexists; split; [reflexivity|]; split; [reflexivity|]; split; [reflexivity|]; apply IH;
         split; [exact Q|]; split; [exact W|reflexivity]). }
  apply G. repeat split.
Qed.

(** With any client: there are never more replies of a type than requests for it,
    and none after a request to quit. *)
Definition open_for (t : reply_type) (s : state) : nat :=
  (match s_job _ s with
   | Some j => match reply_to (job_request j) with
               | Some u => if reply_type_dec u t then 1 else 0
               | None => 0
               end
   | None => 0
   end)
  + (match s_waiting _ s with Some _ => if reply_type_dec ProjectResolved t then 1 else 0 | None => 0 end).

Definition count1 (t : reply_type) (l : list reply) : nat := count_occ reply_type_dec (List.map a_type l) t.

Lemma open_le_waiting t (s : state) : (match s_waiting _ s with Some _ => if reply_type_dec ProjectResolved t then 1 else 0 | None => 0 end) <= open_for t s.
Proof. unfold open_for. lia. Qed.

Lemma step_count t s i :
  count1 t (snd (step s i)) + open_for t (fst (step s i)) <= open_for t s + (if asks t i then 1 else 0).
Proof.
  unfold SessionRequestsModel.step. destruct (s_quit _ s); [simpl; lia|].
  destruct i as [r|success after lost].
  - unfold SessionRequestsModel.handle_request, asks. destruct (r_kind r); cbn [reply_to].
    + unfold setup_project. destruct (s_job _ s) as [j|] eqn:Ej.
      * destruct (j_kind j) eqn:Ek, (j_canceling j); unfold open_for, count1, job_request; cbn [fst snd s_job s_waiting set_waiting List.map a_type error_reply count_occ];
          rewrite ?Ej, ?Ek; cbn [reply_to]; destruct (reply_type_dec ProjectResolved t); destruct (s_waiting _ s);
          repeat (match goal with |- context [reply_type_dec ?a ?b] => destruct (reply_type_dec a b) end); lia.
      * unfold open_for, count1, job_request; cbn; rewrite Ej. destruct (reply_type_dec ProjectResolved t); destruct (s_waiting _ s); lia.
    + unfold build_project, not_ready. destruct (s_job _ s) as [j|] eqn:Ej; [|destruct (s_project _ s)];
        unfold open_for, count1; cbn; rewrite ?Ej; destruct (reply_type_dec ProjectBuilt t); lia.
    + unfold clean_project, not_ready. destruct (s_job _ s) as [j|] eqn:Ej; [|destruct (s_project _ s)];
        unfold open_for, count1; cbn; rewrite ?Ej; destruct (reply_type_dec ProjectCleaned t); lia.
    + unfold install_project, not_ready. destruct (s_job _ s) as [j|] eqn:Ej; [|destruct (s_project _ s)];
        unfold open_for, count1; cbn; rewrite ?Ej; destruct (reply_type_dec InstallDone t); lia.
    + destruct (update_files_spec FilesAdded (fun p g w x => add_file w p g (fst x)) s r) as (E1 & E2 & E3 & a & E4 & E5).
      unfold open_for, count1. rewrite E1, E2, E4. cbn. rewrite E5. destruct (reply_type_dec FilesAdded t); lia.
    + destruct (update_files_spec FilesRemoved (fun p g w x => remove_file w p g (fst x)) s r) as (E1 & E2 & E3 & a & E4 & E5).
      unfold open_for, count1. rewrite E1, E2, E4. cbn. rewrite E5. destruct (reply_type_dec FilesRemoved t); lia.
    + destruct (update_files_spec FilesRenamed (rename_file world add_file remove_file) s r) as (E1 & E2 & E3 & a & E4 & E5).
      unfold open_for, count1. rewrite E1, E2, E4. cbn. rewrite E5. destruct (reply_type_dec FilesRenamed t); lia.
    + unfold update_dependencies. destruct (update_fails world s r);
        [|destruct (add_dependencies (s_world world s) (r_product r) (r_group r) (map fst (r_files r))) as [w1 b]];
        unfold open_for, count1; cbn; destruct (reply_type_dec DependenciesAdded t); lia.
    + cbn [fst snd]. unfold get_run_environment, not_ready.
      destruct (s_job _ s); [|destruct (s_project _ s); [destruct (product_by_name world s (r_product r))|]];
        unfold count1; cbn; destruct (reply_type_dec RunEnvironment t); lia.
    + cbn [fst snd]. unfold get_generated_files, not_ready.
      destruct (s_job _ s); [|destruct (s_project _ s)];
        unfold count1; cbn; destruct (reply_type_dec GeneratedFiles t); lia.
    + unfold release_project. destruct (s_project _ s); unfold open_for, count1; cbn; destruct (reply_type_dec ProjectReleased t); lia.
    + unfold open_for, count1; cbn. lia.
    + unfold cancel_job. cbn [fst snd]. destruct (s_job _ s) as [j|] eqn:Ej; unfold open_for, count1; cbn; rewrite ?Ej; [|lia].
      unfold job_request. cbn. lia.
    + unfold count1; cbn; destruct (reply_type_dec ProtocolError t); lia.
  - unfold handle_finished, asks. destruct (s_job _ s) as [j|] eqn:Ej; [|cbn; lia].
    destruct (j_kind j) eqn:Ek.
    + destruct (s_waiting _ s) as [r|] eqn:Ew.
      * unfold setup_project. cbn [s_job set_waiting set_job]. unfold open_for, count1, job_request. cbn. rewrite Ej, Ew, Ek. cbn [reply_to].
        destruct (reply_type_dec ProjectResolved t); lia.
      * unfold open_for, count1, job_request. cbn. rewrite Ej, Ew, Ek. cbn [reply_to]. destruct (reply_type_dec ProjectResolved t); lia.
    + unfold open_for, count1, job_request. cbn. rewrite Ej, Ek. cbn [reply_to]. destruct (reply_type_dec ProjectBuilt t); lia.
    + unfold open_for, count1, job_request. cbn. rewrite Ej, Ek. cbn [reply_to]. destruct (reply_type_dec ProjectCleaned t); lia.
    + unfold open_for, count1, job_request. cbn. rewrite Ej, Ek. cbn [reply_to]. destruct (reply_type_dec InstallDone t); lia.
Qed.

Theorem session_no_extra_replies t : forall w inputs,
  replies t (snd (run (start world w) inputs)) <= requests t inputs.
Proof.
  intros w inputs.
  assert (G : forall l s, replies t (snd (run s l)) <= open_for t s + requests t l).
  { induction l as [|i l IH]; intro s; [unfold replies; simpl; lia|].
    rewrite run_cons. cbn [snd]. unfold replies. cbn [flat_map snd]. rewrite map_app, count_occ_app.
    pose proof (step_count t s i) as C. pose proof (IH (fst (step s i))) as I1. unfold replies, count1 in *.
    unfold requests in *. cbn [filter]. destruct (asks t i); cbn [length]; lia. }
  pose proof (G inputs (start world w)) as H. unfold open_for in H. simpl in H. exact H.
Qed.

(** Without a job, a request to resolve is always accepted, and the others if and
    only if there is a project. *)
Theorem job_accepted s r : s_quit _ s = false -> s_job _ s = None -> takes_time (r_kind r) ->
  let '(n, out) := step s (Incoming r) in
  (r_kind r = ResolveProject \/ s_project _ s <> None ->
     out = [] /\ exists j, s_job _ n = Some j /\ job_request j = r_kind r /\ j_canceling j = false
     /\ (In (r_kind r) [ResolveProject; BuildProject] -> j_mode j = r_mode r /\ s_properties _ n = r_properties r)
     /\ (r_kind r <> CleanProject -> r_kind r <> ResolveProject ->
           (r_products r = All -> j_work j = AllProducts) /\ (r_products r = Unset -> j_work j = DefaultProducts))
     /\ (r_kind r = CleanProject -> r_products r = All \/ r_products r = Unset -> j_work j = AllProducts))
  /\ (r_kind r <> ResolveProject -> s_project _ s = None -> n = s /\ exists a, out = [a] /\ a_error a = true).
Proof.
  intros Q J T. unfold SessionRequestsModel.step. rewrite Q. unfold SessionRequestsModel.handle_request.
  destruct T as [<-|[<-|[<-|[<-|[]]]]].
  - unfold setup_project. rewrite J. split; [|congruence]. intros _. split; [reflexivity|].
    eexists. split; [reflexivity|]. split; [reflexivity|]. split; [reflexivity|]. split; [split; reflexivity|].
    split; [congruence|discriminate].
  - unfold build_project, not_ready, build_work. rewrite J. destruct (s_project _ s) as [t|] eqn:P.
    + split; [|congruence]. intros _. split; [reflexivity|]. eexists. split; [reflexivity|]. split; [reflexivity|]. split; [reflexivity|].
      split; [split; reflexivity|]. split; [intros _ _; split; intros ->; reflexivity|discriminate].
    + split; [intros [X|X]; [discriminate|congruence]|]. intros _ _. split; [reflexivity|]. eexists. split; reflexivity.
  - unfold clean_project, not_ready, clean_work. rewrite J. destruct (s_project _ s) as [t|] eqn:P.
    + split; [|congruence]. intros _. split; [reflexivity|]. eexists. split; [reflexivity|]. split; [reflexivity|]. split; [reflexivity|].
      split; [intros [X|[X|[]]]; discriminate|]. split; [congruence|]. intros _ [-> | ->]; reflexivity.
    + split; [intros [X|X]; [discriminate|congruence]|]. intros _ _. split; [reflexivity|]. eexists. split; reflexivity.
  - unfold install_project, not_ready, build_work. rewrite J. destruct (s_project _ s) as [t|] eqn:P.
    + split; [|congruence]. intros _. split; [reflexivity|]. eexists. split; [reflexivity|]. split; [reflexivity|]. split; [reflexivity|].
      split; [intros [X|[X|[]]]; discriminate|]. split; [intros _ _; split; intros ->; reflexivity|discriminate].
    + split; [intros [X|X]; [discriminate|congruence]|]. intros _ _. split; [reflexivity|]. eexists. split; reflexivity.
Qed.

(** During a job, other requests are refused with an error and change nothing; only
    a job to resolve that is being cancelled lets a new request to resolve wait. *)
Theorem job_undisturbed s r j : s_quit _ s = false -> s_job _ s = Some j ->
  ~ In (r_kind r) [CancelJob; Quit; ReleaseProject] ->
  (r_kind r = ResolveProject -> j_kind j = SetupJob -> j_canceling j = false) ->
  fst (step s (Incoming r)) = s /\ exists a, snd (step s (Incoming r)) = [a] /\ a_error a = true /\ a_data a = None
    /\ (In (r_kind r) [AddFiles; RemoveFiles; RenameFiles] -> a_failed a = List.map fst (r_files r)).
Proof.
  intros Q J K W. unfold SessionRequestsModel.step. rewrite Q. unfold SessionRequestsModel.handle_request.
  destruct (r_kind r) eqn:E; try (exfalso; apply K; simpl; tauto);
    unfold setup_project, build_project, clean_project, install_project, update_files, update_dependencies, update_fails,
      get_run_environment, get_generated_files, not_ready; rewrite ?J.
  all: try (split; [reflexivity|]; eexists; split; [reflexivity|]; split; [reflexivity|]; split; [reflexivity|];
            first [intros _; reflexivity|intros [X|[X|[X|[]]]]; discriminate]).
  destruct (j_kind j) eqn:Ek; [rewrite (W eq_refl eq_refl)|..];
    (split; [reflexivity|]; eexists; split; [reflexivity|]; split; [reflexivity|]; split; [reflexivity|];
      intros [X|[X|[X|[]]]]; discriminate).
Qed.

(** Only requests to update files change project files. *)
Theorem only_updates_change_files s i :
  (forall r, i = Incoming r -> ~ In (r_kind r) [AddFiles; RemoveFiles; RenameFiles; AddDependencies]) ->
  s_world _ (fst (step s i)) = s_world _ s.
Proof.
  intro H. unfold SessionRequestsModel.step. destruct (s_quit _ s); [reflexivity|]. destruct i as [r|success after lost].
  - specialize (H r eq_refl). unfold SessionRequestsModel.handle_request.
    destruct (r_kind r) eqn:E; try (exfalso; apply H; simpl; tauto); try reflexivity.
    + unfold setup_project. destruct (s_job _ s) as [j|]; [destruct (j_kind j); [destruct (j_canceling j)|..]|]; reflexivity.
    + unfold build_project. destruct (not_ready world s ProjectBuilt); reflexivity.
    + unfold clean_project. destruct (not_ready world s ProjectCleaned); reflexivity.
    + unfold install_project. destruct (not_ready world s InstallDone); reflexivity.
    + unfold release_project. destruct (s_project _ s); reflexivity.
    + cbn [fst]. unfold cancel_job. destruct (s_job _ s); reflexivity.
  - unfold handle_finished. destruct (s_job _ s) as [j|]; [|reflexivity]. destruct (j_kind j); try reflexivity.
    destruct (s_waiting _ s); reflexivity.
Qed.

(** C100: updates of files. [lists]: what the project file lists. *)
Section Files.

Variable lists : world -> N -> N -> N -> Prop.

Hypothesis add_meaning : forall w p g x w' ok, add_file w p g x = (w', ok) -> forall p' g' y,
  lists w' p' g' y <-> lists w p' g' y \/ (ok = true /\ (p', g', y) = (p, g, x)).
Hypothesis remove_meaning : forall w p g x w' ok, remove_file w p g x = (w', ok) -> forall p' g' y,
  lists w' p' g' y <-> lists w p' g' y /\ ~ (ok = true /\ (p', g', y) = (p, g, x)).

(** The session is ready to update a group of a product. *)
Definition ready (s : state) (p g : N) : Prop :=
  s_quit _ s = false /\ s_job _ s = None /\ s_project _ s <> None
  /\ exists t q, s_data _ s = Some t /\ In q (all_products t) /\ p_name q = p
     /\ forall q', In q' (all_products t) -> p_name q' = p ->
        exists h, In h (p_groups q') /\ g_name h = g.

Lemma remove_name_some n names r : remove_name n names = Some r -> In n names /\ forall m, m <> n -> (In m r <-> In m names).
Proof.
  revert r. induction names as [|a names IH]; intros r H; simpl in H; [discriminate|].
  destruct (N.eqb_spec a n) as [->|NE].
  - injection H as <-. split; [left; reflexivity|]. intros m Nm. simpl. split; [auto|intros [E|E]; [congruence|exact E]].
  - destruct (remove_name n names) as [r'|] eqn:E; [|discriminate]. simpl in H. injection H as <-.
    destruct (IH r' eq_refl) as [I1 I2]. split; [right; exact I1|]. intros m Nm. simpl. rewrite (I2 m Nm). reflexivity.
Qed.

Lemma remove_name_none n names : remove_name n names = None -> ~ In n names.
Proof.
  induction names as [|a names IH]; simpl; [tauto|]. destruct (N.eqb_spec a n) as [->|NE]; [discriminate|].
  destruct (remove_name n names); [discriminate|]. intros _ [E|E]; [congruence|]. exact (IH eq_refl E).
Qed.

Lemma in_products_nil ps : in_products ps [] = ([], []).
Proof. destruct ps; reflexivity. Qed.

Lemma in_products_app a b : forall names,
  in_products (a ++ b) names =
  (fst (in_products a names) ++ fst (in_products b (snd (in_products a names))), snd (in_products b (snd (in_products a names)))).
Proof.
  induction a as [|p a IH]; intros [|n names].
  - simpl. rewrite in_products_nil. reflexivity.
  - simpl app. cbn [in_products fst snd]. destruct (in_products b (n :: names)); reflexivity.
  - rewrite !in_products_nil. reflexivity.
  - cbn [app in_products]. destruct (remove_name (p_name p) (n :: names)) as [rest|].
    + rewrite IH. destruct (in_products a rest) as [l rest']. cbn [fst snd]. reflexivity.
    + rewrite IH. reflexivity.
Qed.

Fixpoint project_size (t : project) : nat :=
  match t with Tree _ subs => S (fold_right (fun s n => project_size s + n) 0 subs) end.

Lemma in_project_flat : forall n t, project_size t <= n -> forall names, in_project t names = in_products (all_products t) names.
Proof.
  induction n as [|n IH]; intros [ps subs] L names; simpl in L; [lia|].
  cbn [in_project all_products]. destruct names as [|m names]; [rewrite in_products_nil; reflexivity|].
  rewrite in_products_app. destruct (in_products ps (m :: names)) as [l rest]. cbn [fst snd].
  assert (G : forall subs names, fold_right (fun s n => project_size s + n) 0 subs <= n ->
    (fix go (subs : list project) (names : list N) : list product * list N :=
       match subs with
       | [] => ([], names)
       | sub :: subs =>
           match names with
           | [] => ([], [])
           | _ :: _ =>
               let '(l, names) := in_project sub names in
               let '(k, names) := go subs names in
               (l ++ k, names)
           end
       end) subs names = in_products (flat_map all_products subs) names).
  { clear - IH. induction subs as [|sub subs IHs]; intros names L; simpl in L.
    - destruct names; reflexivity.
    - destruct names as [|a names]; [rewrite in_products_nil; reflexivity|]. cbn [flat_map].
      rewrite in_products_app, IH by lia. destruct (in_products (all_products sub) (a :: names)) as [l1 r1].
      rewrite IHs by lia. cbn [fst snd]. destruct (in_products (flat_map all_products subs) r1). reflexivity. }
  rewrite G by lia. destruct (in_products (flat_map all_products subs) rest). reflexivity.
Qed.

Lemma in_products_sound ps : forall names p, In p (fst (in_products ps names)) -> In p ps /\ In (p_name p) names.
Proof.
  induction ps as [|q ps IH]; intros names p H.
  - destruct names; destruct H.
  - destruct names as [|n names]; [destruct H|]. cbn [in_products] in H.
    destruct (remove_name (p_name q) (n :: names)) as [rest|] eqn:E.
    + destruct (remove_name_some _ _ _ E) as [I1 I2]. specialize (IH rest p). destruct (in_products ps rest) as [l r]. cbn [fst] in *.
      destruct H as [<-|H]; [split; [left; reflexivity|exact I1]|]. destruct (IH H) as [A B]. split; [right; exact A|].
      destruct (N.eq_dec (p_name p) (p_name q)) as [->|NE]; [exact I1|]. apply I2; assumption.
    + destruct (IH _ _ H) as [A B]. split; [right; exact A|exact B].
Qed.

Lemma in_products_complete ps : NoDup (List.map p_name ps) -> forall names p,
  In p ps -> In (p_name p) names -> In p (fst (in_products ps names)).
Proof.
  induction ps as [|q ps IH]; intros ND names p I1 I2; [destruct I1|].
  inversion ND as [|? ? A1 A2]; subst. destruct names as [|n names]; [destruct I2|]. cbn [in_products].
  destruct (remove_name (p_name q) (n :: names)) as [rest|] eqn:E.
  - destruct (remove_name_some _ _ _ E) as [J1 J2]. pose proof (IH A2 rest p) as IHr.
    destruct (in_products ps rest) as [l r]. cbn [fst] in *. destruct I1 as [->|I1]; [left; reflexivity|]. right. apply IHr; [exact I1|].
    apply J2; [|exact I2]. intro X. apply A1. rewrite <- X. apply in_map. exact I1.
  - apply remove_name_none in E. destruct I1 as [->|I1]; [contradiction|]. apply IH; assumption.
Qed.

Lemma first_by_name ps n q : In q ps -> p_name q = n ->
  exists q', fst (in_products ps [n]) = [q'] /\ In q' ps /\ p_name q' = n.
Proof.
  induction ps as [|a ps IH]; intros I1 E; [destruct I1|]. cbn [in_products remove_name].
  destruct (N.eqb_spec n (p_name a)) as [X|X].
  - rewrite in_products_nil. cbn [fst]. exists a. split; [reflexivity|]. split; [left; reflexivity|auto].
  - cbn [option_map]. destruct I1 as [->|I1]; [congruence|]. destruct (IH I1 E) as (q' & A & B & C). exists q'. split; [exact A|]. split; [right; exact B|exact C].
Qed.

Lemma ready_updates s r : ready s (r_product r) (r_group r) -> update_fails world s r = false.
Proof.
  intros (_ & J & P & t & q & D & I1 & E & G). unfold update_fails. rewrite J.
  destruct (s_project _ s); [|congruence]. unfold product_by_name, products_by_name. rewrite D.
  rewrite (in_project_flat _ t (Nat.le_refl _)).
  destruct (first_by_name (all_products t) (r_product r) q I1 E) as (q' & A & B & C). rewrite A.
  apply negb_false_iff. apply existsb_exists. destruct (G q' B C) as (h & H1 & H2). exists h. split; [exact H1|].
  apply N.eqb_eq. exact H2.
Qed.

Lemma each_file_sub f l : forall w x, In x (snd (each_file world f w l)) -> In x (List.map fst l).
Proof.
  induction l as [|a l IH]; intros w x H; [destruct H|]. cbn [each_file] in H. destruct (f w a) as [w1 ok].
  pose proof (IH w1 x) as IHx. destruct (each_file world f w1 l) as [w2 failed]. cbn [snd] in *. simpl.
  destruct ok; [right; auto|]. destruct H as [H|H]; [left; exact H|right; auto].
Qed.

(** Adding files: afterwards a group lists what it has listed before and those of
    the files that are not reported as failed. There is an error if and only if
    some have failed, and new data if and only if not all have. *)
Theorem add_files_exact s r :
  ready s (r_product r) (r_group r) -> r_kind r = AddFiles -> NoDup (List.map fst (r_files r)) ->
  exists a, snd (step s (Incoming r)) = [a]
    /\ a_error a = negb (length (a_failed a) =? 0)
    /\ (forall x, In x (a_failed a) -> In x (List.map fst (r_files r)))
    /\ (a_data a <> None <-> exists x, In x (List.map fst (r_files r)) /\ ~ In x (a_failed a))
    /\ forall p g y, lists (s_world _ (fst (step s (Incoming r)))) p g y <->
         lists (s_world _ s) p g y
         \/ (p = r_product r /\ g = r_group r /\ In y (List.map fst (r_files r)) /\ ~ In y (a_failed a)).
Proof.
  intros R K ND. pose proof (ready_updates s r R) as U. destruct R as (Q & _).
  unfold SessionRequestsModel.step. rewrite Q. unfold SessionRequestsModel.handle_request. rewrite K.
  unfold update_files. rewrite U.
  pose proof (each_file_sub (fun w x => add_file w (r_product r) (r_group r) (fst x)) (r_files r) (s_world _ s)) as SUB.
  assert (M : forall l w, NoDup (List.map fst l) -> forall p g y,
    lists (fst (each_file world (fun w x => add_file w (r_product r) (r_group r) (fst x)) w l)) p g y <->
      lists w p g y \/ (p = r_product r /\ g = r_group r /\ In y (List.map fst l)
                       /\ ~ In y (snd (each_file world (fun w x => add_file w (r_product r) (r_group r) (fst x)) w l)))).
  { induction l as [|x l IH]; intros w N1 p g y; [simpl; tauto|].
    cbn [List.map] in N1. inversion N1 as [|? ? A1 A2]; subst.
    pose proof (each_file_sub (fun w x => add_file w (r_product r) (r_group r) (fst x)) l) as SUB'.
    cbn [each_file]. destruct (add_file w (r_product r) (r_group r) (fst x)) as [w1 ok] eqn:E.
    pose proof (add_meaning _ _ _ _ _ _ E p g y) as ME. specialize (IH w1 A2 p g y). specialize (SUB' w1).
    destruct (each_file world (fun w x => add_file w (r_product r) (r_group r) (fst x)) w1 l) as [w2 failed].
    cbn [fst snd] in *. rewrite IH, ME. simpl. destruct ok.
    - split.
      + intros [[H|(_ & H)]|(-> & -> & H1 & H2)]; [auto| |right; repeat split; auto].
        injection H as -> -> ->. right. repeat split; auto.
      + intros [H|(-> & -> & [<-|H1] & H2)]; [auto|left; right; auto|right; repeat split; auto].
    - split.
      + intros [[H|(H & _)]|(-> & -> & H1 & H2)]; [auto|discriminate|]. right. repeat split; auto.
        intros [X|X]; [|contradiction]. subst y. contradiction.
      + intros [H|(-> & -> & [<-|H1] & H2)]; [auto| |right; repeat split; auto; intro X; apply H2; right; exact X]. exfalso. apply H2. left. reflexivity. }
  specialize (M (r_files r) (s_world _ s) ND).
  assert (CNT : forall l w, NoDup (List.map fst l) -> 
     let failed := snd (each_file world (fun w x => add_file w (r_product r) (r_group r) (fst x)) w l) in
     length failed <= length l /\ (length failed <> length l <-> exists x, In x (List.map fst l) /\ ~ In x failed)).
  { induction l as [|x l IH]; intros w N1; [simpl; split; [lia|split; [lia|intros (x & [] & _)]]|].
    cbn [List.map] in N1. inversion N1 as [|? ? A1 A2]; subst.
    pose proof (each_file_sub (fun w x => add_file w (r_product r) (r_group r) (fst x)) l) as SUB'.
    cbn [each_file]. destruct (add_file w (r_product r) (r_group r) (fst x)) as [w1 ok].
    specialize (IH w1 A2). specialize (SUB' w1).
    destruct (each_file world (fun w x => add_file w (r_product r) (r_group r) (fst x)) w1 l) as [w2 failed]. cbn [fst snd] in *.
    destruct IH as [I1 I2]. destruct ok; cbn [length List.map].
    - split; [lia|]. split; [|lia]. intros _. exists (fst x). split; [left; reflexivity|]. intro X. apply A1. apply SUB'. exact X.
    - split; [lia|]. split.
      + intro H. destruct (proj1 I2) as (y & Y1 & Y2); [lia|]. exists y. split; [right; exact Y1|]. intros [X|X]; [|contradiction]. subst y. contradiction.
      + intros (y & [<-|Y1] & Y2); [exfalso; apply Y2; left; reflexivity|].
        assert (length failed <> length l) by (apply I2; exists y; split; [exact Y1|]; intro X; apply Y2; right; exact X). lia. }
  specialize (CNT (r_files r) (s_world _ s) ND).
  destruct (each_file world (fun w x => add_file w (r_product r) (r_group r) (fst x)) (s_world _ s) (r_files r)) as [w failed].
  cbn [fst snd] in *. eexists. split; [reflexivity|]. cbn [a_error a_failed a_data]. split; [reflexivity|]. split; [exact SUB|].
  destruct CNT as [_ CNT]. split; [|exact M]. rewrite <- CNT.
  destruct (length failed =? length (r_files r)) eqn:E.
  - apply Nat.eqb_eq in E. split; [congruence|]. intro X. contradiction.
  - apply Nat.eqb_neq in E. cbn. split; [auto|discriminate].
Qed.

(** Removing files. *)
Theorem remove_files_exact s r :
  ready s (r_product r) (r_group r) -> r_kind r = RemoveFiles -> NoDup (List.map fst (r_files r)) ->
  exists a, snd (step s (Incoming r)) = [a]
    /\ a_error a = negb (length (a_failed a) =? 0)
    /\ (forall x, In x (a_failed a) -> In x (List.map fst (r_files r)))
    /\ forall p g y, lists (s_world _ (fst (step s (Incoming r)))) p g y <->
         lists (s_world _ s) p g y
         /\ ~ (p = r_product r /\ g = r_group r /\ In y (List.map fst (r_files r)) /\ ~ In y (a_failed a)).
Proof.
  intros R K ND. pose proof (ready_updates s r R) as U. destruct R as (Q & _).
  unfold SessionRequestsModel.step. rewrite Q. unfold SessionRequestsModel.handle_request. rewrite K.
  unfold update_files. rewrite U.
  pose proof (each_file_sub (fun w x => remove_file w (r_product r) (r_group r) (fst x)) (r_files r) (s_world _ s)) as SUB.
  assert (M : forall l w, NoDup (List.map fst l) -> forall p g y,
    lists (fst (each_file world (fun w x => remove_file w (r_product r) (r_group r) (fst x)) w l)) p g y <->
      lists w p g y /\ ~ (p = r_product r /\ g = r_group r /\ In y (List.map fst l)
                       /\ ~ In y (snd (each_file world (fun w x => remove_file w (r_product r) (r_group r) (fst x)) w l)))).
  { induction l as [|x l IH]; intros w N1 p g y; [simpl; tauto|].
    cbn [List.map] in N1. inversion N1 as [|? ? A1 A2]; subst.
    cbn [each_file]. destruct (remove_file w (r_product r) (r_group r) (fst x)) as [w1 ok] eqn:E.
    pose proof (remove_meaning _ _ _ _ _ _ E p g y) as ME. specialize (IH w1 A2 p g y).
    pose proof (each_file_sub (fun w x => remove_file w (r_product r) (r_group r) (fst x)) l w1) as SUB'.
    destruct (each_file world (fun w x => remove_file w (r_product r) (r_group r) (fst x)) w1 l) as [w2 failed].
    cbn [fst snd] in *. rewrite IH, ME. simpl. destruct ok.
    - split.
      + intros [[H1 H2] H3]. split; [exact H1|]. intros (-> & -> & [<-|I1] & I2); [apply H2; auto|]. apply H3. auto.
      + intros [H1 H2]. split; [split; [exact H1|]|].
        * intros (_ & X). injection X as -> -> ->. apply H2. repeat split; auto.
        * intros (-> & -> & I1 & I2). apply H2. repeat split; auto.
    - split.
      + intros [[H1 H2] H3]. split; [exact H1|]. intros (-> & -> & [<-|I1] & I2); [apply I2; left; reflexivity|]. apply H3.
        repeat split; auto. intro X. apply I2. right. exact X.
      + intros [H1 H2]. split; [split; [exact H1|intros [X _]; discriminate]|].
        intros (-> & -> & I1 & I2). apply H2. repeat split; auto. intros [X|X]; [|contradiction]. subst y. contradiction. }
  specialize (M (r_files r) (s_world _ s) ND).
  destruct (each_file world (fun w x => remove_file w (r_product r) (r_group r) (fst x)) (s_world _ s) (r_files r)) as [w failed].
  cbn [fst snd] in *. eexists. split; [reflexivity|]. cbn [a_error a_failed]. split; [reflexivity|]. split; [exact SUB|exact M].
Qed.

(** Renaming one file, if it is not reported as failed. *)
Theorem rename_file_partial s r old new :
  ready s (r_product r) (r_group r) -> r_kind r = RenameFiles -> r_files r = [(old, new)] -> old <> new ->
  exists a, snd (step s (Incoming r)) = [a]
    /\ a_error a = negb (length (a_failed a) =? 0)
    /\ (a_failed a = [] -> forall p g y, lists (s_world _ (fst (step s (Incoming r)))) p g y <->
          (lists (s_world _ s) p g y /\ (p, g, y) <> (r_product r, r_group r, old))
          \/ (p, g, y) = (r_product r, r_group r, new))
    /\ (a_failed a <> [] -> forall p g y, (p, g, y) <> (r_product r, r_group r, old) ->
          (lists (s_world _ (fst (step s (Incoming r)))) p g y <-> lists (s_world _ s) p g y)).
Proof.
  intros R K F NE. pose proof (ready_updates s r R) as U. destruct R as (Q & _).
  unfold SessionRequestsModel.step. rewrite Q. unfold SessionRequestsModel.handle_request. rewrite K.
  unfold update_files. rewrite U, F. cbn [each_file]. unfold rename_file. cbn [fst snd].
  destruct (remove_file (s_world _ s) (r_product r) (r_group r) old) as [w1 ok1] eqn:E1.
  pose proof (remove_meaning _ _ _ _ _ _ E1) as M1. destruct ok1.
  - destruct (add_file w1 (r_product r) (r_group r) new) as [w2 ok2] eqn:E2.
    pose proof (add_meaning _ _ _ _ _ _ E2) as M2.
    destruct ok2; cbn [fst snd]; (eexists; split; [reflexivity|]; cbn [a_error a_failed]; split; [reflexivity|]; split).
    + intros _ p g y. cbn [s_world set_world]. rewrite M2, M1. split.
      * intros [[H1 H2]|[_ H]]; [left; split; [exact H1|]; intro X; apply H2; auto|right; exact H].
      * intros [[H1 H2]|H]; [left; split; [exact H1|]; intros [_ X]; contradiction|right; auto].
    + intro X. congruence.
    + intro X. discriminate.
    + intros _ p g y NX. cbn [s_world set_world]. rewrite M2, M1. split.
      * intros [[H1 H2]|[X _]]; [exact H1|discriminate].
      * intro H. left. split; [exact H|]. intros [_ X]. contradiction.
  - cbn [fst snd]. eexists. split; [reflexivity|]. cbn [a_error a_failed]. split; [reflexivity|]. split; [intro X; discriminate|].
    intros _ p g y NX. cbn [s_world set_world]. rewrite M1. split; [tauto|]. intro H. split; [exact H|]. intros [X _]. discriminate.
Qed.

End Files.

(** The run environment of a product is given exactly if there is such a product
    and its environment can be made. *)
Theorem run_environment_reply s r t :
  s_quit _ s = false -> s_job _ s = None -> s_project _ s <> None -> s_data _ s = Some t ->
  r_kind r = GetRunEnvironment ->
  fst (step s (Incoming r)) = s /\ exists a, snd (step s (Incoming r)) = [a]
  /\ (a_error a = false <->
        (exists q, In q (all_products t) /\ p_name q = r_product r) /\ run_environment (s_world _ s) (r_product r) = true).
Proof.
  intros Q J P D K. unfold SessionRequestsModel.step. rewrite Q. unfold SessionRequestsModel.handle_request. rewrite K.
  split; [reflexivity|]. cbn [snd]. eexists. split; [reflexivity|].
  unfold get_run_environment, not_ready. rewrite J. destruct (s_project _ s); [|congruence].
  unfold product_by_name, products_by_name. rewrite D, (in_project_flat _ t (Nat.le_refl _)).
  destruct (fst (in_products (all_products t) [r_product r])) as [|q l] eqn:E.
  - split; [discriminate|]. intros [(q & I1 & I2) _]. destruct (first_by_name _ _ q I1 I2) as (q' & X & _). congruence.
  - assert (X : In q (all_products t) /\ In (p_name q) [r_product r]) by (apply in_products_sound; rewrite E; left; reflexivity).
    cbn [a_error]. rewrite negb_false_iff. split; [|tauto]. intro R. split; [|exact R]. exists q.
    split; [apply X|]. destruct X as [_ [X|[]]]. auto.
Qed.

(** C101: with names of which at least one is known, a job works on exactly the
    products with these names. *)
Theorem selection_partial s r names t :
  s_data _ s = Some t -> NoDup (List.map p_name (all_products t)) ->
  r_products r = Names names -> (exists p, In p (all_products t) /\ In (p_name p) names) ->
  s_quit _ s = false -> s_job _ s = None -> s_project _ s <> None ->
  In (r_kind r) [BuildProject; CleanProject; InstallProject] ->
  exists j l, s_job _ (fst (step s (Incoming r))) = Some j /\ j_work j = SomeProducts l
    /\ forall p, In p l <-> In p (all_products t) /\ In (p_name p) names.
Proof.
  intros D ND E (p0 & I1 & I2) Q J P K.
  unfold SessionRequestsModel.step. rewrite Q. unfold SessionRequestsModel.handle_request.
  assert (W : exists l, products_by_name world s names = l /\ l <> [] /\ forall p, In p l <-> In p (all_products t) /\ In (p_name p) names).
  { exists (products_by_name world s names). split; [reflexivity|]. unfold products_by_name. rewrite D.
    rewrite (in_project_flat _ t (Nat.le_refl _)).
    assert (X : forall p, In p (fst (in_products (all_products t) names)) <-> In p (all_products t) /\ In (p_name p) names).
    { intro p. split; [apply in_products_sound|]. intros [A B]. apply in_products_complete; assumption. }
    split; [|exact X]. intro Z. apply (proj2 (X p0)) in I1 || idtac. assert (Y : In p0 (fst (in_products (all_products t) names))) by (apply X; auto).
    rewrite Z in Y. destruct Y. }
  destruct W as (l & Wl & Wn & Wp). destruct l as [|q l]; [congruence|].
  destruct K as [<-|[<-|[<-|[]]]].
  - unfold build_project, not_ready, build_work. rewrite J. destruct (s_project _ s); [|congruence]. rewrite E, Wl.
    eexists. exists (q :: l). split; [reflexivity|]. split; [reflexivity|exact Wp].
  - unfold clean_project, not_ready, clean_work. rewrite J. destruct (s_project _ s); [|congruence]. rewrite E, Wl.
    eexists. exists (q :: l). split; [reflexivity|]. split; [reflexivity|exact Wp].
  - unfold install_project, not_ready, build_work. rewrite J. destruct (s_project _ s); [|congruence]. rewrite E, Wl.
    eexists. exists (q :: l). split; [reflexivity|]. split; [reflexivity|exact Wp].
Qed.

Lemma list_eqb_map {X Y : Type} (eqb : X -> X -> bool) (f : X -> Y) (l : list X) :
  (forall x, In x l -> forall y, eqb x y = true <-> f x = f y) ->
  forall k, list_eqb eqb l k = true <-> List.map f l = List.map f k.
Proof.
  induction l as [|x l IH]; intros H [|y k]; cbn [list_eqb List.map]; try (split; (reflexivity || discriminate)).
  rewrite andb_true_iff, (H x (or_introl eq_refl) y). rewrite IH by (intros z Iz; apply H; right; exact Iz).
  split; [intros [-> ->]; reflexivity|]. intro E. injection E as E1 E2. auto.
Qed.

(** Data that is equal for qbs is the same up to the prefixes of groups. *)
Theorem same_up_to_prefixes : forall a b, same_project a b = true <-> without_prefixes a = without_prefixes b.
Proof.
  fix IH 1. intros [p s] [q t]. cbn [same_project without_prefixes]. rewrite andb_true_iff.
  assert (E1 : list_eqb same_project s t = true <-> List.map without_prefixes s = List.map without_prefixes t).
  { clear p q. revert t. induction s as [|x s Is]; intros [|y t]; cbn [list_eqb List.map]; try (split; (reflexivity || discriminate)).
    rewrite andb_true_iff, (IH x y), (Is t). split; [intros [-> ->]; reflexivity|]. intro E. injection E as E1 E2. auto. }
  assert (E2 : list_eqb same_product p q = true <-> List.map product_without_prefixes p = List.map product_without_prefixes q).
  { apply list_eqb_map. intros x _ y. unfold same_product, product_without_prefixes.
    rewrite !andb_true_iff, N.eqb_eq, Bool.eqb_true_iff.
    rewrite (list_eqb_map same_group (fun g => Group (g_name g) 0 (g_files g))).
    - split; [intros [[-> ->] ->]; reflexivity|]. intro E. injection E as E1' E2' E3'. auto.
    - intros g _ h. unfold same_group. rewrite andb_true_iff, N.eqb_eq.
      rewrite (list_eqb_map N.eqb (fun n => n)) by (intros; apply N.eqb_eq). rewrite !map_id.
      split; [intros [-> ->]; reflexivity|]. intro E. injection E as E1' E2'. auto. }
  rewrite E1, E2. split; [intros [-> ->]; reflexivity|]. intro E. injection E as E3 E4. auto.
Qed.

(** C102. What the client knows is the data of the project, if each request asks
    for changed data and for the same properties, failed jobs do not change data,
    and no two data differ only in the prefixes of groups. *)
Theorem client_data_partial ps (D : project -> Prop) : forall w inputs,
  (forall r, In (Incoming r) inputs -> In (r_kind r) [ResolveProject; BuildProject] ->
     r_mode r <> Never /\ r_properties r = ps) ->
  (forall d lost, In (Finished false d lost) inputs -> d = None) ->
  (forall ok d lost, In (Finished ok (Some d) lost) inputs -> D d) ->
  (forall a b, D a -> D b -> without_prefixes a = without_prefixes b -> a = b) ->
  forall t, s_project _ (fst (run (start world w) inputs)) = Some t ->
    view None (snd (run (start world w) inputs)) = Some (Some t, ps).
Proof.
  intros w inputs HR HF HD HE.
  set (inv := fun (s : state) (v : option (option project * list N)) =>
    (forall t, s_project _ s = Some t -> s_data _ s = Some t)
    /\ (forall d, s_data _ s = Some d -> D d /\ v = Some (Some d, ps))
    /\ (s_data _ s <> None \/ s_job _ s <> None -> s_properties _ s = ps)
    /\ (forall j, s_job _ s = Some j -> In (j_kind j) [SetupJob; BuildJob] -> j_mode j <> Never)
    /\ (forall j, s_job _ s = Some j -> j_kind j = BuildJob -> s_project _ s <> None)
    /\ (forall r, s_waiting _ s = Some r -> r_mode r <> Never /\ r_properties r = ps)).
  assert (SEND : forall m (n : state) old v d, m <> Never -> s_data _ n = Some d -> s_properties _ n = ps -> D d ->
            (forall e, old = Some e -> D e /\ v = Some (Some e, ps)) ->
            match data_for world m old n with Some x => Some x | None => v end = Some (Some d, ps)).
  { intros m n old v d Hm Hd Hp HDd Ho. unfold data_for. rewrite Hd, Hp. destruct m; [congruence|reflexivity|].
    destruct (negb (same_data (Some d) old)) eqn:E; [reflexivity|].
    apply negb_false_iff in E. destruct old as [e|]; [|discriminate]. destruct (Ho e eq_refl) as [De ->].
    simpl in E. rewrite (HE d e HDd De (proj1 (same_up_to_prefixes d e) E)). reflexivity. }
  assert (G : forall l s v, (forall i, In i l -> In i inputs) -> inv s v ->
            inv (fst (run s l)) (view v (snd (run s l)))).
  { induction l as [|i l IH]; intros s v IN INV; [exact INV|].
    rewrite run_cons. cbn [fst snd view]. apply IH; [intros x Ix; apply IN; right; exact Ix|]. clear IH.
    assert (Ii : In i inputs) by (apply IN; left; reflexivity).
    destruct INV as (V1 & V2 & V3 & V4 & V5 & V6).
    unfold SessionRequestsModel.step. destruct (s_quit _ s) eqn:Q; [cbn; repeat split; auto; try (apply V2; assumption); try (apply V6; assumption)|].
    assert (SAME : inv s v) by (repeat split; auto; try (apply V2; assumption); try (apply V6; assumption)).
    destruct i as [r|success after lost].
    - unfold SessionRequestsModel.handle_request.
      (* replies without data *)
      assert (UPD : forall t f, inv (fst (update_files world t f s r))
               (fold_left (fun k a => match a_data a with Some d => Some d | None => k end) (snd (update_files world t f s r)) v)).
      { intros t0 f. unfold update_files. destruct (update_fails world s r) eqn:U; [exact SAME|].
        destruct (each_file world (f (r_product r) (r_group r)) (s_world world s) (r_files r)) as [w1 failed].
        cbn [fst snd fold_left a_data].
        assert (Z : forall o, (o = None \/ o = data_for world Always None (set_world world s w1)) -> match o with Some d => Some d | None => v end = v).
        { intros o [->| ->]; [reflexivity|]. unfold data_for. cbn [s_data set_world s_properties].
          unfold update_fails in U. destruct (s_job _ s); [discriminate|]. destruct (s_project _ s) as [t|] eqn:P; [|discriminate].
          pose proof (V1 t eq_refl) as Ed. rewrite Ed, V3 by (left; congruence). symmetry. apply V2. exact Ed. }
        rewrite Z by (destruct (length failed =? length (r_files r)); auto).
        repeat split; auto; try (apply V2; assumption); try (apply V6; assumption). }
      destruct (r_kind r) eqn:K.
      + destruct (HR r Ii) as [Hm Hp]; [rewrite K; left; reflexivity|].
        unfold setup_project. destruct (s_job _ s) as [j|] eqn:Ej.
        * destruct (j_kind j) eqn:Ek, (j_canceling j); cbn [fst snd fold_left a_data error_reply]; try exact SAME.
          unfold inv. cbn [s_project s_data s_properties s_job s_waiting set_waiting].
          rewrite Ej. split; [exact V1|]. split; [exact V2|]. split; [exact V3|]. split; [exact V4|]. split; [exact V5|].
          intros r0 E0. injection E0 as <-. auto.
        * cbn [fst snd fold_left]. unfold inv. cbn [s_project s_data s_properties s_job s_waiting set_job set_properties].
          repeat split; auto; try (apply V2; assumption); try (apply V6; assumption).
          -- intros j E0 _. injection E0 as <-. exact Hm.
          -- intros j E0 E1. injection E0 as <-. discriminate.
      + destruct (HR r Ii) as [Hm Hp]; [rewrite K; right; left; reflexivity|].
        unfold build_project, not_ready. destruct (s_job _ s) as [j|] eqn:Ej; [exact SAME|].
        destruct (s_project _ s) as [t|] eqn:P; [|exact SAME].
        cbn [fst snd fold_left]. unfold inv. cbn [s_project s_data s_properties s_job s_waiting set_job set_properties].
        repeat split; auto; try (apply V2; assumption); try (apply V6; assumption).
        * intros t0 E0. apply V1. congruence.
        * intros j E0 _. injection E0 as <-. exact Hm.
        * intros j E0 E1. congruence.
      + unfold clean_project, not_ready. destruct (s_job _ s) as [j|] eqn:Ej; [exact SAME|].
        destruct (s_project _ s) as [t|] eqn:P; [|exact SAME].
        cbn [fst snd fold_left]. unfold inv. cbn [s_project s_data s_properties s_job s_waiting set_job].
        repeat split; auto; try (apply V2; assumption); try (apply V6; assumption).
        * intros t0 E0. apply V1. congruence.
        * intros _. apply V3. left. rewrite (V1 t eq_refl). discriminate.
        * intros j E0 [E1|[E1|[]]]; injection E0 as <-; discriminate.
        * intros j E0 E1. injection E0 as <-. discriminate.
      + unfold install_project, not_ready. destruct (s_job _ s) as [j|] eqn:Ej; [exact SAME|].
        destruct (s_project _ s) as [t|] eqn:P; [|exact SAME].
        cbn [fst snd fold_left]. unfold inv. cbn [s_project s_data s_properties s_job s_waiting set_job].
        repeat split; auto; try (apply V2; assumption); try (apply V6; assumption).
        * intros t0 E0. apply V1. congruence.
        * intros _. apply V3. left. rewrite (V1 t eq_refl). discriminate.
        * intros j E0 [E1|[E1|[]]]; injection E0 as <-; discriminate.
        * intros j E0 E1. injection E0 as <-. discriminate.
      + apply UPD.
      + apply UPD.
      + apply UPD.
      + unfold update_dependencies. destruct (update_fails world s r) eqn:U; [exact SAME|].
        destruct (add_dependencies (s_world world s) (r_product r) (r_group r) (map fst (r_files r))) as [w1 b].
        cbn [fst snd fold_left a_data].
        assert (Z : match data_for world Always None (set_world world s w1) with Some d => Some d | None => v end = v).
        { unfold data_for. cbn [s_data set_world s_properties].
          unfold update_fails in U. destruct (s_job _ s); [discriminate|]. destruct (s_project _ s) as [t|] eqn:P; [|discriminate].
          pose proof (V1 t eq_refl) as Ed. rewrite Ed, V3 by (left; congruence). symmetry. apply V2. exact Ed. }
        rewrite Z. repeat split; auto; try (apply V2; assumption); try (apply V6; assumption).
      + cbn [fst snd fold_left]. unfold get_run_environment, not_ready.
        destruct (s_job _ s); [exact SAME|]. destruct (s_project _ s); [|exact SAME].
        destruct (product_by_name world s (r_product r)); exact SAME.
      + cbn [fst snd fold_left]. unfold get_generated_files, not_ready.
        destruct (s_job _ s); [exact SAME|]. destruct (s_project _ s); exact SAME.
      + unfold release_project. destruct (s_project _ s); [|exact SAME].
        cbn [fst snd fold_left a_data]. unfold inv. cbn. repeat split; try discriminate; try congruence.
        intros [X|X]; congruence.
      + cbn [fst snd fold_left]. unfold inv, quit_session. cbn.
        repeat split; auto; try (apply V2; assumption); try (apply V6; assumption); try discriminate.
        intros [X|X]; [apply V3; left; exact X|congruence].
      + cbn [fst snd fold_left]. unfold cancel_job. destruct (s_job _ s) as [j|] eqn:Ej; [|exact SAME].
        unfold inv. cbn. repeat split; auto; try (apply V2; assumption); try discriminate.
        * intros _. apply V3. right. congruence.
        * intros j0 E0 E1. injection E0 as <-. cbn in *. apply (V4 j); auto.
        * intros j0 E0 E1. injection E0 as <-. cbn in *. apply (V5 j); auto.
      + exact SAME.
    - unfold handle_finished. destruct (s_job _ s) as [j|] eqn:Ej; [|exact SAME].
      assert (PS : s_properties _ s = ps) by (apply V3; right; congruence).
      destruct (j_kind j) eqn:Ek.
      + destruct (s_waiting _ s) as [r|] eqn:Ew.
        * destruct (V6 r eq_refl) as [Hm Hp]. unfold setup_project. cbn [s_job set_waiting set_job].
          cbn [fst snd fold_left]. unfold inv. cbn.
          repeat split; auto; try (apply V2; assumption); try discriminate.
          -- intros t E0. apply V1. destruct (success || lost); [discriminate|exact E0].
          -- intros j0 E0 _. injection E0 as <-. exact Hm.
          -- intros j0 E0 E1. injection E0 as <-. discriminate.
        * cbn [fst snd fold_left a_data]. unfold inv. cbn [s_project s_data s_properties s_job s_waiting set_job set_projects].
          split; [auto|]. split.
          { intros d Ed. subst after. destruct success.
            - split; [eapply HD; exact Ii|]. eapply (SEND (j_mode j) (set_job world (set_projects world s (Some d) (Some d)) None)).
              + apply (V4 j eq_refl). rewrite Ek. left. reflexivity.
              + reflexivity.
              + exact PS.
              + eapply HD; exact Ii.
              + exact V2.
            - pose proof (HF _ _ Ii). discriminate. }
          split; [intros _; exact PS|]. split; [discriminate|]. split; [discriminate|]. rewrite Ew. discriminate.
      + cbn [fst snd fold_left a_data]. unfold inv. cbn [s_project s_data s_properties s_job s_waiting set_job set_projects].
        destruct (s_project _ s) as [t0|] eqn:P; [|exfalso; exact (V5 j eq_refl Ek eq_refl)].
        pose proof (V1 t0 eq_refl) as Ed0. destruct (V2 t0 Ed0) as [D0 Ev].
        set (p := match after with Some d => Some d | None => Some t0 end).
        assert (Dp : exists d, p = Some d /\ D d).
        { unfold p. destruct after as [d|]; [exists d; split; [reflexivity|]; eapply HD; exact Ii|exists t0; auto]. }
        destruct Dp as (d & Ep & Dd). rewrite Ep.
        split; [auto|]. split.
        { intros d' Ed'. injection Ed' as <-. split; [exact Dd|]. destruct success.
          - eapply (SEND (j_mode j) (set_job world (set_projects world s (Some d) (Some d)) None)).
            + apply (V4 j eq_refl). rewrite Ek. right. left. reflexivity.
            + reflexivity.
            + exact PS.
            + exact Dd.
            + exact V2.
          - pose proof (HF _ _ Ii) as X. unfold p in Ep. rewrite X in Ep. congruence. }
        split; [intros _; exact PS|]. split; [discriminate|]. split; [discriminate|]. exact V6.
      + cbn [fst snd fold_left a_data]. unfold inv. cbn. repeat split; auto; try (apply V2; assumption); try (apply V6; assumption); discriminate.
      + cbn [fst snd fold_left a_data]. unfold inv. cbn. repeat split; auto; try (apply V2; assumption); try (apply V6; assumption); discriminate. }
  intros t Et. destruct (G inputs (start world w) None) as (V1 & V2 & _); [auto| |].
  - unfold inv. cbn. repeat split; try discriminate. intros [X|X]; congruence.
  - apply V2. apply V1. exact Et.
Qed.

End Proofs.

(** * Concrete sessions and refutations *)

(** A world: the files that groups of products list. A file is not added twice and
    only removed if it is listed (project.cpp 454, 506). *)
Definition files := list (N * N * N).

Definition entry_eqb (a b : N * N * N) : bool :=
  (N.eqb (fst (fst a)) (fst (fst b)) && N.eqb (snd (fst a)) (snd (fst b)) && N.eqb (snd a) (snd b))%bool.

Definition add_entry (w : files) (p g x : N) : files * bool :=
  if existsb (entry_eqb (p, g, x)) w then (w, false) else ((p, g, x) :: w, true).

Definition remove_entry (w : files) (p g x : N) : files * bool :=
  if existsb (entry_eqb (p, g, x)) w then (filter (fun e => negb (entry_eqb (p, g, x) e)) w, true) else (w, false).

Definition no_dependency (w : files) (p g : N) (l : list N) : files * bool := (w, false).

Definition session := run files add_entry remove_entry no_dependency (fun _ _ => true).

Definition ask (k : kind) : request := Request k OnlyIfChanged [] Unset 0 0 [].
Definition resolve : input := Incoming (ask ResolveProject).
Definition build_all : input := Incoming (ask BuildProject).

Definition small (prefix : N) : project := Tree [Product 1 true [Group 1 prefix [1; 2]%N]] [].

(** C99, any client: a second request to resolve, sent while the first one is being
    cancelled, takes its place. Both end, but there is only one reply. *)
Theorem one_reply_each_refuted : exists inputs,
  requests ProjectResolved inputs = 2
  /\ replies ProjectResolved (snd (session (start files []) inputs)) = 1
  /\ s_job _ (fst (session (start files []) inputs)) = None
  /\ s_waiting _ (fst (session (start files []) inputs)) = None.
Proof.
  exists [resolve; Incoming (ask CancelJob); resolve; Finished false None false; Finished true (Some (small 0)) false].
  vm_compute. repeat split.
Qed.

(** A request to release the project during a job: the job is never answered. *)
Theorem released_job_refuted : exists inputs,
  requests ProjectBuilt inputs = 1
  /\ replies ProjectBuilt (snd (session (start files []) inputs)) = 0
  /\ s_job _ (fst (session (start files []) inputs)) = None.
Proof.
  exists [resolve; Finished true (Some (small 0)) false; build_all; Incoming (ask ReleaseProject)].
  vm_compute. repeat split.
Qed.

(** C100: the failure to add dependencies is not reported. *)
Theorem dependencies_error_refuted : exists s r a,
  r_kind r = AddDependencies
  /\ no_dependency (s_world _ s) (r_product r) (r_group r) (List.map fst (r_files r)) = (s_world _ s, false)
  /\ snd (step files add_entry remove_entry no_dependency (fun _ _ => true) s (Incoming r)) = [a]
  /\ a_error a = false.
Proof.
  exists (fst (session (start files []) [resolve; Finished true (Some (small 0)) false])).
  exists (Request AddDependencies Always [] Unset 1 1 [(7, 0)]%N). eexists.
  split; [reflexivity|]. split; [reflexivity|]. split; [vm_compute; reflexivity|reflexivity].
Qed.

(** A renaming that is reported as failed has removed the file. There is no new
    data in the reply. *)
Theorem rename_failed_refuted : exists s r a,
  r_kind r = RenameFiles
  /\ snd (step files add_entry remove_entry no_dependency (fun _ _ => true) s (Incoming r)) = [a]
  /\ a_error a = true /\ a_failed a = [1%N] /\ a_data a = None
  /\ In (1, 1, 1)%N (s_world _ s)
  /\ ~ In (1, 1, 1)%N (s_world _ (fst (step files add_entry remove_entry no_dependency (fun _ _ => true) s (Incoming r)))).
Proof.
  exists (fst (session (start files [(1, 1, 1); (1, 1, 2)]%N) [resolve; Finished true (Some (small 0)) false])).
  exists (Request RenameFiles Always [] Unset 1 1 [(1, 2)]%N). eexists.
  split; [reflexivity|]. split; [vm_compute; reflexivity|]. repeat split.
  - left. reflexivity.
  - vm_compute. intros [X|[]]. discriminate.
Qed.

(** C101: with names none of which is known, everything is built or cleaned; also
    with no names at all. *)
Theorem unknown_products_refuted : exists s r t,
  s_data _ s = Some t /\ r_products r = Names [5%N] /\ (forall p, In p (all_products t) -> p_name p <> 5%N)
  /\ (exists j, s_job _ (fst (step files add_entry remove_entry no_dependency (fun _ _ => true) s (Incoming r))) = Some j
       /\ j_kind j = CleanJob /\ j_work j = AllProducts).
Proof.
  exists (fst (session (start files []) [resolve; Finished true (Some (small 0)) false])).
  exists (Request CleanProject Never [] (Names [5%N]) 0 0 []). exists (small 0).
  split; [reflexivity|]. split; [reflexivity|]. split.
  - intros p [<-|[]]. discriminate.
  - eexists. vm_compute. repeat split.
Qed.

Theorem no_products_refuted : exists s r,
  r_products r = Names []
  /\ (exists j, s_job _ (fst (step files add_entry remove_entry no_dependency (fun _ _ => true) s (Incoming r))) = Some j
       /\ j_kind j = BuildJob /\ j_work j = DefaultProducts).
Proof.
  exists (fst (session (start files []) [resolve; Finished true (Some (small 0)) false])).
  exists (Request BuildProject Never [] (Names []) 0 0 []).
  split; [reflexivity|]. eexists. vm_compute. repeat split.
Qed.

(** C102: data changed by a build that failed is never sent, though the next build
    succeeds. *)
Theorem failed_build_data_refuted : exists inputs,
  let '(s, outs) := session (start files []) inputs in
  s_project _ s <> None /\ s_job _ s = None
  /\ (exists a, In (Finished true None false, [a]) outs /\ a_type a = ProjectBuilt /\ a_error a = false)
  /\ exists d, view None outs = Some (Some d, []) /\ s_project _ s <> Some d.
Proof.
  exists [resolve; Finished true (Some (small 0)) false; build_all; Finished false (Some (Tree [] [])) false;
          build_all; Finished true None false].
  vm_compute. split; [discriminate|]. split; [reflexivity|]. split.
  - eexists. split; [do 5 right; left; reflexivity|]. split; reflexivity.
  - eexists. split; [reflexivity|]. discriminate.
Qed.

(** Nor is data in which only the prefix of a group has changed. *)
Theorem prefix_data_refuted : exists inputs,
  let '(s, outs) := session (start files []) inputs in
  s_project _ s = Some (small 9) /\ view None outs = Some (Some (small 0), [])
  /\ forall d lost, ~ In (Finished false d lost) inputs.
Proof.
  exists [resolve; Finished true (Some (small 0)) false; resolve; Finished true (Some (small 9)) false].
  vm_compute. split; [reflexivity|]. split; [reflexivity|].
  intros d lost [X|[X|[X|[X|[]]]]]; discriminate.
Qed.

(** Nor are properties that only a later request asks for. *)
Theorem properties_data_refuted : exists inputs,
  let '(s, outs) := session (start files []) inputs in
  s_project _ s = Some (small 0) /\ s_properties _ s = [3%N] /\ view None outs = Some (Some (small 0), [])
  /\ forall d lost, ~ In (Finished false d lost) inputs.
Proof.
  exists [resolve; Finished true (Some (small 0)) false;
          Incoming (Request ResolveProject OnlyIfChanged [3%N] Unset 0 0 []); Finished true (Some (small 0)) false].
  vm_compute. split; [reflexivity|]. split; [reflexivity|]. split; [reflexivity|].
  intros d lost [X|[X|[X|[X|[]]]]]; discriminate.
Qed.

Module Demo.

(** A conversation: the project is resolved, built, a file is added, everything is
    cleaned. *)
Example a_session :
  let inputs := [Incoming (ask BuildProject); resolve; Finished true (Some (small 0)) false;
                 build_all; Incoming (ask CancelJob); Finished false None false;
                 Incoming (Request AddFiles Always [] Unset 1 1 [(3, 0); (4, 0); (1, 0)]%N);
                 Incoming (ask CleanProject); Finished true None false; Incoming (ask OtherType);
                 Incoming (ask Quit); resolve] in
  let '(s, outs) := session (start files [(1, 1, 1)]%N) inputs in
  List.map (fun x => List.map (fun a => (a_type a, a_error a, a_failed a)) (snd x)) outs
  = [[(ProjectBuilt, true, [])]; []; [(ProjectResolved, false, [])]; []; []; [(ProjectBuilt, true, [])];
     [(FilesAdded, true, [1%N])]; []; [(ProjectCleaned, false, [])]; [(ProtocolError, true, [])]; []; []]
  /\ s_world _ s = [(1, 1, 4); (1, 1, 3); (1, 1, 1)]%N.
Proof. vm_compute. split; reflexivity. Qed.

(** The hypotheses about adding and removing are those of the concrete world. *)
Lemma entry_eqb_spec a b : entry_eqb a b = true <-> a = b.
Proof.
  destruct a as [[a1 a2] a3], b as [[b1 b2] b3]. unfold entry_eqb. cbn. rewrite !andb_true_iff, !N.eqb_eq.
  split; [intros [[-> ->] ->]; reflexivity|]. intro H. injection H as -> -> ->. auto.
Qed.

Definition lists_entry (w : files) (p g x : N) : Prop := In (p, g, x) w.

Example add_entry_meaning : forall w p g x w' ok, add_entry w p g x = (w', ok) -> forall p' g' y,
  lists_entry w' p' g' y <-> lists_entry w p' g' y \/ (ok = true /\ (p', g', y) = (p, g, x)).
Proof.
  intros w p g x w' ok H p' g' y. unfold add_entry in H. unfold lists_entry.
  destruct (existsb (entry_eqb (p, g, x)) w) eqn:E; injection H as <- <-.
  - split; [auto|]. intros [A|[A _]]; [exact A|discriminate].
  - simpl. split; [intros [A|A]; [right; auto|left; exact A]|]. intros [A|[_ A]]; [right; exact A|left; auto].
Qed.

Example remove_entry_meaning : forall w p g x w' ok, remove_entry w p g x = (w', ok) -> forall p' g' y,
  lists_entry w' p' g' y <-> lists_entry w p' g' y /\ ~ (ok = true /\ (p', g', y) = (p, g, x)).
Proof.
  intros w p g x w' ok H p' g' y. unfold remove_entry in H. unfold lists_entry.
  destruct (existsb (entry_eqb (p, g, x)) w) eqn:E; injection H as <- <-.
  - rewrite filter_In, negb_true_iff. split.
    + intros [A B]. split; [exact A|]. intros [_ C]. apply entry_eqb_spec in C || idtac.
      assert (D : entry_eqb (p, g, x) (p', g', y) = true) by (apply entry_eqb_spec; symmetry; apply entry_eqb_spec; exact C).
      congruence.
    + intros [A B]. split; [exact A|]. destruct (entry_eqb (p, g, x) (p', g', y)) eqn:D; [|reflexivity].
      exfalso. apply B. split; [reflexivity|]. symmetry. apply entry_eqb_spec. exact D.
  - split; [|tauto]. intro A. split; [exact A|]. intros [C _]. discriminate.
Qed.

Definition after_resolving : state files :=
  fst (session (start files [(1, 1, 1); (1, 1, 2)]%N) [resolve; Finished true (Some (small 0)) false]).

Example is_ready : ready files after_resolving 1 1.
Proof.
  repeat split; try discriminate. exists (small 0), (Product 1 true [Group 1 0 [1; 2]%N]).
  split; [reflexivity|]. split; [left; reflexivity|]. split; [reflexivity|].
  intros q [<-|[]] _. exists (Group 1 0 [1; 2]%N). split; [left; reflexivity|reflexivity].
Qed.

Example one_is_renamed :
  let r := Request RenameFiles Always [] Unset 1 1 [(1, 8)]%N in
  let '(s, out) := step files add_entry remove_entry no_dependency (fun _ _ => true) after_resolving (Incoming r) in
  s_world _ s = [(1, 1, 8); (1, 1, 2)]%N /\ List.map a_failed out = [[]].
Proof. vm_compute. split; reflexivity. Qed.

(** Two of three products, one in a project within the project. *)
Example two_are_built :
  let t := Tree [Product 1 true []; Product 2 true []] [Tree [Product 3 true []] []] in
  let '(s, _) := session (start files []) [resolve; Finished true (Some t) false;
                   Incoming (Request BuildProject Never [] (Names [3; 1; 6]%N) 0 0 [])] in
  option_map j_work (s_job _ s) = Some (SomeProducts [Product 1 true []; Product 3 true []]).
Proof. vm_compute. reflexivity. Qed.

(** The client has the data of the project after it was changed by a build. *)
Example data_is_sent :
  let inputs := [resolve; Finished true (Some (small 0)) false; build_all; Finished true None false;
                 build_all; Finished true (Some (Tree [] [])) false; build_all; Finished false None false] in
  view None (snd (session (start files []) inputs)) = Some (Some (Tree [] []), [])
  /\ List.map (fun x => List.map (fun a => match a_data a with Some _ => true | None => false end) (snd x))
       (snd (session (start files []) inputs))
     = [[]; [true]; []; [false]; []; [true]; []; [false]]
  /\ (forall a b, In a [small 0; Tree [] []] -> In b [small 0; Tree [] []] -> without_prefixes a = without_prefixes b -> a = b).
Proof.
  split; [vm_compute; reflexivity|]. split; [vm_compute; reflexivity|].
  intros a b [<-|[<-|[]]] [<-|[<-|[]]] H; try reflexivity; discriminate.
Qed.

End Demo.

Print Assumptions session_conversation.
Print Assumptions session_no_extra_replies.
Print Assumptions job_accepted.
Print Assumptions job_undisturbed.
Print Assumptions only_updates_change_files.
Print Assumptions run_environment_reply.
Print Assumptions one_reply_each_refuted.
Print Assumptions released_job_refuted.
Print Assumptions add_files_exact.
Print Assumptions remove_files_exact.
Print Assumptions rename_file_partial.
Print Assumptions dependencies_error_refuted.
Print Assumptions rename_failed_refuted.
Print Assumptions selection_partial.
Print Assumptions unknown_products_refuted.
Print Assumptions no_products_refuted.
Print Assumptions same_up_to_prefixes.
Print Assumptions client_data_partial.
Print Assumptions failed_build_data_refuted.
Print Assumptions prefix_data_refuted.
Print Assumptions properties_data_refuted.
