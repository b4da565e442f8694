(** The requests of a session: what is done, and what is replied, while at most
    one job is running.

    Code: src/app/qbs/session.cpp 128-870, with
    src/lib/corelib/api/jobs.cpp 92-270 for cancelling jobs and for what a
    finished job does to the old project, and
    src/lib/corelib/api/projectdata.cpp 233-245, 809-824, 962-974 for comparing
    project data.

    The calls of the API that change project files are functions of a world that
    is not looked into. Not modelled: the messages that are not replies
    (progress, log data, results of processes), the texts of errors, the options
    of jobs, the server for editors. *)

From Coq Require Import List Bool Arith NArith.
Import ListNotations.

(** The data of a project that the client sees; names and files are numbers. *)
Record group := Group { g_name : N; g_prefix : N; g_files : list N }.
Record product := Product { p_name : N; p_enabled : bool; p_groups : list group }.
Inductive project := Tree (products : list product) (subs : list project).

Definition list_eqb {X : Type} (eqb : X -> X -> bool) : list X -> list X -> bool :=
  fix go (a b : list X) : bool :=
    match a, b with
    | [], [] => true
    | x :: a, y :: b => eqb x y && go a b
    | _, _ => false
    end.

(** projectdata.cpp 233-245: the prefix is not compared. *)
Definition same_group (a b : group) : bool :=
  N.eqb (g_name a) (g_name b) && list_eqb N.eqb (g_files a) (g_files b).

(** projectdata.cpp 809-824 *)
Definition same_product (a b : product) : bool :=
  N.eqb (p_name a) (p_name b) && list_eqb same_group (p_groups a) (p_groups b)
  && Bool.eqb (p_enabled a) (p_enabled b).

(** projectdata.cpp 962-974 *)
Fixpoint same_project (a b : project) : bool :=
  match a, b with
  | Tree p s, Tree q t => list_eqb same_project s t && list_eqb same_product p q
  end.

(** Data that is not valid is only equal to such data. *)
Definition same_data (a b : option project) : bool :=
  match a, b with
  | None, None => true
  | Some a, Some b => same_project a b
  | _, _ => false
  end.

Inductive kind :=
| ResolveProject | BuildProject | CleanProject | InstallProject
| AddFiles | RemoveFiles | RenameFiles | AddDependencies
| GetRunEnvironment | GetGeneratedFiles
| ReleaseProject | Quit | CancelJob | OtherType.

Inductive reply_type :=
| ProjectResolved | ProjectBuilt | ProjectCleaned | InstallDone
| FilesAdded | FilesRemoved | FilesRenamed | DependenciesAdded
| RunEnvironment | GeneratedFiles | ProjectReleased | ProtocolError.

(** session.cpp 135, 265-273 *)
Inductive mode := Never | Always | OnlyIfChanged.

(** The property products of a request. *)
Inductive selection := Unset | All | Names (l : list N).

Record request := Request {
  r_kind : kind;
  r_mode : mode;
  r_properties : list N;       (* module-properties *)
  r_products : selection;
  r_product : N;
  r_group : N;
  r_files : list (N * N)       (* files or dependencies; with the new names *)
}.

Record reply := Reply {
  a_type : reply_type;
  a_error : bool;                              (* has the property error *)
  a_data : option (option project * list N);   (* project-data, for which module properties *)
  a_failed : list N                            (* failed-files *)
}.

(** What a job works on. *)
Inductive work := SomeProducts (l : list product) | DefaultProducts | AllProducts.

Inductive job_kind := SetupJob | BuildJob | CleanJob | InstallJob.

Record job := Job { j_kind : job_kind; j_mode : mode; j_work : work; j_canceling : bool }.

(** What comes in: a request, or the end of the current job, with the project it
    has made (for setup jobs) or the new data of the project, if it has changed (for
    build jobs),
    and whether the existing project has been invalidated though the job failed. *)
Inductive input :=
| Incoming (r : request)
| Finished (success : bool) (after : option project) (lost : bool).

Section Session.

Variable world : Type.
(** Project::addFiles, removeFiles and addDependencies, for a product, a group
    and a file (or dependencies): the new world, and whether it worked. *)
Variable add_file remove_file : world -> N -> N -> N -> world * bool.
Variable add_dependencies : world -> N -> N -> list N -> world * bool.
(** RunEnvironment::runEnvironment, without error. *)
Variable run_environment : world -> N -> bool.

Record state := State {
  s_world : world;
  s_project : option project;     (* m_project, if it is valid *)
  s_data : option project;        (* m_projectData *)
  s_properties : list N;          (* m_moduleProperties *)
  s_job : option job;             (* m_currentJob *)
  s_waiting : option request;     (* m_resolveRequest *)
  s_quit : bool                   (* disconnected from its input *)
}.

Definition start (w : world) : state := State w None None [] None None false.

Definition set_job (s : state) (j : option job) : state :=
  State (s_world s) (s_project s) (s_data s) (s_properties s) j (s_waiting s) (s_quit s).
Definition set_waiting (s : state) (r : option request) : state :=
  State (s_world s) (s_project s) (s_data s) (s_properties s) (s_job s) r (s_quit s).
Definition set_properties (s : state) (l : list N) : state :=
  State (s_world s) (s_project s) (s_data s) l (s_job s) (s_waiting s) (s_quit s).
Definition set_projects (s : state) (p d : option project) : state :=
  State (s_world s) p d (s_properties s) (s_job s) (s_waiting s) (s_quit s).
Definition set_world (s : state) (w : world) : state :=
  State w (s_project s) (s_data s) (s_properties s) (s_job s) (s_waiting s) (s_quit s).

Definition error_reply (t : reply_type) : reply := Reply t true None [].

(** session.cpp 761-783: insertProjectDataIfNecessary. *)
Definition data_for (m : mode) (old : option project) (s : state) : option (option project * list N) :=
  let send :=
    match m with
    | Always => true
    | OnlyIfChanged => negb (same_data (s_data s) old)
    | Never => false
    end in
  if send then Some (s_data s, s_properties s) else None.

(** session.cpp 572-595: the products with the given names, and the names for
    which there was none so far. *)
Fixpoint remove_name (n : N) (names : list N) : option (list N) :=
  match names with
  | [] => None
  | m :: r => if N.eqb m n then Some r else option_map (cons m) (remove_name n r)
  end.

Fixpoint in_products (ps : list product) (names : list N) : list product * list N :=
  match names with
  | [] => ([], [])
  | _ :: _ =>
      match ps with
      | [] => ([], names)
      | p :: ps =>
          match remove_name (p_name p) names with
          | Some rest => let '(l, rest) := in_products ps rest in (p :: l, rest)
          | None => in_products ps names
          end
      end
  end.

Fixpoint in_project (t : project) (names : list N) : list product * list N :=
  match t with
  | Tree ps subs =>
      match names with
      | [] => ([], [])
      | _ :: _ =>
          let '(l, names) := in_products ps names in
          let '(k, names) :=
            (fix go (subs : list project) (names : list N) : list product * list N :=
               match subs with
               | [] => ([], names)
               | sub :: subs =>
                   match names with
                   | [] => ([], [])
                   | _ :: _ =>
                       let '(l, names) := in_project sub names in
                       let '(k, names) := go subs names in
                       (l ++ k, names)
                   end
               end) subs names in
          (l ++ k, names)
      end
  end.

(** session.cpp 597-601 *)
Definition products_by_name (s : state) (names : list N) : list product :=
  match s_data s with Some t => fst (in_project t names) | None => [] end.

(** session.cpp 603-607 *)
Definition product_by_name (s : state) (n : N) : option product :=
  match products_by_name s [n] with [] => None | p :: _ => Some p end.

(** session.cpp 713-722, with 341-343 and 409-411: what a build or install job
    works on. *)
Definition build_work (s : state) (r : request) : work :=
  match r_products r with
  | Names l => match products_by_name s l with [] => DefaultProducts | ps => SomeProducts ps end
  | All => AllProducts
  | Unset => DefaultProducts
  end.

(** session.cpp 387-389: the same for cleaning. *)
Definition clean_work (s : state) (r : request) : work :=
  match r_products r with
  | Names l => match products_by_name s l with [] => AllProducts | ps => SomeProducts ps end
  | _ => AllProducts
  end.

(** session.cpp 280-332, without the connected function. *)
Definition setup_project (s : state) (r : request) : state * list reply :=
  match s_job s with
  | Some j =>
      match j_kind j, j_canceling j with
      | SetupJob, true => (set_waiting s (Some r), [])
      | _, _ => (s, [error_reply ProjectResolved])
      end
  | None =>
      (set_job (set_properties s (r_properties r)) (Some (Job SetupJob (r_mode r) AllProducts false)), [])
  end.

(** session.cpp 798-809 *)
Definition not_ready (s : state) (t : reply_type) : option reply :=
  match s_job s, s_project s with
  | Some _, _ => Some (error_reply t)
  | None, None => Some (error_reply t)
  | None, Some _ => None
  end.

(** session.cpp 334-347 *)
Definition build_project (s : state) (r : request) : state * list reply :=
  match not_ready s ProjectBuilt with
  | Some a => (s, [a])
  | None =>
      (set_job (set_properties s (r_properties r)) (Some (Job BuildJob (r_mode r) (build_work s r) false)), [])
  end.

(** session.cpp 380-390 *)
Definition clean_project (s : state) (r : request) : state * list reply :=
  match not_ready s ProjectCleaned with
  | Some a => (s, [a])
  | None => (set_job s (Some (Job CleanJob Never (clean_work s r) false)), [])
  end.

(** session.cpp 402-412 *)
Definition install_project (s : state) (r : request) : state * list reply :=
  match not_ready s InstallDone with
  | Some a => (s, [a])
  | None => (set_job s (Some (Job InstallJob Never (build_work s r) false)), [])
  end.

(** session.cpp 724-759: whether prepareFileUpdate fails. *)
Definition update_fails (s : state) (r : request) : bool :=
  match s_job s, s_project s with
  | Some _, _ => true
  | None, None => true
  | None, Some _ =>
      match product_by_name s (r_product r) with
      | None => true
      | Some p => negb (existsb (fun g => N.eqb (g_name g) (r_group r)) (p_groups p))
      end
  end.

(** session.cpp 435-442 and others: one file after the other. [f] gives the new
    world and whether it worked. *)
Fixpoint each_file (f : world -> N * N -> world * bool) (w : world) (l : list (N * N)) : world * list N :=
  match l with
  | [] => (w, [])
  | x :: r =>
      let '(w, ok) := f w x in
      let '(w, failed) := each_file f w r in
      (w, if ok then failed else fst x :: failed)
  end.

(** session.cpp 424-457, 459-487, 489-526. *)
Definition update_files (t : reply_type) (f : N -> N -> world -> N * N -> world * bool)
  (s : state) (r : request) : state * list reply :=
  if update_fails s r then (s, [Reply t true None (List.map fst (r_files r))])
  else
    let '(w, failed) := each_file (f (r_product r) (r_group r)) (s_world s) (r_files r) in
    let s := set_world s w in
    (s, [Reply t (negb (length failed =? 0))
           (if length failed =? length (r_files r) then None else data_for Always None s) failed]).

(** session.cpp 501-518 *)
Definition rename_file (p g : N) (w : world) (x : N * N) : world * bool :=
  let '(w, ok) := remove_file w p g (fst x) in
  if ok then add_file w p g (snd x) else (w, false).

(** session.cpp 528-545: what addDependencies returns is not used. *)
Definition update_dependencies (s : state) (r : request) : state * list reply :=
  if update_fails s r then (s, [error_reply DependenciesAdded])
  else
    let '(w, _) := add_dependencies (s_world s) (r_product r) (r_group r) (List.map fst (r_files r)) in
    let s := set_world s w in
    (s, [Reply DependenciesAdded false (data_for Always None s) []]).

(** session.cpp 609-639 *)
Definition get_run_environment (s : state) (r : request) : reply :=
  match not_ready s RunEnvironment with
  | Some a => a
  | None =>
      match product_by_name s (r_product r) with
      | None => error_reply RunEnvironment
      | Some _ => Reply RunEnvironment (negb (run_environment (s_world s) (r_product r))) None []
      end
  end.

(** session.cpp 641-682, without its contents *)
Definition get_generated_files (s : state) : reply :=
  match not_ready s GeneratedFiles with
  | Some a => a
  | None => Reply GeneratedFiles false None []
  end.

(** session.cpp 684-702 *)
Definition release_project (s : state) : state * list reply :=
  match s_project s with
  | None => (s, [error_reply ProjectReleased])
  | Some _ =>
      (State (s_world s) None None (s_properties s) None None (s_quit s), [Reply ProjectReleased false None []])
  end.

(** session.cpp 704-711, with jobs.cpp 177-183 *)
Definition cancel_job (s : state) : state :=
  match s_job s with
  | None => s
  | Some j => set_waiting (set_job s (Some (Job (j_kind j) (j_mode j) (j_work j) true))) None
  end.

(** session.cpp 835-846 *)
Definition quit_session (s : state) : state :=
  State (s_world s) (s_project s) (s_data s) (s_properties s) None (s_waiting s) true.

(** session.cpp 229-262 *)
Definition handle_request (s : state) (r : request) : state * list reply :=
  match r_kind r with
  | ResolveProject => setup_project s r
  | BuildProject => build_project s r
  | CleanProject => clean_project s r
  | InstallProject => install_project s r
  | AddFiles => update_files FilesAdded (fun p g w x => add_file w p g (fst x)) s r
  | RemoveFiles => update_files FilesRemoved (fun p g w x => remove_file w p g (fst x)) s r
  | RenameFiles => update_files FilesRenamed rename_file s r
  | AddDependencies => update_dependencies s r
  | GetRunEnvironment => (s, [get_run_environment s r])
  | GetGeneratedFiles => (s, [get_generated_files s])
  | ReleaseProject => release_project s
  | Quit => (quit_session s, [])
  | CancelJob => (cancel_job s, [])
  | OtherType => (s, [error_reply ProtocolError])
  end.

(** The functions connected to the end of jobs: session.cpp 305-331, 364-377,
    391-399, 413-421. *)
Definition handle_finished (s : state) (success : bool) (after : option project) (lost : bool)
  : state * list reply :=
  match s_job s with
  | None => (s, [])
  | Some j =>
      match j_kind j with
      | SetupJob =>
          match s_waiting s with
          | Some r =>
              (* jobs.cpp 258-270 has run before *)
              let old := if success || lost then None else s_project s in
              setup_project (set_waiting (set_job (set_projects s old (s_data s)) None) None) r
          | None =>
              let n := set_job (set_projects s after after) None in
              (n, [Reply ProjectResolved (negb success)
                     (if success then data_for (j_mode j) (s_data s) n else None) []])
          end
      | BuildJob =>
          let p := match after with Some d => Some d | None => s_project s end in
          let n := set_job (set_projects s p p) None in
          (n, [Reply ProjectBuilt (negb success)
                 (if success then data_for (j_mode j) (s_data s) n else None) []])
      | CleanJob => (set_job s None, [Reply ProjectCleaned (negb success) None []])
      | InstallJob => (set_job s None, [Reply InstallDone (negb success) None []])
      end
  end.

Definition step (s : state) (i : input) : state * list reply :=
  if s_quit s then (s, [])
  else
    match i with
    | Incoming r => handle_request s r
    | Finished success after lost => handle_finished s success after lost
    end.

(** All inputs, each with what is replied to it. *)
Fixpoint run (s : state) (l : list input) : state * list (input * list reply) :=
  match l with
  | [] => (s, [])
  | i :: r =>
      let '(n, out) := step s i in
      let '(last, outs) := run n r in
      (last, (i, out) :: outs)
  end.

End Session.
