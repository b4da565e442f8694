(** Model of the scheduling of products when a project is resolved (src/lib/corelib/loader/productsresolver.cpp), with as many threads as
    there are loader states, and of the part of the resolving of dependencies that it works together with (dependenciesresolver.cpp
    218-360, 622-660, 1156-1185; loaderutils.cpp 191-201, 822-838).

    The scheduler and the threads are one transition system: [step] is one step of the scheduler or of one job, [event] says which, and
    what is decided elsewhere.  A thread sets its flag (374-386) only while the scheduler waits, as both hold the same lock.  With one
    loader state, a job is run when it is started; that is one of the orders of steps here.

    Simplified: products and loader states are numbers.  What a product depends on is a tree, see [dep].  Cancelation, progress, timing,
    errors because of missed bulk dependencies (562-599) and what follows the scheduling (527-560) are left out. *)
From Coq Require Import List Bool Arith.
Import ListNotations.

(** A Depends item whose turn comes when the ones before it have been handled: for a product, for a module, or with productTypes.
    [inner] are those of the module that is loaded for it, [cands] the products that may match the types. *)
Inductive dep := Single (q : nat) (inner : list dep) | Plain (inner : list dep) | Bulk (cands : list dep).
Inductive deferral := Allowed | NotAllowed.
(** A job runs, has come to an end, or its flag is set. *)
Inductive phase := Runs (d : deferral) | Ended | Done.
Record job := { j_product : nat; j_state : nat; j_phase : phase }.
(** A queued product (92, 490-497): the number is that of unhandled products at this time, if the product is not to be deferred. *)
Record queued := { q_product : nat; q_state : option nat; q_count : option nat }.
(** What the scheduler does: 318-373, 234-253, 414-486; the end; a check that failed. *)
Inductive place := Scheduling | Waiting | Handling (direct : list (nat * nat * deferral)) | Finished | Failed.
Record state := {
  pc : place; max_jobs : nat; queue : list queued; running : list job;
  single : list (nat * list (nat * nat));  (* m_waitingForSingleDependency: for each dependency products with their loader states *)
  bulk : list (nat * nat); for_state : list (nat * list (nat * deferral)); available : list nat;
  to_handle : list nat; finished : list nat; failed : list nat; todo : nat -> list dep }.

Inductive event :=
| Job (p : nat) (use : bool) (picks : list bool)  (** a step of a job *)
| Error (p n : nat)                               (** an error in a job; so many Depends items are skipped, or all is given up *)
| Mark (p : nat)                                  (** the flag is set *)
| Handle (p : nat)                                (** the scheduler wakes up or goes on, with a finished job *)
| Sched (ok : bool)                               (** the next step of the scheduler; [ok]: a thread can be created *)
| Spurious.                                       (** the scheduler wakes up without a finished job *)

Definition mem (x : nat) (l : list nat) : bool := existsb (Nat.eqb x) l.
Definition drop (x : nat) (l : list nat) : list nat := filter (fun y => negb (Nat.eqb x y)) l.
Definition set {A} (f : nat -> A) (p : nat) (v : A) : nat -> A := fun x => if Nat.eqb x p then v else f x.
Definition find_job (p : nat) (l : list job) : option job := find (fun j => Nat.eqb (j_product j) p) l.
Definition set_phase (p : nat) (ph : phase) (l : list job) : list job :=
  map (fun j => if Nat.eqb (j_product j) p then {| j_product := p; j_state := j_state j; j_phase := ph |} else j) l.
Definition drop_job (p : nat) (l : list job) : list job := filter (fun j => negb (Nat.eqb (j_product j) p)) l.
(** The entry of a map from numbers to lists. *)
Fixpoint entry {A} (k : nat) (m : list (nat * list A)) : list A :=
  match m with [] => [] | (k', l) :: m => if Nat.eqb k k' then l else entry k m end.
Fixpoint put {A} (k : nat) (l : list A) (m : list (nat * list A)) : list (nat * list A) :=
  match m with [] => [(k, l)] | (k', l') :: m => if Nat.eqb k k' then (k, l) :: m else (k', l') :: put k l m end.
Definition erase {A} (k : nat) (m : list (nat * list A)) : list (nat * list A) := filter (fun e => negb (Nat.eqb (fst e) k)) m.
Fixpoint pick {A} (bs : list bool) (l : list A) : list A :=
  match bs, l with b :: bs, x :: l => if b then x :: pick bs l else pick bs l | _, _ => [] end.

Definition with_job (s : state) (p : nat) (ph : phase) (t : list dep) (f : list nat) : state :=
  {| pc := pc s; max_jobs := max_jobs s; queue := queue s; running := set_phase p ph (running s); single := single s; bulk := bulk s;
     for_state := for_state s; available := available s; to_handle := to_handle s; finished := finished s; failed := f; todo := set (todo s) p t |}.
(** DependenciesResolver::resolve and handleResolvedDependencies: the next Depends item of a job.  [use]: a module is loaded for it (and
    not found to be there already). *)
Definition job_step (p : nat) (use : bool) (picks : list bool) (s : state) : option state :=
  match find_job p (running s) with
  | Some {| j_phase := Runs d |} =>
      Some match todo s p with
      | [] => with_job s p Ended [] (failed s)
      | Plain inner :: rest => with_job s p (Runs (if use then Allowed else d)) ((if use then inner else []) ++ rest) (failed s)
      | Single q inner :: rest =>
          if Nat.eqb q p then with_job s p (Runs d) rest (p :: failed s)                       (* 630-633 *)
          else if mem q (to_handle s) then
            match d with
            | Allowed => with_job s p Ended (todo s p) (failed s)                              (* 636-637 *)
            | NotAllowed => with_job s p (Runs d) rest (p :: failed s)                         (* 638-645 *)
            end
          else with_job s p (Runs (if use then Allowed else d)) ((if use then inner else []) ++ rest) (failed s)
      | Bulk cands :: rest =>
          match d with
          | Allowed => with_job s p Ended (todo s p) (failed s)                                (* 253-254 *)
          | NotAllowed => with_job s p (Runs Allowed) (pick picks cands ++ rest) (failed s)    (* 256-258, 908-926 *)
          end
      end
  | _ => None
  end.
(** 354-383 and productresolver.cpp 196-206. *)
Definition job_error (p n : nat) (s : state) : option state :=
  match find_job p (running s) with
  | Some {| j_phase := Runs d |} =>
      Some match n, todo s p with
      | S _, _ :: _ => with_job s p (Runs d) (skipn n (todo s p)) (p :: failed s)
      | _, _ => with_job s p Ended (todo s p) (p :: failed s)
      end
  | _ => None
  end.
Definition mark (p : nat) (s : state) : option state :=
  match pc s, find_job p (running s) with
  | Waiting, Some {| j_phase := Ended |} => Some (with_job s p Done (todo s p) (failed s))
  | _, _ => None
  end.

(** 349-398: startJob.  If the product were running already, the new thread would be waited for with the lock held. *)
Definition start (s : state) (pc' : place) (p l : nat) (d : deferral) (ok : bool) (av : list nat) (q : list queued) : state :=
  if ok then
    match find_job p (running s) with
    | Some _ => {| pc := Failed; max_jobs := max_jobs s; queue := q; running := running s; single := single s; bulk := bulk s;
                   for_state := for_state s; available := av; to_handle := to_handle s; finished := finished s; failed := failed s; todo := todo s |}
    | None => {| pc := pc'; max_jobs := max_jobs s; queue := q; running := running s ++ [{| j_product := p; j_state := l; j_phase := Runs d |}];
                 single := single s; bulk := bulk s; for_state := for_state s; available := av; to_handle := to_handle s; finished := finished s;
                 failed := failed s; todo := todo s |}
    end
  else
    {| pc := pc'; max_jobs := if 2 <=? max_jobs s then max_jobs s / 2 else max_jobs s;
       queue := q ++ [{| q_product := p; q_state := Some l; q_count := match d with Allowed => None | NotAllowed => Some (length (to_handle s)) end |}];
       running := running s; single := single s; bulk := bulk s; for_state := for_state s; available := l :: av; to_handle := to_handle s;
       finished := finished s; failed := failed s; todo := todo s |}.

(** 414-486: handleFinishedThreads, for one job. *)
Definition handle (p : nat) (s : state) : option state :=
  let go direct :=
    match find_job p (running s) with
    | Some {| j_state := l; j_phase := Done |} =>
        let (direct, fs) := match entry l (for_state s) with
                            | (p', d) :: t => (direct ++ [(p', l, d)], put l t (for_state s))
                            | [] => (direct, for_state s) end in
        let av := match entry l (for_state s) with [] => l :: available s | _ => available s end in
        let r := drop_job p (running s) in
        let res pc q sg bk th fin :=
          Some {| pc := pc; max_jobs := max_jobs s; queue := q; running := r; single := sg; bulk := bk; for_state := fs; available := av;
                  to_handle := th; finished := fin; failed := failed s; todo := todo s |} in
        if mem p (failed s) || (match todo s p with [] => true | _ => false end) then
          (* 470-482, 514-526 *)
          res (Handling direct)
            (queue s ++ map (fun e : nat * nat => {| q_product := fst e; q_state := Some (snd e); q_count := None |}) (entry p (single s)))
            (erase p (single s)) (bulk s) (drop p (to_handle s)) (finished s ++ [p])
        else match todo s p with
             | Bulk _ :: _ => res (Handling direct) (queue s) (single s) (bulk s ++ [(p, l)]) (to_handle s) (finished s)
             | Single q _ :: _ =>
                 if mem q (to_handle s) then res (Handling direct) (queue s) (put q (entry q (single s) ++ [(p, l)]) (single s)) (bulk s) (to_handle s) (finished s)
                 else res (Handling direct) (queue s ++ [{| q_product := p; q_state := Some l; q_count := None |}]) (single s) (bulk s) (to_handle s) (finished s)
             | _ => res Failed (queue s) (single s) (bulk s) (to_handle s) (finished s)
             end
    | _ => None
    end in
  match pc s with Waiting => go [] | Handling direct => go direct | _ => None end.

Definition with_pc (s : state) (pc' : place) : state :=
  {| pc := pc'; max_jobs := max_jobs s; queue := queue s; running := running s; single := single s; bulk := bulk s; for_state := for_state s;
     available := available s; to_handle := to_handle s; finished := finished s; failed := failed s; todo := todo s |}.
Definition with_queue (s : state) (q : list queued) (bk : list (nat * nat)) : state :=
  {| pc := pc s; max_jobs := max_jobs s; queue := q; running := running s; single := single s; bulk := bk; for_state := for_state s;
     available := available s; to_handle := to_handle s; finished := finished s; failed := failed s; todo := todo s |}.
Definition is_done (j : job) : bool := match j_phase j with Done => true | _ => false end.
Definition no_deferral (s : state) (e : nat * nat) : queued := {| q_product := fst e; q_state := Some (snd e); q_count := Some (length (to_handle s)) |}.
(** 255-316 and 318-333: scheduleNext, tryToReserveLoaderState; 484-485; the checks at 248-252. *)
Definition sched (ok : bool) (s : state) : option state :=
  match pc s with
  | Handling direct =>
      if existsb is_done (running s) then None
      else match direct with
           | [] => Some (with_pc s Scheduling)
           | (p, l, d) :: t => Some (start s (Handling t) p l d ok (available s) (queue s))
           end
  | Scheduling =>
      Some (
      match (if length (running s) <? max_jobs s then queue s else []) with
      | e :: q =>
          let d := match q_count e with
                   | None => Allowed
                   | Some n => if length (to_handle s) <? n then Allowed else NotAllowed end in
          match available s, q_state e with
          | [], _ => with_pc s Failed
          | l :: av, None => start s Scheduling (q_product e) l d ok av q
          | av, Some l =>
              if mem l av then start s Scheduling (q_product e) l d ok (drop l av) q
              else {| pc := Scheduling; max_jobs := max_jobs s; queue := q; running := running s; single := single s; bulk := bulk s;
                      for_state := put l (entry l (for_state s) ++ [(q_product e, d)]) (for_state s); available := av; to_handle := to_handle s;
                      finished := finished s; failed := failed s; todo := todo s |}
          end
      | [] =>
          match running s, queue s, bulk s, single s with
          | _ :: _, _, _, _ => with_pc s Waiting
          | [], _ :: _, _, _ => with_pc s Failed
          | [], [], [], [] => with_pc s (match to_handle s with [] => Finished | _ => Failed end)
          | [], [], _ :: _, _ => with_queue s (map (no_deferral s) (bulk s)) []
          | [], [], [], _ => match flat_map snd (single s) with
                             | [] => with_pc s Failed
                             | l => with_queue s (map (no_deferral s) l) []
                             end
          end
      end)
  | _ => None
  end.
Definition step (s : state) (e : event) : option state :=
  match e with
  | Job p use picks => job_step p use picks s
  | Error p n => job_error p n s
  | Mark p => mark p s
  | Handle p => handle p s
  | Sched ok => sched ok s
  | Spurious => match pc s, existsb is_done (running s) with Waiting, false => Some (with_pc s Scheduling) | _, _ => None end
  end.
(** 179-200, 202-232; [max]: the number of jobs, at most the number of products. *)
Definition init (products : list nat) (max : nat) (plan : nat -> list dep) : state :=
  let m := Nat.min max (length products) in
  {| pc := Scheduling; max_jobs := m; queue := map (fun p => {| q_product := p; q_state := None; q_count := None |}) products; running := [];
     single := []; bulk := []; for_state := []; available := rev (seq 0 (Nat.max 1 m)); to_handle := products; finished := []; failed := [];
     todo := plan |}.
Fixpoint run (s : state) (es : list event) : option state :=
  match es with
  | [] => Some s
  | e :: es => match step s e with None => None | Some s => run s es end
  end.
