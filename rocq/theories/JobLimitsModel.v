(** Model of src/lib/corelib/tools/joblimits.cpp and of Executor::setupJobLimits. *)
From Coq Require Import List Bool NArith ZArith.
From Verif Require Import Str.
Import ListNotations.
Local Open Scope Z_scope.

(** joblimits.cpp 50-56. *)
Definition int_max : Z := 2147483647.
Definition transform_limit (l : Z) : Z :=
  if l =? 0 then int_max else if l <? -1 then -1 else l.

(** JobLimitPrivate, 58-70: pool and transformed limit.  JobLimitsPrivate, 72-80: a vector. *)
Definition limits := list (str * Z).

(** The constructor JobLimit(pool, limit), 87. *)
Definition job_limit (pool : str) (l : Z) : str * Z := (pool, transform_limit l).

(** setJobLimit(JobLimit), 111-121. *)
Fixpoint set_limit (ls : limits) (l : str * Z) : limits :=
  match ls with
  | [] => [l]
  | cur :: rest =>
      if str_eqb (fst cur) (fst l) then (if snd cur =? snd l then cur else l) :: rest
      else cur :: set_limit rest l
  end.

(** getLimit, 128-135. *)
Fixpoint get_limit (ls : limits) (pool : str) : Z :=
  match ls with
  | [] => -1
  | l :: rest => if str_eqb (fst l) pool then snd l else get_limit rest pool
  end.

(** update, 152-164. *)
Definition update (ls other : limits) : limits :=
  match ls with
  | [] => other
  | _ => fold_left (fun acc l => if snd l =? -1 then acc else set_limit acc l) other ls
  end.

(** Executor::setupJobLimits, executor.cpp 743-749. *)
Definition effective (project_first : bool) (settings options product : limits) : limits :=
  if project_first then update (update (update [] settings) options) product
  else update (update (update [] product) settings) options.
