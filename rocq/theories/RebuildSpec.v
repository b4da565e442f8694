(** What it means for a transformer to be out of date, for generated files to be those of a clean build, and
    which histories of builds and changes the theorems are about. *)
From Coq Require Import List Bool Arith ZArith.
From Verif Require Import RebuildModel.
Import ListNotations.

(** *** Points in time *)
Definition before (a b : ftime) : Prop := (fst a < fst b)%Z \/ (fst a = fst b /\ (snd a < snd b)%Z).
Definition exists_at (a : ftime) : Prop := a <> no_time.

(** *** The decision for a single transformer (C09) *)

(** The time qbs goes by: its own record, or with forced time stamp checks the file's for the outputs. *)
Definition known_time (s : state) (t n : nat) : ftime :=
  if force (bopts s) && mem n (outs s t) then mtime s n else ts s n.

(** Missing, or older than something it depends on, or something it depends on is missing. *)
Definition outdated (s : state) (t o : nat) : Prop :=
  known_time s t o = no_time
  \/ (exists k, In k (kids s o) /\ before (known_time s t o) (known_time s t k))
  \/ (exists d, In d (fdeps s o) /\ (ts s d = no_time \/ before (known_time s t o) (ts s d))).

Definition must_run (c : cfg) (s : state) (t : nat) : Prop :=
  always c t = true
  \/ marked s t = true
  \/ (exists o, In o (outs s t) /\ (au c o = true \/ force (bopts s) = true) /\ outdated s t o)
  \/ (track s t = true /\ changed s t = true)
  \/ (forall o, In o (outs s t) -> outdated s t o).

(** The build options ask for this transformer. *)
Definition selected (c : cfg) (s : state) (t : nat) : Prop :=
  (active_tags (bopts s) = []
   \/ exists o tag, In o (outs s t) /\ In tag (tags c o) /\ (In tag (active_tags (bopts s)) \/ In tag (needed_tags (bopts s))))
  /\ (files (bopts s) = []
      \/ (In (tprod c t) (file_prods (bopts s))
          /\ (ins s t = [] \/ exists i, In i (ins s t)
                 /\ (In i (files (bopts s)) \/ exists tag, In tag (tags c i) /\ In tag (needed_tags (bopts s)))))).

(** *** Graphs *)
Record wf (c : cfg) (s : state) : Prop := {
  wf_outs : forall t o, In o (outs s t) -> kd c o = Generated t;
  wf_kids : forall t o k, In o (outs s t) -> In k (kids s o) ->
    (kd c k = Source /\ In k (srcs c)) \/ exists t', kd c k = Generated t' /\ In k (outs s t');
  wf_fdeps : forall t o d, In o (outs s t) -> In d (fdeps s o) -> kd c d = FileDep;
  (** All outputs of a transformer have the same dependencies. *)
  wf_agree_kids : forall t o o' k, In o (outs s t) -> In o' (outs s t) -> In k (kids s o) -> In k (kids s o');
  wf_agree_fdeps : forall t o o' k, In o (outs s t) -> In o' (outs s t) -> In k (fdeps s o) -> In k (fdeps s o');
  wf_acyclic : exists rank : nat -> nat, forall t o k t', In o (outs s t) -> In k (kids s o) ->
    kd c k = Generated t' -> rank t' < rank t
}.
(** Commands depend on nothing but their configuration and the files their outputs depend on. *)
Definition deterministic (c : cfg) : Prop :=
  forall t v e e' o, (forall k, e k = e' k) -> F c t v e o = F c t v e' o.

(** *** What a clean build would produce *)
Inductive clean_content (c : cfg) (s : state) : nat -> nat -> Prop :=
| clean_file n : (forall t, kd c n <> Generated t) -> clean_content c s n (content s n)
| clean_output t o (v : nat -> nat) : In o (outs s t) ->
    (forall k, In k (kids s o) \/ In k (fdeps s o) -> clean_content c s k (v k)) ->
    clean_content c s o
      (F c t (conf s t) (fun k => if mem k (kids s o) || mem k (fdeps s o) then Some (v k) else None) o).

(** *** Histories *)

(** The time a change of the file shows. *)
Definition file_time (c : cfg) (s : state) (n : nat) : ftime :=
  match kd c n with
  | Generated _ => if au c n then ts s n else mtime s n
  | _ => mtime s n
  end.
(** The record qbs keeps says that the transformer has to be run again. *)
Definition stale (c : cfg) (s : state) (o : nat) : Prop :=
  ts s o = no_time
  \/ (exists k, In k (kids s o) /\ before (ts s o) (file_time c s k))
  \/ (exists d, In d (fdeps s o) /\ (mtime s d = no_time \/ before (ts s o) (mtime s d))).
Definition needs (c : cfg) (s : state) (t : nat) : Prop :=
  always c t = true \/ marked s t = true \/ (track s t = true /\ changed s t = true)
  \/ (forall o, In o (outs s t) -> stale c s o) \/ (exists o, In o (outs s t) /\ au c o = true /\ stale c s o).

(** A build that is not restricted to some files or tags and does execute commands. *)
Definition full (s : state) : Prop :=
  active_tags (bopts s) = [] /\ files (bopts s) = [] /\ rules_only (bopts s) = false.

(** At most as late as. *)
Definition upto (a b : ftime) : Prop := ~ before b a.

(** What is assumed about the outside world:
    - the clock does not run backwards, and files change strictly after what happened before;
    - commands that change an output do so after the build began; they leave an output alone only if it
      would get the same content;
    - forced time stamp checks are off, an incomplete list of changed files is not given;
    - a failed job, and a transformer skipped by a restricted build although it would have to run, is still
      known to need a run (the theorems named *_lost_refuted show that qbs itself does not ensure this). *)
Definition fair (c : cfg) (s : state) (e : event) : Prop :=
  match e with
  | Begin o cf time => upto (now s) time /\ force o = false
      /\ (cf = [] \/ forall n, kd c n = Source -> before (ts s n) (mtime s n) -> In n cf)
  | Consider t => forall s', step c s e = Next s' -> ~ full s -> needs c s t -> needs c s' t
  | Succeed t touch time => upto (now s) time /\ forall o, In o (outs s t) ->
      match touch o with
      | Some m => before (began s) m /\ upto m time
      | None => content s o = F c t (conf s t) (env s o) o
      end
  | Fail t touch time => upto (now s) time /\ needs c s t /\ forall o m v, In o (outs s t) -> touch o = Some (m, v) ->
      before (began s) m /\ upto m time
  | Rewire t os is ks fs => wf c (rewire t os is ks fs s)
  | Edit n v m => before (now s) m \/ (m = no_time /\ kd c n = FileDep)
  | _ => True
  end.
Fixpoint fair_history (c : cfg) (s : state) (es : list event) : Prop :=
  match es with
  | [] => True
  | e :: es => fair c s e /\ match step c s e with Next s' => fair_history c s' es | _ => True end
  end.

(** Nothing has been built yet. *)
Record fresh (c : cfg) (s : state) : Prop := {
  fr_wf : wf c s;
  fr_ts : forall n, ts s n = no_time;
  fr_mtime : forall n, upto (mtime s n) (now s) /\ upto no_time (mtime s n);
  fr_now : before no_time (now s);
  fr_idle : active s = false /\ done s = [] /\ running s = [] /\ started s = [] /\ succeeded s = []
}.
Definition reachable (c : cfg) (s : state) : Prop :=
  exists s0 es, fresh c s0 /\ fair_history c s0 es /\ exec c s0 es = Next s.

(** *** Statements about several builds *)

(** [fair] without what qbs is responsible for. *)
Definition plausible (c : cfg) (s : state) (e : event) : Prop :=
  match e with
  | Consider t => True
  | Fail t touch time => upto (now s) time /\ forall o m v, In o (outs s t) -> touch o = Some (m, v) ->
      before (began s) m /\ upto m time
  | _ => fair c s e
  end.
Fixpoint plausible_history (c : cfg) (s : state) (es : list event) : Prop :=
  match es with
  | [] => True
  | e :: es => plausible c s e /\ match step c s e with Next s' => plausible_history c s' es | _ => True end
  end.

(** Depends on a transformer that is always run. *)
Inductive tainted (c : cfg) (s : state) : nat -> Prop :=
| tainted_self t : always c t = true -> tainted c s t
| tainted_kid t o k t' : In o (outs s t) -> In k (kids s o) -> kd c k = Generated t' -> tainted c s t' -> tainted c s t.

(** A build of transformers in [l] without any changes. *)
Definition build_only (l : list nat) (e : event) : Prop :=
  match e with Consider t => In t l | Succeed _ _ _ | Fail _ _ _ => True | _ => False end.

(** Has [n] among its direct or indirect dependencies. *)
Inductive affected (c : cfg) (s : state) (n : nat) : nat -> Prop :=
| affected_direct t o : In o (outs s t) -> In n (kids s o) \/ In n (fdeps s o) -> affected c s n t
| affected_kid t o k t' : In o (outs s t) -> In k (kids s o) -> au c k = true -> kd c k = Generated t' ->
    affected c s n t' -> affected c s n t.
(** Events outside of builds; events that do not begin a new one. *)
Definition outside (e : event) : Prop :=
  match e with Edit _ _ _ | Reconfigure _ _ | Mark _ | Rewire _ _ _ _ _ => True | _ => False end.
Definition not_begin (e : event) : Prop := match e with Begin _ _ _ => False | _ => True end.

(** *** Times in a directory tree *)
Inductive within : entry -> ftime -> Prop :=
| within_file_m m c : within (File m c) m
| within_file_c m c : within (File m c) c
| within_dir_m m c es : within (Dir m c es) m
| within_dir_c m c es : within (Dir m c es) c
| within_dir_e m c es e t : In e es -> within e t -> within (Dir m c es) t.

(** A history of changes of files and dependencies and of unrestricted builds, successful or not. *)
Definition plain (c : cfg) (s : state) (e : event) : Prop :=
  plausible c s e /\
  match e with
  | Begin o cf time => cf = [] /\ active_tags o = [] /\ files o = [] /\ rules_only o = false
  | Reconfigure _ _ => False
  | _ => True
  end.
Fixpoint plain_history (c : cfg) (s : state) (es : list event) : Prop :=
  match es with
  | [] => True
  | e :: es => plain c s e /\ match step c s e with Next s' => plain_history c s' es | _ => True end
  end.
