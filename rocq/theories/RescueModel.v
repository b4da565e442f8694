(** What becomes of the results of the last build if a product is set up anew after a change in the project: buildgraph/buildgraphloader.cpp 973-1013 rescueOldBuildData, artifactrescuer.cpp, rulenode.cpp 408-425,
    transformer.cpp 323-347, productbuilddata.cpp 108-128, executor.cpp 467-540 isUpToDate and mustExecuteTransformer, 951-962 the files that are left over.
    One product is looked at, whose build data were set up from scratch.  Paths, products, files, commands and recorded script accesses are numbers; an artifact is named by its product and its path, as in lookupArtifact. *)
From Coq Require Import List Bool Arith.
Import ListNotations.

(** FileTime: 0 is invalid and before all other times *)
Definition time := nat.
Definition key := (nat * nat)%type.
Definition key_eqb (a b : key) : bool := (fst a =? fst b) && (snd a =? snd b).
Definition has (k : key) (l : list key) : bool := existsb (key_eqb k) l.

(** Transformer: the commands, the accesses recorded for the prepare script and for the commands with the times, whether the latter are to be checked, markedForRerun, alwaysRun *)
Record trafo := mkTrafo {
  t_commands : list nat; t_prepare : nat; t_accesses : nat; t_prepared : time; t_executed : time; t_check : bool; t_marked : bool; t_always : bool }.
(** RescuableArtifactData; tags and properties are not compared.  An entry of [r_children] tells whether the child was found by a scanner. *)
Record rad := mkRad {
  r_time : time; r_children : list (key * bool); r_files : list nat; r_outdated : bool; r_prepare : nat; r_accesses : nat; r_commands : list nat; r_prepared : time; r_executed : time }.
(** A generated artifact of the product: [a_trafo] is the number of its transformer; only the children that are artifacts *)
Record art := mkArt { a_path : nat; a_time : time; a_updated : bool; a_children : list key; a_scanned : list key; a_files : list nat; a_trafo : nat }.

(** QHash *)
Definition table := list (nat * rad).
Definition find_rad (t : table) (p : nat) : option rad := option_map snd (find (fun e => fst e =? p) t).
Definition remove_rad (t : table) (p : nat) : table := filter (fun e => negb (fst e =? p)) t.
Definition put_rad (t : table) (p : nat) (r : rad) : table := (p, r) :: remove_rad t p.

(** ** Setting up the product anew *)

(** An artifact of the product as it was, with the lists of children that were saved before the product was taken apart.  [None]: no transformer *)
Record old := mkOld { o_path : nat; o_time : time; o_children : list (key * bool); o_files : list nat; o_trafo : option trafo }.
(** transformer.cpp 335-347 rescueToArtifactData, buildgraphloader.cpp 995-1007: the file dependencies are appended in the loop over the children *)
Definition to_rad (o : old) (t : trafo) : rad :=
  mkRad (o_time o) (o_children o) (flat_map (fun _ => o_files o) (o_children o)) (t_marked t) (t_prepare t) (t_accesses t) (t_commands t) (t_prepared t) (t_executed t).
(** buildgraphloader.cpp 973-1013: [existing] are data from a former setup that no rule has made use of since; [is_new]: the product has got an artifact with this path *)
Definition collect (existing : table) (is_new : nat -> bool) (l : list old) : table :=
  fold_left (fun t o => match o_trafo o with Some f => if is_new (o_path o) then t else put_rad t (o_path o) (to_rad o f) | None => t end) l existing.

(** ** Rescuing *)

(** Input: the artifacts and the known file dependencies of the project, and whether the artifact could not be connected to the child because that one depends on it *)
Record project := mkProject { artifacts : list key; files : list nat; circular : nat -> key -> bool }.
(** The product's data, its transformers, the files on disk, and the paths reported as removed *)
Record state := mkState { s_rads : table; s_trafos : nat -> trafo; s_disk : list nat; s_reported : list nat }.

Definition cmds_eqb (a b : list nat) : bool := if list_eq_dec Nat.eq_dec a b then true else false.
Definition delete (p : nat) (s : state) : state := mkState (s_rads s) (s_trafos s) (filter (fun q => negb (q =? p)) (s_disk s)) (s_reported s).
Definition report (p : nat) (s : state) : state := mkState (s_rads s) (s_trafos s) (s_disk s) (s_reported s ++ [p]).
Definition drop (p : nat) (s : state) : state := mkState (remove_rad (s_rads s) p) (s_trafos s) (s_disk s) (s_reported s).
Definition set_trafo (k : nat) (t : trafo) (s : state) : state := mkState (s_rads s) (fun i => if i =? k then t else s_trafos s i) (s_disk s) (s_reported s).

(** artifactrescuer.cpp 84-117: canRescue, childrenToConnect *)
Definition check_child (w : project) (a : art) (acc : bool * list key * state) (c : key * bool) : bool * list key * state :=
  let '(ok, l, s) := acc in
  let (k, scanned) := c in
  if has k (artifacts w) && has k (a_children a) then (ok, l, s)
  else
    let '(ok, s) :=
      if has k (artifacts w) then (ok, s)
      else (false, match find_rad (s_rads s) (snd k) with Some _ => delete (snd k) (report (a_path a) (drop (snd k) s)) | None => s end) in
    let ok := if scanned then ok else false in
    (ok, if ok then l ++ [k] else l, s).
Definition check_children (w : project) (a : art) (l : list (key * bool)) (s : state) : bool * list key * state := fold_left (check_child w a) l (true, [], s).
(** artifactrescuer.cpp 118-137: the file dependencies that are found before the first missing one are inserted *)
Fixpoint check_files (w : project) (l : list nat) (known : list nat) : bool * list nat :=
  match l with
  | [] => (true, known)
  | f :: l => if existsb (Nat.eqb f) (files w) then check_files w l (if existsb (Nat.eqb f) known then known else known ++ [f]) else (false, known)
  end.
(** transformer.cpp 323-333 rescueFromArtifactData *)
Definition from_rad (r : rad) (t : trafo) : trafo :=
  let keep := r_prepared r <? t_prepared t in
  mkTrafo (t_commands t) (if keep then t_prepare t else r_prepare r) (r_accesses r) (if keep then t_prepared t else r_prepared r) (r_executed r) true (t_marked t || r_outdated r) (t_always t).
(** artifactrescuer.cpp 71-167.  None: QBS_CHECK fails *)
Definition rescue (w : project) (a : art) (s : state) : option (art * state) :=
  match find_rad (s_rads s) (a_path a) with
  | None => Some (a, s)
  | Some r =>
      let s := drop (a_path a) s in
      let give_up a s := Some (a, report (a_path a) (delete (a_path a) s)) in
      if cmds_eqb (t_commands (s_trafos s (a_trafo a))) (r_commands r) then
        let '(ok, l, s) := check_children w a (r_children r) s in
        let (found, fs) := check_files w (r_files r) (a_files a) in
        let a1 := mkArt (a_path a) (a_time a) (a_updated a) (a_children a) (a_scanned a) fs (a_trafo a) in
        if ok && found then
          let n := length l + length (a_children a) in
          if n <? length (r_children r) then None
          else if length (r_children r) <? n then give_up a1 s
          else
            let l := filter (fun k => negb (circular w (a_path a) k)) l in
            Some (mkArt (a_path a) (r_time r) (a_updated a) (a_children a ++ l) (a_scanned a ++ l) fs (a_trafo a), set_trafo (a_trafo a) (from_rad r (s_trafos s (a_trafo a))) s)
        else give_up a1 s
      else give_up a s
  end.
(** rulenode.cpp 408-425: all outputs of a rule, one after the other; here also all rules, each with the project as it is at that time *)
Fixpoint rescue_all (l : list (project * art)) (s : state) : option (list art * state) :=
  match l with
  | [] => Some ([], s)
  | (w, a) :: l => match rescue w a s with None => None | Some (a, s) => match rescue_all l s with None => None | Some (l, s) => Some (a :: l, s) end end
  end.
(** productbuilddata.cpp 124-128, executor.cpp 1189 *)
Definition mark_outdated (s : state) : state :=
  mkState (map (fun e => (fst e, let r := snd e in mkRad (r_time r) (r_children r) (r_files r) true (r_prepare r) (r_accesses r) (r_commands r) (r_prepared r) (r_executed r))) (s_rads s)) (s_trafos s) (s_disk s) (s_reported s).

(** ** The decision *)

(** executor.cpp 467-508, without forceTimestampCheck; [ts] and [fs] are the times of artifacts and of file dependencies *)
Definition up_to_date (ts : key -> time) (fs : nat -> time) (a : art) : bool :=
  negb (a_time a =? 0) && forallb (fun k => ts k <=? a_time a) (a_children a) && forallb (fun f => negb (fs f =? 0) && (fs f <=? a_time a)) (a_files a).
(** executor.cpp 510-540; [changed]: the accesses recorded at that time give other values now, see ChangeTrackingModel.v *)
Definition must_execute (ts : key -> time) (fs : nat -> time) (changed : nat -> time -> bool) (t : trafo) (outs : list art) : bool :=
  if t_always t || t_marked t then true
  else if existsb (fun a => negb (up_to_date ts fs a) && a_updated a) outs then true
  else if t_check t && changed (t_accesses t) (t_executed t) then true
  else negb (existsb (up_to_date ts fs) outs).
(** executor.cpp 951-962: after all roots of the product are built *)
Definition finish (s : state) : state :=
  mkState [] (s_trafos s) (filter (fun p => match find_rad (s_rads s) p with Some _ => false | None => true end) (s_disk s)) (s_reported s ++ map fst (s_rads s)).
