(** Applying a rule again: buildgraph/rulenode.cpp (RuleNode::apply, changedInputArtifacts, removeOldInputArtifact), buildgraph/rulesapplicator.cpp (applyRule, doApply, createOutputArtifact,
    collectOldOutputArtifacts, handleRemovedRuleOutputs) and the parts of buildgraph.cpp, buildgraphloader.cpp and projectbuilddata.cpp that tell a rule node about changed and removed inputs. *)
From Coq Require Import List Bool Arith.
Import ListNotations.

(** Sets of artifacts.  An artifact is its address: sets of pointers are visited in the order of the addresses. *)
Definition mem (x : nat) (l : list nat) : bool := existsb (Nat.eqb x) l.
Definition diff (a b : list nat) : list nat := filter (fun x => negb (mem x b)) a.
Definition union (a b : list nat) : list nat := a ++ diff b a.
Definition subset (a b : list nat) : bool := forallb (fun x => mem x b) a.
Definition same (a b : list nat) : bool := subset a b && subset b a.

(** ** Which artifacts are inputs *)

(** Artifact, as far as currentInputArtifacts is concerned; [a_own] says that it was created by the rule itself. *)
Record artifact := mkArtifact { a_id : nat; a_tags : list nat; a_module : bool; a_own : bool }.
(** rulenode.cpp 286-329 currentInputArtifacts; [own] are the artifacts of the product, [deps] those of each dependency that has build data. *)
Definition current_inputs (inputs deps_inputs excluded : list nat) (own : list artifact) (deps : list (list artifact)) : list nat :=
  let fits tags a := existsb (fun t => mem t tags) (a_tags a) in
  let s := map a_id (filter (fun a => fits inputs a && negb (a_module a) && negb (a_own a) && negb (fits excluded a)) own) in
  match deps_inputs with
  | [] => s
  | _ =>
      union (union s (map a_id (filter (fun a => fits deps_inputs a && a_module a && negb (a_own a) && negb (fits excluded a)) own)))
            (map a_id (filter (fun a => fits deps_inputs a && negb (fits excluded a)) (concat deps)))
  end.

(** ** State *)

(** language.h Rule *)
Record rule := mkRule { multiplex : bool; declares_inputs : bool; requires_inputs : bool }.
(** transformer.h 64-130 Transformer: [t_track] is prepareScriptNeedsChangeTracking, [t_seen] stands for the tracked accesses *)
Record trafo := mkTrafo { t_inputs : list nat; t_explicit : list nat; t_outputs : list nat; t_commands : nat; t_track : bool; t_seen : nat }.
(** An artifact that was created by the rule, its children that are artifacts, and those of them that were added by a scanner.  [o_valid]: its timestamp is valid. *)
Record out := mkOut { o_id : nat; o_trafo : nat; o_children : list nat; o_scanned : list nat; o_valid : bool }.
(** rulenode.h RuleNode.  [None] in the sets of old artifacts is the null pointer that stands for removed ones.  [n_outs] is ordered by [o_id]. *)
Record node := mkNode { n_trafos : list (nat * trafo); n_next : nat; n_outs : list out; n_old : list (option nat); n_old_explicit : list (option nat); n_consider : bool; n_last : nat }.
(** What holds at the time of the application: inputs, explicitlyDependsOn, timestamps, the results of TrafoChangeTracker (C41), what the scripts return (None if one throws): outputs, commands, accesses; whether scripts have used files,
    whether a scan was done, the time. *)
Record env := mkEnv { e_inputs : list nat; e_explicit : list nat; e_time : nat -> nat; e_changed : trafo -> bool; e_commands_changed : trafo -> bool;
  e_script : list nat -> option (list nat * nat * nat); e_io : bool; e_scanned : bool; e_now : nat }.

Definition trafo_of (n : node) (k : nat) : option trafo := option_map snd (find (fun x => Nat.eqb (fst x) k) (n_trafos n)).
Definition set_trafos (n : node) (l : list (nat * trafo)) : node := mkNode l (n_next n) (n_outs n) (n_old n) (n_old_explicit n) (n_consider n) (n_last n).
Definition set_outs (n : node) (l : list out) : node := mkNode (n_trafos n) (n_next n) l (n_old n) (n_old_explicit n) (n_consider n) (n_last n).
Definition set_trafo (n : node) (k : nat) (f : trafo -> trafo) : node := set_trafos n (map (fun x => if Nat.eqb (fst x) k then (fst x, f (snd x)) else x) (n_trafos n)).
Definition untrack (t : trafo) : trafo := mkTrafo (t_inputs t) (t_explicit t) (t_outputs t) (t_commands t) false (t_seen t).
Definition drop_output (o : nat) (t : trafo) : trafo := mkTrafo (t_inputs t) (t_explicit t) (diff (t_outputs t) [o]) (t_commands t) (t_track t) (t_seen t).
(** The set of explicit dependencies keeps the artifact (explicit_dependency_refuted in RemovalTheorems.v). *)
Definition drop_input (a : nat) (t : trafo) : trafo := mkTrafo (diff (t_inputs t) [a]) (t_explicit t) (t_outputs t) (t_commands t) (t_track t) (t_seen t).

(** ** What has changed *)

Definition is_some (x : nat) (o : option nat) : bool := match o with Some y => Nat.eqb x y | None => false end.
Definition old_has (x : nat) (l : list (option nat)) : bool := existsb (is_some x) l.
(** Set::operator!= of pointers *)
Definition same_old (l : list nat) (old : list (option nat)) : bool :=
  forallb (fun x => old_has x old) l && forallb (fun o => match o with Some y => mem y l | None => false end) old.
(** rulenode.cpp 331-349 changedInputArtifacts *)
Definition changed_inputs (e : env) (n : node) : list nat :=
  let newer x := Nat.ltb (n_last n) (e_time e x) in
  if negb (same_old (e_explicit e) (n_old_explicit n)) then e_inputs e
  else if negb (n_consider n) then []
  else if existsb newer (e_explicit e) then e_inputs e
  else filter newer (e_inputs e).
(** transformerchangetracking.cpp prepareScriptNeedsRerun *)
Definition needs_rerun (e : env) (n : node) (k : nat) : node * bool :=
  match trafo_of n k with
  | Some t => if t_track t then (set_trafo n k untrack, e_changed e t) else (n, false)
  | None => (n, false)
  end.
(** rulenode.cpp 111-126: the first parent of the input that is an output of the rule *)
Definition check_one (e : env) (x : nat) (n : node) : node * list nat :=
  match find (fun o => mem x (o_children o)) (n_outs n) with
  | Some o => let (n, b) := needs_rerun e n (o_trafo o) in (n, if b then [x] else [])
  | None => (n, [])
  end.
Fixpoint check_inputs (mult : bool) (e : env) (l : list nat) (n : node) : node * list nat :=
  match l with
  | [] => (n, [])
  | x :: l => let (n, f) := check_one e x n in if mult then (n, f) else let (n, fs) := check_inputs mult e l n in (n, f ++ fs)
  end.
(** rulenode.cpp 128-149: returns whether the rule is up to date *)
Fixpoint check_outputs (mult : bool) (e : env) (l : list out) (n : node) : node * bool :=
  match l with
  | [] => (n, true)
  | o :: l => let (n, b) := needs_rerun e n (o_trafo o) in if b then (n, false) else if mult then (n, true) else check_outputs mult e l n
  end.

(** ** Application *)

Record log := mkLog { l_applied : list (list nat); l_created : list nat; l_removed : list nat; l_invalidated : list nat }.
Inductive outcome := Skipped (n : node) | Applied (n : node) (l : log) | Error | Check_failed.

Fixpoint put (o : out) (l : list out) : list out :=
  match l with
  | [] => [o]
  | p :: l => if Nat.eqb (o_id o) (o_id p) then o :: l else if Nat.ltb (o_id o) (o_id p) then o :: p :: l else p :: put o l
  end.
Definition find_out (n : node) (i : nat) : option out := find (fun o => Nat.eqb (o_id o) i) (n_outs n).
(** rulesapplicator.cpp 127-145 handleRemovedRuleOutputs, 178-200 in projectbuilddata.cpp removeArtifact: only the rule's own outputs; what else depends on them is C19 *)
Definition remove_outputs (n : node) (l : list nat) : node :=
  set_outs (fold_left (fun n o => match find_out n o with Some p => set_trafo n (o_trafo p) (drop_output o) | None => n end) l n) (filter (fun o => negb (mem (o_id o) l)) (n_outs n)).
(** rulesapplicator.cpp 413-506 createOutputArtifact: [k] is the new transformer; the accumulator holds the node, the old transformer found last and the created artifacts.  None: conflicting instances *)
Definition create_output (mult : bool) (k : nat) (ins : list nat) (acc : option (node * option nat * list nat)) (o : nat) : option (node * option nat * list nat) :=
  match acc with
  | None => None
  | Some (n, old, created) =>
      match find_out n o with
      | Some p =>
          let conflict := match trafo_of n (o_trafo p) with Some t => negb mult && negb (same (t_inputs t) ins) | None => false end in
          if conflict then None
          else
            let track := match trafo_of n (o_trafo p) with Some t => t_track t | None => false end in
            let n := set_trafo n k (fun t => mkTrafo (t_inputs t) (t_explicit t) (union (t_outputs t) [o]) (t_commands t) track (t_seen t)) in
            Some (set_outs n (put (mkOut o k (union (o_children p) ins) (o_scanned p) (o_valid p)) (n_outs n)), Some (o_trafo p), created)
      | None =>
          let n := set_trafo n k (fun t => mkTrafo (t_inputs t) (t_explicit t) (union (t_outputs t) [o]) (t_commands t) (t_track t) (t_seen t)) in
          Some (set_outs n (put (mkOut o k ins [] false) (n_outs n)), old, created ++ [o])
      end
  end.
(** rulesapplicator.cpp 310-321 collectOldOutputArtifacts *)
Definition old_outputs (n : node) (ins : list nat) : list nat :=
  map o_id (filter (fun o => existsb (fun a => mem a (o_children o) && match trafo_of n (o_trafo o) with Some t => mem a (t_inputs t) | None => false end) ins) (n_outs n)).
Definition map_outs (l : list nat) (f : out -> out) (n : node) : node := set_outs n (map (fun o => if mem (o_id o) l then f o else o) (n_outs n)).
(** rulesapplicator.cpp 163-308 doApply *)
Definition do_apply (r : rule) (e : env) (ins : list nat) (acc : node * log) : option (node * log) :=
  let (n, l) := acc in
  match e_script e ins with
  | None => None
  | Some (outs, commands, seen) =>
      let k := n_next n in
      let n := mkNode ((k, mkTrafo ins (e_explicit e) [] commands false seen) :: n_trafos n) (S k) (n_outs n) (n_old n) (n_old_explicit n) (n_consider n) (n_last n) in
      match fold_left (create_output (multiplex r) k ins) outs (Some (n, None, [])) with
      | None => None
      | Some (n, old, created) =>
          let gone := diff (old_outputs n ins) outs in
          let n := remove_outputs n gone in
          let l := mkLog (l_applied l ++ [ins]) (l_created l ++ created) (l_removed l ++ gone) (l_invalidated l) in
          match outs with
          | [] => Some (n, l)
          | _ =>
              let n := map_outs outs (fun o => mkOut (o_id o) (o_trafo o) (union (o_children o) (e_explicit e)) (o_scanned o) (o_valid o)) n in
              let unchanged :=
                match old with
                | None => false
                | Some j =>
                    match trafo_of n j, trafo_of n k with
                    | Some t, Some t' => same (t_outputs t) (t_outputs t') && same (t_inputs t) (t_inputs t') && same (t_explicit t) (t_explicit t') && Nat.eqb (t_commands t) (t_commands t') && negb (e_commands_changed e t')
                    | _, _ => false
                    end
                end in
              if unchanged then Some (n, l)
              else Some (map_outs outs (fun o => mkOut (o_id o) (o_trafo o) (o_children o) (o_scanned o) false) n, mkLog (l_applied l) (l_created l) (l_removed l) (union (l_invalidated l) outs))
          end
      end
  end.
Fixpoint apply_each (r : rule) (e : env) (l : list (list nat)) (acc : node * log) : option (node * log) :=
  match l with [] => Some acc | ins :: l => match do_apply r e ins acc with Some acc => apply_each r e l acc | None => None end end.
(** rulesapplicator.cpp 89-124 applyRule *)
Definition apply_rule (r : rule) (e : env) (inputs : list nat) (acc : node * log) : option (node * log) :=
  apply_each r e (if multiplex r then [inputs] else map (fun x => [x]) inputs) acc.

(** rulenode.cpp 196-212: what to do about an input that is gone.  None: QBS_CHECK fails.  Outputs to remove or to disconnect from it *)
Definition affected (n : node) (a : nat) : option (list nat) :=
  fold_left (fun acc o =>
    match acc with
    | None => None
    | Some l =>
        if mem a (o_children o) then
          match trafo_of n (o_trafo o) with
          | None => None
          | Some t => if mem a (t_inputs t) then Some (l ++ [o_id o]) else if mem a (o_scanned o) then Some l else None
          end
        else Some l
    end) (n_outs n) (Some []).
Fixpoint affected_all (n : node) (l : list (option nat)) : option (list (nat * nat)) :=
  match l with
  | [] => Some []
  | None :: l => affected_all n l
  | Some a :: l => match affected n a, affected_all n l with Some p, Some q => Some (map (fun o => (o, a)) p ++ q) | _, _ => None end
  end.
Definition disconnect (n : node) (p : nat * nat) : node :=
  map_outs [fst p] (fun o => mkOut (o_id o) (o_trafo o) (diff (o_children o) [snd p]) (diff (o_scanned o) [snd p]) (o_valid o)) n.

(** rulenode.cpp 79-245 apply, without scanning *)
Definition apply (r : rule) (e : env) (n0 : node) : outcome :=
  let added := filter (fun x => negb (old_has x (n_old n0))) (e_inputs e) in
  let removed := filter (fun o => match o with Some y => negb (mem y (e_inputs e)) | None => true end) (n_old n0) in
  let changed := changed_inputs e n0 in
  let base := if multiplex r then e_inputs e else union changed added in
  let (n1, flagged) := check_inputs (multiplex r) e (e_inputs e) n0 in
  let inputs := union base flagged in
  let fresh := match changed, added, removed, flagged with [], [], [], [] => true | _, _, _, _ => false end in
  let (n2, up_to_date) :=
    if fresh && (negb (declares_inputs r) || negb (requires_inputs r)) && (match inputs with [] => true | _ => false end)
    then match n_outs n1 with [] => (n1, false) | _ => check_outputs (multiplex r) e (n_outs n1) n1 end
    else (n1, fresh) in
  let must_apply := (match inputs with [] => false | _ => true end) || negb (declares_inputs r) || negb (requires_inputs r) in
  if up_to_date then Skipped n2
  else
    match affected_all n2 removed with
    | None => Check_failed
    | Some pairs =>
        let '(n3, gone) := if negb (multiplex r) || negb must_apply then (remove_outputs n2 (map fst pairs), map fst pairs) else (fold_left disconnect pairs n2, []) in
        match (if must_apply then apply_rule r e inputs (n3, mkLog [] [] gone []) else Some (n3, mkLog [] [] gone [])) with
        | None => Error
        | Some (n4, l) =>
            Applied (mkNode (n_trafos n4) (n_next n4) (n_outs n4) (map Some (e_inputs e)) (map Some (e_explicit e))
              (if must_apply then n_consider n4 || e_io e || e_scanned e else n_consider n4) (if must_apply then e_now e else n_last n4)) l
        end
    end.

(** ** Between applications *)

(** rulenode.cpp 394-406 removeOldInputArtifact *)
Definition forget (a : nat) (l : list (option nat)) : list (option nat) := if old_has a l then None :: filter (fun o => negb (is_some a o)) l else l.
Definition remove_old (n : node) (a : nat) : node :=
  mkNode (n_trafos n) (n_next n) (n_outs n) (forget a (n_old n)) (forget a (n_old_explicit n)) (n_consider n) (n_last n).
(** buildgraph.cpp 777-795 invalidateArtifactAsRuleInputIfNecessary, for a dynamic rule *)
Definition invalidate (n : node) (a : nat) : node :=
  if existsb (fun o => mem a (o_children o) && negb (mem a (o_scanned o))) (n_outs n) then n else remove_old n a.
(** projectbuilddata.cpp removeArtifactAndExclusiveDependents and removeFromRuleNodes, for an artifact that is not an output of the rule *)
Definition delete_input (n : node) (a : nat) : node :=
  let hit o := mem a (o_children o) in
  let n1 := fold_left (fun n o => if hit o then set_trafo n (o_trafo o) (drop_input a) else n) (n_outs n) n in
  let n2 := set_outs n1 (map (fun o => if hit o then mkOut (o_id o) (o_trafo o) (diff (o_children o) [a]) (diff (o_scanned o) [a]) false else o) (n_outs n1)) in
  let dead := map o_id (filter (fun o => hit o && match trafo_of n1 (o_trafo o) with Some t => match t_inputs t with [] => true | _ => false end | None => false end) (n_outs n1)) in
  remove_old (remove_outputs n2 dead) a.
(** buildgraphloader.cpp 667-681 markTransformersForChangeTracking *)
Definition mark (n : node) : node :=
  set_trafos n (map (fun x => (fst x, mkTrafo (t_inputs (snd x)) (t_explicit (snd x)) (t_outputs (snd x)) (t_commands (snd x)) true (t_seen (snd x)))) (n_trafos n)).
(** inputartifactscanner.cpp 166-268: the children that a scanner has found are replaced; others stay *)
Definition scan (o : nat) (l : list nat) (n : node) : node :=
  map_outs [o] (fun p => let kept := diff (o_children p) (o_scanned p) in mkOut (o_id p) (o_trafo p) (union kept l) (diff l kept) (o_valid p)) n.
