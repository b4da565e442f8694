(** Removing artifacts from the build graph (src/lib/corelib/buildgraph/projectbuilddata.cpp 155-241, rulesapplicator.cpp
    126-145, rulenode.cpp 394-406). *)
From Coq Require Import List Bool Arith.
From Verif Require Import GraphModel.
Import ListNotations.

(** What removal looks at and changes.  [tr] below says which transformer, that is rule application, made an artifact. *)
Record rstate := mkR {
  r_g : graph;
  r_inputs : nat -> list nat;      (* transformer -> its inputs *)
  r_explicit : nat -> list nat;    (* transformer -> explicitlyDependsOn *)
  r_outputs : nat -> list nat;     (* transformer -> its outputs *)
  r_old : nat -> list nat;         (* rule node -> m_oldInputArtifacts *)
  r_forced : list nat;             (* rule nodes with the null pointer in m_oldInputArtifacts *)
  r_table : nat -> bool;           (* in the lookup table *)
  r_product : nat -> bool;         (* among the nodes of its product *)
  r_disk : nat -> bool;            (* the file exists *)
  r_cleared : list nat;            (* artifacts whose timestamp was cleared *)
  r_removed : list nat;            (* removedArtifacts *)
}.

Definition set_g st g := mkR g (r_inputs st) (r_explicit st) (r_outputs st) (r_old st) (r_forced st) (r_table st) (r_product st) (r_disk st) (r_cleared st) (r_removed st).
Definition set_inputs st f := mkR (r_g st) f (r_explicit st) (r_outputs st) (r_old st) (r_forced st) (r_table st) (r_product st) (r_disk st) (r_cleared st) (r_removed st).
Definition set_cleared st l := mkR (r_g st) (r_inputs st) (r_explicit st) (r_outputs st) (r_old st) (r_forced st) (r_table st) (r_product st) (r_disk st) l (r_removed st).
Definition set_removed st l := mkR (r_g st) (r_inputs st) (r_explicit st) (r_outputs st) (r_old st) (r_forced st) (r_table st) (r_product st) (r_disk st) (r_cleared st) l.

Section Removal.
  Variable info : nat -> ninfo.
  Variable tr : nat -> option nat.

  (** rulenode.cpp 394-406 removeOldInputArtifact; m_oldExplicitlyDependsOn, which is treated in the same way, is not modelled. *)
  Definition remove_old_input (st : rstate) (x r : nat) : rstate :=
    if mem x (r_old st r) then
      mkR (r_g st) (r_inputs st) (r_explicit st) (r_outputs st) (upd (r_old st) r (del x (r_old st r))) (add r (r_forced st))
          (r_table st) (r_product st) (r_disk st) (r_cleared st) (r_removed st)
    else st.

  (** projectbuilddata.cpp 222-226 removeFromRuleNodes. *)
  Definition remove_from_rule_nodes (st : rstate) (x : nat) : rstate :=
    fold_left (fun st r => remove_old_input st x r) (filter (fun r => negb (n_artifact (info r))) (pars (r_g st) x)) st.

  (** projectbuilddata.cpp 164-177, for the sets of the transformers of artifact parents. *)
  Definition clean_transformer (x : nat) (st : rstate) (p : nat) : rstate :=
    match tr p with
    | Some t => mkR (r_g st) (upd (r_inputs st) t (del x (r_inputs st t))) (upd (r_explicit st) t (del x (r_explicit st t))) (r_outputs st)
                    (r_old st) (r_forced st) (r_table st) (r_product st) (r_disk st) (r_cleared st) (r_removed st)
    | None => st
    end.

  (** projectbuilddata.cpp 228-241 removeArtifact with removeFromDisk for generated artifacts (line 218) and removeFromProduct,
      which is what handleRemovedRuleOutputs passes.  [None]: QBS_CHECK(parentArtifact->transformer) fails. *)
  Definition remove_artifact (st : rstate) (x : nat) : option rstate :=
    let st := mkR (r_g st) (r_inputs st) (r_explicit st) (r_outputs st) (r_old st) (r_forced st) (upd (r_table st) x false) (r_product st)
                  (match n_type (info x) with Generated => upd (r_disk st) x false | SourceFile => r_disk st end) (r_cleared st) (r_removed st) in
    let st := remove_from_rule_nodes st x in
    let parents := filter (fun p => n_artifact (info p)) (pars (disconnect_children (r_g st) x) x) in
    if forallb (fun p => match tr p with Some _ => true | None => false end) parents then
      let st := fold_left (clean_transformer x) parents st in
      let st := set_g st (disconnect_artifact info (r_g st) x) in
      Some (mkR (r_g st) (r_inputs st) (r_explicit st)
                (match tr x with Some t => upd (r_outputs st) t (del x (r_outputs st t)) | None => r_outputs st end)
                (r_old st) (r_forced st) (r_table st) (upd (r_product st) x false) (r_disk st) (r_cleared st) (r_removed st))
    else None.

  Inductive rresult := Removed (st : rstate) | CheckFailed | Unfinished.

  (** projectbuilddata.cpp 192-220 removeArtifactAndExclusiveDependents. *)
  Fixpoint remove_dependents (n : nat) (st : rstate) (x : nat) : rresult :=
    match n with
    | O => Unfinished
    | S n =>
        let r :=
          (fix loop (l : list nat) (st : rstate) : rresult :=
             match l with
             | [] => Removed st
             | p :: l =>
                 let st := set_g st (disconnect info (r_g st) p x) in
                 let r :=
                   match kids (r_g st) p with
                   | [] => remove_dependents n st p
                   | _ :: _ =>
                       match tr p with
                       | Some t =>
                           let st := set_inputs st (upd (r_inputs st) t (del x (r_inputs st t))) in
                           match r_inputs st t with
                           | [] => remove_dependents n st p
                           | _ :: _ => Removed (set_cleared st (add p (r_cleared st)))
                           end
                       | None => Removed (set_cleared st (add p (r_cleared st)))
                       end
                   end in
                 match r with Removed st => loop l st | r => r end
             end) (filter (fun p => n_artifact (info p)) (pars (r_g st) x)) (set_removed st (add x (r_removed st))) in
        match r with
        | Removed st => match remove_artifact st x with Some st => Removed st | None => CheckFailed end
        | r => r
        end
    end.

  (** rulesapplicator.cpp 126-139, handleRemovedRuleOutputs without the deletion of the objects. *)
  Fixpoint remove_outputs (n : nat) (st : rstate) (xs : list nat) : rresult :=
    match xs with
    | [] => Removed st
    | x :: xs => match remove_dependents n st x with Removed st => remove_outputs n st xs | r => r end
    end.
End Removal.
