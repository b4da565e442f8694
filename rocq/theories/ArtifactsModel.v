(** Finding artifacts: by file path, in the lookup table of the project (src/lib/corelib/buildgraph/projectbuilddata.cpp 97-146,
    buildgraph.cpp 637-723, buildgraphloader.cpp 87-107), and by file tag, in the product (productbuilddata.cpp 62-105, 139-143,
    artifact.cpp 76-114). *)
From Coq Require Import List Bool Arith.
From Verif Require Import GraphModel.
Import ListNotations.

(** ** The lookup table *)

(** What does not change about a file of the project. *)
Inductive fkind := Dependency | ArtifactFile (type : atype) (product : nat).
Record finfo := { f_path : nat; f_kind : fkind }.

Definition is_artifact (k : fkind) : bool := match k with ArtifactFile _ _ => true | Dependency => false end.
Definition is_generated (k : fkind) : bool := match k with ArtifactFile Generated _ => true | _ => false end.

Inductive ires := Inserted (t : nat -> list nat) | Conflict | CheckFails.

Section Table.
  Variable info : nat -> finfo.

  (** projectbuilddata.cpp 97-122 insertIntoLookupTable.  The key is the pair of file name and directory, that is the path. *)
  Definition insert_file (t : nat -> list nat) (x : nat) : ires :=
    let lst := t (f_path (info x)) in
    if is_generated (f_kind (info x)) && existsb (fun y => is_artifact (f_kind (info y))) lst then Conflict
    else if mem x lst then CheckFails
    else Inserted (upd t (f_path (info x)) (lst ++ [x])).

  (** stlutils.h removeOne; projectbuilddata.cpp 124-127 removeFromLookupTable. *)
  Fixpoint remove_one (x : nat) (l : list nat) : list nat :=
    match l with
    | [] => []
    | y :: l => if y =? x then l else y :: remove_one x l
    end.
  Definition remove_file (t : nat -> list nat) (x : nat) : nat -> list nat :=
    upd t (f_path (info x)) (remove_one x (t (f_path (info x)))).

  (** buildgraph.cpp 637-653 lookupArtifact; products are compared by identity. *)
  Definition lookup_artifact (t : nat -> list nat) (product path : nat) : option nat :=
    find (fun x => match f_kind (info x) with ArtifactFile _ p => p =? product | Dependency => false end) (t path).

  Inductive top := TInsert (x : nat) | TRemove (x : nat).
  (** An exception or a failed check leaves the table as it was. *)
  Definition table_op (t : nat -> list nat) (o : top) : nat -> list nat :=
    match o with
    | TInsert x => match insert_file t x with Inserted t' => t' | _ => t end
    | TRemove x => remove_file t x
    end.
  Definition table_ops (os : list top) : nat -> list nat := fold_left table_op os (fun _ => []).

  (** buildgraphloader.cpp 87-107 restoreBackPointers: the table is not stored, but made anew from the nodes of all products. *)
  Fixpoint reload (t : nat -> list nat) (xs : list nat) : ires :=
    match xs with
    | [] => Inserted t
    | x :: xs => match insert_file t x with Inserted t' => reload t' xs | r => r end
    end.
End Table.

(** ** The tags of the artifacts of one product *)

Record pstate := mkP {
  p_tags : nat -> list nat;              (* artifact -> m_fileTags *)
  p_in : nat -> bool;                    (* artifact->product is this product *)
  p_nodes : list nat;                    (* m_nodes, the artifacts *)
  p_roots : list nat;                    (* m_roots, the artifacts *)
  p_index : nat -> option (list nat)     (* m_artifactsByFileTag; None: no such key *)
}.

Definition intersects (a b : list nat) : bool := existsb (fun x => mem x b) a.
Definition subtract (a b : list nat) : list nat := filter (fun x => negb (mem x b)) a.

Section Tags.
  Variable ptags : list nat.             (* product->fileTags, the product type *)

  Definition set_tags st a l := mkP (upd (p_tags st) a l) (p_in st) (p_nodes st) (p_roots st) (p_index st).
  Definition set_roots st l := mkP (p_tags st) (p_in st) (p_nodes st) l (p_index st).
  Definition set_index st f := mkP (p_tags st) (p_in st) (p_nodes st) (p_roots st) f.

  (** productbuilddata.cpp 100-105 addFileTagToArtifact; also the body of the loop of addArtifactToSet, 71-74. *)
  Definition index_add (st : pstate) (a t : nat) : pstate :=
    set_index st (upd (p_index st) t (Some (add a (match p_index st t with Some l => l | None => [] end)))).
  (** productbuilddata.cpp 84-98 removeArtifactFromSetByFileTag. *)
  Definition index_remove (st : pstate) (a t : nat) : pstate :=
    match p_index st t with
    | None => st
    | Some l => set_index st (upd (p_index st) t (match del a l with [] => None | l => Some l end))
    end.

  (** buildgraph.cpp 715-723 insertArtifact with productbuilddata.cpp 62-75 addArtifact, for this product.  [None]: a check fails. *)
  Definition attach (st : pstate) (a : nat) : option pstate :=
    if p_in st a || mem a (p_nodes st) then None
    else
      let st1 := mkP (p_tags st) (upd (p_in st) a true) (add a (p_nodes st)) (p_roots st) (p_index st) in
      Some (fold_left (fun s t => index_add s a t) (p_tags st a) st1).

  (** productbuilddata.cpp 77-82, 139-143 removeArtifact. *)
  Definition detach (st : pstate) (a : nat) : pstate :=
    let st1 := mkP (p_tags st) (p_in st) (del a (p_nodes st)) (del a (p_roots st)) (p_index st) in
    fold_left (fun s t => index_remove s a t) (p_tags st a) st1.

  (** artifact.cpp 76-85 addFileTag. *)
  Definition add_tag (st : pstate) (a t : nat) : pstate :=
    let st := set_tags st a (add t (p_tags st a)) in
    if p_in st a then
      let st := index_add st a t in
      if mem t ptags then set_roots st (add a (p_roots st)) else st
    else st.
  (** artifact.cpp 87-95 removeFileTag. *)
  Definition remove_tag (st : pstate) (a t : nat) : pstate :=
    let st := set_tags st a (del t (p_tags st a)) in
    if p_in st a then
      let st := index_remove st a t in
      if mem t ptags && negb (intersects ptags (p_tags st a)) then set_roots st (del a (p_roots st)) else st
    else st.
  (** artifact.cpp 97-114 setFileTags. *)
  Definition same_tags (a b : list nat) : bool := forallb (fun x => mem x b) a && forallb (fun x => mem x a) b.
  Definition set_file_tags (st : pstate) (a : nat) (new : list nat) : pstate :=
    if negb (p_in st a) then set_tags st a new
    else if same_tags (p_tags st a) new then st
    else
      let st := fold_left (fun s t => add_tag s a t) (subtract new (p_tags st a)) st in
      fold_left (fun s t => remove_tag s a t) (subtract (p_tags st a) new) st.

  Inductive pop := PAttach (a : nat) | PDetach (a : nat) | PAdd (a t : nat) | PRemove (a t : nat) | PSet (a : nat) (l : list nat).
  Definition p_op (st : pstate) (o : pop) : option pstate :=
    match o with
    | PAttach a => attach st a
    | PDetach a => Some (detach st a)
    | PAdd a t => Some (add_tag st a t)
    | PRemove a t => Some (remove_tag st a t)
    | PSet a l => Some (set_file_tags st a l)
    end.
  Fixpoint p_ops (st : pstate) (os : list pop) : option pstate :=
    match os with
    | [] => Some st
    | o :: os => match p_op st o with Some st => p_ops st os | None => None end
    end.
  Definition p_empty : pstate := mkP (fun _ => []) (fun _ => false) [] [] (fun _ => None).
End Tags.
