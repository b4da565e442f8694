(** The build graph as a graph: edges and their bookkeeping (src/lib/corelib/buildgraph/buildgraph.cpp 513-607,
    buildgraphnode.cpp, artifact.cpp) and the search for cycles (cycledetector.cpp).

    Nodes are numbers (their addresses).  A node has an ordered set of children, those it depends on, and an ordered set of
    parents; an artifact also has the set of those children that were added by dependency scanners. *)
From Coq Require Import List Bool Arith.
Import ListNotations.

Definition mem (x : nat) (l : list nat) : bool := existsb (Nat.eqb x) l.

(** NodeSet (nodeset.h) and ArtifactSet are Sets of pointers, sorted by address: see SetModel.v for the operations. *)
Fixpoint add (x : nat) (l : list nat) : list nat :=
  match l with
  | [] => [x]
  | y :: l' => if x <? y then x :: l else if x =? y then l else y :: add x l'
  end.
Definition del (x : nat) (l : list nat) : list nat := filter (fun y => negb (x =? y)) l.

(** ** Searching *)

Section Search.
  Variable kids : nat -> list nat.

  (** buildgraph.cpp 513-528 findPath.  [None]: out of fuel; the code would go on. *)
  Fixpoint find_path (n : nat) (u v : nat) : option (option (list nat)) :=
    match n with
    | O => None
    | S n =>
        if u =? v then Some (Some [v])
        else
          (fix loop (l : list nat) : option (option (list nat)) :=
             match l with
             | [] => Some None
             | c :: l =>
                 match find_path n c v with
                 | None => None
                 | Some (Some p) => Some (Some (u :: p))
                 | Some None => loop l
                 end
             end) (kids u)
    end.

  (** buildgraph.cpp 557-568 existsPath_impl. *)
  Fixpoint exists_path (n : nat) (u v : nat) (seen : list nat) : option (bool * list nat) :=
    match n with
    | O => None
    | S n =>
        if u =? v then Some (true, seen)
        else if mem u seen then Some (false, seen)
        else
          (fix any (l : list nat) (seen : list nat) : option (bool * list nat) :=
             match l with
             | [] => Some (false, seen)
             | c :: l =>
                 match exists_path n c v seen with
                 | Some (false, seen) => any l seen
                 | r => r
                 end
             end) (kids u) (u :: seen)
    end.

  (** cycledetector.h 68-70: m_nodesInCurrentPath, m_allNodes, m_parent. *)
  Record cstate := mkC { c_path : list nat; c_all : list nat; c_parent : option nat }.
  Inductive cresult :=
  | Fine (st : cstate)
  | Cycle (nodes : list nat)        (* the error with the nodes in its message *)
  | Endless.                        (* out of fuel *)

  (** cycledetector.cpp 101-107 cycle. *)
  Definition cycle_nodes (n : nat) (node : nat) (parent : option nat) : option (list nat) :=
    match parent with
    | None => Some [node]             (* findPath(node, nullptr) finds nothing; never happens *)
    | Some m => match find_path n node m with
                | None => None
                | Some (Some p) => Some (p ++ [node])
                | Some None => Some [node]
                end
    end.

  (** cycledetector.cpp 79-99 visitNode; [f] is the fuel for findPath. *)
  Fixpoint visit (f n : nat) (st : cstate) (node : nat) : cresult :=
    match n with
    | O => Endless
    | S n =>
        if mem node (c_path st) then
          match cycle_nodes f node (c_parent st) with Some l => Cycle l | None => Endless end
        else if mem node (c_all st) then Fine st
        else
          let r :=
            (fix loop (st : cstate) (l : list nat) : cresult :=
               match l with
               | [] => Fine st
               | c :: l => match visit f n st c with Fine st => loop st l | r => r end
               end) (mkC (node :: c_path st) (c_all st) (Some node)) (kids node) in
          match r with
          | Fine st => Fine (mkC (del node (c_path st)) (node :: c_all st) (c_parent st))
          | r => r
          end
    end.

  (** visitProject, TopLevelProject::accept, ResolvedProduct::accept (language.cpp): the root nodes of all products. *)
  Fixpoint visit_roots (f n : nat) (st : cstate) (roots : list nat) : cresult :=
    match roots with
    | [] => Fine st
    | r :: roots => match visit f n st r with Fine st => visit_roots f n st roots | r => r end
    end.
  Definition detect (f n : nat) (roots : list nat) : cresult := visit_roots f n (mkC [] [] None) roots.
End Search.

(** ** Edges *)

Inductive atype := SourceFile | Generated.
Record ninfo := { n_artifact : bool; n_type : atype; n_product : nat; n_path : nat }.

Record graph := mkG { kids : nat -> list nat; pars : nat -> list nat; scan : nat -> list nat }.
Definition upd {A} (f : nat -> A) (x : nat) (a : A) : nat -> A := fun y => if y =? x then a else f y.

Inductive outcome := Next (g : graph) | Assertion | Threw.

Definition atype_eqb (a b : atype) : bool := match a, b with SourceFile, SourceFile | Generated, Generated => true | _, _ => false end.

Section Edges.
  Variable info : nat -> ninfo.

  (** buildgraph.cpp 550-551. *)
  Definition add_edge (g : graph) (p c : nat) : graph :=
    mkG (upd (kids g) p (add c (kids g p))) (upd (pars g) c (add p (pars g c))) (scan g).

  (** buildgraph.cpp 533-555 connect.  Marking the build data as dirty is not modelled. *)
  Definition connect (g : graph) (p c : nat) : outcome :=
    if p =? c then Assertion
    else if n_artifact (info c) then
      (fix loop (l : list nat) : outcome :=
         match l with
         | [] => Next (add_edge g p c)
         | child :: l =>
             if n_artifact (info child) then
               if child =? c then Next g
               else
                 let must_differ := atype_eqb (n_type (info child)) Generated
                   || (n_product (info child) =? n_product (info c)) || negb (atype_eqb (n_type (info child)) (n_type (info c))) in
                 if must_differ && (n_path (info child) =? n_path (info c)) then Threw else loop l
             else loop l
         end) (kids g p)
    else Next (add_edge g p c).

  (** buildgraph.cpp 584-599 safeConnect, for artifacts.  [None]: out of fuel.  On a circle the code also calls findPath for a
      debug message. *)
  Definition safe_connect (n : nat) (g : graph) (u v : nat) : option (outcome * bool) :=
    if u =? v then Some (Assertion, false)
    else
      match exists_path (kids g) n v u [] with
      | None => None
      | Some (true, _) =>
          match find_path (kids g) n v u with None => None | Some _ => Some (Next g, false) end
      | Some (false, _) => Some (connect g u v, true)
      end.

  (** buildgraph.cpp 601-607 disconnect with Artifact::onChildDisconnected (artifact.cpp 132-137). *)
  Definition disconnect (g : graph) (u v : nat) : graph :=
    mkG (upd (kids g) u (del v (kids g u))) (upd (pars g) v (del u (pars g v)))
        (if n_artifact (info u) && n_artifact (info v) then upd (scan g) u (del v (scan g u)) else scan g).

  (** inputartifactscanner.cpp 440-454, end of handleDependency: the artifact found by a scanner.  The check that
      the two are not outputs of the same transformer is not modelled. *)
  Definition scanner_connect (n : nat) (g : graph) (u v : nat) : option outcome :=
    if (u =? v) || mem v (kids g u) then Some (Next g)
    else match safe_connect n g u v with
    | Some (Next g', true) => Some (Next (mkG (kids g') (pars g') (upd (scan g') u (add v (scan g' u)))))
    | Some (o, _) => Some o
    | None => None
    end.

  (** Removing something from every one of a list of nodes. *)
  Definition del_from (f : nat -> list nat) (x : nat) (l : list nat) : nat -> list nat :=
    fold_left (fun f y => upd f y (del x (f y))) l f.

  (** artifact.cpp 56-62 ~Artifact and buildgraphnode.cpp 57-63 ~BuildGraphNode.  The sets of the node itself are gone. *)
  Definition destroy (g : graph) (x : nat) : graph :=
    let scan1 := if n_artifact (info x) then del_from (scan g) x (filter (fun p => n_artifact (info p)) (pars g x)) else scan g in
    let kids1 := del_from (kids g) x (pars g x) in
    let pars1 := del_from (pars g) x (kids1 x) in
    mkG (upd kids1 x []) (upd pars1 x []) (upd scan1 x []).

  (** projectbuilddata.cpp 155-183 disconnectArtifact.  The transformers' sets are in RemovalModel.v. *)
  Definition disconnect_children (g : graph) (x : nat) : graph :=
    mkG (upd (kids g) x []) (del_from (pars g) x (kids g x)) (upd (scan g) x []).
  Definition disconnect_parents (g : graph) (x : nat) : graph :=
    mkG (del_from (kids g) x (pars g x)) (upd (pars g) x [])
        (del_from (scan g) x (filter (fun p => n_artifact (info p)) (pars g x))).
  Definition disconnect_artifact (g : graph) (x : nat) : graph := disconnect_parents (disconnect_children g x) x.

  (** inputartifactscanner.cpp 174-177, in updateDependencies: dependencies found earlier are forgotten. *)
  Definition forget_scanned (g : graph) (x : nat) : graph :=
    fold_left (fun g d => disconnect g x d) (scan g x) (mkG (kids g) (pars g) (upd (scan g) x [])).

  (** Histories. *)
  Inductive op :=
  | OConnect (p c : nat) | OSafe (u v : nat) | OScanned (u v : nat) | ODisconnect (u v : nat)
  | OForget (x : nat) | ODestroy (x : nat) | ODetach (x : nat).

  (** An error or an assertion leaves the graph as it was (the exception is thrown before anything is changed). *)
  Definition run_op (n : nat) (g : graph) (o : op) : option graph :=
    let keep r := match r with Next g' => g' | _ => g end in
    match o with
    | OConnect p c => Some (keep (connect g p c))
    | OSafe u v => option_map (fun r => keep (fst r)) (safe_connect n g u v)
    | OScanned u v => option_map keep (scanner_connect n g u v)
    | ODisconnect u v => Some (disconnect g u v)
    | OForget x => Some (forget_scanned g x)
    | ODestroy x => Some (destroy g x)
    | ODetach x => Some (disconnect_artifact g x)
    end.
  Fixpoint run_ops (n : nat) (g : graph) (os : list op) : option graph :=
    match os with
    | [] => Some g
    | o :: os => match run_op n g o with Some g => run_ops n g os | None => None end
    end.
  Definition no_edges : graph := mkG (fun _ => []) (fun _ => []) (fun _ => []).
End Edges.
