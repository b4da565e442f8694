(** Model of Executor::setProducts / setupAuxiliaryProducts, src/lib/corelib/buildgraph/executor.cpp
    166-203.  Products are numbers; [deps p] is p->dependencies: (product, minimal). *)
From Coq Require Import List Bool Arith.
Import ListNotations.

Definition products := nat -> list (nat * bool).

(** QHash<ResolvedProductPtr, bool>. *)
Definition hash := list (nat * bool).
(** [auto &buildFully = dependencies[p]; if (!minimal) buildFully = true;], lines 185-187. *)
Fixpoint note (p : nat) (minimal : bool) (h : hash) : hash :=
  match h with
  | [] => [(p, negb minimal)]
  | (q, full) :: h => if q =? p then (q, full || negb minimal) :: h else (q, full) :: note p minimal h
  end.

(** addDependency, lines 183-190.  The C++ recursion is unbounded; [None]: the fuel ran out. *)
Fixpoint add_dependency (fuel : nat) (deps : products) (p : nat) (minimal : bool) (h : hash) : option hash :=
  match fuel with
  | O => None
  | S fuel =>
      fold_left (fun acc d => match acc with
                              | Some h => add_dependency fuel deps (fst d) (minimal || snd d) h
                              | None => None
                              end) (deps p) (Some (note p minimal h))
  end.

(** setupAuxiliaryProducts, lines 175-203: (m_buildableProducts, m_primaryProducts).  The order in
    which the hash is iterated does not matter for the result as a set. *)
Definition setup_products (fuel : nat) (deps : products) (all primary : list nat) : option (list nat * list nat) :=
  if length primary =? length all then Some (primary, primary)
  else
    match fold_left (fun acc p => fold_left (fun acc d => match acc with
                                   | Some h => add_dependency fuel deps (fst d) (snd d) h
                                   | None => None
                                   end) (deps p) acc) primary (Some []) with
    | None => None
    | Some h => Some (primary ++ map fst h, primary ++ map fst (filter snd h))
    end.
