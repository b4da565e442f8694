(** The names of sub-projects: makeSubProjectNamesUniqe, src/lib/corelib/loader/projectresolver.cpp 248-269. *)
From Coq Require Import List Bool Arith NArith.
From Verif Require Import Str.
Import ListNotations.

(** A project with its name and sub-projects. *)
Inductive project := Project (name : str) (subs : list project).

Fixpoint has_name (n : str) (l : list str) : bool := match l with [] => false | x :: r => str_eqb n x || has_name n r end.
(** 252-256: the names, and the numbers of the projects with names of earlier ones. *)
Fixpoint first_pass (taken : list str) (i : nat) (names : list str) : list str * list (nat * str) :=
  match names with
  | [] => (taken, [])
  | n :: r => if has_name n taken then let (t, p) := first_pass taken (S i) r in (t, (i, n) :: p) else first_pass (n :: taken) (S i) r
  end.
(** 258-267: one round of the inner loop: names taken, projects left, projects done. *)
Fixpoint round (taken : list str) (pending : list (nat * str)) : list str * list (nat * str) * list (nat * str) :=
  match pending with
  | [] => (taken, [], [])
  | (i, n) :: r =>
      let n' := n ++ [95%N] in
      if has_name n' taken then let '(t, p, d) := round taken r in (t, (i, n') :: p, d)
      else let '(t, p, d) := round (n' :: taken) r in (t, p, (i, n') :: d)
  end.
(** 257-268; no result if the fuel is not enough. *)
Fixpoint rounds (fuel : nat) (taken : list str) (pending : list (nat * str)) : option (list (nat * str)) :=
  match pending with
  | [] => Some []
  | _ => match fuel with
         | O => None
         | S f => let '(t, p, d) := round taken pending in option_map (app d) (rounds f t p)
         end
  end.
Fixpoint at_index (i : nat) (l : list (nat * str)) : option str :=
  match l with [] => None | (j, n) :: r => if Nat.eqb i j then Some n else at_index i r end.
Fixpoint rename (i : nat) (names : list str) (d : list (nat * str)) : list str :=
  match names with [] => [] | n :: r => match at_index i d with Some n' => n' | None => n end :: rename (S i) r d end.

Section Order.
  (** The set of projects to rename is ordered by their addresses: any order. *)
  Variable order : list (nat * str) -> list (nat * str).
  (** The names of the sub-projects of one project. *)
  Definition unique_names (names : list str) : option (list str) :=
    let (t, p) := first_pass [] O names in
    option_map (rename O names) (rounds (length names) t (order p)).
  (** All levels (255). *)
  Fixpoint unique_tree (p : project) : option project :=
    match p with
    | Project n subs =>
        let names := map (fun q => match q with Project m _ => m end) subs in
        let subs' := (fix go (l : list project) : option (list project) :=
                        match l with [] => Some [] | q :: r => match unique_tree q, go r with Some a, Some b => Some (a :: b) | _, _ => None end end) subs in
        match unique_names names, subs' with
        | Some ns, Some ss => Some (Project n (map (fun nq => match snd nq with Project _ s => Project (fst nq) s end) (combine ns ss)))
        | _, _ => None
        end
    end.
End Order.
