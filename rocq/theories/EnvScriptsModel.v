(** The scripts of modules that set up the environment for building a product
    or for running its program.

    Code: src/lib/corelib/buildgraph/environmentscriptrunner.cpp 64-225, with
    src/lib/corelib/loader/productresolver.cpp 1215-1254 for the modules.

    The modules of a product are a list; a module is a position in it, as the
    code works with pointers. What a script does to the environment is an input:
    [None] is an exception. Not modelled: the scope that a script sees. *)

From Coq Require Import List Bool Arith.
From Verif Require Import Str.
Import ListNotations.

Record module := AModule {
  m_name : option str;     (* ResolvedModule::name; None: the null string *)
  m_deps : list str;       (* ResolvedModule::moduleDependencies *)
  m_script : bool          (* there is a script of the wanted kind *) }.

(** QString: the null string compares equal to the empty one. *)
Definition text (n : option str) : str := match n with Some s => s | None => [] end.

(** environmentscriptrunner.cpp 133-135: moduleMap; a later module replaces an
    earlier one of the same name. *)
Fixpoint find_module (n : str) (i : nat) (ms : list module) : option nat :=
  match ms with
  | [] => None
  | m :: r =>
      match find_module n (S i) r with
      | Some j => Some j
      | None => if str_eqb (text (m_name m)) n then Some i else None
      end
  end.

Fixpoint all_some {X} (l : list (option X)) : option (list X) :=
  match l with
  | [] => Some []
  | Some x :: r => match all_some r with Some y => Some (x :: y) | None => None end
  | None :: _ => None
  end.

(** environmentscriptrunner.cpp 137-146: moduleChildren. [None]: the assertion
    that each dependency is there fails. *)
Definition children_of (ms : list module) : option (list (list nat)) :=
  all_some (List.map (fun m => all_some (List.map (fun n => find_module n 0 ms) (m_deps m))) ms).

(** environmentscriptrunner.cpp 148-154: those that are nobody's child. *)
Definition roots (children : list (list nat)) : list nat :=
  filter (fun i => negb (existsb (fun l => existsb (Nat.eqb i) l) children))
         (seq 0 (length children)).

Definition memS (s : str) (l : list str) : bool := existsb (str_eqb s) l.

(** environmentscriptrunner.cpp 83-97: topSortModules. The first argument bounds
    the depth; [None]: not enough. *)
Fixpoint top_sort (fuel : nat) (ms : list module) (children : list (list nat))
  (l : list nat) (seen : list str) : option (list nat * list str) :=
  match fuel with
  | 0 => None
  | S f =>
      (fix go (l : list nat) (seen : list str) : option (list nat * list str) :=
         match l with
         | [] => Some ([], seen)
         | i :: r =>
             match nth_error ms i with
             | None => go r seen
             | Some m =>
                 match m_name m with
                 | None => go r seen
                 | Some n =>
                     match top_sort f ms children (nth i children []) seen with
                     | None => None
                     | Some (a, seen1) =>
                         let '(b, seen2) :=
                           if memS n seen1 then ([], seen1) else ([i], n :: seen1) in
                         match go r seen2 with
                         | None => None
                         | Some (c, seen3) => Some (a ++ b ++ c, seen3)
                         end
                     end
                 end
             end
         end) l seen
  end.

Section Run.
Context {env : Type}.

(** What the script of a module does to the environment. *)
Variable effect : nat -> env -> option env.

(** environmentscriptrunner.cpp 165-205. *)
Fixpoint run_scripts (ms : list module) (order : list nat) (e : env) : option env :=
  match order with
  | [] => Some e
  | i :: r =>
      match nth_error ms i with
      | Some m =>
          if m_script m
          then match effect i e with Some e' => run_scripts ms r e' | None => None end
          else run_scripts ms r e
      | None => run_scripts ms r e
      end
  end.

Inductive result :=
| Unchanged            (* the product's environment stays as it is *)
| Set_to (e : env)
| Error                (* an exception in a script *)
| Endless.

(** environmentscriptrunner.cpp 124-212. *)
Definition setup (fuel : nat) (ms : list module) (e : env) : result :=
  if negb (existsb m_script ms) then Unchanged
  else
    match children_of ms with
    | None => Unchanged
    | Some children =>
        match top_sort fuel ms children (roots children) [] with
        | None => Endless
        | Some (order, _) =>
            match run_scripts ms order e with
            | Some e' => Set_to e'
            | None => Error
            end
        end
    end.

End Run.
