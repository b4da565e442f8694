(** The job limits of a product: JobLimit items in products, projects and modules, and the option --job-limits.
    src/lib/corelib/loader/loaderutils.cpp, productresolver.cpp, projectresolver.cpp,
    src/app/qbs/parser/commandlineoption.cpp. *)
From Coq Require Import List Bool NArith ZArith.
From Verif Require Import Str JobLimitsModel.
Import ListNotations.
Local Open Scope Z_scope.

(** A JobLimit item, evaluated; jobCount is an int and need not be set. *)
Record limit_item := { li_condition : bool; li_pool : str; li_count : option Z }.

(** loaderutils.cpp 785-814: resolveJobLimit; no result is an error. *)
Definition resolve_item (ls : limits) (it : limit_item) : option limits :=
  if negb (li_condition it) then Some ls
  else match li_pool it with
       | [] => None
       | _ =>
           match li_count it with
           | None => None
           | Some n =>
               if n <? 0 then None
               else let old := get_limit ls (li_pool it) in
                    if (old =? -1) || (n <? old) then Some (set_limit ls (job_limit (li_pool it) n)) else Some ls
           end
       end.
Fixpoint resolve_items (ls : limits) (its : list limit_item) : option limits :=
  match its with
  | [] => Some ls
  | it :: r => match resolve_item ls it with Some ls' => resolve_items ls' r | None => None end
  end.

(** productresolver.cpp 1276-1281: the end of resolveModule. *)
Definition merge_module (acc ls : limits) : limits :=
  fold_left (fun acc l => let old := get_limit acc (fst l) in if (old =? -1) || (snd l <? old) then set_limit acc l else acc) ls acc.
(** 1213-1223: resolveModules; a module that is not present has no effect (1228-1229). *)
Fixpoint resolve_mods (acc : limits) (mods : list (bool * list limit_item)) : option limits :=
  match mods with
  | [] => Some acc
  | (present, its) :: r =>
      if present then match resolve_items [] its with Some ls => resolve_mods (merge_module acc ls) r | None => None end
      else resolve_mods acc r
  end.
Definition add_missing (ls mods : limits) : limits :=
  fold_left (fun acc l => if get_limit acc (fst l) =? -1 then set_limit acc l else acc) mods ls.
(** projectresolver.cpp 373-394, for the project of the product and its parents, innermost first. *)
Fixpoint resolve_projects (ps : list (list limit_item)) : option (list limits) :=
  match ps with
  | [] => Some []
  | p :: r => match resolve_items [] p, resolve_projects r with Some a, Some b => Some (a :: b) | _, _ => None end
  end.
(** productresolver.cpp 655-685. *)
Definition product_limits (product : list limit_item) (projects : list (list limit_item)) (mods : list (bool * list limit_item)) : option limits :=
  match resolve_items [] product, resolve_projects projects, resolve_mods [] mods with
  | Some p, Some ps, Some ms => Some (add_missing (fold_left (fun acc q => update q acc) ps p) ms)
  | _, _, _ => None
  end.

(** ** The option *)
(** QString::split and indexOf. *)
Fixpoint split_at (c : N) (s : str) : list str :=
  match s with
  | [] => [[]]
  | x :: r => if N.eqb x c then [] :: split_at c r else match split_at c r with w :: ws => (x :: w) :: ws | [] => [[x]] end
  end.
Fixpoint cut (c : N) (s : str) : option (str * str) :=
  match s with
  | [] => None
  | x :: r => if N.eqb x c then Some ([], r) else option_map (fun ab => (x :: fst ab, snd ab)) (cut c r)
  end.
Section Option.
  (** QString::toInt. *)
  Variable to_int : str -> option Z.
  (** commandlineoption.cpp 606-625. *)
  Fixpoint parse_limits (ls : limits) (ws : list str) : option limits :=
    match ws with
    | [] => Some ls
    | w :: r =>
        match cut 58 w with
        | Some ((_ :: _) as pool, (_ :: _) as n) =>
            match to_int n with Some z => parse_limits (set_limit ls (job_limit pool z)) r | None => None end
        | _ => None
        end
    end.
  (** The option may be given several times. *)
  Definition parse_option (ls : limits) (s : str) : option limits := parse_limits ls (split_at 44 s).
End Option.
