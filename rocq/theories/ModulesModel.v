(** Model of how the modules of a product are loaded: loader/dependenciesresolver.cpp 220-700 and
    1006-1052 (the Depends items of the product and, transitively, of its modules),
    loader/moduleloader.cpp 113-225 (which of several module files is taken) and
    loader/productresolver.cpp 231-416 (probes, version check, validation, presence).

    Simplified: one product; Depends items come evaluated and multiplexed, in the order in which they
    are handled (dependenciesresolver.cpp 700-1000); the [qbs] base module, which every module gets and
    which has no dependencies, is left out; a dependency on a product is a dependency on the module
    that its Export item makes up, and is never deferred (the products are taken to be ready);
    several variants of a multiplexed product are different names. *)
From Coq Require Import List Bool Arith ZArith.
From Verif Require Import VersionModel.
Import ListNotations.
Local Open Scope nat_scope.

(** language/qualifiedid.h: the parts of a dotted name; a number stands for a part. *)
Definition name := list nat.
Definition name_eqb (a b : name) : bool := if list_eq_dec Nat.eq_dec a b then true else false.

(** FullyResolvedDependsItem, dependenciesresolver.cpp 99-127: [requiredLocally] is [d_required]. *)
Record dep := { d_name : name; d_range : range; d_required : bool; d_minimal : bool }.

(** What a module brings along: its Depends items, its version, whether its probes run and whether
    its validate script runs without an error. *)
Record desc := { k_deps : list dep; k_version : version; k_probes : bool; k_valid : bool }.

(** An entry of the list of modules of a module: name and [required] (dependenciesresolver.cpp 1047). *)
Record local := { l_name : name; l_required : bool }.

(** Item::Module, language/item.h 85-117, for the list of the product.  [m_loaders] are the loading
    items of [loadContexts], [None] being the product; [m_locals] is the module item's own list;
    [m_present] is [Item::isPresentModule].  [m_desc] is [None] for a non-present module that was
    created because nothing was found. *)
Record modul := { m_name : name; m_desc : option desc; m_range : range; m_required : bool;
  m_minimal : bool; m_chain : nat; m_loaders : list (option name); m_locals : list local;
  m_present : bool }.

(** DependenciesResolvingState, dependenciesresolver.cpp 129-140. *)
Record frame := { f_item : option name; f_global : bool; f_pending : list dep }.
Record state := { stack : list frame; mods : list modul }.

Inductive err := ENotFound (n : name) | EDisabled (n : name) | ECycle (n : name) | EPrefix (n : name).
Inductive next := Next (s : state) | Done (ms : list modul) | Failed (e : err).

Definition item_eqb (a b : option name) : bool :=
  match a, b with
  | None, None => true
  | Some x, Some y => name_eqb x y
  | _, _ => false
  end.

(** findExistingModule, dependenciesresolver.cpp 519-542. *)
Definition find_mod (n : name) (ms : list modul) : option modul :=
  find (fun m => name_eqb (m_name m) n) ms.
Definition on_mod (n : name) (f : modul -> modul) (ms : list modul) : list modul :=
  map (fun m => if name_eqb (m_name m) n then f m else m) ms.

(** checkForModuleNamePrefixCollision, 1006-1039. *)
Fixpoint is_prefix (a b : name) : bool :=
  match a, b with
  | [], _ => true
  | x :: a', y :: b' => Nat.eqb x y && is_prefix a' b'
  | _ :: _, [] => false
  end.
Definition collides (n : name) (ms : list modul) : bool :=
  existsb (fun m =>
    if length (m_name m) =? length n then false
    else if length (m_name m) <? length n then is_prefix (m_name m) n
    else is_prefix n (m_name m)) ms.

(** updateModule, 544-553, and the load context, 424-434. *)
Definition update_module (from : option name) (d : dep) (g : bool) (len : nat) (m : modul) : modul :=
  {| m_name := m_name m; m_desc := m_desc m; m_range := narrow_down (m_range m) (d_range d);
     m_required := m_required m || g; m_minimal := m_minimal m && d_minimal d;
     m_chain := if m_chain m <? len then len else m_chain m;
     m_loaders := if existsb (item_eqb from) (m_loaders m) then m_loaders m else m_loaders m ++ [from];
     m_locals := m_locals m; m_present := m_present m |}.

(** addLocalModule, 491-496. *)
Definition add_local (from : option name) (d : dep) (ms : list modul) : list modul :=
  match from with
  | None => ms
  | Some n => on_mod n (fun m =>
      if existsb (fun l => name_eqb (l_name l) (d_name d)) (m_locals m) then m
      else {| m_name := m_name m; m_desc := m_desc m; m_range := m_range m; m_required := m_required m;
              m_minimal := m_minimal m; m_chain := m_chain m; m_loaders := m_loaders m;
              m_locals := m_locals m ++ [{| l_name := d_name d; l_required := d_required d |}];
              m_present := m_present m |}) ms
  end.

(** The module's entry in the product's list, 506-514. *)
Definition new_module (from : option name) (d : dep) (g : bool) (len : nat) (k : option desc) : modul :=
  {| m_name := d_name d; m_desc := k; m_range := d_range d; m_required := g; m_minimal := d_minimal d;
     m_chain := len; m_loaders := [from]; m_locals := [];
     m_present := match k with Some _ => true | None => false end |}.

(** 274-286: a module that is done moves to the end of the list.  The names in the list are unique. *)
Definition move_to_end (n : name) (ms : list modul) : list modul :=
  match find_mod n ms with
  | Some m => filter (fun x => negb (name_eqb (m_name x) n)) ms ++ [m]
  | None => ms
  end.

Section Loading.
  (** The name stands for a product that is disabled or that does not exist for the profile
      (findMatchingProduct, 560-575; 583-597; checkProductDependency, 647-660). *)
  Variable faulty : name -> bool.
  (** Otherwise, the product's Export item or the module that is found; with several module files,
      the version range of the Depends item that asks first matters (moduleloader.cpp 193-221). *)
  Variable look : name -> range -> option desc.

  (** One round of the loops of [resolve], 220-290, and [handleResolvedDependencies], 311-388.  The first
      error ends the model's run; the code goes on with the other Depends items of the product only
      to report further errors. *)
  Definition step (s : state) : next :=
    match stack s with
    | [] => Done (mods s)
    | f :: rest =>
        match f_pending f with
        | [] => Next {| stack := rest;
                        mods := match f_item f with Some n => move_to_end n (mods s) | None => mods s end |}
        | d :: ds =>
            let f' := {| f_item := f_item f; f_global := f_global f; f_pending := ds |} in
            let g := d_required d && f_global f in
            let len := length (stack s) in
            match find_mod (d_name d) (mods s) with
            | Some _ =>
                if existsb (fun x => item_eqb (f_item x) (Some (d_name d))) (stack s) then Failed (ECycle (d_name d))
                else if collides (d_name d) (mods s) then Failed (EPrefix (d_name d))
                else Next {| stack := f' :: rest;
                             mods := add_local (f_item f) d
                                       (on_mod (d_name d) (update_module (f_item f) d g len) (mods s)) |}
            | None =>
                let use (k : option desc) :=
                  if collides (d_name d) (mods s) then Failed (EPrefix (d_name d))
                  else Next {| stack := {| f_item := Some (d_name d); f_global := g;
                                           f_pending := match k with Some k => k_deps k | None => [] end |}
                                         :: f' :: rest;
                               mods := add_local (f_item f) d
                                         (mods s ++ [new_module (f_item f) d g len k]) |} in
                if faulty (d_name d) then
                  if g then Failed (EDisabled (d_name d)) else Next {| stack := f' :: rest; mods := mods s |}
                else match look (d_name d) (d_range d) with
                     | Some k => use (Some k)
                     | None => if g then Failed (ENotFound (d_name d)) else use None
                     end
            end
        end
    end.

  Fixpoint run (fuel : nat) (s : state) : option (list modul + err) :=
    match fuel with
    | 0 => None
    | S fuel => match step s with
                | Next s' => run fuel s'
                | Done ms => Some (inl ms)
                | Failed e => Some (inr e)
                end
    end.

  (** DependenciesContextImpl, 1143-1154: the first state is the product's. *)
  Definition start (deps : list dep) : state :=
    {| stack := [{| f_item := None; f_global := true; f_pending := deps |}]; mods := [] |}.
  Definition load (fuel : nat) (deps : list dep) := run fuel (start deps).
End Loading.

(** createNonPresentModule for an existing item, language/item.cpp 547-560. *)
Definition set_absent (m : modul) : modul :=
  {| m_name := m_name m; m_desc := m_desc m; m_range := m_range m; m_required := m_required m;
     m_minimal := m_minimal m; m_chain := m_chain m; m_loaders := m_loaders m; m_locals := m_locals m;
     m_present := false |}.

Definition present_in (ms : list modul) (n : name) : bool :=
  match find_mod n ms with Some m => m_present m | None => false end.

(** runModuleProbes, productresolver.cpp 309-350: [None] is an error of the product.  (The case that an
    exporting product has become disabled in the meantime, 313-319, is left out.) *)
Definition probe_one (m : modul) : option modul :=
  if m_present m then
    match m_desc m with
    | None => Some m
    | Some k => if k_probes k && range_ok (m_range m) (k_version k) then Some m
                else if m_required m then None else Some (set_absent m)
    end
  else Some m.
Fixpoint probe (ms : list modul) : option (list modul) :=
  match ms with
  | [] => Some []
  | m :: t => match probe_one m with
              | None => None
              | Some m' => match probe t with None => None | Some t' => Some (m' :: t') end
              end
  end.

(** validateModule, 382-402, for the modules in the order of the list, 253-258. *)
Definition valid_one (all : list modul) (m : modul) : bool :=
  match m_desc m with Some k => k_valid k | None => true end
  && forallb (fun l => negb (l_required l && negb (present_in all (l_name l)))) (m_locals m).
Fixpoint validate (done todo : list modul) : option (list modul) :=
  match todo with
  | [] => Some done
  | m :: t =>
      if m_present m && negb (valid_one (done ++ m :: t) m)
      then if m_required m then None else validate (done ++ [set_absent m]) t
      else validate (done ++ [m]) t
  end.

(** updateModulePresentState, 352-380, in the reverse order, 263-264.  (An exporting product that has
    become disabled in the meantime, 368-372, is left out.) *)
Definition supported (all : list modul) (m : modul) : bool :=
  existsb (fun l => match l with None => true | Some n => present_in all n end) (m_loaders m).
Fixpoint prune (rtodo after : list modul) : list modul :=
  match rtodo with
  | [] => after
  | m :: t =>
      let m' := if m_present m && negb (supported (rev t ++ m :: after) m) then set_absent m else m in
      prune t (m' :: after)
  end.

(** ProductResolverStage1::start, 231-267. *)
Inductive outcome := Modules (ms : list modul) | LoadError (e : err) | SetupError | OutOfFuel.
Definition setup (ms : list modul) : option (list modul) :=
  match probe ms with
  | None => None
  | Some ms => match validate [] ms with None => None | Some ms => Some (prune (rev ms) []) end
  end.
Definition resolve (faulty : name -> bool) (look : name -> range -> option desc) (fuel : nat) (deps : list dep) : outcome :=
  match load faulty look fuel deps with
  | None => OutOfFuel
  | Some (inr e) => LoadError e
  | Some (inl ms) => match setup ms with None => SetupError | Some ms => Modules ms end
  end.

(** moduleloader.cpp 105-221: the module files that are enabled, with their priority, the index of
    the search path and their version. *)
Record cand := { c_item : nat; c_priority : Z; c_index : nat; c_version : version }.
(** chooseModuleCandidate's comparison, 119-127; [fulfils] is [fulfillsVersionRequirement]. *)
Definition cand_lt (r : range) (a b : cand) : bool :=
  let fa := candidate_ok r (c_version a) in
  let fb := candidate_ok r (c_version b) in
  if negb (Bool.eqb fa fb) then fb
  else if (c_priority a <? c_priority b)%Z then true
  else if (c_priority b <? c_priority a)%Z then false
  else c_index b <? c_index a.
(** std::max_element. *)
Fixpoint max_cand (r : range) (best : cand) (cs : list cand) : cand :=
  match cs with
  | [] => best
  | c :: t => max_cand r (if cand_lt r best c then c else best) t
  end.
Inductive choice := NoFile | File (c : cand) | Ambiguous.
Definition same_rank (r : range) (a b : cand) : bool :=
  (c_priority a =? c_priority b)%Z && (c_index a =? c_index b)
  && Bool.eqb (candidate_ok r (c_version a)) (candidate_ok r (c_version b)).
Definition choose (r : range) (cs : list cand) : choice :=
  match cs with
  | [] => NoFile
  | [c] => File c
  | c :: t => let best := max_cand r c t in
              if 1 <? length (filter (fun x => same_rank r x best) cs) then Ambiguous else File best
  end.
