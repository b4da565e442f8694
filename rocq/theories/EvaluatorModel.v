(** The evaluating of properties of items: looking them up along the
    prototypes and in the parent, the check for properties that refer to
    themselves, errors that stay pending, the cache of values, the recording
    of which module property was asked for by which other one, and the module
    properties of groups that are computed from that record.

    Code: src/lib/corelib/language/evaluator.cpp,
    src/lib/corelib/language/evaluator.h,
    src/lib/corelib/loader/productresolver.cpp,
    src/lib/corelib/loader/modulepropertymerger.cpp.

    Simplified: a value's script is a program that asks for properties of
    items and goes on with what it gets; the resolving of an identifier over a
    scope chain is a series of such questions. Values are undefined or a text;
    properties that lead to other items (the names of modules, product,
    project, outer, base, the name parent) are not asked for, the program asks
    the item they lead to. The conversion to the declared type is part of the
    program. An item's prototypes are given as a list. Scripts do not catch
    exceptions. *)

From Coq Require Import List Bool NArith Lia.
From Verif Require Import Str.
Import ListNotations.
Open Scope N_scope.
Open Scope list_scope.

Definition iid := N.
Definition name := str.
Definition qid := (str * str)%type.

Inductive val := Undef | Lit (s : str).

(** What a script does. *)
Inductive prog :=
| Ret (v : val)
| Throw
| Get (i : iid) (n : name) (k : option val -> prog).

(** language/value.h: a value, known by its address; whether it is a script or
    a stored variant; its program, given the item whose object was asked and
    the item whose object is in the scope (evaluator.cpp 836-925). *)
Record value := Value_ { vid : N; js : bool; code : iid -> iid -> prog }.

(** language/itemtype.h: the kinds of items that the evaluator tells apart. *)
Inductive kind := Instance | Placeholder | ModuleItem | Other.

(** language/item.h: kind, the module's name (the property name of the item),
    prototypes from the nearest to the farthest, parent, own properties. *)
Record item := Item_ {
  kind_of : kind;
  mod_name : str;
  protos : list iid;
  parent : option iid;
  props : list (name * value) }.

Definition world := list (iid * item).

Definition no_item : item := Item_ Other [] [] None [].

Fixpoint item_of (w : world) (i : iid) : item :=
  match w with
  | [] => no_item
  | (j, it) :: r => if N.eqb i j then it else item_of r i
  end.

(** Item::ownProperty. *)
Fixpoint own (ps : list (name * value)) (n : name) : option value :=
  match ps with
  | [] => None
  | (m, v) :: r => if str_eqb n m then Some v else own r n
  end.

Definition is_instance (k : kind) : bool :=
  match k with Instance | Placeholder => true | _ => false end.

Definition is_module (k : kind) : bool :=
  match k with ModuleItem => true | _ => false end.

(** evaluator.cpp 526-531: properties of these items are recorded. *)
Definition recorded (k : kind) : bool :=
  match k with Instance | ModuleItem => true | _ => false end.

(** evaluator.cpp 966-976, the loop over the prototypes. *)
Fixpoint search (w : world) (inst : bool) (chain : list iid) (n : name)
  : option (iid * value) :=
  match chain with
  | [] => None
  | o :: r =>
      if inst && is_module (kind_of (item_of w o)) then None
      else match own (props (item_of w o)) n with
           | Some v => Some (o, v)
           | None => search w inst r n
           end
  end.

Definition search_from (w : world) (i : iid) (n : name) : option (iid * value) :=
  search w (is_instance (kind_of (item_of w i))) (i :: protos (item_of w i)) n.

(** evaluator.cpp 1055-1062: first the item, then its parent. The result is
    the owner, the item whose object is in the scope, the value. *)
Definition find_value (w : world) (i : iid) (n : name)
  : option (iid * iid * value) :=
  match search_from w i n with
  | Some (o, v) => Some (o, i, v)
  | None =>
      match parent (item_of w i) with
      | Some p =>
          match search_from w p n with
          | Some (o, v) => Some (o, p, v)
          | None => None
          end
      | None => None
      end
  end.

(** evaluator.h 128-141, scriptengine.h m_jsError: the caches of all items,
    the pending error, the requested properties, the recorded dependencies
    (asked, asking). *)
Record state := State {
  cache : list ((iid * name) * val);
  pending : bool;
  requested : list qid;
  deps : list (qid * qid) }.

Definition empty_state : state := State [] false [] [].

Fixpoint cached (c : list ((iid * name) * val)) (i : iid) (n : name) : option val :=
  match c with
  | [] => None
  | ((j, m), v) :: r => if N.eqb i j && str_eqb n m then Some v else cached r i n
  end.

Definition put_cache (i : iid) (n : name) (v : val) (s : state) : state :=
  State (((i, n), v) :: cache s) (pending s) (requested s) (deps s).

Definition set_pending (b : bool) (s : state) : state :=
  State (cache s) b (requested s) (deps s).

(** evaluator.cpp 526-540, the pushing and recording. *)
Definition push (q : qid) (s : state) : state :=
  State (cache s) (pending s) (q :: requested s)
        (match requested s with
         | t :: _ => (q, t) :: deps s
         | [] => deps s
         end).

(** evaluator.cpp 556-558. *)
Definition pop (s : state) : state :=
  State (cache s) (pending s) (tl (requested s)) (deps s).

Definition key_eqb (a b : iid * N) : bool :=
  N.eqb (fst a) (fst b) && N.eqb (snd a) (snd b).

Inductive result := NotFound | Found (v : val) | SelfRef | OutOfFuel.
Inductive outcome := Done (v : val) | Threw | Exhausted.

(** The running of a program, given how to get a property. *)
Fixpoint run (ask : iid -> name -> state -> result * state) (p : prog)
  (s : state) : outcome * state :=
  match p with
  | Ret v => (Done v, s)
  | Throw => (Threw, s)
  | Get i n k =>
      let '(r, s1) := ask i n s in
      match r with
      | NotFound => run ask (k None) s1
      | Found v => run ask (k (Some v)) s1
      | SelfRef => (Threw, s1)
      | OutOfFuel => (Exhausted, s1)
      end
  end.

(** evaluator.cpp 588-598 with scriptengine.cpp 906-917: with a pending error
    the result is undefined; an exception becomes the pending error. *)
Definition settle (r : outcome) (s : state) : val * state :=
  if pending s then (Undef, s)
  else match r with
       | Done v => (v, s)
       | _ => (Undef, set_pending true s)
       end.

(** evaluator.cpp 954-1085. The exception thrown by the constructor of the
    stack manager leaves the pushed name on the stack of requested properties:
    the destructor does not run for it. *)
Fixpoint get (fuel : nat) (w : world) (caching : bool) (stack : list (iid * N))
  (i : iid) (n : name) (s : state) : result * state :=
  match fuel with
  | O => (OutOfFuel, s)
  | S fuel' =>
      match find_value w i n with
      | None => (NotFound, s)
      | Some (o, obj, v) =>
          let rec := js v && recorded (kind_of (item_of w o)) in
          let s1 := if rec then push (mod_name (item_of w o), n) s else s in
          if existsb (key_eqb (o, vid v)) stack then (SelfRef, s1)
          else
            match (if caching then cached (cache s1) i n else None) with
            | Some r => (Found r, if rec then pop s1 else s1)
            | None =>
                let '(out, s2) :=
                  run (get fuel' w caching ((o, vid v) :: stack)) (code v i obj) s1 in
                match out with
                | Exhausted => (OutOfFuel, s2)
                | _ =>
                    let '(r, s3) := settle out s2 in
                    let s4 := if caching then put_cache i n r s3 else s3 in
                    (Found r, if rec then pop s4 else s4)
                end
            end
      end
  end.

Inductive answer_ := Missing | Value (v : val) | Error | NoFuel.

(** Evaluator::evaluateProperty (evaluator.cpp 249-258) with
    throwOnEvaluationError: a pending error is thrown and cleared. *)
Definition evaluate (fuel : nat) (w : world) (caching : bool) (i : iid) (n : name)
  (s : state) : answer_ * state :=
  let '(r, s1) := get fuel w caching [] i n s in
  match r with
  | OutOfFuel => (NoFuel, s1)
  | SelfRef => (Error, set_pending false s1)
  | NotFound => if pending s1 then (Error, set_pending false s1) else (Missing, s1)
  | Found v => if pending s1 then (Error, set_pending false s1) else (Value v, s1)
  end.

(** All properties there are. *)
Definition keys (w : world) : list (iid * N) :=
  flat_map (fun e => map (fun p => (fst e, vid (snd p))) (props (snd e))) w.

Definition enough (w : world) : nat := S (length (keys w)).

(** A series of evaluations, each with the cache switched on or off
    (EvalCacheEnabler, evaluator.h 147-166). *)
Fixpoint evaluate_all (w : world) (qs : list (bool * (iid * name))) (s : state)
  : list answer_ * state :=
  match qs with
  | [] => ([], s)
  | (c, (i, n)) :: r =>
      let '(a, s1) := evaluate (enough w) w c i n s in
      let '(l, s2) := evaluate_all w r s1 in
      (a :: l, s2)
  end.

(** ** Changing a property *)

Fixpoint set_own (ps : list (name * value)) (n : name) (v : value)
  : list (name * value) :=
  match ps with
  | [] => [(n, v)]
  | (m, u) :: r => if str_eqb n m then (m, v) :: r else (m, u) :: set_own r n v
  end.

(** The world after Item::setProperty (item.cpp 322-329). *)
Fixpoint change (w : world) (i : iid) (n : name) (v : value) : world :=
  match w with
  | [] => []
  | (j, it) :: r =>
      if N.eqb i j
      then (j, Item_ (kind_of it) (mod_name it) (protos it) (parent it)
                     (set_own (props it) n v)) :: r
      else (j, it) :: change r i n v
  end.

(** evaluator.cpp 290-294 and 306-320: the cache of the item is dropped before
    it is used the next time. *)
Definition drop_cache (is : list iid) (s : state) : state :=
  State (filter (fun e => negb (existsb (N.eqb (fst (fst e))) is)) (cache s))
        (pending s) (requested s) (deps s).

(** Item::setProperty with the evaluator observing: only the item itself is
    invalidated. *)
Definition set_property (w : world) (i : iid) (n : name) (v : value) (s : state)
  : world * state :=
  (change w i n v, drop_cache [i] s).

(** ** Purging after the final merge *)

(** modulepropertymerger.cpp 116-134: the items that depend on changed ones,
    over the modules of the items; [mods] gives an item's modules. Simplified:
    the walk is cut after [fuel] levels instead of remembering the visited
    items; the result is whether the item is to be purged. *)
Fixpoint needs_purge (fuel : nat) (mods : iid -> list iid) (changed : list iid)
  (i : iid) : bool :=
  existsb (N.eqb i) changed
  || match fuel with
     | O => false
     | S fuel' => existsb (needs_purge fuel' mods changed) (mods i)
     end.

(** What lines 135-136 mean to do with the items found. *)
Definition purge_meant (fuel : nat) (mods : iid -> list iid) (changed : list iid)
  (all : list iid) (s : state) : state :=
  drop_cache (filter (needs_purge fuel mods changed) all) s.

(** What they do: clearCache (evaluator.cpp 296-304) asks for the pointer of
    the class that scriptengine.cpp 114 registers, but the objects are of the
    class registered in evaluator.cpp 96, so that no pointer is found. *)
Definition purge_done (fuel : nat) (mods : iid -> list iid) (changed : list iid)
  (all : list iid) (s : state) : state := s.

(** ** Module properties of products and groups *)

(** A module of a product or group: its name and its instance. *)
Definition modules := list (str * iid).

Definition qid_eqb (a b : qid) : bool :=
  str_eqb (fst a) (fst b) && str_eqb (snd a) (snd b).

(** A map from full property names to values (QVariantMap of maps). *)
Fixpoint lookup_q (m : list (qid * val)) (q : qid) : option val :=
  match m with
  | [] => None
  | (p, v) :: r => if qid_eqb q p then Some v else lookup_q r q
  end.

(** productresolver.cpp 1614-1630 with 1639-1700, for a list of properties of
    one module: an error ends it. [names] are those of the module's instance
    and its prototypes. *)
Fixpoint evaluate_props (w : world) (m : str) (i : iid) (names : list name)
  (s : state) : option (list (qid * val)) * state :=
  match names with
  | [] => (Some [], s)
  | n :: r =>
      let '(a, s1) := evaluate (enough w) w true i n s in
      match a with
      | Value v =>
          let '(l, s2) := evaluate_props w m i r s1 in
          (match l with Some l => Some (((m, n), v) :: l) | None => None end, s2)
      | _ => (None, s1)
      end
  end.

(** productresolver.cpp 697-705, createProductConfig: all properties of all
    modules. *)
Fixpoint evaluate_modules (w : world) (ms : list (str * iid * list name)) (s : state)
  : option (list (qid * val)) * state :=
  match ms with
  | [] => (Some [], s)
  | (m, i, ns) :: r =>
      let '(l, s1) := evaluate_props w m i ns s in
      match l with
      | None => (None, s1)
      | Some l =>
          let '(k, s2) := evaluate_modules w r s1 in
          (match k with Some k => Some (l ++ k) | None => None end, s2)
      end
  end.

(** productresolver.cpp 548: clearPropertyDependencies; the caches stay. *)
Definition start_stage2 (s : state) : state :=
  State (cache s) (pending s) (requested s) [].

(** productresolver.cpp 931-945, propertiesToEvaluate. *)
Fixpoint to_evaluate (fuel : nat) (queue : list qid) (ds : list (qid * qid))
  (all : list qid) : option (list qid) :=
  match queue with
  | [] => Some all
  | q :: r =>
      match fuel with
      | O => None
      | S fuel' =>
          if existsb (qid_eqb q) all then to_evaluate fuel' r ds all
          else to_evaluate fuel'
                 (r ++ map snd (filter (fun d => qid_eqb q (fst d)) ds)) ds (q :: all)
      end
  end.

Definition queue_enough (set : list qid) (ds : list (qid * qid)) : nat :=
  (length set + length ds)%nat.

(** productresolver.cpp 975-990: the properties to evaluate are evaluated with
    the group's instances, the others are taken from the map of the product
    (or the enclosing group). *)
Fixpoint group_modules (w : world) (ms : list (str * iid * list name))
  (todo : list qid) (current : list (qid * val)) (s : state)
  : option (list (qid * val)) * state :=
  match ms with
  | [] => (Some current, s)
  | (m, i, ns) :: r =>
      let '(l, s1) :=
        evaluate_props w m i (filter (fun n => existsb (qid_eqb (m, n)) todo) ns) s in
      match l with
      | None => (None, s1)
      | Some l => group_modules w r todo (l ++ current) s1
      end
  end.

(** productresolver.cpp 947-991, resolveAdditionalModuleProperties. *)
Definition group_map (w : world) (ms : list (str * iid * list name))
  (set : list qid) (current : list (qid * val)) (s : state)
  : option (list (qid * val)) * state :=
  match to_evaluate (queue_enough set (deps s)) set (deps s) [] with
  | None => (None, s)
  | Some todo => group_modules w ms todo current s
  end.
