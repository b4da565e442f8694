(** Values of module properties: how the values from the profile, the command line, the product and other modules are merged
    (loader/modulepropertymerger.cpp, language/value.cpp), what they evaluate to (language/evaluator.cpp, class ValueEvaluator),
    and how values are marked with where they come from (language/value.cpp, language/item.cpp, loader/moduleloader.cpp). *)
From Coq Require Import List Bool Arith ZArith NArith.
From Verif Require Import Str.
Import ListNotations.

(** ** Merging *)

(** The scope of a value: the item whose property binding it is.  Groups are not modelled. *)
Inductive scope := NoScope | OfProduct | OfModule (m : N).
Inductive kind := Source | Variant.
(** language/value.h 78-153.  [v_id] stands for the address, [v_prio] for m_priority (None for -1), [v_code] for the source code.
    Candidates are in [prop]: a value that is a candidate itself has none. *)
Record value := mkValue { v_id : N; v_kind : kind; v_profile : bool; v_cmd : bool; v_scope : scope; v_name : str; v_code : str; v_prio : option Z }.
(** What priorities depend on: which modules are present, and the modules of the product with maxDependsChainLength. *)
Record env := mkEnv { e_present : N -> bool; e_modules : list (N * nat) }.
(** A property of a module instance: the value and its candidates. *)
Record prop := mkProp { p_main : value; p_cands : list value }.

Definition int_max : Z := 2147483647.
(** value.cpp 111-114 setInternally. *)
Definition internal (v : value) : bool := match v_kind v with Variant => negb (v_profile v) && negb (v_cmd v) | Source => false end.
(** value.cpp 73-92 calculatePriority; None: the check fails. *)
Definition calculate (e : env) (v : value) : option Z :=
  if internal v then Some int_max
  else if v_cmd v then Some (int_max - 1)%Z
  else if v_profile v then Some 2%Z
  else match v_scope v with
       | NoScope => Some 1%Z
       | OfProduct => Some (int_max - 2)%Z
       | OfModule m =>
           if negb (e_present e m) then Some 0%Z
           else match find (fun x => N.eqb (fst x) m) (e_modules e) with Some x => Some (int_max - 3 - Z.of_nat (snd x))%Z | None => None end
       end.
Definition with_prio (v : value) (p : option Z) : value := mkValue (v_id v) (v_kind v) (v_profile v) (v_cmd v) (v_scope v) (v_name v) (v_code v) p.
Definition with_scope (v : value) (s : scope) (name : str) : value := mkValue (v_id v) (v_kind v) (v_profile v) (v_cmd v) s name (v_code v) (v_prio v).
(** value.cpp 66-71 priority: it is calculated once and remembered. *)
Definition priority (e : env) (v : value) : option (Z * value) :=
  match v_prio v with
  | Some p => Some (p, v)
  | None => match calculate e v with Some p => Some (p, with_prio v (Some p)) | None => None end
  end.
(** QString::compare. *)
Fixpoint str_compare (a b : str) : comparison :=
  match a, b with
  | [], [] => Eq
  | [], _ => Lt
  | _, [] => Gt
  | x :: a, y :: b => match N.compare x y with Eq => str_compare a b | c => c end
  end.
Definition scope_eqb (a b : scope) : bool :=
  match a, b with NoScope, NoScope => true | OfProduct, OfProduct => true | OfModule m, OfModule n => N.eqb m n | _, _ => false end.
Definition is_source (v : value) : bool := match v_kind v with Source => true | Variant => false end.
(** modulepropertymerger.cpp 139-154 compareValuePriorities, on values with known priorities. Equal names: the check fails. *)
Definition compare (p1 : Z) (v1 : value) (p2 : Z) (v2 : value) : option comparison :=
  if N.eqb (v_id v1) (v_id v2) || scope_eqb (v_scope v1) (v_scope v2) || negb (is_source v1 || is_source v2) then None
  else match Z.compare p1 p2 with
       | Eq => match str_compare (v_name v1) (v_name v2) with Eq => None | c => Some c end
       | c => Some c
       end.
(** 156-205 mergePropertyFromLocalInstance, for a declared property that is not deprecated, set in a product or a module; None: a check fails. *)
Definition merge (e : env) (s : scope) (name : str) (p : prop) (v : value) : option prop :=
  if internal v then Some (mkProp v [])
  else
    let v := with_scope v s name in
    if internal (p_main p) || v_cmd (p_main p) then Some p
    else if negb (is_source v) then None
    else match priority e (p_main p), priority e v with
         | Some (p1, main), Some (p2, v) =>
             if Z.eqb p1 0 || Z.eqb p2 0 then None
             else match compare p1 main p2 v with
                  | None => None
                  | Some Lt => Some (mkProp v (p_cands p ++ [main]))
                  | Some _ => Some (mkProp main (p_cands p ++ [v]))
                  end
         | _, _ => None
         end.

(** 226-244: the values with the highest priority, in the order in which they are found. *)
Fixpoint highest (best : Z) (acc : list value) (l : list (Z * value)) : list value :=
  match l with
  | [] => acc
  | (p, v) :: l =>
      if Z.ltb p best then highest best acc l
      else if Z.ltb best p then highest p [v] l
      else highest best (acc ++ [v]) l
  end.
Fixpoint remove_value (id : N) (l : list value) : list value :=
  match l with [] => [] | v :: l => if N.eqb (v_id v) id then l else v :: remove_value id l end.
Fixpoint all_some {A} (l : list (option A)) : option (list A) :=
  match l with
  | [] => Some []
  | Some a :: l => match all_some l with Some l => Some (a :: l) | None => None end
  | None :: _ => None
  end.
(** 278-288: the order in which the candidates are sorted, std::sort.  All keys are different if no check fails, so that there is only one result; the model's
    algorithm is insertion, and it fails if any two of the values cannot be compared. *)
Fixpoint insert_value (x : Z * value) (l : list (Z * value)) : list (Z * value) :=
  match l with
  | [] => [x]
  | y :: l' => match compare (fst x) (snd x) (fst y) (snd y) with Some Gt => x :: l | _ => y :: insert_value x l' end
  end.
Definition sort_values (l : list (Z * value)) : list (Z * value) := fold_right insert_value [] l.
Fixpoint comparable (l : list (Z * value)) : bool :=
  match l with
  | [] => true
  | x :: l => forallb (fun y => match compare (fst x) (snd x) (fst y) (snd y) with Some _ => true | None => false end) l && comparable l
  end.
Definition calculated (e : env) (v : value) : option (Z * value) := match calculate e v with Some p => Some (p, with_prio v (Some p)) | None => None end.
(** 219-276, 278-289 doFinalMerge, finalizeCandidates, for a declared property.  The second result: the warning about conflicting scalar values is printed. *)
Definition final (e : env) (scalar : bool) (p : prop) : option (prop * bool) :=
  if negb (is_source (p_main p)) then Some (p, false)
  else match p_cands p with
       | [] => Some (mkProp (with_prio (p_main p) None) [], false)
       | _ =>
           match all_some (map (calculated e) (p_main p :: p_cands p)) with
           | None => None
           | Some [] => None
           | Some ((p0, main) :: rest) =>
               match highest p0 [main] rest with
               | [] => None
               | chosen :: others =>
                   let warn := scalar && existsb (fun v => negb (str_eqb (v_code v) (v_code chosen))) others in
                   let cands := if N.eqb (v_id chosen) (v_id main) then map snd rest else remove_value (v_id chosen) (map snd rest) ++ [main] in
                   let keyed := flat_map (fun v => match v_prio v with Some q => if Z.eqb q 0 then [] else [(q, v)] | None => [] end) cands in
                   if comparable keyed then Some (mkProp chosen (map snd (sort_values keyed)), warn) else None
               end
           end
       end.

(** ** Evaluation *)

(** Results of scripts: JS_UNINITIALIZED, undefined, an array, anything else.  Errors are not modelled. *)
Inductive js := Uninit | Undef | Arr (l : list N) | One (n : N).
(** A binding in a Properties item, as evaluated: value.h 183-208. *)
Record alternative := mkAlt { a_fallback : bool; a_condition : bool; a_override : bool; a_value : js }.
(** JSSourceValue, as evaluated.  [s_exclusive]: isExclusiveListValue. *)
Record source := mkSource { s_alternatives : list alternative; s_value : js; s_from_properties : bool; s_exclusive : bool }.

(** value.cpp 172-180 addAlternative; None: the check fails. *)
Fixpoint add_alternative (l : list alternative) (a : alternative) : option (list alternative) :=
  match l with
  | [] => Some [a]
  | [x] => if a_fallback x then if a_fallback a then None else Some [a; x] else Some [x; a]
  | x :: l => match add_alternative l a with Some l => Some (x :: l) | None => None end
  end.
(** evaluator.cpp 720-739 mergeValues. *)
Definition elements (v : js) : list N := match v with Arr l => l | One n => [n] | Undef | Uninit => [] end.
Definition merge_values (l : list js) : js := Arr (flat_map elements l).
Definition defined (v : js) : bool := match v with Uninit | Undef => false | _ => true end.
(** 741-789 handleAlternatives, with 842-919: the value of a scalar property, or the values to be put together, and whether the value is now exclusive. *)
Fixpoint alternatives (scalar : bool) (l : list alternative) (lst : list js) (exclusive : bool) : option js * list js * bool :=
  match l with
  | [] => (None, lst, exclusive)
  | a :: l =>
      if a_fallback a && negb (match lst with [] => true | _ => false end) then (None, lst, exclusive)
      else if negb (a_fallback a || a_condition a) then alternatives scalar l lst exclusive
      else
        let exclusive := exclusive || a_override a in
        match a_value a with
        | Uninit => alternatives scalar l lst exclusive
        | v => if scalar then (Some v, lst, exclusive) else alternatives scalar l (if defined v then lst ++ [v] else lst) exclusive
        end
  end.
Definition handle_alternatives (scalar : bool) (s : source) : js * bool :=
  match alternatives scalar (s_alternatives s) [] (s_exclusive s) with
  | (Some v, _, exclusive) => (v, exclusive)
  | (None, lst, exclusive) =>
      if (match lst with [] => true | _ => false end) || negb (s_from_properties s) then
        if scalar then (s_value s, exclusive)
        else
          let lst := if defined (s_value s) then lst ++ [s_value s] else lst in
          (match lst with [] => Uninit | _ => merge_values lst end, exclusive)
      else (merge_values lst, exclusive)
  end.
(** What a candidate evaluates to: 814-836, 926-931, for a value without candidates. *)
Inductive content := FromSource (s : source) | FromVariant (v : js).
Definition uninit (v : js) : bool := match v with Uninit => true | _ => false end.
Definition candidate_value (scalar : bool) (c : content) : js := match c with FromSource s => fst (handle_alternatives scalar s) | FromVariant v => v end.
Fixpoint first_init (l : list js) : js := match l with [] => Uninit | v :: l => if uninit v then first_init l else v end.
(** 791-812 mergeWithCandidates, 814-836 doHandle, and 586-595 eval with the conversion of lists.  Conversions of other types and of paths are not modelled. *)
Definition merge_with_candidates (result : js) (cands : list js) : js :=
  match cands with
  | [] => result
  | _ =>
      let lst := (if defined result then [result] else []) ++ filter defined cands in
      match lst with [] => result | _ => merge_values lst end
  end.
(** 344-479 convertToPropertyType, for values of the right type. *)
Definition convert (scalar : bool) (v : js) : js :=
  match v with Uninit | Undef => Undef | _ => if scalar then v else Arr (elements v) end.
Definition evaluate (scalar : bool) (main : content) (cands : list content) : js * content :=
  match main with
  | FromVariant v => (convert scalar v, main)
  | FromSource s =>
      let (result, exclusive) := handle_alternatives scalar s in
      let result :=
        if negb (uninit result) && exclusive then result
        else if scalar then
          if negb (uninit result) || negb (s_from_properties s) then result else first_init (map (candidate_value scalar) cands)
        else merge_with_candidates result (map (candidate_value scalar) cands) in
      (convert scalar result, FromSource (mkSource (s_alternatives s) (s_value s) (s_from_properties s) exclusive))
  end.

(** ** Where values come from *)

(** value.cpp 238-281: values made from true, false and invalid variants are shared, all others are new objects. *)
Inductive variant := VTrue | VFalse | VInvalid | VOther (n : N).
Inductive ref := RTrue | RFalse | RInvalid | RNew (n : nat).
Record flags := mkFlags { f_profile : bool; f_cmd : bool }.
(** Flags of all objects, the number of objects made, and the properties of module prototypes and instances, by number. *)
Record heap := mkHeap { h_flags : ref -> flags; h_next : nat; h_props : N -> option (variant * ref) }.
Definition ref_eqb (a b : ref) : bool :=
  match a, b with RTrue, RTrue => true | RFalse, RFalse => true | RInvalid, RInvalid => true | RNew m, RNew n => Nat.eqb m n | _, _ => false end.
Definition set_flags (h : heap) (r : ref) (f : flags) : heap := mkHeap (fun r' => if ref_eqb r' r then f else h_flags h r') (h_next h) (h_props h).
Definition set_prop (h : heap) (n : N) (x : variant * ref) : heap := mkHeap (h_flags h) (h_next h) (fun n' => if N.eqb n' n then Some x else h_props h n').
Definition new_ref (h : heap) (f : flags) : ref * heap := (RNew (h_next h), set_flags (mkHeap (h_flags h) (S (h_next h)) (h_props h)) (RNew (h_next h)) f).
(** 238-252 createImpl. *)
Definition create (h : heap) (v : variant) : ref * heap :=
  match v with VTrue => (RTrue, h) | VFalse => (RFalse, h) | VInvalid => (RInvalid, h) | VOther _ => new_ref h (mkFlags false false) end.
Inductive setting :=
| SetByProfile (prop : N) (v : variant)       (* loader/moduleloader.cpp 317-331 *)
| SetByCommandLine (prop : N) (v : variant)   (* language/item.cpp 515-540 *)
| SetByQbs (prop : N) (v : variant)           (* setProperty with a VariantValue, e.g. loader/moduleloader.cpp 276-291 *)
| Clone (prop : N) (from : N).                (* value.cpp 260-263, when a module is instantiated *)
Definition do_setting (h : heap) (s : setting) : heap :=
  match s with
  | SetByProfile n v => let (r, h) := create h v in set_prop (set_flags h r (mkFlags true (f_cmd (h_flags h r)))) n (v, r)
  | SetByCommandLine n v => let (r, h) := create h v in set_prop (set_flags h r (mkFlags (f_profile (h_flags h r)) true)) n (v, r)
  | SetByQbs n v => let (r, h) := create h v in set_prop h n (v, r)
  | Clone n m => match h_props h m with None => h | Some (v, r) => let (r', h) := new_ref h (h_flags h r) in set_prop h n (v, r') end
  end.
Definition empty_heap : heap := mkHeap (fun _ => mkFlags false false) 0 (fun _ => None).
Definition flags_of (h : heap) (n : N) : option flags := match h_props h n with Some (_, r) => Some (h_flags h r) | None => None end.
