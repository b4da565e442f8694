(** Which values a script reads and whether they have changed later: buildgraph/transformerchangetracking.cpp, requestedartifacts.cpp, requesteddependencies.cpp, artifactsscriptvalue.cpp,
    dependencyparametersscriptvalue.cpp, the product objects in buildgraph.cpp, jsextensions/moduleproperties.cpp, language/preparescriptobserver.cpp, property.h, the recording functions of
    scriptengine.cpp and qVariantsEqual in tools/qttools.h. *)
From Coq Require Import List Bool NArith ZArith.
Import ListNotations.
From Verif Require Import Str SettingsModel.
From Verif Require LspModel.
Local Open Scope N_scope.

(** ** Values *)

(** QVariant, as far as the values of properties are concerned: QVariantList and QStringList are one type, as are the numeric types; the members of a map are in the order of their names. *)
Inductive var := VUndef | VBool (b : bool) | VNum (z : Z) | VStr (s : str) | VList (l : list var) | VMap (m : list (str * var)).
Definition vmap := list (str * var).
(** QVariant::isNull, toList and toMap *)
Definition is_null (v : var) : bool := match v with VUndef => true | _ => false end.
Definition to_list (v : var) : list var := match v with VList l => l | _ => [] end.
Definition to_map (v : var) : vmap := match v with VMap m => m | _ => [] end.
Definition lookup (m : vmap) (k : str) : option var := option_map snd (find (fun e => str_eqb (fst e) k) m).
(** QVariantMap::value *)
Definition value (m : vmap) (k : str) : var := match lookup m k with Some v => v | None => VUndef end.
(** qttools.h 231-285 qVariantsEqual, qVariantMapsOrHashesEqual, qVariantListsEqual.  QVariant::operator== for other types is that of Qt 6: no conversion between strings and numbers. *)
Fixpoint veq (v1 v2 : var) : bool :=
  if negb (Bool.eqb (is_null v1) (is_null v2)) then false
  else
    match v1 with
    | VMap m1 => (fix maps m1 m2 := match m1, m2 with [], [] => true | (k1, a) :: m1, (k2, b) :: m2 => str_eqb k1 k2 && veq a b && maps m1 m2 | _, _ => false end) m1 (to_map v2)
    | VList l1 => (fix lists l1 l2 := match l1, l2 with [], [] => true | a :: l1, b :: l2 => veq a b && lists l1 l2 | _, _ => false end) l1 (to_list v2)
    | VUndef => match v2 with VUndef => true | _ => false end
    | VBool a => match v2 with VBool b => Bool.eqb a b | _ => false end
    | VNum a => match v2 with VNum b => Z.eqb a b | _ => false end
    | VStr a => match v2 with VStr b => str_eqb a b | _ => false end
    end.

(** ** The resolved project, as scripts see it *)

(** Artifact: path, file tags, the module of which it is a target, the module properties *)
Record art := mkArt { a_path : str; a_tags : list str; a_target : option str; a_props : vmap }.
(** An entry of ResolvedProduct::dependencies with its dependency parameters; entries of dependencyParameters are visited in the order of the list *)
Record dep := mkDep { d_unique : str; d_name : str; d_params : vmap }.
(** A module that is not a product, with its parameters *)
Record modu := mkMod { m_name : str; m_params : vmap }.
(** ResolvedProduct; the exported module is a number that stands for its contents, with the unique names of its product dependencies; [p_enabled]: there is build data *)
Record product := mkProduct {
  p_unique : str; p_project : str; p_project_props : vmap; p_modprops : vmap; p_props : vmap; p_deps : list dep; p_modules : list modu;
  p_enabled : bool; p_arts : list art; p_export : nat; p_export_deps : list str; p_env : list (str * str) }.
(** Files: time of last modification and contents *)
Record world := mkWorld { w_products : list product; w_projects : list (str * vmap); w_files : list (str * (nat * nat)) }.

Definition find_product (w : world) (n : str) : option product := find (fun p => str_eqb (p_unique p) n) (w_products w).
Definition arts (p : product) : list art := if p_enabled p then p_arts p else [].
Definition find_art (p : product) (path : str) : option art := find (fun a => str_eqb (a_path a) path) (arts p).
Definition find_file (w : world) (f : str) : option (nat * nat) := option_map snd (find (fun e => str_eqb (fst e) f) (w_files w)).
(** Sets of strings *)
Definition canon (l : list str) : list str := dedup (sort_strs l).
Fixpoint strs_eqb (a b : list str) : bool := match a, b with [], [] => true | x :: a, y :: b => str_eqb x y && strs_eqb a b | _, _ => false end.
(** propertymapinternal.cpp 86-109 moduleProperty *)
Definition module_property (m : vmap) (name k : str) : var := match lookup m name with None => VUndef | Some x => value (to_map x) k end.
(** ProductBuildData::artifactsByFileTag *)
Definition with_tag (p : product) (t : str) : list art := filter (fun a => mem_str t (a_tags a)) (arts p).
Definition all_tags (p : product) : list str := canon (flat_map a_tags (arts p)).
Definition paths (l : list art) : list str := canon (map a_path l).
(** artifactsscriptvalue.cpp 54-63 isRelevantArtifact *)
Definition own_artifact (a : art) : bool := match a_target a with None => true | Some _ => false end.
Definition target_of (m : str) (a : art) : bool := match a_target a with None => false | Some n => str_eqb n m end.
(** requesteddependencies.cpp 48-58 depNamesForProduct *)
Definition dep_names (p : product) : list str := canon (map d_unique (p_deps p) ++ map m_name (p_modules p)).
(** buildgraph.cpp 252-337 js_productDependencies: products first, then modules *)
Definition dep_list (p : product) : list (bool * str) := map (fun d => (true, d_unique d)) (p_deps p) ++ map (fun m => (false, m_name m)) (p_modules p).
(** The parameters of an element of the dependencies array *)
Definition dep_params (p : product) (is_product : bool) (d : str) : option vmap :=
  if is_product then option_map d_params (find (fun x => str_eqb (d_unique x) d) (p_deps p)) else option_map m_params (find (fun x => str_eqb (m_name x) d) (p_modules p)).
Definition dep_plain_name (p : product) (is_product : bool) (d : str) : str :=
  if is_product then match find (fun x => str_eqb (d_unique x) d) (p_deps p) with Some x => d_name x | None => [] end else d.
Definition walk (m : vmap) (path : list str) : vmap := fold_left (fun m x => to_map (value m x)) path m.

(** ** Reading values *)

(** What a script can ask for.  Products are named by their unique names; [QProject] is about the project of the rule's product. *)
Inductive query :=
| QModule (p m k : str)                                   (* product.m.k, product.moduleProperty(m, k) *)
| QProduct (p k : str)                                    (* product.k *)
| QProject (k : str)                                      (* project.k *)
| QParam (p : str) (b : bool) (d : str) (path : list str) (k : str) (* product.dependencies[..].parameters.path.k *)
| QArtModule (p path m k : str)                           (* input.m.k *)
| QArtTags (p path : str)                                 (* input.fileTags *)
| QDeps (p : str)                                         (* product.dependencies *)
| QTag (p t : str)                                        (* product.artifacts[t] *)
| QTags (p : str)                                         (* for (t in product.artifacts) *)
| QExport (p : str)                                       (* product.exports *)
| QImport (f : str)                                       (* a function of an imported file *)
| QHasModule (p m : str)                                  (* product.m === undefined *)
| QModuleTag (p m t : str)                                (* product.m.artifacts[t] *)
| QArtProduct (p path k : str).                           (* input.product.k *)
(** Properties that do not exist read as undefined.  [AObject]: an object with further values *)
Inductive ans := AVal (v : var) | AObject | ADeps (l : list (bool * str)) | APaths (l : list str) | AExport (e : nat) (deps : list str) | AText (n : nat) | ABool (b : bool).
(** None: there is no such product or artifact, so there is no object to ask *)
Definition answer (own : str) (w : world) (q : query) : option ans :=
  match q with
  | QModule p m k => option_map (fun p => AVal (module_property (p_modprops p) m k)) (find_product w p)
  | QProduct p k => option_map (fun p => AVal (value (p_props p) k)) (find_product w p)
  | QProject k => option_map (fun p => AVal (value (p_project_props p) k)) (find_product w own)
  | QParam p b d path k =>
      option_map (fun p => match dep_params p b d with
                           | None => ADeps (dep_list p)
                           | Some m => match value (walk m path) k with VMap _ => AObject | v => AVal v end
                           end) (find_product w p)
  | QArtModule p path m k => match find_product w p with Some p => option_map (fun a => AVal (module_property (a_props a) m k)) (find_art p path) | None => None end
  | QArtTags p path => match find_product w p with Some p => option_map (fun a => APaths (canon (a_tags a))) (find_art p path) | None => None end
  | QDeps p => option_map (fun p => ADeps (dep_list p)) (find_product w p)
  | QTag p t => match find_product w p with Some p => if p_enabled p then Some (APaths (paths (filter own_artifact (with_tag p t)))) else None | None => None end
  | QTags p => match find_product w p with Some p => if p_enabled p then Some (APaths (canon (flat_map a_tags (filter own_artifact (arts p))))) else None | None => None end
  | QExport p => option_map (fun p => AExport (p_export p) (p_export_deps p)) (find_product w p)
  | QImport f => option_map (fun x => AText (snd x)) (find_file w f)
  | QHasModule p m => option_map (fun p => ABool (existsb (fun x => str_eqb (m_name x) m) (p_modules p))) (find_product w p)
  | QModuleTag p m t => match find_product w p with Some p => if p_enabled p then Some (APaths (paths (filter (target_of m) (with_tag p t)))) else None | None => None end
  | QArtProduct p path k => match find_product w p with Some p => option_map (fun _ => AVal (value (p_props p) k)) (find_art p path) | None => None end
  end.

(** ** Recording *)

(** property.h Property *)
Inductive kind := KModule | KProduct | KProject | KParameters | KArtifact.
Record property := mkProp { r_product : str; r_module : str; r_name : str; r_value : var; r_kind : kind }.
(** property.h 90-95: the kind and the value do not count *)
Definition same_key (a b : property) : bool := str_eqb (r_product a) (r_product b) && str_eqb (r_module a) (r_module b) && str_eqb (r_name a) (r_name b).
(** Set::insert: an element that is there already stays *)
Definition insert (x : property) (l : list property) : list property := if existsb (same_key x) l then l else l ++ [x].
(** RequestedArtifactsPerProduct *)
Record requested := mkReq { q_all : list str; q_tags : list (str * list str); q_enumerated : bool }.
(** TrackedScriptAccesses *)
Record tracked := mkTracked {
  t_props : list property; t_arts : list (str * list property); t_imports : list (str * nat); t_deps : list (str * list str); t_maps : list (str * requested); t_exports : list (str * (nat * list str)) }.
Definition nothing : tracked := mkTracked [] [] [] [] [] [].
(** The same, while the script runs: products are noted by name for dependencies and exports, imports without a time *)
Record engine := mkEngine {
  e_props : list property; e_arts : list (str * list property); e_imports : list str; e_deps : list str; e_maps : list (str * requested); e_exports : list str }.
Definition fresh : engine := mkEngine [] [] [] [] [] [].

Definition assoc {A} (l : list (str * A)) (k : str) : option A := option_map snd (find (fun e => str_eqb (fst e) k) l).
(** std::unordered_map and QHash: assignment to the element of a key *)
Fixpoint assign {A} (k : str) (v : A) (l : list (str * A)) : list (str * A) :=
  match l with [] => [(k, v)] | e :: l => if str_eqb (fst e) k then (k, v) :: l else e :: assign k v l end.
Definition add (x : str) (l : list str) : list str := if mem_str x l then l else l ++ [x].
Definition no_request : requested := mkReq [] [] false.
Definition get_req (l : list (str * requested)) (p : str) : requested := match assoc l p with Some r => r | None => no_request end.

Definition add_prop (x : property) (e : engine) : engine := mkEngine (insert x (e_props e)) (e_arts e) (e_imports e) (e_deps e) (e_maps e) (e_exports e).
(** scriptengine.cpp 374-378 addPropertyRequestedFromArtifact *)
Definition add_art_prop (path : str) (x : property) (e : engine) : engine :=
  mkEngine (e_props e) (assign path (insert x (match assoc (e_arts e) path with Some l => l | None => [] end)) (e_arts e)) (e_imports e) (e_deps e) (e_maps e) (e_exports e).
Definition add_import (f : str) (e : engine) : engine := mkEngine (e_props e) (e_arts e) (add f (e_imports e)) (e_deps e) (e_maps e) (e_exports e).
Definition add_deps (p : str) (e : engine) : engine := mkEngine (e_props e) (e_arts e) (e_imports e) (add p (e_deps e)) (e_maps e) (e_exports e).
Definition add_export (p : str) (e : engine) : engine := mkEngine (e_props e) (e_arts e) (e_imports e) (e_deps e) (e_maps e) (add p (e_exports e)).
Definition set_req (p : str) (f : requested -> requested) (e : engine) : engine :=
  mkEngine (e_props e) (e_arts e) (e_imports e) (e_deps e) (assign p (f (get_req (e_maps e) p)) (e_maps e)) (e_exports e).
(** requestedartifacts.cpp 75-84 setAllArtifactTags; the artifacts do not change while the script runs, so forceUpdate makes no difference *)
Definition set_all (p : product) (r : requested) : requested := match q_all r with [] => mkReq (all_tags p) (q_tags r) (q_enumerated r) | _ => r end.
(** requestedartifacts.cpp 86-103 setArtifactsForTag, setNonExistingTagRequested.  QBS_ASSERT only prints a message. *)
Definition set_for_tag (p : product) (t : str) (r : requested) : requested :=
  mkReq (q_all r) (assign t (canon (match assoc (q_tags r) t with Some l => l | None => [] end ++ map a_path (with_tag p t))) (q_tags r)) (q_enumerated r).
(** requestedartifacts.cpp 105-108 setArtifactsEnumerated *)
Definition set_enumerated (r : requested) : requested := mkReq (q_all r) (q_tags r) true.
Definition colon : N := 58.
Definition dot : N := 46.
Fixpoint join (l : list str) : str := match l with [] => [] | [x] => x | x :: l => x ++ dot :: join l end.

(** What is recorded when [q] is answered with [a] *)
Definition record (own : str) (w : world) (q : query) (a : ans) (e : engine) : engine :=
  match q, a with
  (* moduleproperties.cpp 70-98 getModuleProperty *)
  | QModule p m k, AVal v => add_prop (mkProp p m k v KModule) e
  (* buildgraph.cpp 188-202: only if there is such a property *)
  | QProduct p k, AVal v => match find_product w p with Some x => match lookup (p_props x) k with Some _ => add_prop (mkProp p [] k v KProduct) e | None => e end | None => e end
  (* preparescriptobserver.cpp 59-70 *)
  | QProject k, AVal v =>
      match find_product w own with Some x => match lookup (p_project_props x) k with Some _ => add_prop (mkProp (p_project x) [] k v KProject) e | None => e end | None => e end
  (* dependencyparametersscriptvalue.cpp 49-71, preparescriptobserver.h 84-90; the dependencies array has been read before *)
  | QParam p b d path k, AVal v =>
      match find_product w p with
      | Some x =>
          match dep_params x b d with
          | Some m => match lookup (walk m path) k with Some _ => add_prop (mkProp p (dep_plain_name x b d ++ colon :: join path) k v KParameters) (add_deps p e) | None => add_deps p e end
          | None => add_deps p e
          end
      | None => e
      end
  | QParam p _ _ _ _, _ => add_deps p e
  | QArtModule p path m k, AVal v => add_art_prop path (mkProp p m k v KModule) e
  (* preparescriptobserver.cpp 86-93 *)
  | QArtTags p path, APaths l => add_art_prop path (mkProp p [] [102; 105; 108; 101; 84; 97; 103; 115] (VList (map VStr l)) KArtifact) e
  | QDeps p, _ => add_deps p e
  (* artifactsscriptvalue.cpp 149-191 getArtifactsProperty *)
  | QTag p t, _ => match find_product w p with Some x => set_req p (fun r => set_for_tag x t (set_all x r)) e | None => e end
  (* artifactsscriptvalue.cpp 113-147 getArtifactsPropertyNames *)
  | QTags p, _ => match find_product w p with Some x => set_req p (fun r => set_enumerated (set_all x r)) e | None => e end
  | QExport p, _ => add_export p e
  | QImport f, _ => add_import f e
  | QModuleTag p _ _, _ => match find_product w p with Some x => set_req p (set_all x) e | None => e end
  | _, _ => e
  end.

(** A script reads values and goes on depending on what it got.  It has its product and gets hold of others only through the arrays of dependencies. *)
Inductive script := Done (r : nat) | Ask (q : query) (k : ans -> script).
Inductive outcome := Finished (r : nat) (e : engine) | Stuck.
Definition subject (own : str) (q : query) : option str :=
  match q with
  | QModule p _ _ | QProduct p _ | QParam p _ _ _ _ | QDeps p | QTag p _ | QTags p | QExport p | QHasModule p _ | QModuleTag p _ _ => Some p
  | QProject _ => Some own
  | QArtModule _ _ _ _ | QArtTags _ _ | QImport _ | QArtProduct _ _ _ => None
  end.
Definition learn (a : ans) (known : list str) : list str :=
  match a with ADeps l => map snd (filter fst l) ++ known | AExport _ l => l ++ known | _ => known end.
Fixpoint run (own : str) (w : world) (s : script) (known : list str) (e : engine) : outcome :=
  match s with
  | Done r => Finished r e
  | Ask q k =>
      if match subject own q with Some p => mem_str p known | None => true end then
        match answer own w q with
        | None => Stuck
        | Some a => run own w (k a) (learn a known) (record own w q a e)
        end
      else Stuck
  end.

(** requesteddependencies.cpp 60-70 set, add: at time of the call *)
Definition add_dep_names (w : world) (l : list str) (t : list (str * list str)) : list (str * list str) :=
  fold_left (fun t p => match find_product w p with Some x => assign p (dep_names x) t | None => t end) l t.
(** std::unordered_map::insert: an element that is there already stays *)
Definition add_exports (w : world) (l : list str) (t : list (str * (nat * list str))) : list (str * (nat * list str)) :=
  fold_left (fun t p => match assoc t p, find_product w p with None, Some x => t ++ [(p, (p_export x, p_export_deps x))] | _, _ => t end) l t.
(** scriptengine.cpp 1137-1149 getAndClearTrackedScriptAccesses; [now] is the current time *)
Definition get_tracked (w : world) (now : nat) (e : engine) : tracked :=
  mkTracked (e_props e) (e_arts e) (map (fun f => (f, now)) (e_imports e)) (add_dep_names w (e_deps e) []) (e_maps e) (add_exports w (e_exports e) []).
(** requestedartifacts.cpp 175-185 unite *)
Definition unite (r other : requested) : requested :=
  match q_all r with
  | [] => other
  | _ => mkReq (q_all other) (fold_left (fun l x => assign (fst x) (snd x) l) (q_tags other) (q_tags r)) (q_enumerated r)
  end.
(** scriptengine.cpp 1151-1170 mergeAndClearTrackedScriptAccesses; Set::unite keeps elements that are there already, QHash::insert replaces them *)
Definition merge_tracked (w : world) (now : nat) (t : tracked) (e : engine) : tracked :=
  mkTracked
    (fold_left (fun l x => insert x l) (e_props e) (t_props t))
    (fold_left (fun l x => assign (fst x) (snd x) l) (e_arts e) (t_arts t))
    (fold_left (fun l f => match assoc l f with Some _ => l | None => l ++ [(f, now)] end) (e_imports e) (t_imports t))
    (add_dep_names w (e_deps e) (t_deps t))
    (fold_left (fun l x => assign (fst x) (unite (get_req l (fst x)) (snd x)) l) (e_maps e) (t_maps t))
    (add_exports w (e_exports e) (t_exports t)).

(** ** Comparing *)

(** transformerchangetracking.cpp 247-261 getProduct, without the cache *)
Definition get_product (w : world) (own : product) (n : str) : option product := if str_eqb n (p_unique own) then Some own else find_product w n.
(** transformerchangetracking.cpp 93-102 getParameterValue *)
Definition params_by_name (p : product) (d : str) : vmap :=
  let v := match find (fun x => str_eqb (d_name x) d) (p_deps p) with Some x => d_params x | None => [] end in
  match v with [] => match find (fun x => str_eqb (m_name x) d) (p_modules p) with Some x => m_params x | None => [] end | _ => v end.
Definition before_colon (s : str) : str := fst (span (fun c => negb (c =? colon)) s).
Definition after_colon (s : str) : str := match snd (span (fun c => negb (c =? colon)) s) with [] => s | _ :: t => t end.
(** transformerchangetracking.cpp 104-139 propertyMapByKind.  None: QBS_CHECK fails *)
Definition map_by_kind (w : world) (own : product) (x : property) : option vmap :=
  match r_kind x with
  | KModule => Some (match get_product w own (r_product x) with Some p => p_modprops p | None => [] end)
  | KProduct => Some (match get_product w own (r_product x) with Some p => p_props p | None => [] end)
  | KProject => Some (if str_eqb (r_product x) (p_project own) then p_project_props own else match assoc (w_projects w) (r_product x) with Some m => m | None => [] end)
  | KParameters => Some (match get_product w own (r_product x) with Some p => params_by_name p (before_colon (r_module x)) | None => [] end)
  | KArtifact => None
  end.
(** transformerchangetracking.cpp 141-176 checkForPropertyChange *)
Definition property_changed (x : property) (m : vmap) : bool :=
  let v := match r_kind x with
           | KProduct | KProject => value m (r_name x)
           | KModule => module_property m (r_module x) (r_name x)
           | KParameters => value (walk m (LspModel.split dot (after_colon (r_module x)))) (r_name x)
           | KArtifact => VUndef
           end in
  negb (veq (r_value x) v).
(** transformerchangetracking.cpp 178-196 checkForImportFileChange *)
Definition import_changed (w : world) (x : str * nat) : bool := match find_file w (fst x) with None => true | Some (time, _) => Nat.ltb (snd x) time end.
(** transformerchangetracking.cpp 311-325, 223-245 getArtifact without the cache; QVariant::toStringList *)
Definition strings (v : var) : list str := flat_map (fun v => match v with VStr s => [s] | _ => [] end) (to_list v).
Definition art_property_changed (w : world) (own : product) (path : str) (x : property) : bool :=
  match get_product w own (r_product x) with
  | None => true
  | Some p =>
      match find_art p path with
      | None => true
      | Some a => match r_kind x with KArtifact => negb (strs_eqb (canon (a_tags a)) (strings (r_value x))) | _ => property_changed x (a_props a) end
      end
  end.
(** requesteddependencies.cpp 72-88 isUpToDate *)
Definition deps_up_to_date (w : world) (l : list (str * list str)) : bool :=
  forallb (fun p => match assoc l (p_unique p) with None => true | Some names => strs_eqb (dep_names p) names end) (w_products w).
(** requestedartifacts.cpp 132-173 and 53-73 isUpToDate *)
Definition req_up_to_date (p : product) (r : requested) : bool :=
  if negb (p_enabled p) then false
  else if negb (q_enumerated r) && match q_tags r with [] => true | _ => false end then true
  else if negb (forallb (fun x => strs_eqb (paths (with_tag p (fst x))) (snd x)) (q_tags r)) then false
  else if negb (q_enumerated r) then true
  else strs_eqb (all_tags p) (q_all r).
Definition maps_up_to_date (w : world) (l : list (str * requested)) : bool :=
  forallb (fun x => match find_product w (fst x) with None => false | Some p => req_up_to_date p (snd x) end) l.
(** transformerchangetracking.cpp 198-221 isExportedModuleUpToDate *)
Definition export_up_to_date (w : world) (own : product) (x : str * (nat * list str)) : bool :=
  match get_product w own (fst x) with None => false | Some p => Nat.eqb (p_export p) (fst (snd x)) && strs_eqb (p_export_deps p) (snd (snd x)) end.
(** transformerchangetracking.cpp 300-336 scriptNeedsReRun *)
Definition needs_rerun (w : world) (own : product) (t : tracked) : bool :=
  existsb (fun x => match map_by_kind w own x with Some m => property_changed x m | None => true end) (t_props t) ||
  existsb (import_changed w) (t_imports t) ||
  existsb (fun e => existsb (art_property_changed w own (fst e)) (snd e)) (t_arts t) ||
  negb (deps_up_to_date w (t_deps t)) || negb (maps_up_to_date w (t_maps t)) || negb (forallb (export_up_to_date w own) (t_exports t)).

(** ** Rule applications *)

(** Transformer: recorded accesses of the prepare script and of the commands, the relevant environment of process commands, and the two flags *)
Record trafo := mkTrafo { f_prepare : tracked; f_commands : tracked; f_env : list (str * str); f_track_prepare : bool; f_track_commands : bool }.
(** transformer.cpp 265-272: QProcessEnvironment::value *)
Definition env_value (p : product) (v : str) : str := match assoc (p_env p) v with Some s => s | None => [] end.
Definition record_env (p : product) (vars : list str) : list (str * str) := map (fun v => (v, env_value p v)) vars.
(** transformerchangetracking.cpp 268-293 TrafoChangeTracker::commandsNeedRerun *)
Definition env_changed (p : product) (l : list (str * str)) : bool := existsb (fun x => negb (str_eqb (snd x) (env_value p (fst x)))) l.
(** transformerchangetracking.cpp 338-359 prepareScriptNeedsRerun, commandsNeedRerun: the transformer afterwards and the answer *)
Definition prepare_needs_rerun (w : world) (own : product) (t : trafo) : trafo * bool :=
  if negb (f_track_prepare t) then (t, false)
  else (mkTrafo (f_prepare t) (f_commands t) (f_env t) false (f_track_commands t), needs_rerun w own (f_prepare t)).
Definition commands_need_rerun (w : world) (own : product) (t : trafo) : trafo * bool :=
  if negb (f_track_commands t) then (t, false)
  else (mkTrafo (f_prepare t) (f_commands t) (f_env t) (f_track_prepare t) false, needs_rerun w own (f_commands t) || env_changed own (f_env t)).
(** executorjob.cpp 103, jscommandexecutor.cpp 152: the JavaScript commands of a rule application run one after the other *)
Fixpoint run_commands (own : str) (w : world) (now : nat) (known : list str) (l : list script) (t : tracked) : option (list nat * tracked) :=
  match l with
  | [] => Some ([], t)
  | s :: l =>
      match run own w s known fresh with
      | Finished r e => match run_commands own w now known l (merge_tracked w now t e) with Some (rs, t) => Some (r :: rs, t) | None => None end
      | Stuck => None
      end
  end.
