(** Which rules a product needs and which rules have to be applied first: buildgraph/rulegraph.cpp, and CreateRuleNodes, areRulesCompatible, resolveProductBuildData and
    connectRulesToDependencies in buildgraph/projectbuilddata.cpp. *)
From Coq Require Import List Bool Arith NArith.
From Verif Require Import Str.
Import ListNotations.

(** language.h 430-470 Rule, as far as tags are concerned.  Tags are numbers. *)
Record rule := mkRule {
  r_inputs : list N; r_aux : list N; r_explicit : list N; r_excluded : list N;
  r_inputs_deps : list N; r_aux_deps : list N; r_explicit_deps : list N;
  r_artifacts : list (list N);      (* the tags of each Artifact item *)
  r_output_tags : list N }.
(** ResolvedProduct: [p_props] are filters and extra tags of the Group items with fileTagsFilter (artifactProperties). *)
Record product := mkProduct { p_rules : list rule; p_tags : list N; p_props : list (list N * list N); p_enabled : bool; p_deps : list nat }.

(** Set::intersects *)
Definition intersects (a b : list N) : bool := existsb (fun t => memN t b) a.
(** language.cpp 266-272 staticOutputFileTags *)
Definition static_tags (r : rule) : list N := concat (r_artifacts r).
(** language.cpp 274-282 collectedOutputFileTags *)
Definition collected (p : product) (r : rule) : list N :=
  fold_left (fun res ap => if intersects (fst ap) res then res ++ snd ap else res) (p_props p) (match r_output_tags r with [] => static_tags r | _ => r_output_tags r end).
Definition no_rule : rule := mkRule [] [] [] [] [] [] [] [] [].
Definition rule_at (p : product) (i : nat) : rule := nth i (p_rules p) no_rule.

(** rulegraph.cpp 51-59: m_outputFileTagToRule.  Rules are their indices, ruleGraphId. *)
Definition producers (p : product) (t : N) : list nat := filter (fun j => memN t (collected p (rule_at p j))) (seq 0 (List.length (p_rules p))).
(** rulegraph.cpp 64-77: m_children *)
Definition children (p : product) (i : nat) : list nat :=
  let r := rule_at p i in
  flat_map (fun t => filter (fun j => negb (intersects (collected p (rule_at p j)) (r_excluded r))) (producers p t)) (r_inputs r ++ r_aux r ++ r_explicit r).
(** rulegraph.cpp 79-86: m_rootRules, a set *)
Definition roots (p : product) : list nat := filter (fun j => existsb (fun t => memN t (collected p (rule_at p j))) (p_tags p)) (seq 0 (List.length (p_rules p))).

(** What CreateRuleNodes has made: nodes, in this order, edges, root nodes. *)
Record build := mkBuild { b_nodes : list nat; b_edges : list (nat * nat); b_roots : list nat }.
Inductive outcome := Done (b : build) | Cycle (path : list nat) | Out_of_fuel.
Definition memb (x : nat) (l : list nat) : bool := existsb (Nat.eqb x) l.
Definition add_new (x : nat) (l : list nat) : list nat := if memb x l then l else l ++ [x].
Definition edge_eqb (a b : nat * nat) : bool := Nat.eqb (fst a) (fst b) && Nat.eqb (snd a) (snd b).
Definition add_edge (x : nat * nat) (l : list (nat * nat)) : list (nat * nat) := if existsb (edge_eqb x) l then l else l ++ [x].
(** projectbuilddata.cpp 338-366 visit, without the check for cycles *)
Definition create (parent : option nat) (r : nat) (b : build) : build :=
  let nodes := add_new r (b_nodes b) in
  match parent with
  | Some q => mkBuild nodes (add_edge (q, r) (b_edges b)) (b_roots b)
  | None => mkBuild nodes (b_edges b) (add_new r (b_roots b))
  end.
(** rulegraph.cpp 139-146 traverse with projectbuilddata.cpp 338-373 visit, endVisit.  [path] is m_rulePath and m_rulesOnPath; [parent] is its last element. *)
Fixpoint traverse (n : nat) (p : product) (path : list nat) (parent : option nat) (r : nat) (b : build) : outcome :=
  match n with
  | O => Out_of_fuel
  | S n =>
      if memb r path then Cycle path
      else
        (fix loop (l : list nat) (b : build) : outcome :=
           match l with
           | [] => Done b
           | c :: l => match traverse n p (path ++ [r]) (Some r) c b with Done b => loop l b | o => o end
           end) (children p r) (create parent r b)
  end.
(** rulegraph.cpp 89-94 accept *)
Fixpoint accept (n : nat) (p : product) (l : list nat) (b : build) : outcome :=
  match l with
  | [] => Done b
  | r :: l => match traverse n p [] None r b with Done b => accept n p l b | o => o end
  end.
Definition rule_nodes (p : product) : outcome := accept (S (List.length (p_rules p))) p (roots p) (mkBuild [] [] []).

(** ** Several products *)

(** projectbuilddata.cpp 375-386 areRulesCompatible; [out] is collectedOutputFileTags of the rule in the dependency. *)
Definition compatible (r : rule) (out : list N) : bool :=
  if intersects (r_excluded r) out then false
  else if intersects (r_inputs_deps r) out then true
  else if intersects (r_explicit_deps r) out then true
  else intersects (r_aux_deps r) out.
(** The tag installable *)
Definition installable : N := 0%N.
Definition takes_installable (r : rule) : bool := memN installable (r_inputs_deps r) || memN installable (r_aux_deps r) || memN installable (r_explicit_deps r).
Definition no_product : product := mkProduct [] [] [] false [].
Definition product_at (ps : list product) (k : nat) : product := nth k ps no_product.

(** Build data of products, made so far, and edges between rules of different products. *)
Record project := mkProject { j_builds : list (nat * build); j_edges : list ((nat * nat) * (nat * nat)) }.
Inductive result := Ok (j : project) | Failed (k : nat) (path : list nat) | No_fuel.
Definition build_of (j : project) (k : nat) : option build := option_map snd (find (fun x => Nat.eqb (fst x) k) (j_builds j)).
Definition set_build (j : project) (k : nat) (b : build) : project := mkProject ((k, b) :: j_builds j) (j_edges j).
(** 441-468 connectRulesToDependencies *)
Definition connections (ps : list product) (j : project) (k : nat) : list ((nat * nat) * (nat * nat)) :=
  let p := product_at ps k in
  match build_of j k with
  | None => []
  | Some b =>
      flat_map (fun d =>
        match build_of j d with
        | None => []
        | Some bd =>
            flat_map (fun y => flat_map (fun x =>
              if compatible (rule_at p x) (collected (product_at ps d) (rule_at (product_at ps d) y)) || takes_installable (rule_at p x) && memb y (b_roots bd)
              then [((k, x), (d, y))] else []) (b_nodes b)) (b_nodes bd)
        end) (p_deps p)
  end.
(** 388-434 resolveProductBuildData: the build data exists before the dependencies are resolved.  Source files are not modelled.  Dependencies that are not enabled are skipped, as in relaxed mode; in strict mode
    there are none. *)
Fixpoint resolve (n : nat) (ps : list product) (k : nat) (j : project) : result :=
  match n with
  | O => No_fuel
  | S n =>
      match build_of j k with
      | Some _ => Ok j
      | None =>
          match
            (fix deps (l : list nat) (j : project) : result :=
               match l with
               | [] => Ok j
               | d :: l => if p_enabled (product_at ps d) then match resolve n ps d j with Ok j => deps l j | o => o end else deps l j
               end) (p_deps (product_at ps k)) (set_build j k (mkBuild [] [] []))
          with
          | Ok j =>
              match rule_nodes (product_at ps k) with
              | Done b => let j := set_build j k b in Ok (mkProject (j_builds j) (j_edges j ++ connections ps j k))
              | Cycle path => Failed k path
              | Out_of_fuel => No_fuel
              end
          | o => o
          end
      end
  end.
(** 271-289 resolveBuildData *)
Fixpoint resolve_all (n : nat) (ps : list product) (l : list nat) (j : project) : result :=
  match l with
  | [] => Ok j
  | k :: l => if p_enabled (product_at ps k) then match resolve n ps k j with Ok j => resolve_all n ps l j | o => o end else resolve_all n ps l j
  end.
Definition resolve_project (ps : list product) : result := resolve_all (S (List.length ps)) ps (seq 0 (List.length ps)) (mkProject [] []).
