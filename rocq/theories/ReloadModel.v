(** Model of what becomes of the products of a stored project when it has been resolved again (src/lib/corelib/buildgraph/buildgraphloader.cpp
    239-264, 266-299, 378-470, 676-798, 802-865; language/language.cpp 843-898, 918-921, 959-963; language/artifactproperties.cpp 63-69;
    buildgraph/buildgraph.cpp 724-775).

    Simplified: products are known by their unique names, and there is one of each name; property maps, scanners, rules apart from the key that
    is made from them, and what belongs to a source file are strings; sets of file tags are sorted lists.  Which tags a file name gets is a
    function for each product.  An artifact is a file name and the tags that its rule gives it; its own properties are left out. *)
From Coq Require Import List Bool NArith.
From Verif Require Import Str.
Import ListNotations.
Open Scope N_scope.

Record filter := { f_tags : list str; f_extra : list str; f_props : str }.
Record rule := { r_key : str; r_rest : str }.
Record product := {
  name : str; enabled : bool; has_data : bool; type : list str; install : list str; filters : list filter; props : str;
  scanners : list str; rules : list rule; deps : list (str * bool); sources : list (str * str); tagger : str -> list str }.

Definition mem (x : str) (l : list str) : bool := existsb (str_eqb x) l.
Fixpoint list_eqb (a b : list str) : bool :=
  match a, b with [], [] => true | x :: a, y :: b => str_eqb x y && list_eqb a b | _, _ => false end.
(** language.cpp 843-868: the last element with a key counts. *)
Definition last_with {A} (key : A -> str) (k : str) (l : list A) : option A := find (fun x => str_eqb (key x) k) (rev l).
Definition lists_equal {A} (key : A -> str) (eqb : A -> A -> bool) (l1 l2 : list A) : bool :=
  Nat.eqb (length l1) (length l2)
  && forallb (fun k => match last_with key k l1, last_with key k l2 with Some x, Some y => eqb x y | _, _ => false end) (map key l1).
Definition rule_eqb (a b : rule) : bool := str_eqb (r_key a) (r_key b) && str_eqb (r_rest a) (r_rest b).
Fixpoint join (l : list str) : str := match l with [] => [] | [x] => x | x :: t => x ++ 44 :: join t end.
Definition filter_eqb (a b : filter) : bool :=
  list_eqb (f_tags a) (f_tags b) && list_eqb (f_extra a) (f_extra b) && str_eqb (f_props a) (f_props b).
Definition rules_equal : list rule -> list rule -> bool := lists_equal r_key rule_eqb.
Definition filters_equal : list filter -> list filter -> bool := lists_equal (fun f => join (f_tags f)) filter_eqb.
(** 745-757. *)
Definition dep_eqb (a b : str * bool) : bool := str_eqb (fst a) (fst b) && Bool.eqb (snd a) (snd b).
Definition deps_equal (a b : list (str * bool)) : bool :=
  Nat.eqb (length a) (length b) && forallb (fun x => existsb (dep_eqb x) b) a && forallb (fun x => existsb (dep_eqb x) a) b.

(** 802-834: whether the build data cannot be kept, and whether generated artifacts must be updated. *)
Definition property_changes (old new : product) : bool * bool :=
  if negb (has_data old) then (false, false)
  else if negb (list_eqb (type old) (type new)) then (true, false)
  else if negb (list_eqb (install old) (install new)) then (true, false)
  else (false, negb (filters_equal (filters old) (filters new)) || negb (str_eqb (props old) (props new))).
(** 836-865. *)
Definition scanner_changes (old new : product) : bool :=
  existsb (fun s => negb (mem s (scanners new))) (scanners old) || negb (Nat.eqb (length (scanners old)) (length (scanners new))).

(** 709-743. *)
Fixpoint str_ltb (a b : str) : bool :=
  match a, b with
  | _, [] => false
  | [], _ => true
  | x :: a, y :: b => (x <? y) || ((x =? y) && str_ltb a b)
  end.
Fixpoint insert (s : str * str) (l : list (str * str)) : list (str * str) :=
  match l with [] => [s] | t :: l' => if str_ltb (fst t) (fst s) then t :: insert s l' else s :: l end.
Definition sort (l : list (str * str)) : list (str * str) := fold_right insert [] l.
Fixpoint compare_sources (a b : list (str * str)) : option (list (str * str)) :=
  match a, b with
  | [], [] => Some []
  | x :: a, y :: b =>
      if str_eqb (fst x) (fst y) then
        match compare_sources a b with
        | Some l => Some (if str_eqb (snd x) (snd y) then l else y :: l)
        | None => None
        end
      else None
  | _, _ => None
  end.
Definition source_changes (old new : product) : option (list (str * str)) :=
  if Nat.eqb (length (sources old)) (length (sources new)) then compare_sources (sort (sources old)) (sort (sources new)) else None.

(** 676-707 and 759-777, for one product: [None] if the build data is set up anew, otherwise whether generated artifacts are updated, and
    the source files to be updated. *)
Definition check (old new : product) : option (bool * list (str * str)) :=
  if negb (Bool.eqb (enabled new) (enabled old)) then None
  else
    let (changed, update) := property_changes old new in
    if changed || scanner_changes old new || negb (rules_equal (rules old) (rules new)) || negb (deps_equal (deps old) (deps new)) then None
    else match source_changes old new with None => None | Some l => Some (update, l) end.
Definition find_product (n : str) (l : list product) : option product := find (fun p => str_eqb (name p) n) l.
(** [forced]: products whose wildcards or missing files have changed. *)
Definition check_all (forced : list str) (old new : list product) : list str :=
  fold_left (fun changed p =>
    match find_product (name p) new with
    | None => changed
    | Some q => match check p q with Some _ => changed | None => if mem (name p) changed then changed else changed ++ [name p] end
    end) old forced.

(** 239-264; [None]: not enough fuel. *)
Fixpoint check_dep (fuel : nat) (all : list product) (changed seen : list str) (n : str) : option (bool * list str * list str) :=
  match fuel with
  | O => None
  | S fuel =>
      if mem n seen then Some (false, changed, seen)
      else if mem n changed then Some (true, changed, seen)
      else
        (fix loop (ds : list (str * bool)) (changed seen : list str) : option (bool * list str * list str) :=
           match ds with
           | [] => Some (false, changed, seen ++ [n])
           | d :: ds =>
               match check_dep fuel all changed seen (fst d) with
               | None => None
               | Some (true, changed, seen) => Some (true, changed ++ [n], seen)
               | Some (false, changed, seen) => loop ds changed seen
               end
           end) (match find_product n all with Some p => deps p | None => [] end) changed seen
  end.
Fixpoint complete (fuel : nat) (all todo : list product) (changed seen : list str) : option (list str) :=
  match todo with
  | [] => Some changed
  | p :: todo =>
      match check_dep fuel all changed seen (name p) with
      | None => None
      | Some (_, changed, seen) => complete fuel all todo changed seen
      end
  end.

(** 416-470: what becomes of build data.  For each new product: it takes over the data of the stored one, data is set up, or there is none. *)
Inductive origin := Moved | Fresh | Nothing.
Definition remaining (old new : list product) (changed : list str) : list product :=
  List.filter (fun p => negb (mem (name p) changed && match find_product (name p) new with Some _ => true | None => false end)) old.
Definition data_of (old new : list product) (changed : list str) (q : product) : origin :=
  match find_product (name q) (remaining old new changed) with
  | Some p => if enabled q then if has_data p then Moved else Fresh else Nothing
  | None => if enabled q then Fresh else Nothing
  end.
(** Products whose artifacts are removed from disk, and those whose old data is looked at later. *)
Definition removed (old new : list product) (changed : list str) : list product :=
  List.filter (fun p => match find_product (name p) new with Some _ => false | None => true end) (remaining old new changed).
Definition rescued (old new : list product) (changed : list str) : list product :=
  List.filter (fun p => has_data p && mem (name p) changed
                        && negb (existsb (fun r => str_eqb (name r) (name p)) (removed old new changed))) old.

(** 266-299: the rule in the new product for a rule in the build data. *)
Definition find_rule (r : rule) (new : product) : option rule := find (fun x => rule_eqb x r) (rules new).

(** buildgraph.cpp 724-741: properties and file tags of a generated artifact. *)
Definition intersects (a b : list str) : bool := existsb (fun x => mem x b) a.
Definition provide (p : product) (file : str) (pure : list str) : str * list str :=
  let tags := match pure with [] => tagger p file | _ => pure end in
  match find (fun f => intersects tags (f_tags f)) (filters p) with
  | Some f => (f_props f, tags ++ f_extra f)
  | None => (props p, tags)
  end.
(** 757-775. *)
Definition after_reload (old new : product) (update : bool) (file : str) (pure : list str) : str * list str :=
  if update then provide new file pure else provide old file pure.
