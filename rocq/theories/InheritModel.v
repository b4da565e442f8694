(** Model of how one item of a project file is read and how it inherits from the file that
    its type names: loader/itemreaderastvisitor.cpp (members of an item, nested bindings,
    inheriting), loader/astpropertiesitemhandler.cpp (Properties items), language/value.cpp
    (alternatives) and language/item.cpp (defaults of built-in types).

    Simplifications. Names, texts of right-hand sides, conditions, types and children are
    numbers. The file behind a type name is an input: an item is read together with the list
    of the items it inherits from, one per file, the last one being of a built-in type. The
    property maps, sorted by name in the code, are lists with one entry per name; the order
    in them decides only which of several errors is reported. The scope of ids, expired and
    deprecated declarations, the locations of values and the Properties items of groups
    (which are applied to the enclosing product) are not modelled, nor are the properties
    condition and overrideListProperties of Properties items as such: the condition is the
    first component of a block, [None] when its text is the word undefined. *)
From Coq Require Import List NArith Bool.
Import ListNotations.
Local Open Scope N_scope.

(** The source code of a value, value.h 216 (m_sourceCode):
    - [Written]: the text of a right-hand side;
    - [NoText]: the empty text of a declaration without right-hand side,
      itemreaderastvisitor.cpp 232-233;
    - [PassBase]: the word base, given to values which exist only in Properties items,
      astpropertiesitemhandler.cpp 219-225;
    - [Builtin]: the initial value of a property of a built-in type, item.cpp 354-359. *)
Inductive source := Written (s : N) | NoText | PassBase | Builtin (d : N).

(** JSSourceValue, value.h 155-222: source code, alternatives (condition, source code and
    base value of each) and base value. *)
Inductive jsval :=
  J (s : source) (alts : list (option N * source * option jsval)) (base : option jsval).

(** The two kinds of values the reader creates, value.h 74-78. *)
Inductive pval := Js (v : jsval) | Sub (ps : list (N * pval)).

Definition props := list (N * pval).

(** What can go wrong: duplicate bindings (197-205), bindings below something that is not an
    item (330-333 and 365-366), Properties items whose value meets an item
    (astpropertiesitemhandler.cpp 198-201), writing to read-only properties (348-352), and
    failed internal checks (372; value.cpp 175). *)
Inductive fault := Duplicate (n : N) | NotAnItem (n : N) | Incompatible (n : N)
  | ReadOnly (n : N) | CheckFailed.

Inductive outcome (X : Type) := Got (x : X) | Fault (f : fault).
Arguments Got {X} x.
Arguments Fault {X} f.

Definition bind {X Y} (o : outcome X) (f : X -> outcome Y) : outcome Y :=
  match o with Got x => f x | Fault e => Fault e end.

(** QMap::value, QMap::contains and QMap::insert. *)
Fixpoint pick {X} (n : N) (ps : list (N * X)) : option X :=
  match ps with
  | [] => None
  | (m, v) :: r => if m =? n then Some v else pick n r
  end.

Definition holds_name {X} (n : N) (ps : list (N * X)) : bool :=
  match pick n ps with Some _ => true | None => false end.

Fixpoint enter {X} (n : N) (v : X) (ps : list (N * X)) : list (N * X) :=
  match ps with
  | [] => [(n, v)]
  | (m, w) :: r => if m =? n then (n, v) :: r else (m, w) :: enter n v r
  end.

(** PropertyDeclaration: its type and whether it is read-only, 216-228. *)
Record declaration := { dtype : N; dro : bool }.

(** The members of an item: declarations (visit(UiPublicMember), 207-242) and bindings
    (visit(UiScriptBinding), 244-280). A binding has a name of several parts: those in front,
    and the last one. *)
Inductive member :=
| Declares (n : N) (d : declaration) (rhs : option N)
| Binds (front : list N) (last : N) (rhs : N).

(** targetItemForBinding, 316-337, followed by checkDuplicateBinding and setProperty,
    276-278. *)
Fixpoint bind_at (front : list N) (last : N) (s : source) (ps : props) : outcome props :=
  match front with
  | [] => if holds_name last ps then Fault (Duplicate last)
          else Got (enter last (Js (J s [] None)) ps)
  | x :: r =>
      match pick x ps with
      | None => bind (bind_at r last s []) (fun q => Got (enter x (Sub q) ps))
      | Some (Sub q0) => bind (bind_at r last s q0) (fun q => Got (enter x (Sub q) ps))
      | Some (Js _) => Fault (NotAnItem x)
      end
  end.

(** One member: 230-240 for declarations, 273-278 for bindings. A duplicate is looked for in
    a declaration only if it has a right-hand side (234-238). *)
Definition read_member (m : member) (st : props * list (N * declaration))
    : outcome (props * list (N * declaration)) :=
  let '(ps, ds) := st in
  match m with
  | Declares n d None => Got (enter n (Js (J NoText [] None)) ps, enter n d ds)
  | Declares n d (Some s) =>
      if holds_name n ps then Fault (Duplicate n)
      else Got (enter n (Js (J (Written s) [] None)) ps, enter n d ds)
  | Binds front last s =>
      bind (bind_at front last (Written s) ps) (fun ps' => Got (ps', ds))
  end.

Fixpoint read_members (ms : list member) (st : props * list (N * declaration))
    : outcome (props * list (N * declaration)) :=
  match ms with
  | [] => Got st
  | m :: r => bind (read_member m st) (read_members r)
  end.

(** Value::isFallback of an alternative: the text of its condition is the word undefined,
    astpropertiesitemhandler.cpp 227-228. *)
Definition is_fallback (a : option N * source * option jsval) : bool :=
  match fst (fst a) with None => true | Some _ => false end.

(** JSSourceValue::addAlternative, value.cpp 172-180: in front of a trailing fallback. *)
Fixpoint add_alternative (a : option N * source * option jsval)
    (l : list (option N * source * option jsval))
    : outcome (list (option N * source * option jsval)) :=
  match l with
  | [] => Got [a]
  | b :: r =>
      match r with
      | [] => if is_fallback b then
                if is_fallback a then Fault CheckFailed else Got [a; b]
              else Got [b; a]
      | _ => bind (add_alternative a r) (fun r' => Got (b :: r'))
      end
  end.

(** PropertiesBlockConverter::doApply, astpropertiesitemhandler.cpp 173-230: apply a value of
    a Properties item with condition [c] to the value of the same name outside, if any. An
    item inside meets something else outside: itemProperty (item.cpp 172-180) finds nothing
    and a new item replaces it (186-191). *)
Fixpoint apply_value (c : option N) (n : N) (inner : pval) (outer : option pval)
    : outcome pval :=
  match inner with
  | Js (J s _ _) =>
      match outer with
      | Some (Sub _) => Fault (Incompatible n)
      | Some (Js (J s0 alts b)) =>
          bind (add_alternative (c, s, None) alts) (fun l => Got (Js (J s0 l b)))
      | None => Got (Js (J PassBase [(c, s, None)] None))
      end
  | Sub ips =>
      let ops := match outer with Some (Sub q) => q | _ => [] end in
      bind ((fix each (l : list (N * pval)) (q : props) : outcome props :=
               match l with
               | [] => Got q
               | (k, v) :: r =>
                   bind (apply_value c k v (pick k q)) (fun w => each r (enter k w q))
               end) ips ops)
           (fun q => Got (Sub q))
  end.

Fixpoint apply_props (c : option N) (l : props) (q : props) : outcome props :=
  match l with
  | [] => Got q
  | (k, v) :: r => bind (apply_value c k v (pick k q)) (fun w => apply_props c r (enter k w q))
  end.

(** setupAlternatives and handlePropertiesBlock, 123-138 and 259-266. The members of the
    Properties item have been read like those of any item. *)
Fixpoint apply_blocks (bs : list (option N * list member)) (q : props) : outcome props :=
  match bs with
  | [] => Got q
  | (c, ms) :: r =>
      bind (read_members ms ([], [])) (fun st =>
        bind (apply_props c (fst st) q) (apply_blocks r))
  end.

(** What one file says about the item: members, Properties items in order, other children. *)
Record level := { lmembers : list member; lblocks : list (option N * list member);
                  lchildren : list N }.

Record item := { iprops : props; idecls : list (N * declaration); ichildren : list N }.

(** visit(UiObjectDefinition), itemreaderastvisitor.cpp 158-171, for one file. *)
Definition read_own (l : level) : outcome item :=
  bind (read_members (lmembers l) ([], [])) (fun st =>
    bind (apply_blocks (lblocks l) (fst st)) (fun ps =>
      Got {| iprops := ps; idecls := snd st; ichildren := lchildren l |})).

(** Item::setupForBuiltinType, item.cpp 343-366, for the properties of the type: name,
    declaration, initial value. *)
Fixpoint setup_builtin (bs : list (N * declaration * N)) (it : item) : item :=
  match bs with
  | [] => it
  | ((n, d), v) :: r =>
      setup_builtin r
        {| iprops := if holds_name n (iprops it) then iprops it
                     else enter n (Js (J (Builtin v) [] None)) (iprops it);
           idecls := enter n d (idecls it);
           ichildren := ichildren it |}
  end.

(** setBaseValue for a value and all its alternatives, 371-377. *)
Definition set_base (v b : jsval) : outcome jsval :=
  match v with
  | J s alts None => Got (J s (map (fun a => (fst a, Some b)) alts) (Some b))
  | J _ _ (Some _) => Fault CheckFailed
  end.

(** inheritItem, the loop over properties, 359-386. The first argument is the value of the
    item inherited from. *)
Fixpoint inherit_value (n : N) (src dst : pval) : outcome pval :=
  match src, dst with
  | Js b, Js v => bind (set_base v b) (fun w => Got (Js w))
  | Js _, Sub _ => Fault (NotAnItem n)
  | Sub _, Js _ => Got dst
  | Sub sps, Sub dps =>
      bind ((fix each (l : list (N * pval)) (q : props) : outcome props :=
               match l with
               | [] => Got q
               | (k, v) :: r =>
                   match pick k q with
                   | None => each r (enter k v q)
                   | Some d => bind (inherit_value k v d) (fun w => each r (enter k w q))
                   end
               end) sps dps)
           (fun q => Got (Sub q))
  end.

Fixpoint inherit_props (l : props) (q : props) : outcome props :=
  match l with
  | [] => Got q
  | (k, v) :: r =>
      match pick k q with
      | None => inherit_props r (enter k v q)
      | Some d => bind (inherit_value k v d) (fun w => inherit_props r (enter k w q))
      end
  end.

(** inheritItem, the loop over declarations, 347-354. *)
Fixpoint inherit_decls (l : list (N * declaration)) (q : props) (ds : list (N * declaration))
    : outcome (list (N * declaration)) :=
  match l with
  | [] => Got ds
  | (n, d) :: r =>
      if dro d && holds_name n q then Fault (ReadOnly n)
      else inherit_decls r q (enter n d ds)
  end.

(** inheritItem, 339-387; the children of the base come first (341-345). *)
Definition inherit_item (dst src : item) : outcome item :=
  bind (inherit_decls (idecls src) (iprops dst) (idecls dst)) (fun ds =>
    bind (inherit_props (iprops src) (iprops dst)) (fun ps =>
      Got {| iprops := ps; idecls := ds; ichildren := ichildren src ++ ichildren dst |})).

(** An item and the items it inherits from, nearest first; the last is of a built-in type
    with the properties [bs]: 113-192. *)
Fixpoint read_item (bs : list (N * declaration * N)) (l : level) (ups : list level)
    : outcome item :=
  match ups with
  | [] => bind (read_own l) (fun it => Got (setup_builtin bs it))
  | u :: r =>
      bind (read_item bs u r) (fun base => bind (read_own l) (fun it => inherit_item it base))
  end.
