(** Model of how the libraries for the linker are collected from the products a product
    depends on, and of the arguments made from them:
    share/qbs/modules/cpp/gcc.js, collectLibraryDependencies (104-259) and the loop over
    libraries in linkerFlags (473-525).

    Simplifications. A product is given together with the products it depends on, as a tree
    in which the same product may occur many times; names and file paths are numbers. The
    property removeDuplicateLibraries has its default (true), so that objectByFilePath, which
    has the last object added for a path, is the object with that path in the list. The
    platform is not Darwin: no frameworks, and symbolLinkMode has no effect. *)
From Coq Require Import List NArith Bool.
Import ListNotations.
Local Open Scope N_scope.

(** What kind of library a product is, 195-201: by the tags of its artifacts, in this order
    of precedence. *)
Inductive kind := Static | Object | Dynamic | NoLibrary.

(** The parameters of a dependency: cpp.link is not false (192), and cpp.linkWholeArchive
    (131). *)
Record param := { plink : bool; pwhole : bool }.

(** A product: name, kind, file paths of the artifacts of that kind, the external libraries
    in its cpp module (168-171), and the products it depends on. *)
Inductive node :=
  Node (nm : N) (k : kind) (files exts : list N) (deps : list (param * node)).

Definition nname (n : node) := match n with Node x _ _ _ _ => x end.
Definition nkind (n : node) := match n with Node _ k _ _ _ => k end.
Definition nfiles (n : node) := match n with Node _ _ f _ _ => f end.
Definition nexts (n : node) := match n with Node _ _ _ e _ => e end.
Definition ndeps (n : node) := match n with Node _ _ _ _ d => d end.

(** The elements of objects, 138-139, 147 and 173. *)
Record obj := { opath : N; odirect : bool; owhole : bool }.

(** The variables publicDeps, privateDeps and objects, 105-107. *)
Record state := { pub : list N; priv : list N; objs : list obj }.

Definition mem_name (x : N) (l : list N) : bool := existsb (N.eqb x) l.

Definition known (f : N) (l : list obj) : bool := existsb (fun o => opath o =? f) l.

(** addPublicFilePath, 129-142: a known path is marked, a new one is put in front. *)
Definition add_public (w : bool) (f : N) (l : list obj) : list obj :=
  if known f l then
    map (fun o => if opath o =? f then {| opath := f; odirect := true; owhole := w |} else o) l
  else {| opath := f; odirect := true; owhole := w |} :: l.

(** addPrivateFilePath, 144-148. *)
Definition add_private (f : N) (l : list obj) : list obj :=
  if known f l then l else {| opath := f; odirect := false; owhole := false |} :: l.

(** addObject with push, as called by addExternalLibs, 113-127 and 172-173: the object with
    that path is removed, the new one goes to the end. *)
Definition add_external (e : N) (l : list obj) : list obj :=
  filter (fun o => negb (opath o =? e)) l ++ [{| opath := e; odirect := true; owhole := false |}].

(** addArtifactFilePaths (150-157) and addExternalLibs (159-186): one after the other. *)
Definition add_publics (w : bool) (fs : list N) (l : list obj) : list obj :=
  fold_left (fun l f => add_public w f l) fs l.
Definition add_privates (fs : list N) (l : list obj) : list obj :=
  fold_left (fun l f => add_private f l) fs l.
Definition add_externals (es : list N) (l : list obj) : list obj :=
  fold_left (fun l e => add_external e l) es l.

Definition is_dynamic (k : kind) : bool := match k with Dynamic => true | _ => false end.
Definition is_object (k : kind) : bool := match k with Object => true | _ => false end.

(** The end of traverse, after the dependencies, 217-235. [imp] is importPrivateLibraries. *)
Definition finish (imp : bool) (n : node) (p : param) (below consumed : bool) (s : state)
    : state :=
  let with_exts l := if imp then add_externals (nexts n) l else l in
  match nkind n with
  | NoLibrary => s
  | Static =>
      if below then s
      else {| pub := nname n :: pub s; priv := priv s;
              objs := with_exts (add_publics (pwhole p) (nfiles n) (objs s)) |}
  | Object =>
      if below then s
      else {| pub := nname n :: pub s; priv := priv s;
              objs := with_exts (if consumed then objs s
                                 else add_publics (pwhole p) (nfiles n) (objs s)) |}
  | Dynamic =>
      if below then {| pub := pub s; priv := nname n :: priv s;
                       objs := add_privates (nfiles n) (objs s) |}
      else {| pub := nname n :: pub s; priv := priv s;
              objs := add_publics (pwhole p) (nfiles n) (objs s) |}
  end.

(** The tests at the beginning of traverse, 189-203: true if there is nothing to do. *)
Definition skipped (n : node) (p : param) (below : bool) (s : state) : bool :=
  mem_name (nname n) (pub s) || negb (plink p) ||
  match nkind n with NoLibrary => true | _ => false end ||
  (below && mem_name (nname n) (priv s)).

(** traverse, 188-236. *)
Fixpoint traverse (imp : bool) (n : node) (p : param) (below consumed : bool) (s : state)
    {struct n} : state :=
  if skipped n p below s then s
  else
    match n with
    | Node nm k _ _ deps =>
        finish imp n p below consumed
          ((fix each (l : list (param * node)) (s : state) : state :=
              match l with
              | [] => s
              | (q, m) :: r =>
                  each r (if nname m =? nm then s
                          else traverse imp m q (below || is_dynamic k)
                                        (consumed || negb (is_object k)) s)
              end) deps s)
    end.

(** 242-243: all dependencies, then the external libraries of the product itself. *)
Definition collect (imp : bool) (deps : list (param * node)) (exts : list N) : list obj :=
  let s := fold_left (fun s e => traverse imp (snd e) (fst e) false false s) deps
             {| pub := []; priv := []; objs := [] |} in
  add_externals exts (objs s).

(** The list of libraries in the result, 245-258: file path and wholeArchive. *)
Definition libraries (imp : bool) (deps : list (param * node)) (exts : list N)
    : list (N * bool) :=
  map (fun o => (opath o, owhole o)) (filter odirect (collect imp deps exts)).

(** The files whose directories are in rpath_link, 254-256; taking the directory is left out. *)
Definition indirect (imp : bool) (deps : list (param * node)) (exts : list N) : list N :=
  map opath (filter (fun o => negb (odirect o)) (collect imp deps exts)).

(** The arguments for the linker. *)
Inductive arg := WholeArchive | NoWholeArchive | Lib (f : N).

(** The loop in linkerFlags, 473-525. *)
Fixpoint lib_args (active : bool) (prev : option N) (l : list (N * bool)) : list arg :=
  match l with
  | [] => if active then [NoWholeArchive] else []
  | (f, w) :: r =>
      if match prev with Some g => g =? f | None => false end then lib_args active prev r
      else
        (if w && negb active then [WholeArchive] else []) ++
        (if negb w && active then [NoWholeArchive] else []) ++
        Lib f :: lib_args w (Some f) r
  end.
