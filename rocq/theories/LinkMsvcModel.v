(** The libraries for the linker as collected for MSVC and other toolchains that are not like
    GCC: collectLibraryDependencies in share/qbs/modules/cpp/cpp.js, 325-404.

    Products are the trees of LinkModel. Here the file of a shared library is its import
    library (tag dynamiclibrary_import). External libraries are numbers that stand for file
    names to which the suffix, if it was missing, has been appended (365-366); [isobj] tells which of
    them are object files (359): an object file gets no suffix, and names from other lists
    than staticLibraries, for which that test is not made, end in the suffix of libraries.
    Names that begin with an at sign, which get no suffix in any list, are left out. *)
From Coq Require Import List NArith Bool.
From Verif Require Import LinkModel.
Import ListNotations.
Local Open Scope N_scope.

(** seen, seenObjectFiles and result, 326-328. *)
Record mstate := { mseen : list N; mobjs : list N; mres : list (N * bool) }.

Definition m_mem (x : N) (l : list N) : bool := existsb (N.eqb x) l.

(** addArtifactFilePaths, 334-345: all files, with the parameter of the dependency. *)
Definition m_add_files (w : bool) (fs : list N) (s : mstate) : mstate :=
  {| mseen := mseen s; mobjs := mobjs s; mres := mres s ++ map (fun f => (f, w)) fs |}.

(** The body of the loop in handleExternalLibraries, 358-368. *)
Definition m_add_external (isobj : N -> bool) (s : mstate) (e : N) : mstate :=
  if isobj e then
    if m_mem e (mobjs s) then s
    else {| mseen := mseen s; mobjs := e :: mobjs s; mres := mres s ++ [(e, false)] |}
  else {| mseen := mseen s; mobjs := mobjs s; mres := mres s ++ [(e, false)] |}.

(** addExternalLibs, 347-377: [es] are the three lists in a row. *)
Definition m_add_externals (isobj : N -> bool) (es : list N) (s : mstate) : mstate :=
  fold_left (m_add_external isobj) es s.

Definition m_see (x : N) (s : mstate) : mstate :=
  {| mseen := x :: mseen s; mobjs := mobjs s; mres := mres s |}.

(** traverse, 379-399. [imp] is importPrivateLibraries. *)
Fixpoint m_traverse (isobj : N -> bool) (imp : bool) (n : node) (p : param) (s : mstate)
    {struct n} : mstate :=
  match n with
  | Node nm k fs es deps =>
      if m_mem nm (mseen s) || negb (plink p) then s
      else
        match k with
        | NoLibrary => s
        | Dynamic => m_add_files (pwhole p) fs (m_see nm s)
        | Static | Object =>
            let s1 :=
              (fix each (l : list (param * node)) (s : mstate) : mstate :=
                 match l with
                 | [] => s
                 | (q, m) :: r => each r (m_traverse isobj imp m q s)
                 end) deps (m_see nm s) in
            let s2 := m_add_files (pwhole p) fs s1 in
            if imp then m_add_externals isobj es s2 else s2
        end
  end.

(** 401-403: all dependencies, then the external libraries of the product. *)
Definition m_libraries (isobj : N -> bool) (imp : bool) (deps : list (param * node))
    (exts : list N) : list (N * bool) :=
  mres (m_add_externals isobj exts
          (fold_left (fun s e => m_traverse isobj imp (snd e) (fst e) s) deps
             {| mseen := []; mobjs := []; mres := [] |})).
