(** Go to definition by means of the links collected while a project is resolved:
    CodePosition and CodeRange in src/lib/corelib/tools/codelocation.cpp (133-172),
    TopLevelProjectContext::addCodeLink in src/lib/corelib/loader/loaderutils.cpp (403-410) and
    LspServer::Private::handleGotoDefViaCodeLinks in src/app/qbs/lspserver.cpp (756-792).

    Files are numbers. A hash table is a list of entries; the order in which one is gone
    through is an input of the lookup. *)
From Coq Require Import List NArith Bool.
Import ListNotations.
Local Open Scope N_scope.

(** CodePosition, CodeRange and CodeLocation in src/lib/corelib/tools/codelocation.h. *)
Definition position : Type := (N * N)%type.
Definition range : Type := (position * position)%type.
Definition location : Type := (N * position)%type.

(** operator< for CodePosition, 143-151: lines are not negative, so that the difference does not overflow. *)
Definition pos_lt (a b : position) : bool :=
  if fst a <? fst b then true
  else if fst b <? fst a then false
  else snd a <? snd b.

(** operator> and operator<=, 152-153. *)
Definition pos_gt (a b : position) : bool := pos_lt b a.
Definition pos_le (a b : position) : bool := negb (pos_gt a b).

(** CodeRange::contains, 162-165. *)
Definition contains (r : range) (p : position) : bool := pos_le (fst r) p && pos_gt (snd r) p.

(** operator== for CodePosition, 137-140, and for CodeRange, 167-170, and that of locations. *)
Definition pos_eqb (a b : position) : bool := (fst a =? fst b) && (snd a =? snd b).
Definition range_eqb (a b : range) : bool := pos_eqb (fst a) (fst b) && pos_eqb (snd a) (snd b).
Definition loc_eqb (a b : location) : bool := (fst a =? fst b) && pos_eqb (snd a) (snd b).

(** The links of one file, and of all files: CodeLinksInFile and CodeLinks, codelocation.h 156-157. *)
Definition file_links : Type := list (range * list location).
Definition links : Type := list (N * file_links).

(** loaderutils.cpp 408-409: links << target, unless it is there already. *)
Definition add_target (t : location) (l : list location) : list location :=
  if existsb (loc_eqb t) l then l else l ++ [t].

(** The entry of the range in the table of a file, made if missing, loaderutils.cpp 407. *)
Fixpoint add_range (r : range) (t : location) (l : file_links) : file_links :=
  match l with
  | [] => [(r, [t])]
  | (r', ts) :: rest =>
      if range_eqb r r' then (r', add_target t ts) :: rest else (r', ts) :: add_range r t rest
  end.

(** addCodeLink, loaderutils.cpp 403-410. *)
Fixpoint add_link (f : N) (r : range) (t : location) (l : links) : links :=
  match l with
  | [] => [(f, [(r, [t])])]
  | (g, fl) :: rest =>
      if f =? g then (g, add_range r t fl) :: rest else (g, fl) :: add_link f r t rest
  end.

(** codeLinks.constFind(sourceFile), lspserver.cpp 761. *)
Definition file_entry (f : N) (l : links) : option file_links :=
  option_map snd (find (fun e => fst e =? f) l).

(** The loop over the entries of a file, lspserver.cpp 764-788. [current f p] tells whether the position is still the
    one it was when the project was resolved: true if the file is not open in the editor,
    Document::isPositionUpToDate otherwise. *)
Fixpoint search (current : N -> position -> bool) (f : N) (p : position) (l : file_links)
    : option (list location) :=
  match l with
  | [] => None
  | (r, ts) :: rest =>
      if contains r p then
        if current f (snd r) then Some (filter (fun t => current (fst t) (snd t)) ts) else None
      else search current f p rest
  end.

(** handleGotoDefViaCodeLinks, lspserver.cpp 756-790; [order] is the order in which the entries of the file come. None
    means that it returns false. *)
Definition goto_definition (current : N -> position -> bool) (order : file_links -> file_links)
    (l : links) (f : N) (p : position) : option (list location) :=
  if negb (current f p) then None
  else
    match file_entry f l with
    | None => None
    | Some fl => search current f p (order fl)
    end.
