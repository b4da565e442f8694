(** Model of the source files of a product: wildcards (SourceWildCards, src/lib/corelib/language/language.cpp
    733-841), groups and their files (ProductResolverStage2::resolveGroup, resolveGroupFully and
    createSourceArtifact, src/lib/corelib/loader/productresolver.cpp 708-926), file tags (applyFileTaggers and
    finalizeArtifactProperties, the same file 1284-1325, ResolvedProduct::fileTagsForFileName, language.cpp 337-359).

    Simplified: a Unix host; names are compared with case; module properties, locations, names of groups, targets of modules and
    groups without files are left out.  [look] and QDirIterator stand for the file system, see [below] and [matching].  [glob] is Qt's
    matching of one component of a path, [rx] that of a file name against the pattern of a tagger. *)
From Coq Require Import List Bool Arith NArith ZArith String Ascii.
From Verif Require Import Str PathModel.
Import ListNotations.
Local Open Scope N_scope.
Local Open Scope list_scope.

Definition text (s : string) : str := map N_of_ascii (list_ascii_of_string s).

(** ** The file system *)

(** A link leads to a directory ([true]) or not. *)
Inductive node := NFile | NLink (to_dir : bool) | NDir (entries : list (str * node)).
Definition is_dir (k : node) : bool := match k with NDir _ | NLink true => true | _ => false end.
Definition real_dir (k : node) : bool := match k with NDir _ => true | _ => false end.
Definition hidden (n : str) : bool := match n with c :: _ => c =? 46 | [] => false end.
Definition is_dots (n : str) : bool := str_eqb n dot || str_eqb n dotdot.
Definition slash_end (p : str) : bool := match rev p with c :: _ => c =? slash | [] => false end.
Definition child (d n : str) : str := if slash_end d then d ++ n else d ++ slash :: n.

(** QDirIterator without filters: directory, name and kind of what is in the directory, and below if [recursive].  Links are not
    followed, hidden directories only if [all]. *)
Fixpoint below (recursive all : bool) (d : str) (k : node) : list (str * str * node) :=
  match k with
  | NDir l =>
      flat_map (fun e : str * node => let (n, k) := e in
        (d, n, k) :: (if recursive && (all || negb (hidden n)) then below recursive all (child d n) k else [])) l
  | _ => []
  end.
(** The single and double dot, which a directory has too. *)
Fixpoint dirs_below (recursive all : bool) (d : str) (k : node) : list str :=
  match k with
  | NDir l =>
      d :: flat_map (fun e : str * node => let (n, k) := e in
             if recursive && (all || negb (hidden n)) then dirs_below recursive all (child d n) k else []) l
  | _ => []
  end.

Section Wildcards.
Context (look : str -> node) (glob : str -> str -> bool) (build_dir : str).

(** fileinfo.cpp 188-194, FileInfo::isPattern. *)
Definition is_pattern (s : str) : bool := existsb (fun c => (c =? 42) || (c =? 63) || (c =? 93) || (c =? 91)) s.
(** 797-815: directory, name and kind of what the iterator finds. *)
Definition matching (recursive want_dir : bool) (part : str) (d : str) : list (str * str * node) :=
  let all := want_dir && negb (is_pattern part) in
  (if is_dots part then map (fun d => (d, part, NDir [])) (dirs_below recursive all d (look d)) else [])
  ++ filter (fun x => let '(_, n, k) := x in glob part n && (all || negb (hidden n)) && (negb want_dir || is_dir k))
       (below recursive all d (look d)).
Fixpoint all_of {A} (l : list (option (list A))) : option (list A) :=
  match l with
  | [] => Some []
  | None :: _ => None
  | Some x :: t => match all_of t with None => None | Some y => Some (x ++ y) end
  end.
Definition stars : str := [42; 42].
Definition star : str := [42].
(** 767-826, expandPatterns; [recursive] is the variable of that name when [part] is taken.  [None]: the first element of an empty list
    is taken (776-778). *)
Fixpoint expand (recursive : bool) (parts : list str) (d : str) : option (list str) :=
  if starts_with build_dir d then Some []
  else
    let last part :=
      Some (flat_map (fun x => let '(parent, n, k) := x in
                      if starts_with build_dir parent then [] else if real_dir k then [] else [clean_path (child parent n)])
             (matching recursive false part d)) in
    match parts with
    | [] => if recursive then last star else None
    | part :: rest =>
        if str_eqb part stars then expand true rest d
        else match rest with
             | [] => last part
             | _ => all_of (map (fun x => let '(parent, n, _) := x in
                                 if starts_with build_dir parent then Some [] else expand false rest (child parent n))
                             (matching recursive true part d))
             end
    end.

(** 739-765; [base] is the directory of the project file. *)
Definition parts_of (s : str) : list str := filter (fun x => negb (str_eqb x [])) (sections s).
Definition full_pattern (home prefix pattern : str) : str :=
  map (fun c => if c =? 92 then slash else c)
    ((if starts_with [126; slash] prefix then home ++ skipn 1 prefix else prefix) ++ pattern).
Definition expand_one (home base prefix pattern : str) : option (list str) :=
  let p := full_pattern home prefix pattern in
  expand false (parts_of p) (if begins_with_slash p then [slash] else base).
Definition expand_all (home base prefix : str) (patterns : list str) : option (list str) :=
  all_of (map (expand_one home base prefix) patterns).
(** 733-737. *)
Definition mem (x : str) (l : list str) : bool := existsb (str_eqb x) l.
Definition wildcards (home base prefix : str) (patterns excludes : list str) : option (list str) :=
  match expand_all home base prefix patterns, expand_all home base prefix excludes with
  | Some a, Some b => Some (nodup str_dec (filter (fun f => negb (mem f b)) a))
  | _, _ => None
  end.
(** 828-841, hasChangedSinceExpansion; [newer]: one of the directories noted at 804 is newer. *)
Definition has_changed (newer : bool) (before : list str) (now : list str) : bool :=
  newer || negb (forallb (fun f => mem f now) before && forallb (fun f => mem f before) now).
End Wildcards.

(** ** Groups *)

Definition tags := list str.
Definition unite (a b : tags) : tags := a ++ filter (fun t => negb (mem t a)) b.
Definition unknown_tag : str := text "unknown-file-tag".
Inductive group := Group (files excludes : list str) (prefix : option str) (file_tags : option tags) (override condition : bool) (children : list group).
(** What a group hands down to those within it. *)
Record context := { c_enabled : bool; c_prefix : str; c_tags : tags }.
Record source := { s_path : str; s_tags : tags; s_override : bool; s_enabled : bool; s_wildcard : bool }.

Section Groups.
Context (look : str -> node) (glob : str -> str -> bool) (exists_file : str -> bool) (build_dir home base : str).

(** 893-926, createSourceArtifact.  The result is [None] for an error that counts, and otherwise the sources so far; those of
    enabled groups are the keys of m_sourceArtifactLocations. *)
Definition create (enabled override wildcard : bool) (ts : tags) (f : str) (out : list source) : option (list source) :=
  let p := clean_path (resolve_path Unix home base f) in
  if negb wildcard && negb (exists_file p) then if enabled then None else Some out
  else if enabled && existsb (fun s => s_enabled s && str_eqb (s_path s) p) out then None
  else Some (out ++ [{| s_path := p; s_tags := ts; s_override := override; s_enabled := enabled; s_wildcard := wildcard |}]).
Fixpoint create_all (enabled override wildcard : bool) (ts : tags) (fs : list str) (out : list source) : option (list source) :=
  match fs with
  | [] => Some out
  | f :: fs => match create enabled override wildcard ts f out with None => None | Some out => create_all enabled override wildcard ts fs out end
  end.
(** 795-822: prefix and tags of a group. *)
Definition group_prefix (c : context) (prefix : option str) : str := match prefix with Some p => p | None => c_prefix c end.
Definition group_tags (c : context) (file_tags : option tags) (override : bool) : tags :=
  match override, file_tags with
  | true, Some [] => [unknown_tag]
  | true, Some ts => ts
  | _, _ => unite (match file_tags with Some ts => ts | None => [] end) (c_tags c)
  end.
(** 708-891, with Strict error handling (an error ends the resolving). *)
Fixpoint resolve (c : context) (g : group) (out : list source) : option (list source) :=
  match g with
  | Group files excludes prefix file_tags override condition children =>
      let enabled := c_enabled c && condition in
      let pre := group_prefix c prefix in
      let ts := group_tags c file_tags override in
      let patterns := rev (filter is_pattern files) in
      let plain := map (fun f => pre ++ f) (filter (fun f => negb (is_pattern f)) files) in
      match (match patterns with [] => Some [] | _ => wildcards look glob build_dir home base pre patterns excludes end) with
      | None => None
      | Some found =>
          match create_all enabled override true ts found out with
          | None => None
          | Some out =>
              match create_all enabled override false ts plain out with
              | None => None
              | Some out =>
                  (fix go (l : list group) (out : list source) : option (list source) :=
                     match l with
                     | [] => Some out
                     | g :: l => match resolve {| c_enabled := enabled; c_prefix := pre; c_tags := ts |} g out with
                                 | None => None
                                 | Some out => go l out
                                 end
                     end) children out
              end
          end
      end
  end.
(** 636-684: the groups of a product; the files of the product itself are one of them. *)
Fixpoint resolve_all (c : context) (l : list group) (out : list source) : option (list source) :=
  match l with
  | [] => Some out
  | g :: l => match resolve c g out with None => None | Some out => resolve_all c l out end
  end.
Definition sources (product_enabled : bool) (l : list group) : option (list source) :=
  resolve_all {| c_enabled := product_enabled; c_prefix := []; c_tags := [] |} l [].
End Groups.

(** ** File tags *)

Record tagger := { f_patterns : list str; f_tags : tags; f_priority : Z }.
Section Tags.
Context (rx : str -> str -> bool).
Definition tags_match (name : str) (t : tagger) : bool := existsb (fun p => rx p name) (f_patterns t).
(** language.cpp 337-359; [pr] is the priority of the first tagger that matched. *)
Fixpoint tags_loop (name : str) (pr : option Z) (out : tags) (l : list tagger) : tags :=
  match l with
  | [] => out
  | t :: l =>
      if tags_match name t then
        match pr with
        | Some p => if Z.eqb p (f_priority t) then tags_loop name pr (unite out (f_tags t)) l else out
        | None => tags_loop name (Some (f_priority t)) (unite out (f_tags t)) l
        end
      else tags_loop name pr out l
  end.
Definition tags_for (name : str) (l : list tagger) : tags := tags_loop name None [] l.
(** productresolver.cpp 1286-1290. *)
Fixpoint insert (t : tagger) (l : list tagger) : list tagger :=
  match l with
  | [] => [t]
  | u :: l' => if (f_priority u <? f_priority t)%Z then t :: l else u :: insert t l'
  end.
Definition sort_taggers (l : list tagger) : list tagger := fold_right insert [] l.
(** 1291-1301. *)
Definition tagged (taggers : list tagger) (s : source) : tags :=
  if negb (s_override s) || (match s_tags s with [] => true | _ => false end) then
    let ts := unite (s_tags s) (tags_for (file_name (s_path s)) taggers) in
    match ts with [] => [unknown_tag] | _ => ts end
  else s_tags s.
(** 1304-1325, for a source that is not the target of a module; [filters] are the groups with fileTagsFilter, [install] the value of
    qbs.install for the source with the tags. *)
Fixpoint filtered (filters : list (tags * tags)) (ts : tags) : tags :=
  match filters with
  | [] => ts
  | (f, extra) :: l => filtered l (if existsb (fun t => mem t f) ts then unite ts extra else ts)
  end.
Definition final_tags (product_taggers project_taggers : list tagger) (filters : list (tags * tags)) (install : bool) (s : source) : tags :=
  let ts := filtered filters (tagged (sort_taggers (product_taggers ++ project_taggers)) s) in
  if install then unite ts [text "installable"] else ts.
End Tags.
