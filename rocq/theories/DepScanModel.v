(** Dependency scanning: buildgraph/inputartifactscanner.cpp, rawscanresults.cpp, rawscanneddependency.cpp.
    What a scanner finds in a file, the files on disk, the search paths and which products depend on which are inputs; so is whether connecting to an artifact would make a cycle (it stays the same while edges from the scanned artifact are added).
    Paths are those of Unix. *)
From Coq Require Import List Bool NArith Arith.
Import ListNotations.
From Verif Require Import Str PathModel.

(** FileResourceBase: FileDependency, or Artifact with its product, its transformer, and whether it may be scanned: a source file or already built.  Artifacts are identified by product and path (see ArtifactsModel.v), file dependencies by path. *)
Inductive kind := FileDep | Art (product : nat) (trafo : option nat) (ready : bool).
Record res := mkRes { f_path : str; f_kind : kind }.
(** rawscanneddependency.cpp 49-64: directory and file name *)
Definition raw := (str * str)%type.
Definition raw_of (p : str) : raw := split_dir p.
Definition raw_path (d : raw) : str := if str_eqb (fst d) [] then snd d else fst d ++ slash :: snd d.
Fixpoint double_slash (s : str) : bool := match s with a :: ((b :: _) as t) => ((a =? slash) && (b =? slash))%N || double_slash t | _ => false end.
Definition is_clean (d : raw) : bool := negb (existsb (N.eqb 46) (fst d)) && negb (double_slash (fst d)).

(** What does not change during a scan.  [contents] is what the scanner finds in a file, given the module properties of the input *)
Record world := mkWorld { w_home : str; w_disk : list str; w_depends : nat -> nat -> bool; w_contents : nat -> nat -> str -> list raw; w_stamp : str -> nat; w_now : nat; w_circular : nat * str -> bool }.

Definition raw_eqb (a b : raw) : bool := str_eqb (fst a) (fst b) && str_eqb (snd a) (snd b).
(** ProjectBuildData::lookupFiles *)
Definition lookup_files (l : list res) (dir name : str) : list res := filter (fun r => raw_eqb (split_dir (f_path r)) (dir, name)) l.

(** inputartifactscanner.cpp 84-113: [fd], [other] and [is_dep] are the variables of the loop; left when the artifact is of this product *)
Fixpoint pick (w : world) (product : nat) (l : list res) (fd other : option res) (is_dep : bool) : option res :=
  match l with
  | [] => match other with Some r => Some r | None => fd end
  | r :: l =>
      match f_kind r with
      | FileDep => pick w product l (Some r) other is_dep
      | Art p _ _ => if p =? product then Some r else if is_dep then pick w product l fd other is_dep else pick w product l fd (Some r) (w_depends w product p)
      end
  end.
(** inputartifactscanner.cpp 64-135 resolveDepencency: the path and what is known about the file.  None: not found *)
Definition abs_dir (w : world) (base : str) (d : raw) : str :=
  let p := if str_eqb base [] then fst d else if str_eqb (fst d) [] then base else resolve_path Unix (w_home w) base (fst d) in
  if is_clean d then p else clean_path p.
Definition resolved := (str * option res)%type.
Definition resolve_in (w : world) (l : list res) (product : nat) (d : raw) (base : str) : option resolved :=
  let dir := abs_dir w base d in
  match pick w product (lookup_files l dir (snd d)) None None false with
  | Some r => Some (f_path r, Some r)
  | None => let p := dir ++ slash :: snd d in if existsb (str_eqb p) (w_disk w) then Some (p, None) else None
  end.
(** inputartifactscanner.cpp 355-369: the first search path in which it is found *)
Fixpoint resolve_search (w : world) (l : list res) (product : nat) (d : raw) (paths : list str) : option resolved :=
  match paths with [] => None | p :: paths => match resolve_in w l product d p with Some r => Some r | None => resolve_search w l product d paths end end.
Definition resolve (w : world) (l : list res) (product : nat) (d : raw) (paths : list str) : option resolved :=
  if is_absolute Unix (raw_path d) then resolve_in w l product d [] else resolve_search w l product d paths.

(** RawScanResults: one entry of the list for a file *)
Record scan_data := mkScan { d_path : str; d_scanner : nat; d_props : nat; d_time : nat; d_deps : list raw }.
(** ScannerKeyCacheData *)
Record cache := mkCache { c_paths : list str; c_resolved : list (raw * option resolved) }.
(** The project's files, the results of scans, and the caches by key: scanner with properties and file tags, or scanner with file *)
Record state := mkState { s_files : list res; s_scans : list scan_data; s_caches : list (nat * cache) }.

(** One input of the transformer with one scanner.  [j_same]: areModulePropertiesCompatible; [j_search]: collectSearchPaths for this input *)
Record job := mkJob { j_input : str; j_product : nat; j_scanner : nat; j_recursive : bool; j_props : nat; j_same : nat -> nat -> bool; j_key : nat; j_search : list str }.
(** The artifact whose dependencies are updated: a generated artifact.  Only the children that are artifacts *)
Record art := mkArt { a_path : str; a_product : nat; a_trafo : nat; a_time : nat; a_children : list (nat * str); a_scanned : list (nat * str); a_files : list str }.
Definition id_eqb (a b : nat * str) : bool := (fst a =? fst b) && str_eqb (snd a) (snd b).
Definition mem_id (k : nat * str) (l : list (nat * str)) : bool := existsb (id_eqb k) l.

(** rawscanresults.cpp 53-75 findScanData *)
Definition is_data (j : job) (p : str) (e : scan_data) : bool := str_eqb (d_path e) p && (d_scanner e =? j_scanner j) && j_same j (j_props j) (d_props e).
(** inputartifactscanner.cpp 322-332: scan again if the file is newer than the last scan.  The entry is changed in place, its properties stay *)
Definition scan (w : world) (j : job) (p : str) (l : list scan_data) : list raw * list scan_data :=
  let fresh props := mkScan p (j_scanner j) props (w_now w) (w_contents w (j_scanner j) (j_props j) p) in
  match find (is_data j p) l with
  | None => if 0 <? w_stamp w p then (d_deps (fresh (j_props j)), l ++ [fresh (j_props j)]) else ([], l ++ [mkScan p (j_scanner j) (j_props j) 0 []])
  | Some e =>
      if d_time e <? w_stamp w p then
        (d_deps (fresh (d_props e)), (fix go l := match l with [] => [] | x :: l => if is_data j p x then fresh (d_props x) :: l else x :: go l end) l)
      else (d_deps e, l)
  end.

Definition find_cache (k : nat) (l : list (nat * cache)) : option cache := option_map snd (find (fun e => fst e =? k) l).
Definition put_cache (k : nat) (c : cache) (l : list (nat * cache)) : list (nat * cache) := (k, c) :: filter (fun e => negb (fst e =? k)) l.
(** inputartifactscanner.cpp 313-317 *)
Definition open_cache (j : job) (l : list (nat * cache)) : cache := match find_cache (j_key j) l with Some c => c | None => mkCache (j_search j) [] end.
Definition cached (d : raw) (c : cache) : option (option resolved) := option_map snd (find (fun e => raw_eqb (fst e) d) (c_resolved c)).
Definition put_resolved (d : raw) (r : option resolved) (c : cache) : cache := mkCache (c_paths c) ((d, r) :: filter (fun e => negb (raw_eqb (fst e) d)) (c_resolved c)).
(** inputartifactscanner.cpp 342-370 getResolvedDependency *)
Definition get_resolved (w : world) (j : job) (l : list res) (d : raw) (c : cache) : option resolved * cache :=
  match cached d c with
  | Some r => (r, c)
  | None => let r := resolve w l (j_product j) d (c_paths c) in (r, put_resolved d r c)
  end.

Definition add_file (p : str) (a : art) : art :=
  mkArt (a_path a) (a_product a) (a_trafo a) (a_time a) (a_children a) (a_scanned a) (if existsb (str_eqb p) (a_files a) then a_files a else a_files a ++ [p]).
Definition add_child (k : nat * str) (a : art) : art := mkArt (a_path a) (a_product a) (a_trafo a) (a_time a) (a_children a ++ [k]) (a_scanned a ++ [k]) (a_files a).
(** inputartifactscanner.cpp 398-454 handleDependency: the artifact, what the file is now, and the project's files *)
Definition handle (w : world) (a : art) (r : resolved) (l : list res) : art * res * list res :=
  match snd r with
  | None => let f := mkRes (fst r) FileDep in (add_file (fst r) a, f, l ++ [f])
  | Some f =>
      match f_kind f with
      | FileDep => (add_file (f_path f) a, f, l)
      | Art p t _ =>
          let k := (p, f_path f) in
          if id_eqb k (a_product a, a_path a) then (a, f, l)
          else if match t with Some t => t =? a_trafo a | None => false end then (a, f, l)
          else if mem_id k (a_children a) then (a, f, l)
          else if w_circular w k then (a, f, l) else (add_child k a, f, l)
      end
  end.
(** inputartifactscanner.cpp 372-395 *)
Fixpoint handle_all (w : world) (j : job) (deps : list raw) (a : art) (l : list res) (c : cache) : art * list res * cache * list str :=
  match deps with
  | [] => (a, l, c, [])
  | d :: deps =>
      match get_resolved w j l d c with
      | (None, c) => handle_all w j deps a l c
      | (Some r, c) =>
          let '(a, f, l) := handle w a r l in
          let c := put_resolved d (Some (fst r, Some f)) c in
          let next := if j_recursive j && match f_kind f with FileDep => true | Art _ _ ready => ready end then [f_path f] else [] in
          let '(a, l, c, q) := handle_all w j deps a l c in (a, l, c, next ++ q)
      end
  end.
(** inputartifactscanner.cpp 243-266: the loop over the queue.  None: out of fuel *)
Fixpoint loop (w : world) (j : job) (fuel : nat) (queue visited : list str) (a : art) (s : state) : option (art * state) :=
  match queue with
  | [] => Some (a, s)
  | p :: queue =>
      match fuel with
      | O => None
      | S fuel =>
          if existsb (str_eqb p) visited then loop w j fuel queue visited a s
          else
            let c := open_cache j (s_caches s) in
            let (deps, scans) := scan w j p (s_scans s) in
            let '(a, l, c, q) := handle_all w j deps a (s_files s) c in
            loop w j fuel (queue ++ q) (p :: visited) a (mkState l scans (put_cache (j_key j) c (s_caches s)))
      end
  end.
Fixpoint run_jobs (w : world) (fuel : nat) (js : list job) (a : art) (s : state) : option (art * state) :=
  match js with [] => Some (a, s) | j :: js => match loop w j fuel [j_input j] [] a s with None => None | Some (a, s) => run_jobs w fuel js a s end end.
(** inputartifactscanner.cpp 166-194 updateDependencies; time 0 is invalid *)
Definition subset (a b : list str) : bool := forallb (fun x => existsb (str_eqb x) b) a.
Definition update (w : world) (fuel : nat) (js : list job) (a : art) (s : state) : option (art * state * bool) :=
  let a0 := mkArt (a_path a) (a_product a) (a_trafo a) (a_time a) (filter (fun k => negb (mem_id k (a_scanned a))) (a_children a)) [] [] in
  match run_jobs w fuel js a0 s with
  | None => None
  | Some (b, s) =>
      let t := if subset (a_files a) (a_files b) && subset (a_files b) (a_files a) then a_time b else 0 in
      Some (mkArt (a_path b) (a_product b) (a_trafo b) t (a_children b) (a_scanned b) (a_files b), s, match a_scanned b with [] => false | _ => true end)
  end.
