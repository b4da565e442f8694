(** Writing values and object graphs to the build graph file and reading them back:
    src/lib/corelib/tools/persistence.{h,cpp}.

    The byte format of numbers and strings is QDataStream's, written down in LauncherModel.v.  The pool
    writes a string, string list or environment once and afterwards only its number; the same for the
    objects behind pointers.  So what is written for a value depends on everything written before it.

    Types are descriptions [ty]; the code picks the functions by C++ overloading (PPHelper).  The fields that a
    class writes are a parameter: [classes c] is the list of the types of its fields, in the order in which
    its store and load functions (for nearly all classes the same serializationOp) go through them. *)
From Coq Require Import List Bool Arith NArith ZArith.
From Verif Require Import Str LauncherModel.
Import ListNotations.

(** What can go wrong.  [OutOfFuel]: the model's own recursion bound.  [Overflow]: an identifier does not fit
    into an int (undefined behaviour in the code).  [Stuck]: a value that is not of the stated type, which the C++ type
    checker rules out.  [Unreadable]: end of file or a failing assertion while reading. *)
Inductive fault := OutOfFuel | Overflow | Stuck | Unreadable.
Inductive result (A : Type) := Done (a : A) | Fail (f : fault).
Arguments Done {A}. Arguments Fail {A}.

(** ** Numbers *)

Inductive ity := I8 | U8 | I16 | U16 | I32 | U32 | I64 | U64.
Definition ity_bytes (i : ity) : nat := match i with I8 | U8 => 1 | I16 | U16 => 2 | I32 | U32 => 4 | I64 | U64 => 8 end.
Definition ity_signed (i : ity) : bool := match i with I8 | I16 | I32 | I64 => true | _ => false end.
Definition ity_size (i : ity) : Z := (256 ^ Z.of_nat (ity_bytes i))%Z.

Definition wInt (i : ity) (z : Z) : str := be (ity_bytes i) (Z.to_N (z mod ity_size i)).
Definition of_bytes (i : ity) (n : N) : Z :=
  if ity_signed i && (ity_size i <=? 2 * Z.of_N n)%Z then (Z.of_N n - ity_size i)%Z else Z.of_N n.
Definition rInt (i : ity) : reader Z := bind (take (ity_bytes i)) (fun s => ret (of_bytes i (unbe s))).

Definition int_max : Z := 2147483647%Z.

(** ** Types and values *)

Inductive ownership := Raw | Shared.   (* raw and unique pointers, std::shared_ptr *)

Inductive ty :=
| TInt (i : ity)                       (* integers, long as qint64, bool, enumerations, QFlags *)
| TStr                                 (* QString; QRegularExpression by its pattern, FileTag, Id by their names *)
| TStrs                                (* QStringList *)
| TEnv                                 (* QProcessEnvironment *)
| TVariant                             (* QVariant *)
| TPair (a b : ty)                     (* std::pair, std::tuple *)
| TList (t : ty)                       (* QList, std::vector, Set *)
| TMap (count : ity) (k v : ty)        (* QMap and QHash with an int, std::unordered_map with a quint32 as number of entries *)
| TOpt (t : ty)                        (* std::optional *)
| TUnion (cases : list (Z * ty))       (* a quint8 and what it says: nodes in a NodeSet, commands in a CommandList *)
| TPtr (o : ownership) (c : nat).      (* pointer to an object of class [c] *)

(** An environment is the list of its variables in the order of keys().  A variant that the pool hands to
    QDataStream is [VRaw]: its type id, whether it is null, and its data; a variant with a string, string
    list, list or map inside is [VHeld]. *)
Inductive val :=
| VInt (z : Z)
| VStr (s : qstr)
| VStrs (l : list qstr)
| VEnv (e : list (str * qstr))
| VRaw (tid : N) (null : bool) (data : str)
| VHeld (tid : N) (v : val)
| VPair (a b : val)
| VList (l : list val)
| VMap (l : list (val * val))
| VNone
| VSome (v : val)
| VCase (tag : Z) (v : val)
| VNull
| VPtr (a : nat).

(** The objects by address: class and fields. *)
Definition heap := nat -> option (nat * list val).

(** QMetaType::QVariantMap 8, QVariantList 9, QString 10, QStringList 11, User 1024 (Qt). *)
Definition held (tid : N) : option ty :=
  if (tid =? 8)%N then Some (TMap I32 TStr TVariant)
  else if (tid =? 9)%N then Some (TList TVariant)
  else if (tid =? 10)%N then Some TStr
  else if (tid =? 11)%N then Some TStrs
  else None.
Definition meta_user : N := 1024%N.

(** QDataStream << QVariant in the format of Qt 4.8: the type id, a byte that says whether it is null, the data.
    Modelled for invalid variants (0; a null string follows), bool 1, int 2, uint 3, qlonglong 4, qulonglong 5,
    double 6 and null strings 10; the data is an opaque string of bytes. *)
Definition raw_size (tid : N) : option nat :=
  if (tid =? 0)%N then Some 4 else if (tid =? 1)%N then Some 1 else if (tid =? 2)%N then Some 4
  else if (tid =? 3)%N then Some 4 else if (tid =? 4)%N then Some 8 else if (tid =? 5)%N then Some 8
  else if (tid =? 6)%N then Some 8 else if (tid =? 10)%N then Some 4 else None.
Definition wRaw (tid : N) (null : bool) (data : str) : str := wU32 tid ++ wU8 (if null then 1 else 0)%N ++ data.
Definition rRaw : reader val :=
  bind rU32 (fun tid => bind rU8 (fun b =>
    match raw_size tid with
    | Some k => bind (take k) (fun d => ret (VRaw tid (negb (b =? 0)%N) d))
    | None => fun _ => None
    end)).

(** ** Writing *)

(** persistence.h 156-169: m_storageIndices and the inverse maps with their counters.  An identifier is the position
    at which the entry was added; the counters are the lengths. *)
Record sst := mkS {
  s_objs : list nat;                 (* m_storageIndices *)
  s_strs : list str;                 (* m_inverseStringStorage *)
  s_lists : list (list str);         (* m_inverseStringListStorage *)
  s_envs : list (list (str * str))   (* m_inverseEnvStorage *)
}.
Definition s_empty : sst := mkS [] [] [] [].

(** The tables are hashes with Qt's comparison, in which a null string equals an empty one. *)
Definition plain (s : qstr) : str := match s with None => [] | Some u => u end.

Fixpoint index_of {A} (eqb : A -> A -> bool) (x : A) (l : list A) : option nat :=
  match l with
  | [] => None
  | y :: l => if eqb x y then Some 0 else option_map S (index_of eqb x l)
  end.

Fixpoint list_eqb {A} (eqb : A -> A -> bool) (a b : list A) : bool :=
  match a, b with
  | [], [] => true
  | x :: a, y :: b => eqb x y && list_eqb eqb a b
  | _, _ => false
  end.
Definition var_eqb (a b : str * str) : bool := str_eqb (fst a) (fst b) && str_eqb (snd a) (snd b).

Definition wId (n : nat) : str := wInt I32 (Z.of_nat n).
Definition fits (n : nat) : bool := (Z.of_nat n <=? int_max)%Z.
Definition ValueNotFoundId : Z := (-1)%Z.
Definition EmptyValueId : Z := (-2)%Z.
Definition NullValueId : Z := (-3)%Z.

Definition prepend {A} (w : str) (r : result (A * str)) : result (A * str) :=
  match r with Done (st, w') => Done (st, w ++ w') | Fail f => Fail f end.

(** One after the other: store(const Types &...) 86-89, the loops over containers and over the fields of objects. *)
Fixpoint store_seq {X} (f : sst -> X -> result (sst * str)) (st : sst) (l : list X) : result (sst * str) :=
  match l with
  | [] => Done (st, [])
  | x :: l => match f st x with
              | Done (st', w) => prepend w (store_seq f st' l)
              | Fail e => Fail e
              end
  end.

(** persistence.h 294-316 idStoreValue, with doStoreValue (persistence.cpp 219-222) for strings. *)
Definition store_str (st : sst) (s : qstr) : result (sst * str) :=
  match s with
  | None => Done (st, wInt I32 NullValueId)
  | Some [] => Done (st, wInt I32 EmptyValueId)
  | Some u =>
      match index_of str_eqb u (s_strs st) with
      | Some id => Done (st, wId id)
      | None =>
          let id := length (s_strs st) in
          if fits id then
            Done (mkS (s_objs st) (s_strs st ++ [u]) (s_lists st) (s_envs st), wId id ++ wString (Some u))
          else Fail Overflow
      end
  end.

(** idStoreValue with doStoreValue (224-229) for string lists. *)
Definition store_strs (st : sst) (l : list qstr) : result (sst * str) :=
  match l with
  | [] => Done (st, wInt I32 EmptyValueId)
  | _ =>
      let key := map plain l in
      match index_of (list_eqb str_eqb) key (s_lists st) with
      | Some id => Done (st, wId id)
      | None =>
          let id := length (s_lists st) in
          if fits id then
            prepend (wId id ++ wInt I32 (Z.of_nat (length l)))
              (store_seq store_str (mkS (s_objs st) (s_strs st) (s_lists st ++ [key]) (s_envs st)) l)
          else Fail Overflow
      end
  end.

(** idStoreValue with doStoreValue (231-237) for environments. *)
Definition store_env (st : sst) (e : list (str * qstr)) : result (sst * str) :=
  match e with
  | [] => Done (st, wInt I32 EmptyValueId)
  | _ =>
      let key := map (fun kv => (fst kv, plain (snd kv))) e in
      match index_of (list_eqb var_eqb) key (s_envs st) with
      | Some id => Done (st, wId id)
      | None =>
          let id := length (s_envs st) in
          if fits id then
            match store_strs (mkS (s_objs st) (s_strs st) (s_lists st) (s_envs st ++ [key])) (map (fun kv => Some (fst kv)) e) with
            | Done (st', w) => prepend (wId id ++ w) (store_seq store_str st' (map snd e))
            | Fail f => Fail f
            end
          else Fail Overflow
      end
  end.

Fixpoint find_case (tag : Z) (cases : list (Z * ty)) : option ty :=
  match cases with [] => None | (k, t) :: l => if (tag =? k)%Z then Some t else find_case tag l end.

Definition entries (k v : ty) (l : list (val * val)) : list (ty * val) :=
  concat (map (fun e => [(k, fst e); (v, snd e)]) l).

Section Classes.
  Variable classes : nat -> list ty.

  (** persistence.h 178-194 storeSharedObject, 322-579 PPHelper, persistence.cpp 141-166 storeVariant. *)
  Fixpoint store (n : nat) (H : heap) (st : sst) (x : ty * val) : result (sst * str) :=
    match n with
    | O => Fail OutOfFuel
    | S n =>
        match fst x, snd x with
        | TInt i, VInt z => Done (st, wInt i z)
        | TStr, VStr s => store_str st s
        | TStrs, VStrs l => store_strs st l
        | TEnv, VEnv e => store_env st e
        | TVariant, VRaw tid null data => Done (st, wU32 (if null then meta_user else tid) ++ wRaw tid null data)
        | TVariant, VHeld tid v =>
            match held tid with
            | Some t => prepend (wU32 tid) (store n H st (t, v))
            | None => Fail Stuck
            end
        | TPair a b, VPair x y => store_seq (store n H) st [(a, x); (b, y)]
        | TList t, VList l => prepend (wInt I32 (Z.of_nat (length l))) (store_seq (store n H) st (map (pair t) l))
        | TMap c k v, VMap l => prepend (wInt c (Z.of_nat (length l))) (store_seq (store n H) st (entries k v l))
        | TOpt t, VNone => Done (st, wInt I32 (-1))
        | TOpt t, VSome v => prepend (wInt I32 (-2)) (store n H st (t, v))
        | TUnion cases, VCase tag v =>
            match find_case tag cases with
            | Some t => prepend (wInt U8 tag) (store n H st (t, v))
            | None => Fail Stuck
            end
        | TPtr o c, VNull => Done (st, wInt I32 (-1))
        | TPtr o c, VPtr a =>
            match index_of Nat.eqb a (s_objs st) with
            | Some id => Done (st, wId id)
            | None =>
                let id := length (s_objs st) in
                if fits id then
                  match H a with
                  | Some (_, fields) =>
                      prepend (wId id)
                        (store_seq (store n H) (mkS (s_objs st ++ [a]) (s_strs st) (s_lists st) (s_envs st))
                                   (combine (classes c) fields))
                  | None => Fail Stuck
                  end
                else Fail Overflow
            end
        | _, _ => Fail Stuck
        end
    end.

  (** ** Reading *)

  (** The tables for reading, and the objects created so far.  The new objects get the addresses 0, 1, ... in the order
      of their creation; [l_heap] receives an object when its load function returns (nothing reads it before). *)
  Record lst := mkL {
    l_strs : list qstr;                       (* m_stringStorage *)
    l_lists : list (list qstr);               (* m_stringListStorage *)
    l_envs : list (list (str * qstr));        (* m_envStorage *)
    l_raw : list (option nat);                (* m_loadedRaw *)
    l_shared : list (option nat);             (* m_loaded *)
    l_next : nat;
    l_heap : list (nat * (nat * list val))
  }.
  Definition l_empty : lst := mkL [] [] [] [] [] 0 [].

  Definition read {A B} (r : reader A) (s : str) (k : A -> str -> result B) : result B :=
    match r s with Some (a, s') => k a s' | None => Fail Unreadable end.

  (** vec.resize(id + 1); vec[id] = x; *)
  Definition put {A} (d : A) (l : list A) (id : nat) (x : A) : list A :=
    firstn id l ++ repeat d (id - length l) ++ [x].

  Fixpoint load_seq {X Y} (f : lst -> X -> str -> result (Y * lst * str)) (ld : lst) (l : list X) (s : str)
    : result (list Y * lst * str) :=
    match l with
    | [] => Done ([], ld, s)
    | x :: l =>
        match f ld x s with
        | Done (y, ld, s) =>
            match load_seq f ld l s with
            | Done (ys, ld, s) => Done (y :: ys, ld, s)
            | Fail e => Fail e
            end
        | Fail e => Fail e
        end
    end.

  (** persistence.h 272-292 idLoadValue, with doLoadValue (persistence.cpp 199-202) for strings. *)
  Definition load_str (ld : lst) (s : str) : result (qstr * lst * str) :=
    read (rInt I32) s (fun id s =>
      if (id =? NullValueId)%Z then Done (None, ld, s)
      else if (id =? EmptyValueId)%Z then Done (Some [], ld, s)
      else if (id <? 0)%Z then Fail Unreadable
      else
        let id := Z.to_nat id in
        if length (l_strs ld) <=? id then
          read rString s (fun u s =>
            Done (u, mkL (put None (l_strs ld) id u) (l_lists ld) (l_envs ld) (l_raw ld) (l_shared ld) (l_next ld) (l_heap ld), s))
        else Done (nth id (l_strs ld) None, ld, s)).

  (** idLoadValue with doLoadValue (204-210) for string lists. *)
  Definition load_strs (ld : lst) (s : str) : result (list qstr * lst * str) :=
    read (rInt I32) s (fun id s =>
      if (id =? NullValueId)%Z || (id =? EmptyValueId)%Z then Done ([], ld, s)
      else if (id <? 0)%Z then Fail Unreadable
      else
        let id := Z.to_nat id in
        if length (l_lists ld) <=? id then
          read (rInt I32) s (fun count s =>
            match load_seq (fun ld (_ : unit) s => load_str ld s) ld (repeat tt (Z.to_nat count)) s with
            | Done (l, ld, s) =>
                Done (l, mkL (l_strs ld) (put [] (l_lists ld) id l) (l_envs ld) (l_raw ld) (l_shared ld) (l_next ld) (l_heap ld), s)
            | Fail e => Fail e
            end)
        else Done (nth id (l_lists ld) [], ld, s)).

  (** idLoadValue with doLoadValue (212-217) for environments. *)
  Definition load_env (ld : lst) (s : str) : result (list (str * qstr) * lst * str) :=
    read (rInt I32) s (fun id s =>
      if (id =? NullValueId)%Z || (id =? EmptyValueId)%Z then Done ([], ld, s)
      else if (id <? 0)%Z then Fail Unreadable
      else
        let id := Z.to_nat id in
        if length (l_envs ld) <=? id then
          match load_strs ld s with
          | Done (keys, ld, s) =>
              match load_seq (fun ld (_ : qstr) s => load_str ld s) ld keys s with
              | Done (vs, ld, s) =>
                  let e := combine (map plain keys) vs in
                  Done (e, mkL (l_strs ld) (l_lists ld) (put [] (l_envs ld) id e) (l_raw ld) (l_shared ld) (l_next ld) (l_heap ld), s)
              | Fail f => Fail f
              end
          | Fail f => Fail f
          end
        else Done (nth id (l_envs ld) [], ld, s)).

  Fixpoint pair_up (l : list val) : list (val * val) :=
    match l with a :: b :: l => (a, b) :: pair_up l | _ => [] end.

  Definition table (o : ownership) (ld : lst) : list (option nat) := match o with Raw => l_raw ld | Shared => l_shared ld end.
  (** m_loadedRaw[id] = new T, or m_loaded[id] = T::create(). *)
  Definition create (o : ownership) (id : nat) (ld : lst) : lst :=
    let t := put None (table o ld) id (Some (l_next ld)) in
    mkL (l_strs ld) (l_lists ld) (l_envs ld)
        (match o with Raw => t | Shared => l_raw ld end)
        (match o with Raw => l_shared ld | Shared => t end)
        (S (l_next ld)) (l_heap ld).
  Definition filled (a c : nat) (fields : list val) (ld : lst) : lst :=
    mkL (l_strs ld) (l_lists ld) (l_envs ld) (l_raw ld) (l_shared ld) (l_next ld) ((a, (c, fields)) :: l_heap ld).

  (** persistence.h 573-578: load of an optional into a variable that has the value [old]. *)
  Definition load_marker (old : val) (s : str) (value : str -> result (val * lst * str)) (ld : lst) : result (val * lst * str) :=
    read (rInt I32) s (fun marker s => if (marker =? -2)%Z then value s else Done (old, ld, s)).

  (** persistence.h 196-216 idLoad, 254-270 idLoadS, 322-579 PPHelper, persistence.cpp 168-189 loadVariant.  The keys that are read
      into a map are distinct when they were stored from one, so inserting is appending.  Optionals are loaded into fresh
      variables here. *)
  Fixpoint load (n : nat) (ld : lst) (t : ty) (s : str) : result (val * lst * str) :=
    match n with
    | O => Fail OutOfFuel
    | S n =>
        match t with
        | TInt i => read (rInt i) s (fun z s => Done (VInt z, ld, s))
        | TStr => match load_str ld s with Done (u, ld, s) => Done (VStr u, ld, s) | Fail e => Fail e end
        | TStrs => match load_strs ld s with Done (u, ld, s) => Done (VStrs u, ld, s) | Fail e => Fail e end
        | TEnv => match load_env ld s with Done (u, ld, s) => Done (VEnv u, ld, s) | Fail e => Fail e end
        | TVariant =>
            read rU32 s (fun tid s =>
              match held tid with
              | Some t => match load n ld t s with Done (v, ld, s) => Done (VHeld tid v, ld, s) | Fail e => Fail e end
              | None => read rRaw s (fun v s => Done (v, ld, s))
              end)
        | TPair a b =>
            match load_seq (load n) ld [a; b] s with
            | Done ([x; y], ld, s) => Done (VPair x y, ld, s)
            | Done _ => Fail Stuck
            | Fail e => Fail e
            end
        | TList t =>
            read (rInt I32) s (fun count s =>
              match load_seq (load n) ld (repeat t (Z.to_nat count)) s with
              | Done (l, ld, s) => Done (VList l, ld, s)
              | Fail e => Fail e
              end)
        | TMap c k v =>
            read (rInt c) s (fun count s =>
              match load_seq (load n) ld (concat (repeat [k; v] (Z.to_nat count))) s with
              | Done (l, ld, s) => Done (VMap (pair_up l), ld, s)
              | Fail e => Fail e
              end)
        | TOpt t =>
            load_marker VNone s (fun s => match load n ld t s with Done (v, ld, s) => Done (VSome v, ld, s) | Fail e => Fail e end) ld
        | TUnion cases =>
            read (rInt U8) s (fun tag s =>
              match find_case tag cases with
              | Some t => match load n ld t s with Done (v, ld, s) => Done (VCase tag v, ld, s) | Fail e => Fail e end
              | None => Fail Unreadable
              end)
        | TPtr o c =>
            read (rInt I32) s (fun id s =>
              if (id <? 0)%Z then Done (VNull, ld, s)
              else
                let id := Z.to_nat id in
                if id <? length (table o ld) then
                  Done (match nth id (table o ld) None with Some a => VPtr a | None => VNull end, ld, s)
                else
                  let a := l_next ld in
                  match load_seq (load n) (create o id ld) (classes c) s with
                  | Done (fields, ld, s) => Done (VPtr a, filled a c fields ld, s)
                  | Fail e => Fail e
                  end)
        end
    end.

  (** Everything that one save writes after the head of the file, and one load reads. *)
  Definition store_all (n : nat) (H : heap) (l : list (ty * val)) : result (sst * str) := store_seq (store n H) s_empty l.
  Definition load_all (n : nat) (ts : list ty) (s : str) : result (list val * lst * str) := load_seq (load n) l_empty ts s.

End Classes.
