(** Model of the sorted-vector container [Set<T>], src/lib/corelib/tools/set.h.
    A set is the vector [m_data], modelled as a list.  The element type and its
    [operator<] are parameters.  [std::lower_bound], [std::binary_search],
    [std::sort] and [std::unique] are modelled by their documented results:
    the first three by linear scans / insertion sort; on sorted ranges (which
    is what the container maintains) the results agree with the standard
    library's. *)
From Coq Require Import List Bool Arith.
Import ListNotations.

Section SetModel.
  Context {T : Type}.
  (** [operator<] of the element type. *)
  Variable ltb : T -> T -> bool.

  (** Split a range at [std::lower_bound]: elements less than [v], and the rest. *)
  Fixpoint split_lb (v : T) (l : list T) : list T * list T :=
    match l with
    | [] => ([], [])
    | x :: l' =>
        if ltb x v then let (a, b) := split_lb v l' in (x :: a, b)
        else ([], l)
    end.

  (** [operator==] on elements, assumed to be the equivalence of [operator<]. *)
  Definition eqv (x y : T) : bool := negb (ltb x y) && negb (ltb y x).

  (** [std::sort] *)
  Fixpoint insert_sorted (v : T) (l : list T) : list T :=
    match l with
    | [] => [v]
    | x :: l' => if ltb x v then x :: insert_sorted v l' else v :: l
    end.

  Fixpoint sort (l : list T) : list T :=
    match l with
    | [] => []
    | x :: l' => insert_sorted x (sort l')
    end.

  (** [std::unique] followed by [erase]: drops elements equal to their predecessor. *)
  Fixpoint unique (l : list T) : list T :=
    match l with
    | [] => []
    | x :: l' =>
        match l' with
        | [] => [x]
        | y :: _ => if eqv x y then unique l' else x :: unique l'
        end
    end.

  (** set.h 169-174: constructor from an initializer list. *)
  Definition of_init_list (l : list T) : list T := unique (sort l).

  (** set.h 176-183: constructor from an iterator range: copies and sorts,
      without removing duplicates. *)
  Definition of_range (l : list T) : list T := sort l.

  (** set.h 205-211: [insert]; returns the new contents and whether an
      insertion took place. *)
  Definition insert (s : list T) (v : T) : list T * bool :=
    let (a, b) := split_lb v s in
    match b with
    | [] => (a ++ v :: b, true)
    | y :: _ => if ltb v y then (a ++ v :: b, true) else (s, false)
    end.

  (** set.h 264-272: [remove]; returns the new contents and whether something
      was removed. *)
  Definition remove (s : list T) (v : T) : list T * bool :=
    let (a, b) := split_lb v s in
    match b with
    | [] => (s, false)
    | y :: b' => if negb (ltb v y) then (a ++ b', true) else (s, false)
    end.

  (** set.h 125: [contains(const T &)], via [std::binary_search]. *)
  Definition contains (s : list T) (v : T) : bool :=
    match snd (split_lb v s) with
    | [] => false
    | y :: _ => negb (ltb v y)
    end.

  (** set.h 118-119 with stlutils.h [binaryFind]: position of the element found. *)
  Definition find (s : list T) (v : T) : option nat :=
    let (a, b) := split_lb v s in
    match b with
    | [] => None
    | y :: _ => if ltb v y then None else Some (length a)
    end.

  (** set.h 213-225: [contains(const Set &)]. *)
  Fixpoint contains_set (s : list T) (other : list T) : bool :=
    match other with
    | [] => true
    | y :: other' =>
        match s with
        | [] => false
        | x :: s' =>
            if ltb y x then false
            else if negb (ltb x y) then contains_set s' other'
            else contains_set s' other
        end
    end.

  (** set.h 227-240: [intersects]. *)
  Fixpoint intersects (s : list T) : list T -> bool :=
    fix go (other : list T) : bool :=
      match s, other with
      | [], _ => false
      | _, [] => false
      | x :: s', y :: other' =>
          if ltb x y then intersects s' other
          else if ltb y x then go other'
          else true
      end.

  (** set.h 185-203: [intersect] (in place, erasing). *)
  Fixpoint intersect (s : list T) : list T -> list T :=
    fix go (other : list T) : list T :=
      match s, other with
      | [], _ => []
      | _, [] => []
      | x :: s', y :: other' =>
          if ltb x y then intersect s' other
          else if negb (ltb y x) then x :: intersect s' other'
          else go other'
      end.

  (** set.h 242-262: [unite]; the loop, [rest] being the range
      [lowerBound, m_data.end()). *)
  Fixpoint unite_loop (rest other : list T) : list T :=
    match other with
    | [] => rest
    | y :: other' =>
        let (a, b) := split_lb y rest in
        match b with
        | [] => a ++ other
        | z :: _ =>
            if ltb y z then a ++ unite_loop (y :: b) other'
            else a ++ unite_loop b other'
        end
    end.

  Definition unite (s other : list T) : list T :=
    match other with
    | [] => s
    | _ => match s with [] => other | _ => unite_loop s other end
    end.

  (** set.h 326-339: [subtract]. *)
  Fixpoint subtract_loop (rest other : list T) : list T :=
    match other with
    | [] => rest
    | y :: other' =>
        let (a, b) := split_lb y rest in
        match b with
        | [] => a
        | z :: b' =>
            if negb (ltb y z) then a ++ subtract_loop b' other'
            else a ++ subtract_loop b other'
        end
    end.

  Definition subtract (s other : list T) : list T :=
    match s, other with
    | [], _ => s
    | _, [] => s
    | _, _ => subtract_loop s other
    end.

  (** set.h 352-374: binary [operator-]. *)
  Fixpoint minus_loop (s : list T) : list T -> list T :=
    fix go (other : list T) : list T :=
      match s, other with
      | [], _ => []
      | _, [] => s
      | x :: s', y :: other' =>
          if ltb x y then x :: minus_loop s' other
          else if ltb y x then go other'
          else minus_loop s' other'
      end.

  Definition minus (s other : list T) : list T :=
    match s, other with
    | [], _ => s
    | _, [] => s
    | _, _ => minus_loop s other
    end.

  (** set.h 376-395: binary [operator&]. *)
  Fixpoint inter (s : list T) : list T -> list T :=
    fix go (other : list T) : list T :=
      match s, other with
      | [], _ => []
      | _, [] => []
      | x :: s', y :: other' =>
          if ltb x y then inter s' other
          else if ltb y x then go other'
          else x :: inter s' other'
      end.

  (** set.h 341-345: binary [operator+] copies and unites. *)
  Definition plus (s other : list T) : list T := unite s other.

  (** set.h 285-290: [store] writes the size and the elements in order. *)
  Definition store (s : list T) : nat * list T := (length s, s).

  (** set.h 274-283: [load]; [relocate] is what happens to an element between
      being stored and being loaded again (the identity for values; a new
      address for pointers), [resort] is [sortAfterLoadRequired()]. *)
  Definition load (resort : bool) (relocate : T -> T) (stored : nat * list T) : list T :=
    let l := map relocate (firstn (fst stored) (snd stored)) in
    if resort then sort l else l.

  (** set.h 153: [operator==] compares the vectors. *)
  Fixpoint equal (s other : list T) : bool :=
    match s, other with
    | [], [] => true
    | x :: s', y :: other' => eqv x y && equal s' other'
    | _, _ => false
    end.

  (** set.h 314-324: [filtered]: keeps, in order, the elements of a dynamic type. *)
  Definition filtered (p : T -> bool) (s : list T) : list T := filter p s.
End SetModel.
