(** Model of include/graphqlservice/internal/SortedMap.h.
    [sorted_map<K, V, Compare>] is a vector of pairs and [sorted_set<K, Compare>] a vector of keys; the two
    class bodies are textually the same up to the projection from an element to its key, so one generic vector
    [data : list E] with [key : E -> K] models both.  Iterators are indices into the vector (end = length). *)
From Verif Require Import Cpp.

Section SortedVector.
  Context {E K : Type} (key : E -> K) (comp : K -> K -> bool).

  (** std::lower_bound / std::upper_bound as bisection on [first, first + len) (the C++ standard's algorithm,
      as in libstdc++ bits/stl_algobase.h); [go_right] says whether the middle element is before the bound. *)
  Fixpoint bisect (fuel : nat) (data : list E) (go_right : E -> bool) (first len : nat) : nat :=
    match fuel with
    | O => first
    | S fuel' =>
        match len with
        | O => first
        | _ =>
            let half := Nat.div2 len in
            let middle := first + half in
            match nth_error data middle with
            | Some e => if go_right e then bisect fuel' data go_right (S middle) (len - half - 1)
                        else bisect fuel' data go_right first half
            | None => first
            end
        end
    end.

  Definition lower_bound (data : list E) (k : K) : nat :=
    bisect (S (length data)) data (fun e => comp (key e) k) 0 (length data).
  Definition upper_bound (data : list E) (k : K) : nat :=
    bisect (S (length data)) data (fun e => negb (comp k (key e))) 0 (length data).

  (** std::equal_range = (lower_bound, upper_bound). *)
  Definition equal_range (data : list E) (k : K) : nat * nat := (lower_bound data k, upper_bound data k).

  (** SortedMap.h:87-105 and 282-298 [find]: index of the element or end. *)
  Definition sv_find (data : list E) (k : K) : nat :=
    let (itr, itrEnd) := equal_range data k in
    if Nat.eqb itr itrEnd then length data else itr.

  (** vector::emplace at a position / vector::erase at a position. *)
  Definition insert_at (data : list E) (i : nat) (e : E) : list E := firstn i data ++ e :: skipn i data.
  Definition erase_at (data : list E) (i : nat) : list E := firstn i data ++ skipn (S i) data.

  (** SortedMap.h:107-125 and 300-316 [emplace]; [e] is the element built from the key and the value arguments. *)
  Definition sv_emplace (data : list E) (k : K) (e : E) : list E * (nat * bool) :=
    let (itr, itrEnd) := equal_range data k in
    if negb (Nat.eqb itr itrEnd) then (data, (itr, false))
    else (insert_at data itrEnd e, (itrEnd, true)).

  (** SortedMap.h:127-150 and 318-341 [erase] by key; returns the following iterator. *)
  Definition sv_erase (data : list E) (k : K) : list E * nat :=
    let (itr, itrEnd) := equal_range data k in
    if Nat.eqb itr itrEnd then (data, length data) else (erase_at data itr, itr).

  (** SortedMap.h:29-35 and 224-230: the initializer list constructor sorts with std::sort and keeps duplicates.
      Modelled with insertion sort (std::sort is unstable; for duplicate keys the order is unspecified). *)
  Fixpoint insert_sorted (e : E) (l : list E) : list E :=
    match l with
    | [] => [e]
    | x :: xs => if comp (key x) (key e) then x :: insert_sorted e xs else e :: l
    end.
  Definition sv_init (init : list E) : list E := fold_right insert_sorted [] init.
End SortedVector.

Section SortedMap.
  Context {K V : Type} (comp : K -> K -> bool).

  (** [sorted_map] operations on the vector of pairs. *)
  Definition smap := list (K * V).
  Definition smap_find (m : smap) (k : K) : option V :=      (* itr == end() ? nothing : itr->second *)
    match nth_error m (sv_find fst comp m k) with Some (_, v) => Some v | None => None end.
  Definition smap_emplace (m : smap) (k : K) (v : V) : smap * bool :=
    let '(m', (_, b)) := sv_emplace fst comp m k (k, v) in (m', b).
  Definition smap_erase (m : smap) (k : K) : smap := fst (sv_erase fst comp m k).

  (** replacing the second component of the pair at an index (assignment through the reference). *)
  Definition set_at (m : smap) (i : nat) (v : V) : smap :=
    match nth_error m i with Some (k, _) => firstn i m ++ (k, v) :: skipn (S i) m | None => m end.

  (** SortedMap.h:157-174 [operator[]]: index of the existing or newly default-constructed element. *)
  Definition smap_index (default : V) (m : smap) (k : K) : smap * nat :=
    let (itr, itrEnd) := equal_range fst comp m k in
    if negb (Nat.eqb itr itrEnd) then (m, itr)
    else (insert_at m itrEnd (k, default), itrEnd).
  (** [m[k] = v] *)
  Definition smap_assign (default : V) (m : smap) (k : K) (v : V) : smap :=
    let (m', i) := smap_index default m k in set_at m' i v.

  (** SortedMap.h:176-193 [at]. *)
  Definition smap_at (m : smap) (k : K) : result V :=
    let (itr, itrEnd) := equal_range fst comp m k in
    if Nat.eqb itr itrEnd then Throw (Exn out_of_range "key not found")
    else match nth_error m itr with Some (_, v) => Ok v | None => UB end.
End SortedMap.

(** std::string_view operator< : lexicographic on unsigned bytes (char_traits<char>::lt). *)
Fixpoint string_lt (a b : string) : bool :=
  match a, b with
  | _, EmptyString => false
  | EmptyString, String _ _ => true
  | String x a', String y b' =>
      if N.ltb (N_of_ascii x) (N_of_ascii y) then true
      else if N.ltb (N_of_ascii y) (N_of_ascii x) then false
      else string_lt a' b'
  end.

(** SortedMap.h:352-358 [shorter_or_less]. *)
Definition shorter_or_less (lhs rhs : string) : bool :=
  if Nat.eqb (String.length lhs) (String.length rhs) then string_lt lhs rhs
  else Nat.ltb (String.length lhs) (String.length rhs).

(** The operations as one step function over the operations of the specification (the container's API). *)
From Verif Require Import SortedMapSpec.
Definition smap_step {K V} (comp : K -> K -> bool) (default : V) (m : list (K * V)) (o : @op K V) : list (K * V) * @out V :=
  match o with
  | OEmplace k v => let (m', b) := smap_emplace comp m k v in (m', RBool b)
  | OErase k => (smap_erase comp m k, RUnit)
  | OFind k => (m, RVal (smap_find comp m k))
  | OAssign k v => (smap_assign comp default m k v, RUnit)
  | OClear => ([], RUnit)
  | OSize => (m, RSize (length m))
  end.
Definition sset_step {K} (comp : K -> K -> bool) (m : list K) (o : @sop K) : list K * sout :=
  match o with
  | SEmplace k => let '(m', (_, b)) := sv_emplace (fun x => x) comp m k k in (m', SBool b)
  | SErase k => (fst (sv_erase (fun x => x) comp m k), SUnit)
  | SFind k => (m, SBool (negb (Nat.eqb (sv_find (fun x => x) comp m k) (length m))))
  | SClear => ([], SUnit)
  | SSize => (m, SNat (length m))
  end.
