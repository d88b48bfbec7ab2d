(** Properties C03 and C04. Specification: SortedMapSpec.v (association lists with decidable equality). *)
From Verif Require Import Cpp SortedMapModel SortedMapSpec SortedMapProofs.
From Coq Require Import Permutation Sorting.Sorted.

(** C03: every operation sequence on an initially empty sorted_map returns exactly what the abstract finite map
    returns (find, inserted flag, size), iterates over exactly the abstract entries, in strictly increasing order. *)
Theorem C03_sorted_map_refines_finite_map :
  forall (K V : Type) (comp : K -> K -> bool) (default : V) (keq : forall a b : K, {a = b} + {a <> b}),
  strict_total comp ->
  forall ops m results a expected,
  run (smap_step comp default) [] ops = (m, results) ->
  run (a_step keq) [] ops = (a, expected) ->
  results = expected /\ Permutation m a /\ StronglySorted (fun x y => comp (fst x) (fst y) = true) m.
Proof. exact (fun K V comp default keq H => smap_refines comp H default keq). Qed.
Print Assumptions C03_sorted_map_refines_finite_map.

Theorem C03_sorted_set_refines_finite_set :
  forall (K : Type) (comp : K -> K -> bool) (keq : forall a b : K, {a = b} + {a <> b}),
  strict_total comp ->
  forall ops m results a expected,
  run (sset_step comp) [] ops = (m, results) ->
  run (a_sstep keq) [] ops = (a, expected) ->
  results = expected /\ Permutation m a /\ StronglySorted (fun x y => comp x y = true) m.
Proof. exact (fun K comp keq H => sset_refines comp H keq). Qed.
Print Assumptions C03_sorted_set_refines_finite_set.

(** C03: [at] returns the value or throws std::out_of_range, in every sorted (hence every reachable) state. *)
Theorem C03_at : forall (K V : Type) (comp : K -> K -> bool) (keq : forall a b : K, {a = b} + {a <> b}) (m : list (K * V)) k,
  strict_total comp -> StronglySorted (fun x y => comp (fst x) (fst y) = true) m ->
  smap_at comp m k = match a_find keq m k with Some v => Ok v | None => Throw (Exn out_of_range "key not found") end.
Proof. exact (fun K V comp keq m k H Hs => smap_at_ok comp H keq m k Hs). Qed.
Print Assumptions C03_at.

(** C03: the initializer list constructor gives a sorted container with the same entries when keys are distinct. *)
Theorem C03_init_partial : forall (K V : Type) (comp : K -> K -> bool) (init : list (K * V)),
  strict_total comp -> NoDup (map fst init) ->
  Permutation (sv_init fst comp init) init /\ StronglySorted (fun x y => comp (fst x) (fst y) = true) (sv_init fst comp init).
Proof. exact (fun K V comp init H Hn => conj (sv_init_perm fst comp init) (sv_init_sorted fst comp H init Hn)). Qed.
Print Assumptions C03_init_partial.

(** With duplicate keys in the initializer list the container is not a map any more: both entries stay. *)
Theorem C03_init_duplicates_refuted :
  ~ (forall init : list (string * N), NoDup (map fst (sv_init fst shorter_or_less init))).
Proof. exact sv_init_dup_refuted. Qed.
Print Assumptions C03_init_duplicates_refuted.

(** C04 *)
Theorem C04_strict_total_order :
  (forall a, shorter_or_less a a = false) /\
  (forall a b c, shorter_or_less a b = true -> shorter_or_less b c = true -> shorter_or_less a c = true) /\
  (forall a b, shorter_or_less a b = false -> shorter_or_less b a = false -> a = b).
Proof. exact (match shorter_or_less_strict with Build_strict_total _ _ i t o => conj i (conj t o) end). Qed.
Print Assumptions C04_strict_total_order.

Theorem C04_shorter_first : forall a b, String.length a < String.length b -> shorter_or_less a b = true.
Proof. exact shorter_first. Qed.
Print Assumptions C04_shorter_first.

(** C03 for the instance used everywhere in the library, [internal::string_view_map<V>]. *)
Theorem C03_string_view_map : forall (V : Type) (default : V) ops m results a expected,
  run (smap_step shorter_or_less default) [] ops = (m, results) ->
  run (a_step string_dec) [] ops = (a, expected) ->
  results = expected /\ Permutation m a /\ StronglySorted (fun x y => shorter_or_less (fst x) (fst y) = true) m.
Proof. exact (fun V default => smap_refines shorter_or_less shorter_or_less_strict default string_dec). Qed.
Print Assumptions C03_string_view_map.

Local Open Scope string_scope.
Example C03_example :
  run (smap_step shorter_or_less 0%N) [] [OEmplace "bb" 1%N; OEmplace "a" 2%N; OEmplace "bb" 3%N; OAssign "c" 4%N; OErase "a"; OFind "bb"; OSize]
  = ([("c", 4%N); ("bb", 1%N)], [RBool true; RBool true; RBool false; RUnit; RUnit; RVal (Some 1%N); RSize 2]).
Proof. vm_compute. reflexivity. Qed.
