(** Abstract finite map with first-insertion-wins: an association list in insertion order, compared with
    decidable equality only (no ordering). A finite set is the case V = unit. *)
From Coq Require Import List.
Import ListNotations.

(** * Strict total orders given by a boolean comparator *)
Record strict_total {K} (lt : K -> K -> bool) : Prop := {
  st_irrefl : forall a, lt a a = false;
  st_trans : forall a b c, lt a b = true -> lt b c = true -> lt a c = true;
  st_total : forall a b, lt a b = false -> lt b a = false -> a = b }.

Section Spec.
  Context {K V : Type} (keq : forall a b : K, {a = b} + {a <> b}).

  Definition amap := list (K * V).
  Fixpoint a_find (m : amap) (k : K) : option V :=
    match m with [] => None | (k', v) :: m' => if keq k k' then Some v else a_find m' k end.
  Definition a_erase (m : amap) (k : K) : amap := filter (fun kv => if keq k (fst kv) then false else true) m.
  Fixpoint a_set (m : amap) (k : K) (v : V) : amap :=
    match m with
    | [] => [(k, v)]
    | (k', v') :: m' => if keq k k' then (k', v) :: m' else (k', v') :: a_set m' k v
    end.

  Inductive op : Type :=
  | OEmplace (k : K) (v : V)     (* m.emplace(k, v)  -> inserted? *)
  | OErase (k : K)               (* m.erase(k) *)
  | OFind (k : K)                (* m.find(k)        -> value or end *)
  | OAssign (k : K) (v : V)      (* m[k] = v *)
  | OClear
  | OSize.                       (* m.size() *)
  Inductive out : Type := RBool (b : bool) | RUnit | RVal (v : option V) | RSize (n : nat).

  Definition a_step (m : amap) (o : op) : amap * out :=
    match o with
    | OEmplace k v => match a_find m k with Some _ => (m, RBool false) | None => (m ++ [(k, v)], RBool true) end
    | OErase k => (a_erase m k, RUnit)
    | OFind k => (m, RVal (a_find m k))
    | OAssign k v => (a_set m k v, RUnit)
    | OClear => ([], RUnit)
    | OSize => (m, RSize (length m))
    end.
End Spec.

Fixpoint run {S O R} (step : S -> O -> S * R) (s : S) (ops : list O) : S * list R :=
  match ops with
  | [] => (s, [])
  | o :: ops' => let (s1, r) := step s o in let (s2, rs) := run step s1 ops' in (s2, r :: rs)
  end.

Section SetSpec.
  Context {K : Type} (keq : forall a b : K, {a = b} + {a <> b}).
  Inductive sop : Type := SEmplace (k : K) | SErase (k : K) | SFind (k : K) | SClear | SSize.
  Inductive sout : Type := SBool (b : bool) | SUnit | SNat (n : nat).
  Definition a_sstep (m : list K) (o : sop) : list K * sout :=
    match o with
    | SEmplace k => if in_dec keq k m then (m, SBool false) else (m ++ [k], SBool true)
    | SErase k => (filter (fun x => if keq k x then false else true) m, SUnit)
    | SFind k => (m, SBool (if in_dec keq k m then true else false))
    | SClear => ([], SUnit)
    | SSize => (m, SNat (length m))
    end.
End SetSpec.
