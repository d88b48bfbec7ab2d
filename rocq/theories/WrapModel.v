(** Schema::WrapType called by any number of threads at the same time (src/Schema.cpp:64-84). *)
From Verif Require Import Cpp SortedMapModel SchemaModel.
Local Open Scope list_scope.

(** std::shared_mutex: how many hold it shared, and whether it is held exclusively. *)
Record mutex : Type := mkMutex { readers : nat; writer : bool }.

(** Where a thread is in WrapType(kind, ofType). [itr] is the iterator, an index into the vector of the map. *)
Inductive pc : Type :=
| Idle
| LockShared (kind : type_kind) (ofType : N)                  (* Schema.cpp:70: about to construct shared_lock *)
| Find (kind : type_kind) (ofType : N)                        (* 72: holds it shared *)
| ReturnShared (kind : type_kind) (ofType : N) (itr : nat)    (* 83: found, holds it shared *)
| UnlockShared (kind : type_kind) (ofType : N)                (* 77: not found, holds it shared *)
| LockUnique (kind : type_kind) (ofType : N)                  (* 78 *)
| Emplace (kind : type_kind) (ofType : N)                     (* 80: holds it exclusively *)
| ReturnUnique (kind : type_kind) (ofType : N) (itr : nat).   (* 83: holds it exclusively *)

(** Schema.cpp:67-69: which map and which mutex. *)
Definition is_list (kind : type_kind) : bool := match kind with LIST => true | _ => false end.

(** [heap]: the wrapper objects that are alive, by address, with their kind() and ofType(). [asked] and [answers] record the
    calls that were started and what they returned. std::less of shared_ptr compares the addresses. *)
Record state : Type := mkState {
  threads : list pc; maps : bool -> list (N * N); locks : bool -> mutex; heap : list (N * (type_kind * N));
  asked : list (type_kind * N); answers : list (type_kind * N * N) }.

Fixpoint set_nth {A} (l : list A) (i : nat) (x : A) : list A :=
  match l, i with
  | [], _ => []
  | _ :: r, O => x :: r
  | a :: r, S j => a :: set_nth r j x
  end.
Definition upd {A} (f : bool -> A) (b : bool) (x : A) : bool -> A := fun b' => if Bool.eqb b b' then x else f b'.

Section Wrap.
  (** The addresses of the types that are not wrappers. *)
  Variable bases : list N.
  Definition alive (s : state) : list N := bases ++ map fst (heap s).

  Definition goes (s : state) (t : nat) (p : pc) : state :=
    mkState (set_nth (threads s) t p) (maps s) (locks s) (heap s) (asked s) (answers s).
  Definition locked (s : state) (b : bool) (m : mutex) : state :=
    mkState (threads s) (maps s) (upd (locks s) b m) (heap s) (asked s) (answers s).
  Definition with_answer (s : state) (a : type_kind * N * N) : state :=
    mkState (threads s) (maps s) (locks s) (heap s) (asked s) (answers s ++ [a]).

  (** One step of thread [t]. Dereferencing an iterator that is not in the vector would be undefined: it has no rule, and
      [st_..] below never gets there (C29_defined). The locks are released after the result has been copied. All
      callers pass LIST or NON_NULL. *)
  Inductive step : nat -> state -> state -> Prop :=
  | st_call t s k p : nth_error (threads s) t = Some Idle -> In p (alive s) -> k = LIST \/ k = NON_NULL ->
      step t s (mkState (set_nth (threads s) t (LockShared k p)) (maps s) (locks s) (heap s) (asked s ++ [(k, p)]) (answers s))
  | st_lock_shared t s k p : nth_error (threads s) t = Some (LockShared k p) ->
      writer (locks s (is_list k)) = false ->
      step t s (locked (goes s t (Find k p)) (is_list k) (mkMutex (S (readers (locks s (is_list k)))) false))
  | st_find t s k p : nth_error (threads s) t = Some (Find k p) ->
      let m := maps s (is_list k) in
      let itr := sv_find fst N.ltb m p in
      step t s (goes s t (if Nat.eqb itr (length m) then UnlockShared k p else ReturnShared k p itr))
  | st_return_shared t s k p itr p' q : nth_error (threads s) t = Some (ReturnShared k p itr) ->
      nth_error (maps s (is_list k)) itr = Some (p', q) ->
      step t s (with_answer (locked (goes s t Idle) (is_list k) (mkMutex (pred (readers (locks s (is_list k)))) (writer (locks s (is_list k))))) (k, p, q))
  | st_unlock_shared t s k p : nth_error (threads s) t = Some (UnlockShared k p) ->
      step t s (locked (goes s t (LockUnique k p)) (is_list k) (mkMutex (pred (readers (locks s (is_list k)))) (writer (locks s (is_list k)))))
  | st_lock_unique t s k p : nth_error (threads s) t = Some (LockUnique k p) ->
      readers (locks s (is_list k)) = 0 -> writer (locks s (is_list k)) = false ->
      step t s (locked (goes s t (Emplace k p)) (is_list k) (mkMutex 0 true))
  | st_emplace t s k p q m' itr inserted : nth_error (threads s) t = Some (Emplace k p) ->
      (* WrapperType::Make: some address that is not in use. If the key is already there the new object is released. *)
      ~ In q (alive s) ->
      sv_emplace fst N.ltb (maps s (is_list k)) p (p, q) = (m', (itr, inserted)) ->
      step t s (mkState (set_nth (threads s) t (ReturnUnique k p itr)) (upd (maps s) (is_list k) m') (locks s)
                        (if inserted then heap s ++ [(q, (k, p))] else heap s) (asked s) (answers s))
  | st_return_unique t s k p itr p' q : nth_error (threads s) t = Some (ReturnUnique k p itr) ->
      nth_error (maps s (is_list k)) itr = Some (p', q) ->
      step t s (with_answer (locked (goes s t Idle) (is_list k) (mkMutex (readers (locks s (is_list k))) false)) (k, p, q)).

  (** A new schema and [n] threads that will call WrapType, in any order and as often as they like. *)
  Definition start (n : nat) : state := mkState (repeat Idle n) (fun _ => []) (fun _ => mkMutex 0 false) [] [] [].
  Inductive reachable (n : nat) : state -> Prop :=
  | re_start : reachable n (start n)
  | re_step s t s' : reachable n s -> step t s s' -> reachable n s'.
End Wrap.

(** What a thread is doing to the mutex and the map of [b]. *)
Definition pc_of (b : bool) (k : type_kind) : bool := Bool.eqb b (is_list k).
Definition reads (b : bool) (p : pc) : bool :=
  match p with Find k _ | ReturnShared k _ _ | UnlockShared k _ => pc_of b k | _ => false end.
Definition writes (b : bool) (p : pc) : bool :=
  match p with Emplace k _ | ReturnUnique k _ _ => pc_of b k | _ => false end.
