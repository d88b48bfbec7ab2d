(** What programs of ExecModel.v do: all interleavings of their threads, for arbitrary (also stateful) accessors. *)
From Verif Require Import Cpp Value Ast ErrorModel ExecModel.

Arguments Ret {O}. Arguments Call {O}. Arguments Emit {O}. Arguments Spawn {O}. Arguments Get {O}.
Arguments EvCall {O}. Arguments EvAwait {O}. Arguments EvBegin {O}. Arguments EvEnd {O}.
Arguments AThrow {O}. Arguments AResult {O}.
Arguments FLeaf {O}. Arguments FObject {O}. Arguments FDerived {O}. Arguments FNullable {O}. Arguments FList {O}.
Arguments RDone {O}. Arguments RTask {O}.

Section Sem.
  Variable O : Type.
  Variable St : Type.
  (** An accessor call: it may read and change user state. It is one atomic step (generated code holds the object's
      _resolverMutex while it runs). *)
  Variable handler : St -> O -> string -> fparams -> St * answer O.

  (** A thread with the futures it has created. A future is a deferred task nobody waited for yet, a running task
      (on its own thread, or a deferred one run by the get() of its owner, which stays blocked), or finished. *)
  Inductive thread : Type := T (kids : list kid) (c : comp O)
  with kid : Type := KDef (c : comp O) | KRun (t : thread) | KDone (r : result rr).

  Fixpoint update {A} (i : nat) (x : A) (l : list A) : list A :=
    match l, i with
    | [], _ => []
    | _ :: r, 0 => x :: r
    | y :: r, S j => y :: update j x r
    end.

  Definition is_running (k : kid) : bool := match k with KRun _ => true | _ => false end.

  (** A thread ends when its program has returned and the destructors of its futures have joined every running task;
      deferred tasks nobody waited for are dropped without being run. *)
  Definition ended (t : thread) (r : result rr) : Prop :=
    match t with T ks (Ret r') => r' = r /\ existsb is_running ks = false | _ => False end.

  Inductive step : St -> thread -> list (event O) -> St -> thread -> Prop :=
  | step_call s ks o f p k :
      step s (T ks (Call o f p k)) [EvCall o f p] (fst (handler s o f p)) (T ks (k (snd (handler s o f p))))
  | step_emit s ks e k : step s (T ks (Emit e k)) [e] s (T ks k)
  | step_defer s ks l c k : l <> LAsync -> step s (T ks (Spawn l c k)) [] s (T (ks ++ [KDef c]) (k (length ks)))
  | step_async s ks l c k : l <> LDeferred -> step s (T ks (Spawn l c k)) [] s (T (ks ++ [KRun (T [] c)]) (k (length ks)))
  | step_force s ks i k c : nth_error ks i = Some (KDef c) -> step s (T ks (Get i k)) [] s (T (update i (KRun (T [] c)) ks) (Get i k))
  | step_get s ks i k r : nth_error ks i = Some (KDone r) -> step s (T ks (Get i k)) [] s (T ks (k r))
  | step_bad_get s ks i k : nth_error ks i = None -> step s (T ks (Get i k)) [] s (T ks (k UB))
  | step_kid s ks c i t ev s' t' : nth_error ks i = Some (KRun t) -> step s t ev s' t' -> step s (T ks c) ev s' (T (update i (KRun t') ks) c)
  | step_join s ks c i t r : nth_error ks i = Some (KRun t) -> ended t r -> step s (T ks c) [] s (T (update i (KDone r) ks) c).

  (** An execution: a sequence of steps, chosen by the scheduler, with its number of steps and the events in order. *)
  Inductive steps : nat -> St -> thread -> list (event O) -> St -> thread -> Prop :=
  | steps_nil s t : steps 0 s t [] s t
  | steps_cons n s t ev s1 t1 evs s2 t2 : step s t ev s1 t1 -> steps n s1 t1 evs s2 t2 -> steps (S n) s t (ev ++ evs) s2 t2.
End Sem.
Arguments T {O}. Arguments KDef {O}. Arguments KRun {O}. Arguments KDone {O}.
Arguments step {O St}. Arguments steps {O St}. Arguments ended {O}. Arguments is_running {O}. Arguments update {A}.
