(** Subscription callbacks that call the Request themselves, while the event they are called for is still being delivered. *)
From Verif Require Import Cpp Value Ast ErrorModel SortedMapModel ExecModel ExecSem SubscriptionModel.
Local Open Scope string_scope.
Local Open Scope list_scope.

Section Reentrant.
  Variable O : Type.
  Variable typenames : O -> list string.
  Variable has_field : O -> string -> bool.
  Variable roots : list (string * option O).
  Variable CB : Type.
  Variable ans : O -> string -> fparams -> answer O.
  Variable fuel : nat.
  Variable validate : document -> list schema_error.
  Notation registry := (registry CB).
  Notation call := (call O CB).
  Notation answered := (answered CB).
  Notation invocation := (invocation CB).
  Notation serves := (serves O typenames has_field roots CB ans fuel validate).

  (** The calls that were made and what they answered, in the order in which they were made. *)
  Definition calls : Type := list (call * answered).

  (** GraphQLService.cpp:2194-2330 with the default launch policy. The loop over the listeners (2222-2323) does not call any
      callback: each is a deferred task in the vector [callbacks]. They run in the loop 2325-2328, one after the other, when
      the iterators into _listeners and _subscriptions are no longer used; each task holds its own shared_ptr to the
      registration (2318, 2319). So a callback may call the Request, whose members then are as all calls before left them.
      An exception that leaves a callback leaves deliver, and the tasks after it never run.

      [performed r t r']: a sequence of calls, with all calls that the callbacks made meanwhile, takes [r] to [r'].
      [performs r c a t r']: the call [c] answers [a]; [t] starts with it and goes on with the calls that callbacks made before it
      returned. [waits r is log e t r']: waiting for the tasks [is] runs the callbacks [log] and ends with the exception [e], if any.
      What a callback does, and whether it throws, is up to the user: any calls.

      Simplified: the other policies ([pf_call]) are for callbacks that make no calls (a callback on its own thread would race with
      the loop); the filters and the accessors make no calls either (they are called inside the loop, which would go on with
      invalid iterators). Only what has returned is described. *)
  Inductive performed : registry -> calls -> registry -> Prop :=
  | pd_nothing r : performed r [] r
  | pd_call r c a t r1 ts r2 : performs r c a t r1 -> performed r1 ts r2 -> performed r (t ++ ts) r2
  with performs : registry -> call -> answered -> calls -> registry -> Prop :=
  | pf_call r c a r' : serves r c a r' -> performs r c a [(c, a)] r'
  | pf_deliver r name f object default o keys is log e t r' : find_root O "subscription" roots = Some default ->
      match object with Some x => Some x | None => default end = Some o ->
      smap_find string_lt (listeners CB r) name = Some keys ->
      collects O CB (resolving O typenames has_field CB ans fuel CSubscription LDeferred) (fst (filters_of f)) (snd (filters_of f)) o (subscriptions CB r) keys is (Ok tt) ->
      waits r is log e t r' ->
      performs r (Deliver O CB LDeferred name f object) (CalledBack CB log (match e with None => Ok tt | Some ex => Throw ex end))
        ((Deliver O CB LDeferred name f object, CalledBack CB log (match e with None => Ok tt | Some ex => Throw ex end)) :: t) r'
  with waits : registry -> list invocation -> list invocation -> option exn -> calls -> registry -> Prop :=
  | wa_nothing r : waits r [] [] None [] r
  | wa_returns r i is t r1 log e ts r2 : performed r t r1 -> waits r1 is log e ts r2 -> waits r (i :: is) (i :: log) e (t ++ ts) r2
  | wa_throws r i is ex t r1 : performed r t r1 -> waits r (i :: is) [i] (Some ex) t r1.

  Scheme performed_ind' := Induction for performed Sort Prop
    with performs_ind' := Induction for performs Sort Prop
    with waits_ind' := Induction for waits Sort Prop.
  Combined Scheme performed_mutind from performed_ind', performs_ind', waits_ind'.
End Reentrant.
