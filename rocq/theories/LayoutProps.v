(** C55: how a request is laid out does not matter for what the service does and answers. *)
From Coq Require Import String Ascii NArith Bool List.
From Verif Require Import Cpp Value Ast ErrorModel ExecModel ExecSem ExecSpec ExecSemProofs ExecRun ExecRequest ExecRequest2 ExecExamples ExecProps2 Layout ExecLayout.
From Verif Require Import SchemaModel ValidationModel ValidationLayout.
Local Open Scope string_scope.
Local Open Scope list_scope.

(** A response without the positions of its errors. *)
Definition error_without_locations (e : value) : value :=
  match e with VMap es => VMap (filter (fun kv => negb (String.eqb (fst kv) "locations")) es) | _ => e end.
Definition without_locations (v : value) : value :=
  match v with
  | VMap es => VMap (map (fun kv => if String.eqb (fst kv) "errors"
                                    then (fst kv, match snd kv with VList l => VList (map error_without_locations l) | x => x end) else kv) es)
  | _ => v
  end.
(** The same response, or the same exception, except for the positions of errors. *)
Definition same_response (d d' : result value) : Prop :=
  match d, d' with
  | Ok v, Ok v' => without_locations v = without_locations v'
  | Throw (Exn c w), Throw (Exn c' w') => c = c' /\ w = w'
  | Throw (SchemaEx es), Throw (SchemaEx es') => map (fun e => (message e, path e)) es = map (fun e => (message e, path e)) es'
  | UB, UB => True
  | _, _ => False
  end.
(** A check of documents that does not depend on where things are: none (resolveUnvalidated), or validation. *)
Definition layout_blind (check : document -> list schema_error) : Prop :=
  forall d d', same_but_positions d d' -> map (fun e => (message e, path e)) (check d) = map (fun e => (message e, path e)) (check d').
Theorem C55_checks : layout_blind (fun _ => []) /\ forall S st, layout_blind (fun d => fst (validate S d st)).
Proof.
  split; [intros d d' _; reflexivity|]. intros S st d d' H. assert (E := validate_same_layout S d d' st H). apply (f_equal (map (fun e => (message e, path e)))) in E.
  unfold strip_errs in E. rewrite !map_map in E. exact E.
Qed.

Lemma entry_same e e' : placeless e = placeless e' -> error_without_locations (build_error_entry e) = error_without_locations (build_error_entry e').
Proof.
  destruct e as [m l p], e' as [m' l' p']. unfold placeless. cbn [message path]. intros E. assert (Em : m = m') by congruence. assert (Ep : p = p') by congruence. subst m' p'.
  assert (K : forall l, error_without_locations (build_error_entry (mkErr m l p)) = VMap (add_error_path p (add_error_message m []))).
  { clear. intros l. unfold build_error_entry. cbn [message Cpp.location path]. unfold add_error_location, add_error_path. destruct (N.eqb (line l) 0), p as [|s p]; reflexivity. }
  rewrite !K. reflexivity.
Qed.
Lemma entries_same errs errs' : map placeless errs = map placeless errs' -> map error_without_locations (map build_error_entry errs) = map error_without_locations (map build_error_entry errs').
Proof.
  revert errs'. induction errs as [|e errs IH]; intros [|e' errs'] H; try discriminate H; [reflexivity|]. cbn [map] in *. f_equal; [apply entry_same; congruence|apply IH; congruence].
Qed.
Lemma with_errors d errs : without_locations (VMap [("data", d); ("errors", build_error_values errs)]) = VMap [("data", d); ("errors", VList (map error_without_locations (map build_error_entry errs)))].
Proof. reflexivity. Qed.
Lemma finish_same r r' : alike alike_rr r r' -> same_response (finish r) (finish r').
Proof.
  destruct r as [x|[c w|es]|], r' as [x'|[c' w'|es']|]; cbn [alike]; try contradiction; try discriminate.
  - destruct x as [d es], x' as [d' es']. intros [D E]. cbn [data errors] in D, E. subst d'. destruct es as [|e es], es' as [|e' es']; try discriminate E; [reflexivity|].
    change (without_locations (VMap [("data", d); ("errors", build_error_values (e :: es))]) = without_locations (VMap [("data", d); ("errors", build_error_values (e' :: es'))])).
    rewrite !with_errors, (entries_same _ _ E). reflexivity.
  - intros H. injection H as <- <-. cbn. auto.
  - intros H. injection H as H. exact H.
  - intros _. exact I.
Qed.
Lemma error_document_same errs errs' : map placeless errs = map placeless errs' -> without_locations (error_document errs) = without_locations (error_document errs').
Proof.
  intros E. change (without_locations (VMap [("data", VNull); ("errors", build_error_values errs)]) = without_locations (VMap [("data", VNull); ("errors", build_error_values errs')])).
  rewrite !with_errors, (entries_same _ _ E). reflexivity.
Qed.

Section Requests.
  Variables (O : Type) (typenames : O -> list string) (has_field : O -> string -> bool) (roots : list (string * option O)).
  Variables (St : Type) (handler : St -> O -> string -> fparams -> St * answer O).

  Lemma start_both fuel check l doc doc' name vars : layout_blind check -> same_but_positions doc doc' ->
    exists x, alike (started O) (start_operation O typenames has_field roots fuel check l doc name vars) x
              /\ alike (started O) (start_operation O typenames has_field roots fuel check l doc' name vars) x.
  Proof.
    intros B H. exists (start_operation O typenames has_field roots fuel (fun _ => check doc) l (strip_doc (fun s => s) doc) name vars). split.
    - apply start_operation_sim. reflexivity.
    - rewrite H. apply start_operation_sim. symmetry. exact (B doc doc' H).
  Qed.
  Lemma started_both fuel check l doc doc' name vars : layout_blind check -> same_but_positions doc doc' ->
    alike (started O) (start_operation O typenames has_field roots fuel check l doc name vars) (start_operation O typenames has_field roots fuel check l doc' name vars).
  Proof.
    intros B H. destruct (start_both fuel check l doc doc' name vars B H) as (x & A1 & A2). apply (alike_trans _ _ x); [|exact A1|].
    - intros a b c [E1 S1] [E2 S2]. split; [congruence|]. eapply sim_trans; eassumption.
    - apply alike_sym; [|exact A2]. intros a b [E1 S1]. split; [congruence|]. apply sim_sym. exact S1.
  Qed.

(** Accessors are called in the same order, with the same parameters and the same effects on the service: every execution of one request, finished or not, is an execution
    of the other. *)
Theorem C55_same_execution : forall fuel check l doc doc' name vars, layout_blind check -> same_but_positions doc doc' ->
  forall l1 c, start_request O typenames has_field roots fuel check l doc name vars = RTask l1 c ->
  exists c', start_request O typenames has_field roots fuel check l doc' name vars = RTask l1 c'
    /\ forall n s events s' t, steps handler n s (T [] (wait_task O l1 c)) events s' t ->
       exists t', steps handler n s (T [] (wait_task O l1 c')) events s' t'
         /\ forall r, ended t r -> exists r', ended t' r' /\ same_response (finish r) (finish r').
Proof.
  intros fuel check l doc doc' name vars B H l1 c E. assert (A := started_both fuel check l doc doc' name vars B H). unfold start_request in *.
  destruct (start_operation _ _ _ _ _ _ _ doc _ _) as [[l2 c2]|[|]|]; try discriminate E. injection E as -> ->.
  destruct (start_operation _ _ _ _ _ _ _ doc' _ _) as [[l3 c3]|[|]|]; cbn in A; try contradiction. destruct A as [A1 A2]. cbn [fst snd] in *. subst l3. exists c3. split; [reflexivity|].
  intros n s evs s' t Hs. destruct (steps_sim O St handler _ _ _ _ _ _ Hs (T [] (wait_task O l1 c3))) as (t' & Hs' & Ht).
  - constructor; [constructor|]. unfold wait_task. constructor; [exact A2|]. intros i. constructor. intros r r' Hr. constructor. exact Hr.
  - exists t'. split; [exact Hs'|]. intros r Hr. destruct (ended_sim O t t' r Ht Hr) as (r' & Hr' & Ar). exists r'. split; [exact Hr'|]. apply finish_same. exact Ar.
Qed.

(** The responses are the same, except for the positions of errors. *)
Theorem C55_same_response : forall fuel check l doc doc' name vars, layout_blind check -> same_but_positions doc doc' ->
  forall s d, responds handler s (start_request O typenames has_field roots fuel check l doc name vars) d ->
  exists d', responds handler s (start_request O typenames has_field roots fuel check l doc' name vars) d' /\ same_response d d'.
Proof.
  intros fuel check l doc doc' name vars B H s d R. destruct (start_request O typenames has_field roots fuel check l doc name vars) as [r|l1 c] eqn:E.
  - cbn [responds] in R. subst d. assert (A := started_both fuel check l doc doc' name vars B H). unfold start_request in *.
    destruct (start_operation _ _ _ _ _ _ _ doc _ _) as [[l2 c2]|[c w|es]|]; try discriminate E;
      destruct (start_operation _ _ _ _ _ _ _ doc' _ _) as [[l3 c3]|[c' w'|es']|]; cbn [alike placeless_exn] in A; try contradiction; try discriminate A; injection E as <-; cbn [responds].
    + eexists. split; [reflexivity|]. cbn. injection A as <- <-. auto.
    + eexists. split; [reflexivity|]. cbn [same_response]. apply error_document_same. congruence.
    + eexists. split; [reflexivity|]. exact I.
  - destruct (C55_same_execution fuel check l doc doc' name vars B H l1 c E) as (c' & E' & K). cbn [responds] in R. destruct R as (n & evs & s' & t & r & Hs & Hr & ->).
    destruct (K n s evs s' t Hs) as (t' & Hs' & Hend). destruct (Hend r Hr) as (r' & Hr' & Q). exists (finish r'). split; [|exact Q]. rewrite E'. cbn [responds]. exists n, evs, s', t', r'. auto.
Qed.
End Requests.

(** ** An example *)
(** Two layouts, with an error whose position is all that differs in the responses. *)
Definition layout55 (line : N) : document := [query [] [obj_fld line "heroes" [fld line "name"]; fld (line + 1) "unknown"]].
Definition reply55 (line : Z) : value :=
  VMap [("data", VMap [("heroes", VList [VMap [("name", VString "Luke" false)]; VNull; VMap [("name", VString "Rex" false)]]); ("unknown", VNull)]);
        ("errors", VList [VMap [("message", VString "Unknown field name: unknown" false); ("locations", VList [VMap [("line", VInt line); ("column", VInt 1)]])]])].
Example C55_met : same_but_positions (layout55 2) (layout55 7)
  /\ responds ex_handler 0 (ex_start LAsync (layout55 2) "" (VMap [])) (Ok (reply55 3)) /\ responds ex_handler 0 (ex_start LAsync (layout55 7) "" (VMap [])) (Ok (reply55 8))
  /\ same_response (Ok (reply55 3)) (Ok (reply55 8)) /\ reply55 3 <> reply55 8.
Proof.
  split; [reflexivity|]. split; [apply (responds_iff obj ex_ans nat ex_handler ex_handler_alone); vm_compute; reflexivity|].
  split; [apply (responds_iff obj ex_ans nat ex_handler ex_handler_alone); vm_compute; reflexivity|]. split; [reflexivity|discriminate].
Qed.
