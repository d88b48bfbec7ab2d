(** A service for the example schema of ValidationExamples.v (C50), and a way to show what its documents look like. *)
From Verif Require Import Cpp Value Ast ErrorModel ExecModel ExecSem ExecSpec ExecValues ExecBigSpec Base64Spec.
From Verif Require Import SchemaModel ValidationModel ValidationSpec ValidationFields ValidationSelections ValidationUse ValidationExamples TypedSpec TypedValues TypedProofs.
From Coq Require Import List Lia.
Local Open Scope string_scope.
Local Open Scope list_scope.

Inductive obj50 : Type := oQuery | oA | oB | oSub | oSchema | oType.
Definition type50 (o : obj50) : string := match o with oQuery => "Query" | oA => "A" | oB => "B" | oSub => "Sub" | oSchema => "__Schema" | oType => "__Type" end.
Definition types50 (o : obj50) : list string := match o with oA => ["A"; "Node"; "U"] | oB => ["B"; "U"; "Node"] | _ => [type50 o] end.
Definition fields50 (o : obj50) : list string :=
  match o with
  | oQuery => ["node"; "u"; "f"; "g"; "__typename"; "__schema"; "__type"]
  | oA => ["id"; "self"; "only"; "__typename"] | oB => ["id"; "self"; "__typename"]
  | oSub => ["tick"; "tock"; "__typename"] | _ => ["__typename"]
  end.
Definition has50 (o : obj50) (f : string) : bool := existsb (String.eqb f) (fields50 o).
(** If [bad], the accessor of "only" throws and "g" is a future with an exception. *)
Definition ans50 (bad : bool) (o : obj50) (f : string) (p : fparams) : answer obj50 :=
  let leaf v := AResult (FLeaf true false (Ok v)) in
  if String.eqb f "__typename" then leaf (VString (type50 o) false)
  else if String.eqb f "__schema" then AResult (FObject false (Ok (Some oSchema)))
  else if String.eqb f "__type" then AResult (FObject false (Ok None))
  else if String.eqb f "node" then AResult (FObject true (Ok (Some oB)))
  else if String.eqb f "u" then AResult (FDerived (Ok (Some oA)))
  else if String.eqb f "f" then AResult (FNullable (Ok (Some (FLeaf true true (match lookup "x" (p_args p) with Some (VInt z) => if in_int_range z then Ok (VInt z) else Ok (VInt 0) | _ => Ok (VInt 1) end)))))
  else if String.eqb f "g" then if bad then AResult (FLeaf true true (Throw (Exn runtime_error "no g"))) else AResult (FNullable (Ok None))
  else if String.eqb f "id" then leaf (VString "YQ==" false)
  else if String.eqb f "self" then match o with oA => AResult (FObject false (Ok (Some oB))) | _ => AResult (FObject false (Ok (Some oA))) end
  else if String.eqb f "only" then if bad then AThrow (Exn runtime_error "no") else leaf (VString "x" false)
  else AResult (FNullable (Ok None)).

Lemma possible50 : forall t o, possible S0 t (type50 o) -> In t (types50 o).
Proof.
  intros t o [((d & Hd & Kd) & E)|(d & d' & Hd & Kd & Io & _)].
  - subst t. destruct o; simpl; auto.
  - refine (assoc_Forall (fun x => (td_kind (snd x) = INTERFACE \/ td_kind (snd x) = UNION) -> In (type50 o) (td_possible (snd x)) -> In (fst x) (types50 o)) t d _ _ Hd Kd Io).
    destruct o; repeat apply Forall_cons; try apply Forall_nil; simpl; intros K I; intuition discriminate.
Qed.

Ltac kind50 := first [left; kind_ | right; kind_].
Ltac possible50_ :=
  first [ left; split; [kind_|reflexivity]
        | right; eexists _, _; split; [reflexivity|]; split; [first [left; reflexivity|right; reflexivity]|]; split; [simpl; auto|reflexivity] ].

Lemma decodes50 : decodes "YQ==" ["a"%char].
Proof. exists 2. split; [reflexivity|]. split; [lia|]. intro E. discriminate. Qed.

Lemma present50 : forall t (f : fres obj50), ~ is_nonnull t -> result_fits S0 type50 (TNonNull t) f -> result_fits S0 type50 t f.
Proof. intros t f. apply rf_present. Qed.

Lemma leaf50 : forall b fut v n, type_is S0 n SCALAR -> input_fits S0 (TNonNull (TNamed n)) v -> result_fits S0 type50 (TNonNull (TNamed n)) (FLeaf b fut (Ok v)).
Proof. intros b fut v n H F. apply rf_leaf; [now left|exact F]. Qed.

Ltac notnn := intros (? & ?); discriminate.

Lemma answers50 : forall bad o f ty args p, field_of S0 (type50 o) f ty args -> match ans50 bad o f p with AThrow _ => True | AResult r => result_fits S0 type50 ty r end.
Proof.
  intros bad o f ty args p H.
  inversion H as [d fd Hd Kd Hf|HC|HI HT|HI HT]; subst.
  - destruct o; cbn in Hd; injection Hd as <-; cbn in Hf;
      repeat (destruct Hf as [<-|Hf]; [|]); try (destruct Hf; fail); cbn [fd_name fd_type fd_args field_];
      unfold ans50; cbn [String.eqb Ascii.eqb Bool.eqb];
      try (destruct bad);
      first
      [ exact I
      | apply present50; [notnn|]; apply rf_object; [first [left; kind_|right; left; kind_|right; right; kind_]|possible50_]
      | apply present50; [notnn|]; apply rf_derived; [first [left; kind_|right; left; kind_|right; right; kind_]|possible50_]
      | apply rf_null; notnn
      | apply leaf50; [kind_|apply if_nonnull; [discriminate|]; eapply if_id; apply decodes50]
      | apply present50; [notnn|]; apply leaf50; [kind_|apply if_nonnull; [discriminate|]; apply if_string]
      | apply present50; [notnn|]; apply rf_leaf; [left; kind_|exact I]
      | apply rf_nullable; [notnn|]; apply rf_leaf; [left; kind_|];
        destruct (lookup "x" (p_args p)) as [[| | | | |z| | |]|]; try (apply if_nonnull; [discriminate|apply if_int; reflexivity]);
        destruct (in_int_range z) eqn:R; apply if_nonnull; try discriminate; apply if_int; auto ].
  - unfold ans50. cbn [String.eqb Ascii.eqb Bool.eqb]. apply leaf50; [kind_|]. apply if_nonnull; [discriminate|]. apply if_string.
  - unfold ans50. cbn [String.eqb Ascii.eqb Bool.eqb]. apply rf_object; [left; kind_|left; split; [kind_|reflexivity]].
  - unfold ans50. cbn [String.eqb Ascii.eqb Bool.eqb]. apply rf_no_object. left. kind_.
Qed.

Theorem typed50 : forall bad, typed_service S0 types50 has50 (ans50 bad) type50.
Proof.
  intro bad. constructor.
  - destruct o; kind_.
  - intros o t. split; [|apply possible50]. intro H. destruct o; simpl in H; repeat (destruct H as [<-|H]; [possible50_|]); destruct H.
  - intros o f ty args H. unfold has50. apply existsb_exists. exists f. split; [|apply String.eqb_refl].
    inversion H as [d fd Hd Kd Hf|HC|HI HT|HI HT]; subst.
    + destruct o; cbn in Hd; injection Hd as <-; cbn in Hf; repeat (destruct Hf as [<-|Hf]; [simpl; auto 10|]); destruct Hf.
    + destruct o; simpl; auto 10.
    + destruct o; cbn in HT; try discriminate HT. simpl. auto 10.
    + destruct o; cbn in HT; try discriminate HT. simpl. auto 10.
  - intros o f ty args p H _. exact (answers50 bad o f ty args p H).
Qed.

Lemma implemented50 : interfaces_implemented S0.
Proof.
  intros i di t dt f Hi Ki It Ht If.
  refine (assoc_Forall (fun x => td_kind (snd x) = INTERFACE -> In t (td_possible (snd x)) -> In f (td_fields (snd x)) ->
    exists f', In f' (td_fields dt) /\ fd_name f' = fd_name f /\ covers S0 (fd_type f) (fd_type f') (fd_args f) (fd_args f')) i di _ _ Hi Ki It If).
  assert (G : In t ["A"; "B"] -> In f node_fields -> In f (td_fields dt)).
  { intros [<-|[<-|[]]] I; cbn in Ht; injection Ht as <-; simpl; [|exact I]. simpl in I. tauto. }
  repeat apply Forall_cons; try apply Forall_nil; simpl; try discriminate. intros _ I1 I2. exists f. split; [auto|]. split; [reflexivity|apply covers_refl].
Qed.

Lemma conditions50 : conditions_declared S0.
Proof.
  split; [kind_|]. intros dd [<-|[<-|[]]] Hn; [exists ""; reflexivity|]. exfalso. simpl in Hn. intuition discriminate.
Qed.
