(** An example schema and documents over it, used to show that the hypotheses of the theorems of ValidationProps.v are
    met and to refute the claims that do not hold. *)
From Verif Require Import Cpp Value Ast SchemaModel ValidationModel ValidationSpec.
Local Open Scope string_scope.
Local Open Scope list_scope.

Definition scalar_t : type_def := mkTypeDef SCALAR "" [] [] [] [] [].
Definition object_t (fs : list field_def) (is : list string) : type_def := mkTypeDef OBJECT "" fs is [] [] [].
Definition field_ (n : string) (t : tref) (args : list input_value) : field_def := mkFieldDef n "" None t args.
Definition arg_ (n : string) (t : tref) (def : string) : input_value := mkInput n "" t def.

(** type Query { node: Node u: U f(x: Int! d: Int! = "5" l: [Int] i: ID o: In c: Color j: JSON): Int g: Int }
    interface Node { id: ID! self: Node }  type A implements Node { id: ID! self: Node only: String }
    type B implements Node { id: ID! self: Node }  union U = A | B  enum Color { RED GREEN }  scalar JSON
    input In { a: Int! b: Int! = "1" c: [In!] }  type Sub { tick: Int tock: Int } *)
Definition node_fields : list field_def := [field_ "id" (TNonNull (TNamed "ID")) []; field_ "self" (TNamed "Node") []].
Definition f_args : list input_value :=
  [arg_ "x" (TNonNull (TNamed "Int")) ""; arg_ "d" (TNonNull (TNamed "Int")) "5"; arg_ "l" (TListOf (TNamed "Int")) "";
   arg_ "i" (TNamed "ID") ""; arg_ "o" (TNamed "In") ""; arg_ "c" (TNamed "Color") ""; arg_ "j" (TNamed "JSON") ""].
Definition S0 : schema := mkSchema
  [("Int", scalar_t); ("Float", scalar_t); ("String", scalar_t); ("ID", scalar_t); ("Boolean", scalar_t); ("JSON", scalar_t);
   ("Color", mkTypeDef ENUM "" [] [] [] [mkEnumValue "RED" "" None; mkEnumValue "GREEN" "" None] []);
   ("In", mkTypeDef INPUT_OBJECT "" [] [] [] []
      [arg_ "a" (TNonNull (TNamed "Int")) ""; arg_ "b" (TNonNull (TNamed "Int")) "1"; arg_ "c" (TListOf (TNonNull (TNamed "In"))) ""]);
   ("Node", mkTypeDef INTERFACE "" node_fields [] ["A"; "B"] [] []);
   ("A", object_t (node_fields ++ [field_ "only" (TNamed "String") []]) ["Node"]);
   ("B", object_t node_fields ["Node"]);
   ("U", mkTypeDef UNION "" [] [] ["A"; "B"] [] []);
   ("Query", object_t [field_ "node" (TNamed "Node") []; field_ "u" (TNamed "U") []; field_ "f" (TNamed "Int") f_args;
                       field_ "g" (TNamed "Int") []] []);
   ("Sub", object_t [field_ "tick" (TNamed "Int") []; field_ "tock" (TNamed "Int") []] []);
   ("__Schema", object_t [] []); ("__Type", object_t [] [])]
  "Query" None (Some "Sub")
  [mkDirDef "skip" "" [FIELD; FRAGMENT_SPREAD; INLINE_FRAGMENT] [arg_ "if" (TNonNull (TNamed "Boolean")) ""];
   mkDirDef "live" "" [QUERY] []] true.

Lemma assoc_Forall {A} (P : string * A -> Prop) n d m : Forall P m -> assoc n m = Some d -> P (n, d).
Proof.
  induction 1 as [|[k v] m Hk Hm IH]; simpl; [discriminate|]. destruct (String.eqb_spec n k) as [->|]; [|exact IH].
  intro E. injection E as <-. exact Hk.
Qed.
Ltac kind_ := eexists; split; [reflexivity|reflexivity].
Ltac proper_ := simpl; repeat split; discriminate.
Ltac input_ := unfold input_type, input_named; simpl; first [left; kind_|right; left; kind_|right; right; kind_].
Ltac nodup_ := repeat constructor; simpl; intuition discriminate.
Ltac inputs_ :=
  split; [nodup_|];
  let a := fresh "a" in let H := fresh "H" in intros a H; simpl in H;
  repeat (destruct H as [<-|H]; [split; [proper_|input_]|]); destruct H.
Ltac field_wf_ :=
  split; [simpl; intuition discriminate|]; split; [proper_|]; split; [eexists; split; [reflexivity|discriminate]|inputs_].

Lemma S0_wf : schema_wf S0.
Proof.
  constructor.
  - intros n d E.
    refine (assoc_Forall (fun e => fst e <> "" /\ td_kind (snd e) <> LIST /\ td_kind (snd e) <> NON_NULL) n d _ _ E).
    repeat constructor; discriminate.
  - intros n d E.
    refine (assoc_Forall (fun e => NoDup (map fd_name (td_fields (snd e))) /\
      forall f, In f (td_fields (snd e)) ->
        ~ In (fd_name f) [""; "__typename"; "__schema"; "__type"] /\ proper (fd_type f) /\
        (exists d', find_type S0 (named_type (fd_type f)) = Some d' /\ td_kind d' <> INPUT_OBJECT) /\ inputs_wf S0 (fd_args f)) n d _ _ E).
    repeat apply Forall_cons; try apply Forall_nil; (split; [nodup_|]); intros f H; simpl in H;
      repeat (destruct H as [<-|H]; [field_wf_|]); destruct H.
  - intros n d E.
    refine (assoc_Forall (fun e => td_kind (snd e) = UNION -> td_fields (snd e) = []) n d _ _ E).
    repeat constructor; discriminate.
  - intros n d E.
    refine (assoc_Forall (fun e => td_kind (snd e) = INPUT_OBJECT -> inputs_wf S0 (td_inputs (snd e))) n d _ _ E).
    repeat apply Forall_cons; try apply Forall_nil; simpl; try discriminate. intros _. inputs_.
  - split; [nodup_|]. intros dd H. simpl in H. repeat (destruct H as [<-|H]; [inputs_|]). destruct H.
  - kind_.
  - intros _. split; kind_.
  - kind_.
  - discriminate.
  - intros t E. injection E as <-. kind_.
Qed.

(** ** Documents *)
Definition at_ (n : N) : schema_location := mkLoc n 1.
Definition fld (l : N) (n : string) : selection := SField (at_ l) None n [] [] None.
Definition obj_fld (l : N) (n : string) (sels : list selection) : selection := SField (at_ l) None n [] [] (Some (at_ l, sels)).
Definition as_fld (l : N) (a n : string) (sels : list selection) : selection := SField (at_ l) (Some a) n [] [] (Some (at_ l, sels)).
Definition arg (l : N) (n : string) (v : lit) : argument := (at_ l, (n, v)).
Definition call (l : N) (n : string) (args : list argument) : selection := SField (at_ l) None n args [] None.
Definition spread (l : N) (n : string) : selection := SSpread (at_ l) n [].
Definition on_ (l : N) (t : string) (sels : list selection) : selection := SInline (at_ l) (Some (at_ l, t)) [] sels.
Definition op_ (l : N) (kind name : option string) (vars : list variable_def) (sels : list selection) : definition :=
  DOp (mkOp (at_ l) kind name vars [] sels).
Definition frag_ (l : N) (n t : string) (sels : list selection) : definition := DFrag (mkFrag (at_ l) n t (at_ l) [] sels).
Definition var_ (l : N) (n : string) (t : tref) (def : option lit) : variable_def := mkVar (at_ l) n t (at_ l) def (at_ l).

(** query Q($n: Int!, $k: Int = 3) { node { ...F } u { ... on A { only } } f(x: $n, d: $k, l: [1, $k], o: {a: 1, c: [{a: 2}]}, c: RED) }
    fragment F on Node { id self { id } } *)
Definition ok_doc : document :=
  [op_ 1 (Some "query") (Some "Q") [var_ 1 "n" (TNonNull (TNamed "Int")) None; var_ 1 "k" (TNamed "Int") (Some (LInt (at_ 1) 3))]
    [obj_fld 2 "node" [spread 2 "F"]; obj_fld 3 "u" [on_ 3 "A" [fld 3 "only"]];
     call 4 "f" [arg 4 "x" (LVar (at_ 4) "n"); arg 4 "d" (LVar (at_ 4) "k"); arg 4 "l" (LList (at_ 4) [LInt (at_ 4) 1; LVar (at_ 4) "k"]);
                 arg 4 "o" (LObject (at_ 4) [(at_ 4, ("a", LInt (at_ 4) 1));
                                             (at_ 4, ("c", LList (at_ 4) [LObject (at_ 4) [(at_ 4, ("a", LInt (at_ 4) 2))]]))]);
                 arg 4 "c" (LEnum (at_ 4) "RED")]];
   frag_ 5 "F" "Node" [fld 5 "id"; obj_fld 5 "self" [fld 5 "id"]]].
Example ok_doc_accepted : fst (validate S0 ok_doc initial) = [].
Proof. vm_compute. reflexivity. Qed.
Ltac sel_wf_ :=
  repeat match goal with
    | |- Forall sel_wf _ => constructor
    | |- sel_wf (SSpread _ _ _) => constructor
    | |- sel_wf (SInline _ _ _ _) => constructor; [discriminate|discriminate|]
    | |- sel_wf (SField _ _ _ _ _ None) => constructor; [discriminate|discriminate|discriminate]
    | |- sel_wf (SField _ _ _ _ _ (Some _)) =>
        let E := fresh "E" in constructor; [discriminate|discriminate|intros ? ? E; injection E as <- <-; split; [discriminate|]]
    | _ => progress unfold fld, obj_fld, as_fld, call, spread, on_
    end.
Ltac doc_wf_ :=
  constructor;
  [ let o := fresh "o" in let H := fresh "H" in intros o H; simpl in H;
    repeat (destruct H as [<-|H]; [simpl; split; [discriminate|]; split; [sel_wf_|]; split; [discriminate|repeat constructor; discriminate]|]); destruct H
  | let f := fresh "f" in let H := fresh "H" in intros f H; simpl in H;
    repeat (destruct H as [<-|H]; [simpl; split; [discriminate|sel_wf_]|]); destruct H ].
Example ok_doc_wf : document_wf ok_doc.
Proof. doc_wf_. Qed.
