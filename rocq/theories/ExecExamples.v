(** A small service used to show that the hypotheses of the theorems about execution are met. *)
From Verif Require Import Cpp Value Ast ErrorModel ExecModel ExecSem ExecSpec.
Local Open Scope string_scope.
Local Open Scope list_scope.

Inductive obj : Type := Root | Human | Dog.
Definition ex_types (o : obj) : list string :=
  match o with Root => ["Query"] | Human => ["Human"; "Character"] | Dog => ["Dog"; "Pet"] end.
Definition ex_has (o : obj) (f : string) : bool :=
  existsb (String.eqb f) (match o with
    | Root => ["hero"; "heroes"; "lazy"; "numbers"; "boom"; "late"; "echo"]
    | Human => ["name"; "pet"; "self"; "boom"]
    | Dog => ["name"; "boom"] end).
Definition ex_leaf (s : string) : fres obj := FLeaf true false (Ok (VString s false)).
Definition ex_ans (o : obj) (f : string) (p : fparams) : answer obj :=
  match o with
  | Root =>
      if String.eqb f "hero" then AResult (FDerived (Ok (Some Human)))
      else if String.eqb f "heroes" then AResult (FList (Ok [FDerived (Ok (Some Human)); FNullable (Ok None); FObject true (Ok (Some Dog))]))
      else if String.eqb f "lazy" then AResult (FList (Ok [FObject true (Ok (Some Dog)); FObject true (Throw (Exn runtime_error "gone")); FObject true (Ok (Some Human))]))
      else if String.eqb f "numbers" then AResult (FList (Ok [FLeaf true false (Ok (VInt 1)); FLeaf true true (Throw (Exn runtime_error "two")); FLeaf true false (Ok (VInt 3))]))
      else if String.eqb f "late" then AResult (FObject true (Throw (Exn runtime_error "gone")))
      else if String.eqb f "echo" then AResult (FLeaf true false (Ok (VMap (p_args p))))
      else AThrow (Exn runtime_error "boom")
  | Human =>
      if String.eqb f "name" then AResult (ex_leaf "Luke")
      else if String.eqb f "pet" then AResult (FNullable (Ok (Some (FObject false (Ok (Some Dog))))))
      else if String.eqb f "self" then AResult (FDerived (Ok (Some Human)))
      else AThrow (Exn runtime_error "boom")
  | Dog => if String.eqb f "name" then AResult (ex_leaf "Rex") else AThrow (SchemaEx [mkErr "bad dog" (mkLoc 0 1) []])
  end.

Definition at_ (l : N) : schema_location := mkLoc l 1.
Definition fld (l : N) (n : string) : selection := SField (at_ l) None n [] [] None.
Definition fld_d (l : N) (n : string) (ds : list directive) : selection := SField (at_ l) None n [] ds None.
Definition obj_fld (l : N) (n : string) (sub : list selection) : selection := SField (at_ l) None n [] [] (Some (at_ l, sub)).
Definition cond_dir (d : string) (b : lit) : directive := mkDir (at_ 1) d [(at_ 1, ("if", b))].
Definition ex_env (frags : list (string * fragment)) (vars : entries) (l : launch) : env := mkEnv CQuery [] frags (VMap vars) l.
