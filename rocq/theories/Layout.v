(** The same document, laid out differently: the positions of everything put aside (for C54). *)
From Verif Require Import Cpp Value Ast.
Local Open Scope list_scope.

(** Where everything is when positions do not count: the position that an error has when nothing is known about it. *)
Definition nowhere : schema_location := mkLoc 0 1.

(** A document without its positions; [f] is applied to every string literal. *)
Section Strip.
  Variable f : string -> string.
  Fixpoint strip_lit (l : lit) : lit :=
    match l with
    | LVar _ n => LVar nowhere n
    | LInt _ z => LInt nowhere z
    | LFloat _ x => LFloat nowhere x
    | LString _ s => LString nowhere (f s)
    | LBool _ b => LBool nowhere b
    | LNull _ => LNull nowhere
    | LEnum _ s => LEnum nowhere s
    | LList _ items => LList nowhere (map strip_lit items)
    | LObject _ fields => LObject nowhere (map (fun a => (nowhere, (fst (snd a), strip_lit (snd (snd a))))) fields)
    end.
  Definition strip_arg (a : argument) : argument := (nowhere, (a_name a, strip_lit (a_value a))).
  Definition strip_args (l : list argument) : list argument := map strip_arg l.
  Definition strip_dir (d : directive) : directive := mkDir nowhere (d_name d) (strip_args (d_args d)).
  Definition strip_dirs (l : list directive) : list directive := map strip_dir l.
  Definition strip_cond (c : option (schema_location * string)) : option (schema_location * string) :=
    match c with Some (_, n) => Some (nowhere, n) | None => None end.
  Fixpoint strip_sel (s : selection) : selection :=
    match s with
    | SField _ alias name args dirs sub =>
        SField nowhere alias name (strip_args args) (strip_dirs dirs)
               (match sub with Some (_, sels) => Some (nowhere, map strip_sel sels) | None => None end)
    | SSpread _ name dirs => SSpread nowhere name (strip_dirs dirs)
    | SInline _ cond dirs sels => SInline nowhere (strip_cond cond) (strip_dirs dirs) (map strip_sel sels)
    end.
  Definition strip_sels (l : list selection) : list selection := map strip_sel l.
  Definition strip_var (v : variable_def) : variable_def :=
    mkVar nowhere (v_name v) (v_type v) nowhere (option_map strip_lit (v_default v)) nowhere.
  Definition strip_op (o : operation_def) : operation_def :=
    mkOp nowhere (op_type o) (op_name o) (map strip_var (op_vars o)) (strip_dirs (op_dirs o)) (strip_sels (op_sel o)).
  Definition strip_frag (x : fragment_def) : fragment_def :=
    mkFrag nowhere (f_name x) (f_cond x) nowhere (strip_dirs (f_dirs x)) (strip_sels (f_sel x)).
  Definition strip_def (d : definition) : definition :=
    match d with DOp o => DOp (strip_op o) | DFrag x => DFrag (strip_frag x) | DOther _ => DOther nowhere end.
  Definition strip_doc (d : document) : document := map strip_def d.
End Strip.

(** The two documents differ in nothing but where things are. *)
Definition same_but_positions (d d' : document) : Prop := strip_doc (fun s => s) d = strip_doc (fun s => s) d'.

(** The string literals of a document. *)
Fixpoint lit_strings (l : lit) : list string :=
  match l with
  | LString _ s => [s]
  | LList _ items => flat_map lit_strings items
  | LObject _ fields => flat_map (fun a => lit_strings (snd (snd a))) fields
  | _ => []
  end.
Definition args_strings (l : list argument) : list string := flat_map (fun a => lit_strings (a_value a)) l.
Definition dirs_strings (l : list directive) : list string := flat_map (fun d => args_strings (d_args d)) l.
Fixpoint sel_strings (s : selection) : list string :=
  match s with
  | SField _ _ _ args dirs sub =>
      args_strings args ++ dirs_strings dirs ++ match sub with Some (_, sels) => flat_map sel_strings sels | None => [] end
  | SSpread _ _ dirs => dirs_strings dirs
  | SInline _ _ dirs sels => dirs_strings dirs ++ flat_map sel_strings sels
  end.
Definition var_strings (v : variable_def) : list string := match v_default v with Some l => lit_strings l | None => [] end.
Definition def_strings (d : definition) : list string :=
  match d with
  | DOp o => flat_map var_strings (op_vars o) ++ dirs_strings (op_dirs o) ++ flat_map sel_strings (op_sel o)
  | DFrag x => dirs_strings (f_dirs x) ++ flat_map sel_strings (f_sel x)
  | DOther _ => []
  end.
Definition doc_strings (d : document) : list string := flat_map def_strings d.

(** Only the strings matter. *)
Section Ext.
  Variables f g : string -> string.
  Lemma in_flat {A B} (h : A -> list B) l x y : In x l -> In y (h x) -> In y (flat_map h l).
  Proof. intros Hx Hy. apply in_flat_map. eauto. Qed.
  Lemma strip_lit_ext l : (forall s, In s (lit_strings l) -> f s = g s) -> strip_lit f l = strip_lit g l.
  Proof.
    induction l as [p n|p z|p x|p s|p b|p|p s|p items IH|p fields IH] using lit_ind'; intros H; cbn [strip_lit]; try reflexivity.
    - rewrite H by (left; reflexivity). reflexivity.
    - f_equal. apply map_ext_in. intros x Hx. rewrite Forall_forall in IH. apply IH; [exact Hx|]. intros s Hs. apply H. eapply in_flat; eauto.
    - f_equal. apply map_ext_in. intros x Hx. rewrite Forall_forall in IH. rewrite (IH x Hx); [reflexivity|]. intros s Hs. apply H.
      apply (in_flat (fun a : schema_location * (string * lit) => lit_strings (snd (snd a))) fields x); assumption.
  Qed.
  Lemma strip_args_ext l : (forall s, In s (args_strings l) -> f s = g s) -> strip_args f l = strip_args g l.
  Proof.
    intros H. apply map_ext_in. intros a Ha. unfold strip_arg. rewrite (strip_lit_ext (a_value a)); [reflexivity|]. intros s Hs. apply H.
    apply (in_flat (fun a => lit_strings (a_value a)) l a); assumption.
  Qed.
  Lemma strip_dirs_ext l : (forall s, In s (dirs_strings l) -> f s = g s) -> strip_dirs f l = strip_dirs g l.
  Proof.
    intros H. apply map_ext_in. intros d Hd. unfold strip_dir. rewrite (strip_args_ext (d_args d)); [reflexivity|]. intros s Hs. apply H.
    apply (in_flat (fun d => args_strings (d_args d)) l d); assumption.
  Qed.
  Lemma strip_sel_ext x : (forall s, In s (sel_strings x) -> f s = g s) -> strip_sel f x = strip_sel g x.
  Proof.
    induction x as [p al n args ds|p al n args ds l sub IH|p n ds|p c ds sels IH] using selection_ind'; intros H; cbn [strip_sel sel_strings] in *.
    - rewrite (strip_args_ext args), (strip_dirs_ext ds); [reflexivity|..]; intros s Hs; apply H; rewrite !in_app_iff; auto.
    - rewrite (strip_args_ext args), (strip_dirs_ext ds); [|intros s Hs; apply H; rewrite !in_app_iff; auto..]. do 3 f_equal. apply map_ext_in. intros x Hx.
      rewrite Forall_forall in IH. apply IH; [exact Hx|]. intros s Hs. apply H. rewrite !in_app_iff. right. right. eapply in_flat; eauto.
    - rewrite (strip_dirs_ext ds); [reflexivity|exact H].
    - rewrite (strip_dirs_ext ds); [|intros s Hs; apply H; rewrite !in_app_iff; auto]. f_equal. apply map_ext_in. intros x Hx.
      rewrite Forall_forall in IH. apply IH; [exact Hx|]. intros s Hs. apply H. rewrite !in_app_iff. right. eapply in_flat; eauto.
  Qed.
  Lemma strip_sels_ext l : (forall s, In s (flat_map sel_strings l) -> f s = g s) -> strip_sels f l = strip_sels g l.
  Proof. intros H. apply map_ext_in. intros x Hx. apply strip_sel_ext. intros s Hs. apply H. eapply in_flat; eauto. Qed.
  Lemma strip_var_ext v : (forall s, In s (var_strings v) -> f s = g s) -> strip_var f v = strip_var g v.
  Proof. unfold strip_var, var_strings. destruct (v_default v) as [l|]; [|reflexivity]. intros H. cbn [option_map]. rewrite (strip_lit_ext l H). reflexivity. Qed.
  Lemma strip_doc_ext d : (forall s, In s (doc_strings d) -> f s = g s) -> strip_doc f d = strip_doc g d.
  Proof.
    intros H. apply map_ext_in. intros x Hx. assert (Hs : forall s, In s (def_strings x) -> f s = g s) by (intros s Hs; apply H; eapply in_flat; eauto). clear H.
    destruct x as [o|o|p]; cbn [strip_def]; [| |reflexivity]; f_equal; unfold strip_op, strip_frag; cbn [def_strings] in Hs.
    - rewrite (strip_dirs_ext (op_dirs o)), (strip_sels_ext (op_sel o)); [|intros s H; apply Hs; rewrite !in_app_iff; auto..]. f_equal. apply map_ext_in. intros v Hv. apply strip_var_ext.
      intros s H. apply Hs. rewrite in_app_iff. left. eapply in_flat; eauto.
    - rewrite (strip_dirs_ext (f_dirs o)), (strip_sels_ext (f_sel o)); [reflexivity|intros s H; apply Hs; rewrite !in_app_iff; auto..].
  Qed.
End Ext.
