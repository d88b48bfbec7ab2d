(** What the entry points of the parser give in terms of the grammar, and documents that mix definitions. *)
From Coq Require Import String Ascii NArith ZArith Bool List Lia.
From Verif Require Import Cpp Value Ast.
From Verif Require Export ParseSoundDoc ParseStringSpec.
Import ListNotations.
Local Open Scope list_scope.

Lemma documents_ok : forall d, In d [g_executable_document; g_schema_document; g_mixed_document] ->
  Nat.leb (size d) sz = true /\ stars_ok nb d = true.
Proof. intros d [<-|[<-|[<-|[]]]]; vm_compute; auto. Qed.

Lemma parse_with_total sel d text : In d [g_executable_document; g_schema_document; g_mixed_document] ->
  exists x, parse_with sel d text = Some x /\ matches grammar sel d 0 text x.
Proof.
  intro H. destruct (documents_ok d H) as [E1 E2]. apply Nat.leb_le in E1.
  destruct (parse_with sel d text) as [x|] eqn:E.
  - exists x. split; [reflexivity|]. eapply run_matches. exact E.
  - exfalso. revert E. unfold parse_with, enough.
    apply (run_total grammar sel nb rank top sz grammar_well_formed _ d 0 text top E1 E2); [apply (left_ok_top grammar nb rank top sz grammar_well_formed)|reflexivity|].
    apply Nat.add_le_mono_l. exact E1.
Qed.

Lemma parse_with_iff sel d text x : In d [g_executable_document; g_schema_document; g_mixed_document] ->
  parse_with sel d text = Some x <-> matches grammar sel d 0 text x.
Proof.
  intro H. destruct (parse_with_total sel d text H) as (y & E & My). rewrite E. split.
  - intros [= <-]. exact My.
  - intro Mx. f_equal. eapply matches_det; eassumption.
Qed.

Lemma must_never_fails sel m r o s : ~ matches grammar sel (Must m r) o s Fail.
Proof. intro H. inversion H. Qed.

(** What a document gives. *)
Lemma parse_twice_cases sel d text : In d [g_executable_document; g_schema_document] ->
  (exists ns o s, parse_twice sel d text = Ok ns /\ matches grammar sel d 0 text (Match ns o s))
  \/ (exists ns o s m, parse_twice sel d text = Ok ns /\ matches grammar sel d 0 text (Raise m) /\ matches grammar sel g_mixed_document 0 text (Match ns o s))
  \/ (exists m m', parse_twice sel d text = Throw (parse_error m) /\ matches grammar sel d 0 text (Raise m') /\ matches grammar sel g_mixed_document 0 text (Raise m)).
Proof.
  intro H. unfold parse_twice.
  destruct (parse_with_total sel d text) as (x & -> & Mx); [cbn in *; tauto|].
  destruct x as [ns o s| |m].
  - left. exists ns, o, s. auto.
  - exfalso. destruct H as [<-|[<-|[]]]; eapply must_never_fails; exact Mx.
  - right. destruct (parse_with_total sel g_mixed_document text) as (y & -> & My); [cbn; auto|].
    destruct y as [ns o s| |m'].
    + left. exists ns, o, s, m. auto.
    + exfalso. eapply must_never_fails; exact My.
    + right. exists m', m. auto.
Qed.

(** ** Documents that mix executable and type system definitions, as the executable selector sees them. *)
Section Mixed.
Notation sel := executable_selector.
Variable L : nat -> schema_location.
Variable atof : string -> spec_float.
Notation M := (matches grammar sel).

Definition mixed (o : nat) (d : definition) (t : text) : Prop :=
  match d with DOther l => l = L o | _ => executable L atof o d t end.

Definition other_rules : list rule :=
  [R_schema_definition; R_scalar_type_definition; R_object_type_definition; R_interface_type_definition; R_union_type_definition;
   R_enum_type_definition; R_input_object_type_definition; R_directive_definition; R_schema_extension; R_scalar_type_extension;
   R_object_type_extension; R_interface_type_extension; R_union_type_extension; R_enum_type_extension; R_input_object_type_extension].

Lemma other_inv o s ns o' s' : M (g_type_system_definition </> g_type_system_extension) o s (Match ns o' s') ->
  exists r, In r other_rules /\ M (Ref r) o s (Match ns o' s').
Proof.
  intro H.
  repeat match goal with
  | H : M (_ </> _) _ _ _ |- _ => apply sor_inv in H as [H|[_ H]]
  | H : M g_type_system_definition _ _ _ |- _ => unfold g_type_system_definition in H
  | H : M g_type_definition _ _ _ |- _ => unfold g_type_definition in H
  | H : M g_type_system_extension _ _ _ |- _ => unfold g_type_system_extension in H
  | H : M g_type_extension _ _ _ |- _ => unfold g_type_extension in H
  | H : M (Ref ?r) _ _ _ |- _ => exists r; split; [cbn; tauto|exact H]
  end.
Qed.

Lemma mixed_sound N : sound_below sel mixed g_mixed_definition (read_definition L atof) N.
Proof.
  intros o s ns o' s' H Hl. apply sor_inv in H as [H|[_ H]].
  - destruct (executable_sound L atof N _ _ _ _ _ H Hl) as (d & t & n & H1 & H2 & H3 & H4 & H5). exists d, t, n.
    split; [exact H1|]. split; [exact H2|]. split; [exact H3|]. split; [destruct H4; constructor; assumption|exact H5].
  - apply other_inv in H as (r & Hr & H).
    apply (keep_inv sel) in H as (ks & t & _ & -> & -> & ->); [|cbn in Hr; intuition subst; reflexivity].
    exists (DOther (L o)), t. eexists. split; [reflexivity|]. split; [reflexivity|]. split; [reflexivity|]. split; [reflexivity|].
    cbn in Hr; intuition subst; reflexivity.
Qed.

Lemma document_shape def P (Hr : forall N, sound_below sel P def (read_definition L atof) N) (Hne : empty_ok nb def = false) m t ns o' s' :
  M (Must m (Bof >> opt p_bom >> Star g_ignored >> list_of def (Star g_ignored) >> Star g_ignored >> Eof)) 0 t (Match ns o' s') ->
  exists bom w ds u end_, t = bom ++ w ++ u ++ end_ /\ (bom = [] \/ bom = byte_order_mark) /\ blanks w
    /\ items blanks P (length bom + length w) ds u /\ trailing end_ /\ read_document L atof ns = Some ds.
Proof.
  intro H. apply must_inv in H. apply seq_inv in H as (n1 & o1 & s1 & n2 & H1 & H2 & ->).
  inversion H1; subst; clear H1.
  apply seq_inv in H2 as (n3 & o3 & s3 & n4 & H1 & H2 & ->).
  assert (exists bom, (bom = [] \/ bom = byte_order_mark) /\ s1 = bom ++ s3 /\ o3 = length bom /\ n3 = []) as (bom & Hbom & -> & -> & ->).
  { apply opt_inv in H1 as [H1|(_ & -> & -> & <-)]; [|exists []; auto].
    inversion H1; subst.
    match goal with X : utf8_range _ _ _ = Some _ |- _ => unfold utf8_range in X; destruct (peek_utf8 s1) as [[c k]|] eqn:P1; [|discriminate];
      destruct (N.leb_spec 65279 c); [|discriminate]; destruct (N.leb_spec c 65279); [|discriminate]; injection X as -> end.
    apply peek_decode in P1 as (r & -> & -> & _); [|lia]. assert (c = 65279%N) as -> by lia.
    exists byte_order_mark. split; [auto|]. rewrite skipn_app, skipn_all, Nat.sub_diag. cbn. auto. }
  apply ignored_then_inv in H2 as (w & s4 & -> & Hw & H2); [|cbn; rewrite Hne; reflexivity].
  apply seq_inv in H2 as (n5 & o5 & s5 & n6 & H2 & H3 & ->).
  apply (items_inv sel P def (read_definition L atof) (S (length s4)) (Hr _) (Star g_ignored) blanks)
    in H2 as (ds & u & -> & -> & Hd & Ed).
  2:{ intros p s ns p' s'' H. apply ignored_then_inv in H; [exact H|exact Hne]. }
  2: lia.
  apply seq_inv in H3 as (n7 & o7 & s7 & n8 & H3 & H4 & ->). apply blanks_inv in H3 as (-> & v & -> & -> & Hv).
  inversion H4; subst. exists bom, w, ds, u, v. rewrite app_nil_r. split; [reflexivity|]. split; [exact Hbom|]. split; [exact Hw|].
  split; [exact Hd|]. split; [|cbn [app]; rewrite app_nil_r; exact Ed].
  destruct Hv as [Hv|[_ Hv]]; [constructor; exact Hv|exact Hv].
Qed.

Lemma mixed_document_sound t ns o' s' : M g_mixed_document 0 t (Match ns o' s') ->
  exists ds, read_document L atof ns = Some ds /\ ((forall l, ~ In (DOther l) ds) -> document L atof ds t).
Proof.
  intro H. apply (document_shape g_mixed_definition mixed mixed_sound eq_refl) in H as (bom & w & ds & u & e & -> & Hbom & Hw & Hd & He & Ed).
  exists ds. split; [exact Ed|]. intro Hn. constructor; try assumption. revert Hn. clear -Hd.
  induction Hd as [o x t H|o x t v xs t' H Hv _ IH]; intro Hn.
  - constructor. destruct x as [d|d|l]; [exact H|exact H|]. exfalso. apply (Hn l). left. reflexivity.
  - constructor; [|exact Hv|apply IH; intros l X; apply (Hn l); right; exact X].
    destruct x as [d|d|l]; [exact H|exact H|]. exfalso. apply (Hn l). left. reflexivity.
Qed.

Lemma executable_items_none o ds t : items blanks (executable L atof) o ds t -> forall l, ~ In (DOther l) ds.
Proof.
  intros H l. induction H as [o x t H|o x t v xs t' H Hv _ IH]; cbn; intros [->|X]; try (inversion H; fail); auto.
Qed.
End Mixed.
