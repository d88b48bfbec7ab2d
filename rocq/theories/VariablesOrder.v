(** The order of the declarations (for C56). *)
From Coq Require Import String List Bool Relations Permutation Lia Arith.
From Verif Require Import Cpp Value Ast SchemaModel ModifiersModel LoaderModel ValidationSpec ClientModel VariablesModel VariablesSpec VariablesProofs.
From Verif Require LoaderProofs.
Import ListNotations.
Local Open Scope string_scope.
Local Open Scope list_scope.

Section Order.
Variable S : schema.
Hypothesis acyclic : not_recursive S.

Definition ordered (ts : list string) : Prop := forall before t after, ts = before ++ t :: after -> incl (dependencies S t) before.
Lemma dependencies_in t b : In b (dependencies S t) <-> exists d f, find_type S t = Some d /\ In f (td_inputs d) /\ iv_type f = TNamed b /\ input_object S b.
Proof.
  unfold dependencies. split.
  - intros H. destruct (find_type S t) as [d|] eqn:Hf; [|contradiction]. apply in_flat_map in H. destruct H as (f & Hin & H). exists d, f.
    destruct (iv_type f) as [m|x|x]; try contradiction. destruct (find_type S m) as [e|] eqn:He; [|contradiction]. destruct (td_kind e) eqn:K; try contradiction. destruct H as [<-|[]].
    split; [reflexivity|]. split; [exact Hin|]. split; [reflexivity|]. exists e. auto.
  - intros (d & f & Hf & Hin & Ht & e & He & K). rewrite Hf. apply in_flat_map. exists f. split; [exact Hin|]. rewrite Ht, He, K. left. reflexivity.
Qed.
Lemma dependency_contained t b : input_object S t -> In b (dependencies S t) -> contains S t b.
Proof.
  intros (d' & Hd & K) H. apply dependencies_in in H. destruct H as (d & f & Hf & Hin & Ht & Hb). split; [|exact Hb]. exists d, f. rewrite Hd in Hf. injection Hf as <-. split; [exact Hd|]. split; [exact K|]. split; [exact Hin|]. rewrite Ht. reflexivity.
Qed.
Lemma ready_iff h t : ready S h t = true <-> incl (dependencies S t) h.
Proof. unfold ready. rewrite forallb_forall. split; intros H x Hx; [apply mem_in; auto|apply mem_in; apply H; exact Hx]. Qed.

Lemma partition_perm {A} (p : A -> bool) l : Permutation (filter p l ++ filter (fun x => negb (p x)) l) l.
Proof.
  induction l as [|x l IH]; [constructor|]. cbn [filter]. destruct (p x); cbn [negb app].
  - constructor. exact IH.
  - etransitivity; [symmetry; apply Permutation_middle|]. constructor. exact IH.
Qed.
Lemma split_app {A} (a b before : list A) t after : a ++ b = before ++ t :: after -> (exists x, a = before ++ t :: x) \/ exists y, before = a ++ y /\ b = y ++ t :: after.
Proof.
  revert before. induction a as [|z a IH]; intros before E.
  - right. exists before. split; [reflexivity|exact E].
  - destruct before as [|w before]; cbn [app] in E.
    + injection E as -> E. left. exists a. reflexivity.
    + injection E as -> E. destruct (IH before E) as [(x & ->)|(y & -> & ->)]; [left; exists x; reflexivity|right; exists y; split; reflexivity].
Qed.
Lemma loop_orders fuel : forall handled done rest, length rest <= fuel -> incl handled done -> (rest <> [] -> incl done handled) -> ordered done ->
  (forall t, In t rest -> input_object S t) -> (forall t, In t rest -> incl (dependencies S t) (done ++ rest)) ->
  exists h d, reorder_loop S fuel handled done rest = Ok (h, d) /\ Permutation d (done ++ rest) /\ ordered d /\ (exists x, h = handled ++ x) /\ (h = [] -> d = done ++ rest).
Proof.
  induction fuel as [|m IH]; intros handled done rest Hl Hh Hd Ho Hi Hc.
  - destruct rest; [|cbn in Hl; lia]. exists handled, done. cbn [reorder_loop]. rewrite app_nil_r. repeat apply conj; auto. exists []. rewrite app_nil_r. reflexivity.
  - destruct rest as [|t0 rest0] eqn:Er; [exists handled, done; cbn [reorder_loop]; rewrite app_nil_r; repeat apply conj; auto; exists []; rewrite app_nil_r; reflexivity|].
    rewrite <- Er in *. assert (Hne : rest <> []) by (rewrite Er; discriminate).
    set (front := filter (ready S handled) rest). set (later := filter (fun t => negb (ready S handled t)) rest).
    assert (E : reorder_loop S (Datatypes.S m) handled done rest = reorder_loop S m (match later with [] => handled | _ => handled ++ front end) (done ++ front) later) by (rewrite Er at 1; cbn [reorder_loop]; rewrite <- Er; reflexivity).
    assert (Hp := partition_perm (ready S handled) rest). fold front later in Hp.
    assert (Hf : front <> []).
    { intros F. assert (X : forall a, In a rest -> exists b, contains S a b /\ In b rest).
      { intros a Ha. destruct (ready S handled a) eqn:R.
        - exfalso. assert (Y : In a front) by (apply filter_In; split; assumption). rewrite F in Y. exact Y.
        - unfold ready in R. assert (Y : exists b, In b (dependencies S a) /\ mem b handled = false).
          { clear -R. induction (dependencies S a) as [|b l IH]; [discriminate|]. cbn [forallb] in R. destruct (mem b handled) eqn:M; [destruct (IH R) as (c & Hc & Mc); exists c; split; [right; exact Hc|exact Mc]|exists b; split; [left; reflexivity|exact M]]. }
          destruct Y as (b & Hb & M). exists b. split; [apply dependency_contained; [apply Hi; exact Ha|exact Hb]|].
          apply mem_not in M. assert (Z := Hc a Ha b Hb). apply in_app_or in Z. destruct Z as [Z|Z]; [exfalso; apply M; apply Hd; [exact Hne|exact Z]|exact Z]. }
      destruct (LoaderProofs.successor_cycle (contains S) rest X t0) as (b & _ & Hb); [rewrite Er; left; reflexivity|]. exact (acyclic b Hb). }
    assert (Hlen : length later <= m).
    { apply Permutation_length in Hp. rewrite app_length in Hp. destruct front; [congruence|]. cbn [length] in Hp. lia. }
    rewrite E. set (handled' := match later with [] => handled | _ => handled ++ front end) in *.
    assert (Ordered : ordered (done ++ front)).
    { intros before t after Eq. destruct (split_app _ _ _ _ _ Eq) as [(x & Ex)|(y & -> & Ey)]; [exact (Ho _ _ _ Ex)|].
      assert (Ht : In t front) by (rewrite Ey; apply in_or_app; right; left; reflexivity). apply filter_In in Ht. destruct Ht as [_ R]. apply ready_iff in R.
      intros b Hb. apply in_or_app. left. apply Hh, R, Hb. }
    destruct (IH handled' (done ++ front) later) as (h & d & Eq & P & O & (x & Ex) & Hn).
    + exact Hlen.
    + unfold handled'. destruct later; [intros y Hy; apply in_or_app; left; apply Hh; exact Hy|]. intros y Hy. apply in_app_or in Hy. apply in_or_app. destruct Hy; [left; apply Hh|right]; assumption.
    + intros Nl. unfold handled'. destruct later; [congruence|]. intros y Hy. apply in_app_or in Hy. apply in_or_app. destruct Hy; [left; apply (Hd Hne)|right]; assumption.
    + exact Ordered.
    + intros t Ht. apply filter_In in Ht. destruct Ht. auto.
    + intros t Ht b Hb. apply filter_In in Ht. destruct Ht as [Ht _]. assert (Y := Hc t Ht b Hb). rewrite <- app_assoc. apply in_app_or in Y. apply in_or_app. destruct Y as [Y|Y]; [left; exact Y|right]. apply (Permutation_in b (Permutation_sym Hp)). exact Y.
    + exists h, d. split; [exact Eq|]. split.
      { etransitivity; [exact P|]. rewrite <- app_assoc. apply Permutation_app_head. exact Hp. }
      split; [exact O|]. split.
      { unfold handled' in Ex. destruct later; [exists x; exact Ex|exists (front ++ x); rewrite app_assoc; exact Ex]. }
      intros Eh. rewrite (Hn Eh). rewrite Ex in Eh. unfold handled' in Eh. destruct later as [|l0 later0] eqn:El.
      * rewrite <- El in Hp. assert (later = []) as L0 by exact El. clear -L0. unfold later, front in *. rewrite app_nil_r. f_equal. induction rest as [|a r IHr]; [reflexivity|]. cbn [filter] in *. destruct (ready S handled a); cbn [negb] in L0; [f_equal; apply IHr; exact L0|discriminate].
      * exfalso. apply app_eq_nil in Eh. destruct Eh as [Eh _]. apply app_eq_nil in Eh. destruct Eh as [_ Eh]. exact (Hf Eh).
Qed.
Lemma reorder_orders ts : (forall t, In t ts -> input_object S t) -> (forall t b, In t ts -> contains S t b -> In b ts) ->
  exists d, reorder_types S ts = Ok d /\ Permutation d ts /\ ordered d.
Proof.
  intros Hi Hc. destruct ts as [|t0 ts0] eqn:Er; [exists []; split; [reflexivity|split; [constructor|intros before t after E; destruct before; discriminate]]|]. rewrite <- Er in *.
  destruct (loop_orders (length ts) [] [] ts) as (h & d & E & P & O & _ & Hn).
  - lia.
  - intros x [].
  - intros _ x [].
  - intros before t after X. destruct before; discriminate.
  - exact Hi.
  - intros t Ht b Hb. cbn [app]. apply (Hc t b Ht). apply dependency_contained; [apply Hi; exact Ht|exact Hb].
  - exists (match h with [] => ts | _ => d end). split.
    + unfold reorder_types. rewrite Er at 1. rewrite E. reflexivity.
    + destruct h; [assert (X := Hn eq_refl); cbn [app] in X, P; rewrite <- X|]; cbn [app] in P; split; [reflexivity|exact O|exact P|exact O].
Qed.
Lemma ordered_declared ts : only_nullable S -> ordered ts -> declared_first S ts.
Proof.
  intros Hn Ho before t after b E ((d & f & Hf & K & Hin & Ht) & Hb). apply (Ho before t after E). apply dependencies_in. exists d, f. split; [exact Hf|]. split; [exact Hin|]. split; [|exact Hb].
  rewrite <- Ht. apply (Hn t d f Hf K Hin). rewrite Ht. exact Hb.
Qed.
End Order.
