(** Lemmas for C34, C35, C36. *)
From Coq Require Import Relations Permutation.
From Verif Require Import Cpp Value Ast ModifiersModel SchemaModel LoaderModel LoaderSpec.
Local Open Scope string_scope.
Local Open Scope list_scope.

(** * Names *)
Lemma capital_iff c : is_capital c = true <-> capital c.
Proof.
  unfold capital. split.
  - intros H. destruct c as [b0 b1 b2 b3 b4 b5 b6 b7].
    destruct b0, b1, b2, b3, b4, b5, b6, b7; simpl in H; try discriminate H; simpl; tauto.
  - intros H. simpl in H. repeat destruct H as [<-|H]; try reflexivity. contradiction.
Qed.
Lemma is_underscore c : Ascii.eqb c underscore = true <-> c = "_"%char.
Proof. unfold underscore. split; [apply Ascii.eqb_eq|intros ->; apply Ascii.eqb_refl]. Qed.
Lemma not_underscore c : c <> "_"%char -> Ascii.eqb c underscore = false.
Proof. intros H. apply Ascii.eqb_neq. exact H. Qed.

Lemma has_double_iff s : has_double s = true <-> exists a b, s = (a ++ "__" ++ b)%string.
Proof.
  induction s as [|c r IH]; [split; [discriminate|intros ([] & b & H); discriminate]|].
  cbn [has_double]. destruct r as [|d r'].
  - split; [discriminate|]. intros (a & b & H). destruct a as [|x a]; [discriminate|]. simpl in H. injection H as _ H. destruct a; discriminate.
  - rewrite orb_true_iff, andb_true_iff, !is_underscore, IH. split.
    + intros [[-> ->]|(a & b & H)]; [exists ""%string, r'; reflexivity|]. exists (String c a), b. simpl. rewrite H. reflexivity.
    + intros (a & b & H). destruct a as [|x a]; simpl in H.
      * injection H as -> -> _. left. auto.
      * injection H as -> H. right. exists a, b. exact H.
Qed.
Lemma has_leading_iff s : has_leading s = true <-> exists c r, capital c /\ s = String "_"%char (String c r).
Proof.
  destruct s as [|c [|d r]]; simpl; split; try discriminate; try (intros (x & y & _ & H); discriminate).
  - rewrite andb_true_iff, is_underscore. intros [-> H]. exists d, r. rewrite <- capital_iff. auto.
  - intros (x & y & H & E). injection E as -> -> ->. rewrite andb_true_iff, is_underscore, capital_iff. auto.
Qed.
Lemma reserved_iff s : has_double s || has_leading s = true <-> reserved s.
Proof. unfold reserved. rewrite orb_true_iff, has_double_iff, has_leading_iff. reflexivity. Qed.

Lemma squeeze_no_double s : has_double s = false -> squeeze s = s.
Proof.
  induction s as [|c r IH]; intros H; [reflexivity|]. cbn [squeeze has_double] in *. destruct r as [|d r']; [reflexivity|].
  apply orb_false_iff in H as [-> H]. rewrite IH; auto.
Qed.
Lemma has_leading_squeeze s : has_double s = false -> has_leading (squeeze s) = has_leading s.
Proof. intros H. rewrite squeeze_no_double; auto. Qed.
(** The test is only there to save work. *)
Lemma safe_is s : safe_cpp_name s = strip_leading (squeeze s).
Proof.
  unfold safe_cpp_name. destruct (has_double s || has_leading s) eqn:E; [reflexivity|].
  apply orb_false_iff in E as [E1 E2]. rewrite squeeze_no_double by exact E1. unfold strip_leading. destruct s; [reflexivity|]. rewrite E2. reflexivity.
Qed.

Lemma squeeze_first s c r : s = String c r -> exists t, squeeze s = String c t.
Proof.
  revert c r. induction s as [|x s IH]; intros c r E; [discriminate|]. injection E as -> ->. cbn [squeeze]. destruct r as [|d r']; [eauto|].
  destruct (Ascii.eqb c underscore && Ascii.eqb d underscore) eqn:Eu; [|eauto].
  apply andb_true_iff in Eu as [->%is_underscore ->%is_underscore]. destruct (IH "_"%char r' eq_refl) as [t Et]. rewrite Et. eauto.
Qed.
Lemma squeeze_double s : has_double (squeeze s) = false.
Proof.
  induction s as [|c r IH]; [reflexivity|]. cbn [squeeze]. destruct r as [|d r']; [reflexivity|].
  destruct (Ascii.eqb c underscore && Ascii.eqb d underscore) eqn:Eu; [exact IH|].
  destruct (squeeze_first (String d r') d r' eq_refl) as [t Et]. rewrite Et in *. cbn [has_double]. rewrite Eu. exact IH.
Qed.
Lemma strip_leading_double s : has_double s = false -> has_double (strip_leading s) = false.
Proof.
  unfold strip_leading. destruct s as [|c r]; [auto|]. destruct (has_leading (String c r)); [|auto].
  cbn [has_double]. destruct r as [|d r']; [auto|]. intros [_ H]%orb_false_iff. exact H.
Qed.
Lemma strip_leading_leading s : has_leading (strip_leading s) = false.
Proof.
  unfold strip_leading. destruct s as [|c r]; [reflexivity|]. destruct (has_leading (String c r)) eqn:E; [|exact E].
  destruct r as [|d r']; [discriminate|]. simpl in E. apply andb_true_iff in E as [_ E]. destruct r' as [|x r'']; [reflexivity|].
  simpl. rewrite not_underscore; [reflexivity|]. intros ->. discriminate E.
Qed.

Lemma tidied_first s t : tidied s t -> (forall r, s <> String "_"%char r) -> forall r, t <> String "_"%char r.
Proof.
  intros H. destruct H as [|c s t Hc H|n s t Hs H]; intros Hn r E; [discriminate| |].
  - injection E as -> _. apply Hc. reflexivity.
  - apply (Hn (underscores n ++ s)%string). reflexivity.
Qed.
Lemma tidied_squeeze s t : tidied s t -> squeeze s = t.
Proof.
  induction 1 as [|c s t Hc H IH|n s t Hs H IH]; [reflexivity| |].
  - cbn [squeeze]. rewrite (not_underscore c Hc). simpl. destruct s as [|d s']; [|rewrite IH; reflexivity]. simpl in IH. subst t. reflexivity.
  - induction n as [|n IHn].
    + simpl. destruct s as [|d s']; [simpl in IH; subst; reflexivity|].
      assert (Hd : Ascii.eqb d underscore = false) by (apply not_underscore; intros ->; apply (Hs s'); reflexivity).
      rewrite Hd. replace (Ascii.eqb "_"%char underscore && false) with false by (rewrite andb_false_r; reflexivity). f_equal. exact IH.
    + change (underscores (S (S n)) ++ s)%string with (String "_"%char (String "_"%char (underscores n ++ s)%string)).
      cbn [squeeze]. exact IHn.
Qed.
Lemma tidied_run n s t : (forall r, s <> String "_"%char r) -> tidied s t -> tidied (underscores n ++ s) (match n with O => t | S _ => String "_"%char t end).
Proof. intros Hs H. destruct n; [exact H|apply td_run; auto]. Qed.
Lemma leading_run s : exists n r, s = (underscores n ++ r)%string /\ (forall x, r <> String "_"%char x) /\ String.length r <= String.length s.
Proof.
  induction s as [|c s (n & r & E & Hr & Hl)]; [exists 0, ""%string; repeat split; auto; discriminate|].
  destruct (Ascii.ascii_dec c "_"%char) as [->|Hc].
  - exists (S n), r. simpl. rewrite <- E. repeat split; auto.
  - exists 0, (String c s). repeat split; auto. intros x E'. injection E' as -> _. apply Hc. reflexivity.
Qed.
Lemma tidied_total s : exists t, tidied s t.
Proof.
  remember (String.length s) as n eqn:E. assert (Hn : String.length s <= n) by lia. clear E. revert s Hn.
  induction n as [|n IH]; intros s Hn.
  - destruct s; [|simpl in Hn; lia]. exists ""%string. constructor.
  - destruct s as [|c s]; [exists ""%string; constructor|]. simpl in Hn.
    destruct (Ascii.ascii_dec c "_"%char) as [->|Hc].
    + destruct (leading_run s) as (k & r & E & Hr & Hl). destruct (IH r) as [t Ht]; [lia|].
      exists (String "_"%char t). change (String "_"%char s) with (String "_"%char ""%string ++ s)%string. rewrite E.
      apply (td_run k r t Hr Ht).
    + destruct (IH s) as [t Ht]; [lia|]. exists (String c t). constructor; auto.
Qed.

(** * Type references *)
Lemma visit_stands t : forall nn, grammatical t -> (nn = true -> nullable t) ->
  stands_for (fst (visit_type t nn)) (snd (visit_type t nn)) (if nn then TNonNull t else t) /\ fst (visit_type t nn) = base_name t.
Proof.
  induction t as [n|e IH|e IH]; intros nn Hg Hn.
  - split; [|reflexivity]. destruct nn; simpl; [apply sf_value|apply sf_nullable, sf_value].
  - simpl in *. destruct (IH false Hg) as [H1 H2]; [discriminate|]. destruct (visit_type e false) as [n ms]. simpl in *. split; [|exact H2].
    destruct nn; simpl; [apply sf_list; exact H1|apply sf_nullable, sf_list; exact H1].
  - destruct nn; [exfalso; exact (Hn eq_refl)|]. simpl. apply (IH true); [|intros _].
    + destruct e; [exact I|exact Hg|contradiction Hg].
    + destruct e; [exact I|exact I|contradiction Hg].
Qed.
Lemma stands_functional n ms t : stands_for n ms t -> forall t', stands_for n ms t' -> t = t'.
Proof.
  induction 1 as [|ms e H IH|ms t H IH]; intros t' H'; inversion H' as [|ms' e' H1|ms' t'' H1]; subst; auto.
  - rewrite (IH e' H1). reflexivity.
  - specialize (IH _ H1). congruence.
Qed.

Lemma str_app_assoc (a b c : string) : ((a ++ b) ++ c = a ++ b ++ c)%string.
Proof. induction a as [|x a IH]; simpl; [reflexivity|rewrite IH; reflexivity]. Qed.
Lemma str_app_nil (a : string) : (a ++ "" = a)%string.
Proof. induction a as [|x a IH]; simpl; [reflexivity|rewrite IH; reflexivity]. Qed.
Lemma closing_end n : (closing (S n) = closing n ++ ">")%string.
Proof. induction n as [|n IH]; [reflexivity|]. change (">" ++ closing (S n) = ">" ++ (closing n ++ ">"))%string. rewrite <- IH. reflexivity. Qed.

Definition opening (ms : list modifier) (s : string) : string :=
  List.fold_right (fun m s => match m with MNullable => ("std::optional<" ++ s)%string | MList => ("std::vector<" ++ s)%string end) s ms.
Lemma opening_app ms s u : opening ms (s ++ u) = (opening ms s ++ u)%string.
Proof. induction ms as [|[] ms IH]; simpl; rewrite ?IH; reflexivity. Qed.
Lemma input_cpp base t : forall nn, grammatical t -> (nn = true -> nullable t) ->
  let ms := snd (visit_type t nn) in
  cpp_input base (if nn then TNonNull t else t) (opening ms (base ++ closing (length ms))).
Proof.
  induction t as [n|e IH|e IH]; intros nn Hg Hn ms; subst ms.
  - destruct nn; simpl; rewrite ?str_app_nil.
    + constructor.
    + apply (ci_nullable base (TNamed n) base I). constructor.
  - specialize (IH false Hg). simpl in *. destruct (visit_type e false) as [n ms]. simpl in IH.
    assert (H : cpp_input base (TNonNull (TListOf e)) (opening (MList :: ms) (base ++ closing (length (MList :: ms))))).
    { cbn [length]. rewrite closing_end, <- str_app_assoc. rewrite opening_app. simpl. apply ci_list. apply IH. discriminate. }
    destruct nn; [exact H|]. change (snd (n, [MNullable] ++ MList :: ms)) with (MNullable :: MList :: ms).
    change (length (MNullable :: MList :: ms)) with (S (length (MList :: ms))). rewrite closing_end, <- str_app_assoc, opening_app.
    exact (ci_nullable base (TListOf e) _ I H).
  - destruct nn; [exfalso; exact (Hn eq_refl)|]. simpl. apply (IH true); [|intros _].
    + destruct e; [exact I|exact Hg|contradiction Hg].
    + destruct e; [exact I|exact I|contradiction Hg].
Qed.

Definition out_step (st : string * nat * bool) (m : modifier) : string * nat * bool :=
  let '(text, count, nonNull) := st in
  let '(text, count) := if nonNull then (text, count) else ((text ++ "std::optional<")%string, S count) in
  match m with MNullable => (text, count, false) | MList => ((text ++ "std::vector<")%string, S count, true) end.
Definition out_finish (composite : bool) (base : string) (st : string * nat * bool) : string :=
  let '(text, count, nonNull) := st in
  let '(text, count) := if composite then ((text ++ "std::shared_ptr<")%string, S count)
                        else if nonNull then (text, count) else ((text ++ "std::optional<")%string, S count) in
  (text ++ base ++ closing count)%string.
Lemma output_is l f : get_output_cpp_type l f =
  out_finish (is_composite (out_kind f))
    match out_kind f with
    | OutBuiltin | OutScalar | OutEnum => get_cpp_type l (out_type f)
    | OutObject => ((if out_interface f then "object::" else "") ++ safe_cpp_name (out_type f))%string
    | OutUnion | OutInterface => "service::Object"
    end (fold_left out_step (out_mods f) ("", 0, true)).
Proof.
  unfold get_output_cpp_type, out_finish.
  change (fold_left out_step (out_mods f) ("", 0, true)) with
    (fold_left (fun (st : string * nat * bool) m => let '(text, count, nonNull) := st in
                 let '(text, count) := if nonNull then (text, count) else ((text ++ "std::optional<")%string, S count) in
                 match m with MNullable => (text, count, false) | MList => ((text ++ "std::vector<")%string, S count, true) end) (out_mods f) ("", 0, true)).
  destruct (fold_left _ (out_mods f) ("", 0, true)) as [[text count] nonNull]. reflexivity.
Qed.
Lemma closing_plus a b : (closing (a + b) = closing b ++ closing a)%string.
Proof.
  induction a as [|a IH]; [rewrite str_app_nil; reflexivity|]. change (S a + b) with (S (a + b)). rewrite closing_end, IH, closing_end, str_app_assoc. reflexivity.
Qed.
Lemma output_cpp composite base t : forall nn text count, grammatical t -> (nn = true -> nullable t) ->
  exists s, cpp_output composite base (if nn then TNonNull t else t) s
    /\ out_finish composite base (fold_left out_step (snd (visit_type t nn)) (text, count, true)) = (text ++ s ++ closing count)%string.
Proof.
  induction t as [n|e IH|e IH]; intros nn text count Hg Hn.
  - destruct composite, nn; simpl.
    + exists ("std::shared_ptr<" ++ base ++ ">")%string. split; [constructor; auto|]. rewrite !str_app_assoc. reflexivity.
    + exists ("std::shared_ptr<" ++ base ++ ">")%string. split; [constructor; auto|]. rewrite !str_app_assoc. reflexivity.
    + exists base. split; [constructor; auto|]. reflexivity.
    + exists ("std::optional<" ++ base ++ ">")%string. split; [constructor; auto|]. rewrite !str_app_assoc. reflexivity.
  - simpl in Hg. simpl. destruct nn; simpl.
    + destruct (IH false (text ++ "std::vector<")%string (S count) Hg) as (s & Hs & E); [discriminate|].
      destruct (visit_type e false) as [n ms]. simpl in *. rewrite E. exists ("std::vector<" ++ s ++ ">")%string. split; [constructor; exact Hs|].
      rewrite !str_app_assoc. reflexivity.
    + destruct (IH false ((text ++ "std::optional<") ++ "std::vector<")%string (S (S count)) Hg) as (s & Hs & E); [discriminate|].
      destruct (visit_type e false) as [n ms]. simpl in *. rewrite E. exists ("std::optional<" ++ "std::vector<" ++ s ++ ">" ++ ">")%string.
      split; [constructor; exact Hs|]. rewrite !str_app_assoc. reflexivity.
  - destruct nn; [exfalso; exact (Hn eq_refl)|]. simpl. apply (IH true); [|intros _].
    + destruct e; [exact I|exact Hg|contradiction Hg].
    + destruct e; [exact I|exact I|contradiction Hg].
Qed.

(** * Input types *)
Lemma mem_in n l : mem n l = true <-> In n l.
Proof.
  unfold mem. rewrite existsb_exists. split; [intros (x & H & ->%String.eqb_eq); exact H|intros H; exists n; split; [exact H|apply String.eqb_refl]].
Qed.
Lemma dependencies_uses t b : In b (dependencies t) <-> uses [t] (it_type t) b.
Proof.
  unfold dependencies, uses. rewrite in_flat_map. split.
  - intros (f & Hf & Hb). destruct (in_kind f) eqn:Ek; try contradiction. destruct Hb as [<-|[]]. exists t, f. simpl. auto 7.
  - intros (t' & f & [<-|[]] & _ & Hf & Hk & <-). exists f. rewrite Hk. simpl. auto.
Qed.
Lemma ready_uses handled t : ready handled t = true <-> forall b, uses [t] (it_type t) b -> In b handled.
Proof.
  unfold ready. rewrite forallb_forall. split; intros H b Hb.
  - apply mem_in, H, dependencies_uses, Hb.
  - apply mem_in, H, dependencies_uses, Hb.
Qed.
Lemma partition_perm {A} (p : A -> bool) l : Permutation (filter p l ++ filter (fun x => negb (p x)) l) l.
Proof.
  induction l as [|x l IH]; simpl; [constructor|]. destruct (p x); simpl; [constructor; exact IH|].
  rewrite <- Permutation_middle. constructor. exact IH.
Qed.
Lemma filter_length {A} (p : A -> bool) l : length (filter p l) <= length l.
Proof. induction l as [|x l IH]; simpl; [lia|]. destruct (p x); simpl; lia. Qed.

Lemma in_order_nil : in_order [].
Proof. intros before t after b E. destruct before; discriminate. Qed.
(** Appending types whose dependencies are before keeps the order. *)
Lemma in_order_app done front : in_order done -> (forall t b, In t front -> uses [t] (it_type t) b -> In b (map it_type done)) -> in_order (done ++ front).
Proof.
  intros Hd Hf before t after b E Hu.
  assert (C : (exists l, done = before ++ t :: l) \/ (exists l, before = done ++ l /\ In t front)).
  { clear -E. revert before E. induction done as [|x done IH]; intros before E; simpl in E.
    - right. exists before. split; [reflexivity|]. rewrite E. apply in_or_app. right. left. reflexivity.
    - destruct before as [|y before]; simpl in E; injection E as -> E; [left; exists done; reflexivity|].
      destruct (IH before E) as [[l ->]|(l & -> & H)]; [left; exists l; reflexivity|right; exists l; auto]. }
  destruct C as [[l ->]|(l & -> & H)].
  - eapply Hd; eauto.
  - rewrite map_app, in_app_iff. left. eapply Hf; eauto.
Qed.

Lemma reorder_loop_spec fuel : forall handled done rest,
  length rest <= fuel -> in_order done -> (forall n, In n handled -> In n (map it_type done)) ->
  match reorder_loop fuel handled done rest with
  | Ok ts => Permutation ts (done ++ rest) /\ in_order ts
  | Throw e => exists t done' rest',
      e = Exn runtime_error ("Input object cycle type: " ++ it_type t) /\ Permutation (done' ++ rest') (done ++ rest) /\ In t rest'
      /\ forall t', In t' rest' -> exists b, uses [t'] (it_type t') b /\ ~ In b (map it_type done')
  | UB => False
  end
  \/ (exists n, In n (map it_type done) /\ ~ In n handled).
Proof.
  induction fuel as [|fuel IH]; intros handled done rest Hf Ho Hh.
  - destruct rest; [|simpl in Hf; lia]. left. simpl. rewrite app_nil_r. auto.
  - destruct rest as [|first rest']; [left; simpl; rewrite app_nil_r; auto|].
    set (rest := first :: rest') in *. cbn [reorder_loop]. fold rest.
    destruct (filter (ready handled) rest) as [|x front] eqn:Ef.
    + destruct (forallb (fun n => mem n handled) (map it_type done)) eqn:Eh.
      * left. exists first, done, rest. repeat split; auto; [left; reflexivity|]. intros t' Ht'.
        assert (Hr : ready handled t' = false).
        { destruct (ready handled t') eqn:Er; [|reflexivity]. assert (In t' (filter (ready handled) rest)) by (apply filter_In; auto). rewrite Ef in H. contradiction. }
        unfold ready in Hr. destruct (forallb_forall (fun d => mem d handled) (dependencies t')) as [_ Hall].
        assert (Hex : existsb (fun d => negb (mem d handled)) (dependencies t') = true).
        { clear -Hr. induction (dependencies t') as [|d l IHl]; simpl in *; [discriminate|]. destruct (mem d handled); simpl in *; auto. }
        apply existsb_exists in Hex as (b & Hb & Hn). exists b. split; [apply dependencies_uses; exact Hb|].
        intros Hin. rewrite forallb_forall in Eh. apply Eh in Hin. rewrite Hin in Hn. discriminate.
      * right. assert (Hex : existsb (fun n => negb (mem n handled)) (map it_type done) = true).
        { clear -Eh. induction (map it_type done) as [|d l IHl]; simpl in *; [discriminate|]. destruct (mem d handled); simpl in *; auto. }
        apply existsb_exists in Hex as (n & Hn & Hm). exists n. split; [exact Hn|]. intros Hin. apply mem_in in Hin. rewrite Hin in Hm. discriminate.
    + rewrite <- Ef. set (later := filter (fun t => negb (ready handled t)) rest).
      assert (Hperm := partition_perm (ready handled) rest). fold later in Hperm.
      assert (Hlen : length (filter (ready handled) rest) + length later = length rest) by (rewrite <- app_length; apply Permutation_length; exact Hperm).
      assert (Hlen' : length later <= fuel) by (rewrite Ef in Hlen; simpl in Hlen, Hf; lia).
      assert (Ho' : in_order (done ++ filter (ready handled) rest)).
      { apply in_order_app; [exact Ho|]. intros t b Ht Hu. apply filter_In in Ht as [_ Ht]. apply Hh. apply (proj1 (ready_uses handled t) Ht). exact Hu. }
      set (handled' := match later with [] => handled | _ :: _ => handled ++ map it_type (filter (ready handled) rest) end).
      assert (Hh' : forall n, In n handled' -> In n (map it_type (done ++ filter (ready handled) rest))).
      { intros n Hn. rewrite map_app, in_app_iff. unfold handled' in Hn. destruct later; [left; auto|].
        apply in_app_or in Hn as [Hn|Hn]; [left; auto|right; exact Hn]. }
      destruct (IH handled' (done ++ filter (ready handled) rest) later Hlen' Ho' Hh') as [H|(n & Hn & Hn')].
      * left. assert (Hp : Permutation ((done ++ filter (ready handled) rest) ++ later) (done ++ rest)).
        { rewrite <- app_assoc. apply Permutation_app_head. exact Hperm. }
        destruct (reorder_loop fuel handled' (done ++ filter (ready handled) rest) later) as [ts|e|]; [| |exact H].
        -- destruct H as [H1 H2]. split; [|exact H2]. etransitivity; eauto.
        -- destruct H as (t & done' & rest0 & H1 & H2 & H3 & H4). exists t, done', rest0. repeat split; auto. etransitivity; eauto.
      * destruct later as [|y later'] eqn:El.
        { left. unfold handled'. destruct fuel; simpl; (split; [|exact Ho']); rewrite app_nil_r in Hperm; apply Permutation_app_head; exact Hperm. }
        right. unfold handled' in Hn'. rewrite map_app, in_app_iff in Hn. rewrite in_app_iff in Hn'. exists n. split; [|tauto].
        destruct Hn as [Hn|Hn]; [exact Hn|]. exfalso. tauto.
Qed.

Lemma reorder_spec ts :
  match reorder ts with
  | Ok ts' => Permutation ts' ts /\ in_order ts'
  | Throw e => exists t done rest,
      e = Exn runtime_error ("Input object cycle type: " ++ it_type t) /\ Permutation (done ++ rest) ts /\ In t rest
      /\ forall t', In t' rest -> exists b, uses [t'] (it_type t') b /\ ~ In b (map it_type done)
  | UB => False
  end.
Proof.
  destruct (reorder_loop_spec (length ts) [] [] ts (le_n _) in_order_nil) as [H|(n & [] & _)]; [intros n []|]. exact H.
Qed.

Lemma uses_in ts t b : In t ts -> uses [t] (it_type t) b -> uses ts (it_type t) b.
Proof. intros H (t' & f & [<-|[]] & H1 & H2 & H3 & H4). exists t, f. auto. Qed.

(** A type of an ordered list cannot be reached from the types before it. *)
Lemma ordered_uses ts : in_order ts -> NoDup (map it_type ts) -> forall before after, ts = before ++ after ->
  forall a b, clos_trans string (uses ts) a b -> In a (map it_type before) -> In b (map it_type before) /\ exists l1 l2, before = l1 ++ l2 /\ In b (map it_type l1) /\ In a (map it_type l2).
Proof.
  intros Ho Hnd before after E a b Hc. revert before after E. induction Hc as [a b (t & f & Ht & <- & Hf & Hk & <-)|a b c H1 IH1 H2 IH2]; intros before after E Ha.
  - apply in_map_iff in Ha as (t' & Et & Ht').
    assert (t' = t).
    { assert (In t' ts) by (rewrite E; apply in_or_app; auto). clear -Hnd Et H Ht.
      induction ts as [|x ts IH]; [contradiction|]. simpl in Hnd. inversion Hnd as [|? ? Hx Hn]; subst.
      destruct H as [->|H], Ht as [->|Ht]; auto; exfalso; apply Hx; apply in_map_iff; [exists t|exists t']; auto. }
    subst t'. apply in_split in Ht' as (l1 & l2 & ->).
    assert (Hin : In (in_type f) (map it_type l1)).
    { apply (Ho l1 t (l2 ++ after) (in_type f)); [rewrite E, <- app_assoc; reflexivity|]. exists t, f. simpl. auto 7. }
    split; [rewrite map_app, in_app_iff; auto|]. exists l1, (t :: l2). repeat split; auto. left. reflexivity.
  - destruct (IH1 before after E Ha) as (_ & l1 & l2 & -> & Hb & Ha').
    destruct (IH2 l1 (l2 ++ after)) as (_ & l3 & l4 & -> & Hc & Hb'); [rewrite E, <- app_assoc; reflexivity|exact Hb|].
    split; [rewrite !map_app, !in_app_iff; auto|]. exists l3, (l4 ++ l2). rewrite <- app_assoc. repeat split; auto.
    rewrite map_app, in_app_iff. auto.
Qed.
Lemma ordered_acyclic ts : in_order ts -> NoDup (map it_type ts) -> ~ cyclic ts.
Proof.
  intros Ho Hnd (a & H).
  assert (Ha : In a (map it_type ts)).
  { clear -H. remember a as b eqn:E in H at 2. clear E. induction H as [a b (t & f & Ht & <- & _)|a b c H1 IH1 _ _]; [apply in_map; exact Ht|exact IH1]. }
  destruct (ordered_uses ts Ho Hnd ts [] (eq_sym (app_nil_r ts)) a a H Ha) as (_ & l1 & l2 & E & H1 & H2).
  rewrite E, map_app in Hnd. clear -Hnd H1 H2. induction (map it_type l1) as [|x l IH]; [contradiction|].
  simpl in Hnd. inversion Hnd as [|? ? Hx Hn]; subst. destruct H1 as [->|H1]; [apply Hx; apply in_or_app; auto|auto].
Qed.

(** In a finite set where everything has a successor there is a cycle that is reached from anything. *)
Lemma walk (R : string -> string -> Prop) (S : list string) : (forall a, In a S -> exists b, R a b /\ In b S) ->
  forall n a, In a S -> exists l, length l = n /\ (forall b, In b l -> In b S) /\
    (forall l1 b l2, l = l1 ++ b :: l2 -> clos_trans string R a b) /\
    forall l1 b l2 c l3, l = l1 ++ b :: l2 ++ c :: l3 -> clos_trans string R b c.
Proof.
  intros Hs. induction n as [|n IH]; intros a Ha.
  - exists []. repeat split; try contradiction; try discriminate; intros [|]; discriminate.
  - destruct (Hs a Ha) as (b & Hab & Hb). destruct (IH b Hb) as (l & Hl & Hin & Hr & Hc).
    exists (b :: l). repeat split.
    + simpl. lia.
    + intros c [<-|H]; auto.
    + intros l1 c l2 E. destruct l1 as [|x l1]; simpl in E; injection E as -> E; [subst; constructor; exact Hab|].
      eapply t_trans; [constructor; exact Hab|eapply Hr; eauto].
    + intros l1 x l2 c l3 E. destruct l1 as [|y l1]; simpl in E; injection E as -> E; [eapply Hr; eauto|eapply Hc; eauto].
Qed.
Lemma repeated (l : list string) : ~ NoDup l -> exists a l1 l2 l3, l = l1 ++ a :: l2 ++ a :: l3.
Proof.
  induction l as [|x l IH]; intros H; [exfalso; apply H; constructor|].
  destruct (in_dec string_dec x l) as [Hin|Hn].
  - apply in_split in Hin as (l1 & l2 & ->). exists x, [], l1, l2. reflexivity.
  - destruct IH as (a & l1 & l2 & l3 & ->); [intros Hnd; apply H; constructor; auto|]. exists a, (x :: l1), l2, l3. reflexivity.
Qed.
Lemma successor_cycle (R : string -> string -> Prop) (S : list string) : (forall a, In a S -> exists b, R a b /\ In b S) ->
  forall a, In a S -> exists b, clos_trans string R a b /\ clos_trans string R b b.
Proof.
  intros Hs a Ha. destruct (walk R S Hs (Datatypes.S (length S)) a Ha) as (l & Hl & Hin & Hr & Hc).
  destruct (repeated l) as (b & l1 & l2 & l3 & E).
  - intros Hnd. assert (length l <= length S) by (apply NoDup_incl_length; auto). lia.
  - exists b. split; [eapply Hr; eauto|eapply Hc; eauto].
Qed.
