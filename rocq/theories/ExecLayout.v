(** Execution does not see where things are: laid out differently, a document calls the same accessors and gets the same response, except for the positions of errors
    (for C55). *)
From Verif Require Import Cpp Value Ast ErrorModel ExecModel ExecSem ExecDirect Layout.
Local Open Scope string_scope.
Local Open Scope list_scope.

Notation same := (fun s : string => s).
(** An error without its position. *)
Definition placeless (e : schema_error) : string * list path_segment := (message e, path e).
Definition placeless_exn (e : exn) : exn + list (string * list path_segment) :=
  match e with Exn c w => inl (Exn c w) | SchemaEx errs => inr (map placeless errs) end.
(** Two results that are the same but for the positions of errors; the values are related by R. *)
Definition alike {A} (R : A -> A -> Prop) (r r' : result A) : Prop :=
  match r, r' with
  | Ok a, Ok a' => R a a'
  | Throw e, Throw e' => placeless_exn e = placeless_exn e'
  | UB, UB => True
  | _, _ => False
  end.
Definition alike_rr (x x' : rr) : Prop := data x = data x' /\ map placeless (errors x) = map placeless (errors x').

Lemma alike_refl {A} (R : A -> A -> Prop) r : (forall a, R a a) -> alike R r r.
Proof. intros H. destruct r; cbn; auto. Qed.
Lemma alike_sym {A} (R : A -> A -> Prop) r r' : (forall a b, R a b -> R b a) -> alike R r r' -> alike R r' r.
Proof. intros H. destruct r, r'; cbn; auto. Qed.
Lemma alike_trans {A} (R : A -> A -> Prop) r r' r'' : (forall a b c, R a b -> R b c -> R a c) -> alike R r r' -> alike R r' r'' -> alike R r r''.
Proof. intros H. destruct r, r', r''; cbn; try tauto; [apply H|congruence]. Qed.
Lemma alike_bind {A B} (R : A -> A -> Prop) (Q : B -> B -> Prop) m m' (k k' : A -> result B) :
  alike R m m' -> (forall a a', R a a' -> alike Q (k a) (k' a')) -> alike Q (bind m k) (bind m' k').
Proof. destruct m, m'; cbn; auto; contradiction. Qed.
Lemma alike_mapM {A B C} (f : A -> result B) (g : C -> result B) (h : A -> C) l : (forall x, In x l -> alike eq (f x) (g (h x))) -> alike eq (mapM f l) (mapM g (map h l)).
Proof.
  induction l as [|x l IH]; intros H; [reflexivity|]. cbn [map mapM]. apply (alike_bind eq); [apply H; left; reflexivity|]. intros b _ <-.
  apply (alike_bind eq); [apply IH; intros y Hy; apply H; right; exact Hy|]. intros bs _ <-. reflexivity.
Qed.
Lemma alike_rr_refl x : alike_rr x x.
Proof. split; reflexivity. Qed.
Lemma alike_rr_sym x y : alike_rr x y -> alike_rr y x.
Proof. intros [H K]. split; auto. Qed.
Lemma alike_rr_trans x y z : alike_rr x y -> alike_rr y z -> alike_rr x z.
Proof. intros [H K] [H' K']. split; congruence. Qed.

(** * Values *)
Lemma visit_value_strip vars l : alike eq (visit_value vars l) (visit_value vars (strip_lit same l)).
Proof.
  induction l as [p n|p z|p x|p s|p b|p|p s|p items IH|p fields IH] using lit_ind'; cbn [strip_lit visit_value]; try reflexivity.
  - unfold visit_variable. destruct vars; try reflexivity. destruct (lookup n entries); [|reflexivity]. apply alike_refl. reflexivity.
  - destruct (in_int_range z); reflexivity.
  - rewrite Forall_forall in IH. apply (alike_bind eq); [apply alike_mapM; exact IH|]. intros vs _ <-. reflexivity.
  - rewrite Forall_forall in IH. apply (alike_bind eq).
    + apply (alike_mapM (fun a => v <- visit_value vars (snd (snd a));; Ok (fst (snd a), v)) (fun a => v <- visit_value vars (snd (snd a));; Ok (fst (snd a), v))).
      intros a Ha. apply (alike_bind eq); [apply (IH a Ha)|]. intros v _ <-. reflexivity.
    + intros vs _ <-. reflexivity.
Qed.
Lemma visit_arguments_strip vars args : forall es, alike eq (visit_arguments vars args es) (visit_arguments vars (strip_args same args) es).
Proof.
  induction args as [|a args IH]; intros es; [reflexivity|]. cbn [strip_args map visit_arguments]. apply (alike_bind eq); [apply visit_value_strip|].
  intros v _ <-. apply IH.
Qed.
Lemma visit_directives_strip vars ds : forall es, alike eq (visit_directives vars ds es) (visit_directives vars (strip_dirs same ds) es).
Proof.
  induction ds as [|d ds IH]; intros es; [reflexivity|]. cbn [strip_dirs map visit_directives strip_dir d_name d_args]. destruct (String.eqb (d_name d) ""); [apply IH|].
  apply (alike_bind eq); [apply visit_arguments_strip|]. intros v _ <-. apply IH.
Qed.
Lemma directives_strip vars ds : alike eq (x <- visit_directives vars ds [] ;; sk <- should_skip x ;; Ok (x, sk)) (x <- visit_directives vars (strip_dirs same ds) [] ;; sk <- should_skip x ;; Ok (x, sk)).
Proof. apply (alike_bind eq); [apply visit_directives_strip|]. intros x _ <-. apply alike_refl. reflexivity. Qed.

Definition strip_fragment (fr : fragment) : fragment := mkFragment (fr_type fr) (fr_dirs fr) (strip_sels same (fr_sel fr)).
Definition strip_fragments (frs : list (string * fragment)) : list (string * fragment) := map (fun x => (fst x, strip_fragment (snd x))) frs.
Lemma find_strip name frs : find_fragment name (strip_fragments frs) = option_map strip_fragment (find_fragment name frs).
Proof. induction frs as [|[n f] frs IH]; [reflexivity|]. cbn [strip_fragments map find_fragment fst snd]. destruct (String.eqb name n); [reflexivity|exact IH]. Qed.

(** * Programs *)
Section Programs.
  Variable O : Type.

  (** Programs that do the same, except for the positions of errors in their results. *)
  Inductive sim : comp O -> comp O -> Prop :=
  | sim_ret r r' : alike alike_rr r r' -> sim (Ret r) (Ret r')
  | sim_call o f p k k' : (forall a, sim (k a) (k' a)) -> sim (Call o f p k) (Call o f p k')
  | sim_emit e k k' : sim k k' -> sim (Emit e k) (Emit e k')
  | sim_spawn l c c' k k' : sim c c' -> (forall i, sim (k i) (k' i)) -> sim (Spawn l c k) (Spawn l c' k')
  | sim_get i k k' : (forall r r', alike alike_rr r r' -> sim (k r) (k' r')) -> sim (Get i k) (Get i k').

  Lemma sim_sym c c' : sim c c' -> sim c' c.
  Proof.
    induction 1; constructor; auto. - apply alike_sym; [exact alike_rr_sym|assumption]. - intros r r' Hr. apply H0. apply alike_sym; [exact alike_rr_sym|assumption].
  Qed.
  Lemma sim_trans c c' : sim c c' -> forall c'', sim c' c'' -> sim c c''.
  Proof.
    induction 1 as [r r' H|o f p k k' H IH|e k k' H IH|l c c' k k' H IH H' IH'|i k k' H IH]; intros c'' K; inversion K; subst; constructor; auto.
    - eapply alike_trans; [exact alike_rr_trans|eassumption..].
    - intros r r' Hr. apply (IH r r' Hr). match goal with X : forall r r', _ -> sim _ _ |- _ => apply X end. apply alike_refl. exact alike_rr_refl.
  Qed.

  (** The same for parts of programs that pass a value on. *)
  Definition msim {A} (R : A -> A -> Prop) (m m' : M O A) : Prop := forall k k', (forall a a', R a a' -> sim (k a) (k' a')) -> sim (m k) (m' k').

  Inductive fsim : fut -> fut -> Prop :=
  | fsim_ready r r' : alike alike_rr r r' -> fsim (FReady r) (FReady r')
  | fsim_idx i : fsim (FIdx i) (FIdx i).
  Lemma fsim_refl f : fsim f f.
  Proof. destruct f; constructor. apply alike_refl. exact alike_rr_refl. Qed.
  Lemma get_fut_sim f f' : fsim f f' -> msim (alike alike_rr) (get_fut O f) (get_fut O f').
  Proof. intros H k k' K. destruct H as [r r' H|i]; cbn [get_fut]; [apply K; exact H|constructor; exact K]. Qed.

  Definition psim (p p' : rparams) : Prop :=
    rp_name p = rp_name p' /\ rp_path p = rp_path p' /\ match rp_sub p, rp_sub p' with None, None => True | Some _, Some _ => True | _, _ => False end.
  Lemma block_sim p p' : psim p p' -> alike eq (block_sub_fields p) (block_sub_fields p').
  Proof. intros (E & F & H). unfold block_sub_fields. destruct (rp_sub p), (rp_sub p'); try contradiction; [|reflexivity]. cbn. unfold placeless. cbn. congruence. Qed.
  Lemma require_sim p p' : psim p p' -> alike eq (require_sub_fields p) (require_sub_fields p').
  Proof. intros (E & F & H). unfold require_sub_fields. destruct (rp_sub p), (rp_sub p'); try contradiction; [reflexivity|]. cbn. unfold placeless. cbn. congruence. Qed.
  Lemma build_leaf_sim p p' v : psim p p' -> alike alike_rr (build_leaf p v) (build_leaf p' v).
  Proof. intros (E & F & _). destruct v as [x|[c w|errs]|]; cbn; auto using alike_rr_refl. split; [reflexivity|]. cbn. unfold placeless. cbn. congruence. Qed.

  Definition acc_sim {A} (x x' : A * list schema_error) : Prop := fst x = fst x' /\ map placeless (snd x) = map placeless (snd x').
  Lemma list_step_sim p p' i r r' acc acc' : psim p p' -> alike alike_rr r r' -> acc_sim acc acc' -> alike acc_sim (list_step p i r acc) (list_step p' i r' acc').
  Proof.
    intros (E & F & _) Hr [A B]. unfold list_step. destruct r as [x|[c w|errs]|], r' as [x'|[c' w'|errs']|]; cbn in Hr; try contradiction; try discriminate; cbn.
    - destruct Hr as [D Er]. split; cbn; [congruence|]. rewrite !map_app. congruence.
    - injection Hr as <- <-. split; cbn; [congruence|]. rewrite !map_app. cbn. unfold placeless at 2 4. cbn. congruence.
    - injection Hr as Hr. split; cbn; [congruence|]. rewrite !map_app. congruence.
    - exact I.
  Qed.
  Lemma collect_list_sim p p' : psim p p' -> forall futs futs', Forall2 fsim futs futs' -> forall i acc acc', acc_sim acc acc' ->
    msim (alike alike_rr) (collect_list O p i futs acc) (collect_list O p' i futs' acc').
  Proof.
    intros Hp. induction 1 as [|f f' futs futs' Hf H IH]; intros i acc acc' Ha k k' K; cbn [collect_list].
    - apply K. destruct Ha as [A B]. cbn. split; cbn; [f_equal; exact A|exact B].
    - apply (get_fut_sim f f' Hf). intros r r' Hr. assert (L := list_step_sim p p' i r r' acc acc' Hp Hr Ha).
      destruct (list_step p i r acc) as [a| |], (list_step p' i r' acc') as [a'| |]; cbn in L; try contradiction; [apply (IH _ _ _ L); exact K|apply K; exact L|apply K; exact I].
  Qed.

  Section Convert.
    Variable lch : launch.
    Variables robj robj' : O -> field_path -> M O (result rr).
    Hypothesis Hobj : forall o fp, msim (alike alike_rr) (robj o fp) (robj' o fp).

    Lemma build_object_sim p p' r : psim p p' -> msim (alike alike_rr) (build_object O robj p r) (build_object O robj' p' r).
    Proof.
      intros (_ & F & _) k k' K. unfold build_object. destruct r as [[o|]|e|]; [rewrite <- F; apply Hobj; exact K|apply K; cbn; apply alike_rr_refl|apply K; reflexivity|apply K; exact I].
    Qed.
    Lemma awaited_sim b p p' c c' : psim p p' -> sim c c' -> sim (awaited O b p c) (awaited O b p' c').
    Proof. intros (_ & F & _) H. unfold awaited. rewrite <- F. destruct b; [constructor; exact H|exact H]. Qed.
    Lemma ret_sim r r' : alike alike_rr r r' -> sim (Ret r) (Ret r').
    Proof. apply sim_ret. Qed.
    Lemma convert_sim : forall f p p', psim p p' -> msim (alike fsim) (convert O lch robj f p) (convert O lch robj' f p').
    Proof.
      induction f as [b isf v|isf r|r|f IH| |e| |l IH|e|] using fres_ind'; intros p p' Hp k k' K; cbn [convert].
      - assert (B : alike eq (if b then block_sub_fields p else Ok tt) (if b then block_sub_fields p' else Ok tt)) by (destruct b; [apply block_sim; exact Hp|reflexivity]).
        destruct (if b then block_sub_fields p else Ok tt) as [u|e|], (if b then block_sub_fields p' else Ok tt) as [u'|e'|]; cbn in B; try contradiction; [|apply K; exact B|apply K; exact I].
        destruct isf.
        + constructor; [apply awaited_sim; [exact Hp|]; constructor; apply build_leaf_sim; exact Hp|]. intros i. apply K. constructor.
        + apply K. constructor. apply build_leaf_sim. exact Hp.
      - assert (B := require_sim p p' Hp). destruct (require_sub_fields p) as [u|e|], (require_sub_fields p') as [u'|e'|]; cbn in B; try contradiction; [|apply K; exact B|apply K; exact I].
        destruct isf.
        + constructor; [apply awaited_sim; [exact Hp|]; apply build_object_sim; [exact Hp|exact ret_sim]|]. intros i. apply K. constructor.
        + apply build_object_sim; [exact Hp|]. intros [x|e|] [x'|e'|] Hx; cbn in Hx; try contradiction; apply K; [constructor|..]; exact Hx.
      - assert (B := require_sim p p' Hp). destruct (require_sub_fields p) as [u|e|], (require_sub_fields p') as [u'|e'|]; cbn in B; try contradiction; [|apply K; exact B|apply K; exact I].
        constructor; [apply awaited_sim; [exact Hp|]; apply build_object_sim; [exact Hp|exact ret_sim]|]. intros i. apply K. constructor.
      - constructor; [|intros i; apply K; constructor]. apply awaited_sim; [exact Hp|]. apply IH; [exact Hp|]. intros [x|e|] [x'|e'|] Hx; cbn in Hx; try contradiction.
        + apply get_fut_sim; [exact Hx|exact ret_sim]. + constructor. exact Hx. + constructor. exact I.
      - constructor; [|intros i; apply K; constructor]. apply awaited_sim; [exact Hp|]. constructor. cbn. apply alike_rr_refl.
      - constructor; [|intros i; apply K; constructor]. apply awaited_sim; [exact Hp|]. constructor. reflexivity.
      - constructor; [|intros i; apply K; constructor]. apply awaited_sim; [exact Hp|]. constructor. exact I.
      - constructor; [|intros i; apply K; constructor]. apply awaited_sim; [exact Hp|].
        assert (G : forall i acc acc', Forall2 fsim acc acc' ->
          sim ((fix go (i : N) (l : list (fres O)) (acc : list fut) {struct l} : comp O :=
                        match l with
                        | [] => collect_list O p 0 acc ([], []) Ret
                        | f' :: l' =>
                            convert O lch robj f' (with_path p (PIndex i :: rp_path p)) (fun x =>
                              match x with
                              | Ok fu => go (N.succ i) l' (acc ++ [fu])
                              | Throw e => Ret (Throw e)
                              | UB => Ret UB
                              end)
                        end) i l acc)
              ((fix go (i : N) (l : list (fres O)) (acc : list fut) {struct l} : comp O :=
                        match l with
                        | [] => collect_list O p' 0 acc ([], []) Ret
                        | f' :: l' =>
                            convert O lch robj' f' (with_path p' (PIndex i :: rp_path p')) (fun x =>
                              match x with
                              | Ok fu => go (N.succ i) l' (acc ++ [fu])
                              | Throw e => Ret (Throw e)
                              | UB => Ret UB
                              end)
                        end) i l acc')).
        { clear K. induction IH as [|f l Hf IH IHl]; intros i acc acc' Ha.
          - apply (collect_list_sim p p' Hp acc acc' Ha); [split; reflexivity|exact ret_sim].
          - apply Hf.
            + destruct Hp as (A & B & C). split; [exact A|]. split; [cbn; rewrite B; reflexivity|exact C].
            + intros [x|e|] [x'|e'|] Hx; cbn in Hx; try contradiction.
              * apply IHl. apply Forall2_app; [exact Ha|]. constructor; [exact Hx|constructor].
              * constructor. exact Hx.
              * constructor. exact I. }
        apply G. constructor.
      - constructor; [|intros i; apply K; constructor]. apply awaited_sim; [exact Hp|]. constructor. reflexivity.
      - constructor; [|intros i; apply K; constructor]. apply awaited_sim; [exact Hp|]. constructor. exact I.
    Qed.
  End Convert.

  Variable typenames : O -> list string.
  Variable has_field : O -> string -> bool.

  Definition vsim (st st' : vstate) : Prop := v_names st = v_names st' /\ Forall2 (fun x x' => fst x = fst x' /\ fsim (snd x) (snd x')) (v_values st) (v_values st').
  Lemma vsim_snoc st st' names key f f' : vsim st st' -> fsim f f' -> vsim (mkV names (v_values st ++ [(key, f)])) (mkV names (v_values st' ++ [(key, f')])).
  Proof. intros [_ H] Hf. split; [reflexivity|]. cbn. apply Forall2_app; [exact H|]. constructor; [split; [reflexivity|exact Hf]|constructor]. Qed.

  Lemma fill_errors loc loc' fp errs errs' : map placeless errs = map placeless errs' -> map placeless (map (fill_error loc fp) errs) = map placeless (map (fill_error loc' fp) errs').
  Proof.
    intros H. rewrite !map_map. revert errs' H. induction errs as [|e errs IH]; intros [|e' errs'] H; try discriminate; [reflexivity|]. cbn [map] in *.
    injection H as Hm Hpa H. cbn [map]. f_equal; [|apply IH; exact H]. unfold placeless, fill_error. cbn. rewrite Hm, Hpa. reflexivity.
  Qed.
  Lemma field_exception_sim loc loc' key fp e e' : placeless_exn e = placeless_exn e' -> fsim (failed (field_exception loc key fp e)) (failed (field_exception loc' key fp e')).
  Proof.
    intros H. constructor. cbn. destruct e as [c w|errs], e' as [c' w'|errs']; cbn in H; try discriminate.
    - injection H as <- <-. reflexivity.
    - injection H as H. cbn. f_equal. apply fill_errors. exact H.
  Qed.

  Lemma object_step_sim key r r' acc acc' : alike alike_rr r r' -> acc_sim acc acc' -> alike acc_sim (object_step key r acc) (object_step key r' acc').
  Proof.
    intros Hr [A B]. unfold object_step. destruct r as [x|[c w|errs]|], r' as [x'|[c' w'|errs']|]; cbn in Hr; try contradiction; try discriminate.
    - destruct Hr as [D Er]. rewrite <- A, <- D. destruct (map_emplace (fst acc) key (data x)) as [es fresh]. cbn. split; cbn; [reflexivity|]. rewrite !map_app. congruence.
    - injection Hr as <- <-. cbn. split; cbn; [congruence|]. rewrite !map_app. cbn. congruence.
    - injection Hr as Hr. cbn. split; cbn; [congruence|]. rewrite !map_app. congruence.
    - exact I.
  Qed.
  Lemma collect_object_sim vals vals' : Forall2 (fun x x' : string * fut => fst x = fst x' /\ fsim (snd x) (snd x')) vals vals' -> forall acc acc', acc_sim acc acc' ->
    msim (alike alike_rr) (collect_object O vals acc) (collect_object O vals' acc').
  Proof.
    induction 1 as [|[key f] [key' f'] vals vals' [Hk Hf] H IH]; intros acc acc' Ha k k' K; cbn [collect_object].
    - apply K. destruct Ha as [A B]. cbn. split; cbn; [f_equal; exact A|exact B].
    - cbn [fst snd] in *. subst key'. apply (get_fut_sim f f' Hf). intros r r' Hr. assert (L := object_step_sim key r r' acc acc' Hr Ha).
      destruct (object_step key r acc) as [a| |], (object_step key r' acc') as [a'| |]; cbn in L; try contradiction; [apply (IH _ _ L); exact K|apply K; exact L|apply K; exact I].
  Qed.

  (** [vis'] does with the stripped selection what [vis] does with the selection. *)
  Definition visitor_sim (vis vis' : visitor O) : Prop := forall o fp fd s st st', vsim st st' -> msim (alike vsim) (vis o fp fd s st) (vis' o fp fd (strip_sel same s) st').
  Lemma visit_all_sim (vis vis' : selection -> vstate -> M O (result vstate)) :
    (forall s st st', vsim st st' -> msim (alike vsim) (vis s st) (vis' (strip_sel same s) st')) ->
    forall sels st st', vsim st st' -> msim (alike vsim) (visit_all O vis sels st) (visit_all O vis' (strip_sels same sels) st').
  Proof.
    intros H. induction sels as [|s sels IH]; intros st st' Hs k k' K; cbn [visit_all strip_sels map].
    - apply K. exact Hs.
    - apply (H s st st' Hs). intros [x|e|] [x'|e'|] Hx; cbn in Hx; try contradiction; [apply (IH x x' Hx); exact K|apply K; exact Hx|apply K; exact I].
  Qed.
  Lemma resolve_with_sim vis vis' : visitor_sim vis vis' -> forall o fp sels, msim (alike alike_rr) (resolve_with O vis o fp sels) (resolve_with O vis' o fp (strip_sels same sels)).
  Proof.
    intros H o fp sels k k' K. unfold resolve_with. constructor. apply visit_all_sim; [intros; apply H; assumption|split; [reflexivity|constructor]|].
    intros [x|e|] [x'|e'|] Hx; cbn in Hx; try contradiction; [|apply K; exact Hx|apply K; exact I]. constructor. apply collect_object_sim; [apply Hx|split; reflexivity|exact K].
  Qed.

  Definition strip_env (e : env) : env := mkEnv (e_context e) (e_opdirs e) (strip_fragments (e_frags e)) (e_vars e) (e_launch e).

  Lemma visit_sim fuel e : visitor_sim (visit O typenames has_field fuel e) (visit O typenames has_field fuel (strip_env e)).
  Proof.
    induction fuel as [|fuel IH]; intros o fp fd s st st' Hs k k' K; [apply K; exact I|].
    destruct s as [loc alias name args dirs sub|loc name dirs|loc cond dirs sel]; cbn [visit strip_sel].
    - unfold visit_field. destruct Hs as [Hn Hv]. rewrite <- Hn. destruct (existsb _ _); [apply K; split; [exact Hn|exact Hv]|].
      destruct (has_field o name); cbn [negb]; [|apply K; apply vsim_snoc; [split; assumption|]; constructor; reflexivity].
      cbn [strip_env e_vars e_context e_opdirs e_launch]. assert (D := directives_strip (e_vars e) dirs).
      destruct (x <- visit_directives (e_vars e) dirs [];; _) as [[ds sk]|x|], (x <- visit_directives (e_vars e) (strip_dirs same dirs) [];; _) as [[ds' sk']|x'|];
        cbn in D; try contradiction; [|apply K; exact D|apply K; exact I].
      injection D as <- <-. destruct sk; [apply K; split; [reflexivity|exact Hv]|].
      assert (A := visit_arguments_strip (e_vars e) args []).
      destruct (visit_arguments (e_vars e) args []) as [avs|x|], (visit_arguments (e_vars e) (strip_args same args) []) as [avs'|x'|]; cbn in A; try contradiction; [|apply K; exact A|apply K; exact I].
      subst avs'. constructor. intros [x|f].
      + apply K. apply vsim_snoc; [split; assumption|]. apply field_exception_sim. reflexivity.
      + apply (convert_sim (e_launch e) _ (fun o' fp'' => resolve_with O (visit O typenames has_field fuel (strip_env e)) o' fp''
            (match match sub with Some (_, sels) => Some (nowhere, map (strip_sel same) sels) | None => None end with Some (_, l) => l | None => [] end))).
        * intros o' fp'. destruct sub as [[p l]|]; apply (resolve_with_sim _ _ IH).
        * split; [reflexivity|]. split; [reflexivity|]. destruct sub as [[p l]|]; exact I.
        * intros [x|x|] [x'|x'|] Hx; cbn in Hx; try contradiction; apply K; [apply vsim_snoc; [split; assumption|exact Hx]| |exact I].
          apply vsim_snoc; [split; assumption|]. apply field_exception_sim. exact Hx.
    - unfold visit_spread. cbn [strip_env e_vars e_frags]. rewrite find_strip. destruct (find_fragment name (e_frags e)) as [fr|]; cbn [option_map]; [|apply K; reflexivity].
      cbn [strip_fragment fr_type fr_dirs fr_sel]. destruct (matches_type O typenames o (fr_type fr)); cbn [negb]; [|apply K; exact Hs].
      assert (D := directives_strip (e_vars e) dirs).
      destruct (x <- visit_directives (e_vars e) dirs [];; _) as [[ds sk]|x|], (x <- visit_directives (e_vars e) (strip_dirs same dirs) [];; _) as [[ds' sk']|x'|];
        cbn in D; try contradiction; [|apply K; exact D|apply K; exact I].
      injection D as <- <-. destruct sk; [apply K; exact Hs|]. apply visit_all_sim; [intros s st1 st2 H; apply IH; exact H|exact Hs|exact K].
    - unfold visit_inline. cbn [strip_env e_vars]. assert (D := directives_strip (e_vars e) dirs).
      destruct (x <- visit_directives (e_vars e) dirs [];; _) as [[ds sk]|x|], (x <- visit_directives (e_vars e) (strip_dirs same dirs) [];; _) as [[ds' sk']|x'|];
        cbn in D; try contradiction; [|apply K; exact D|apply K; exact I].
      injection D as <- <-. destruct sk; [apply K; exact Hs|].
      assert (C : match strip_cond cond with None => true | Some (_, t) => matches_type O typenames o t end = match cond with None => true | Some (_, t) => matches_type O typenames o t end)
        by (destruct cond as [[p t]|]; reflexivity).
      rewrite C. destruct (match cond with None => true | Some (_, t) => matches_type O typenames o t end); [|apply K; exact Hs].
      apply visit_all_sim; [intros s st1 st2 H; apply IH; exact H|exact Hs|exact K].
  Qed.

  (** * Requests *)
  Variable roots : list (string * option O).
  Lemma operation_variables_strip vars decls : forall es, alike eq (operation_variables vars decls es) (operation_variables vars (map (strip_var same) decls) es).
  Proof.
    induction decls as [|d decls IH]; intros es; [reflexivity|]. cbn [map operation_variables]. apply (alike_bind eq).
    - unfold variable_value. cbn [strip_var v_name v_default]. destruct vars; try reflexivity. destruct (lookup (v_name d) entries); [apply alike_refl; reflexivity|].
      destruct (v_default d) as [l|]; cbn [option_map]; [apply visit_value_strip|reflexivity].
    - intros v _ <-. apply IH.
  Qed.
  Lemma visit_operation_sim fuel ctx l frags vars op :
    alike sim (visit_operation O typenames has_field roots fuel ctx l frags vars op) (visit_operation O typenames has_field roots fuel ctx l (strip_fragments frags) vars (strip_op same op)).
  Proof.
    unfold visit_operation. cbn [strip_op op_vars op_dirs op_sel]. apply (alike_bind eq); [apply operation_variables_strip|]. intros es _ <-.
    apply (alike_bind eq); [apply visit_directives_strip|]. intros ds _ <-. change (op_kind (strip_op same op)) with (op_kind op). destruct (find_root O (op_kind op) roots) as [[o|]|]; cbn; auto.
    apply (resolve_with_sim _ (visit O typenames has_field fuel (strip_env (mkEnv ctx ds frags (VMap es) l)))); [apply visit_sim|exact ret_sim].
  Qed.

  Lemma fragments_strip doc : fragments (strip_doc same doc) = map (strip_frag same) (fragments doc).
  Proof. induction doc as [|[o|f|p] doc IH]; cbn; [reflexivity|exact IH|f_equal; exact IH|exact IH]. Qed.
  Lemma operations_strip doc : operations (strip_doc same doc) = map (strip_op same) (operations doc).
  Proof. induction doc as [|[o|f|p] doc IH]; cbn; [reflexivity|f_equal; exact IH|exact IH|exact IH]. Qed.
  Lemma make_fragments_strip vars fs : alike (fun x x' => x' = strip_fragments x) (mapM (make_fragment vars) fs) (mapM (make_fragment vars) (map (strip_frag same) fs)).
  Proof.
    induction fs as [|f fs IH]; [reflexivity|]. cbn [map mapM]. apply (alike_bind (fun x x' => x' = (fst x, strip_fragment (snd x)))).
    - unfold make_fragment. cbn [strip_frag f_dirs f_name f_cond f_sel]. apply (alike_bind eq); [apply visit_directives_strip|]. intros ds _ <-. reflexivity.
    - intros x _ ->. apply (alike_bind (fun x x' => x' = strip_fragments x)); [exact IH|]. intros xs _ ->. reflexivity.
  Qed.
  Lemma find_operation_strip doc name : find_operation (strip_doc same doc) name = option_map (strip_op same) (find_operation doc name).
  Proof.
    unfold find_operation. rewrite operations_strip. generalize (operations doc) as ops. induction ops as [|op ops IH]; [reflexivity|]. cbn [map List.find].
    change (op_named name (strip_op same op)) with (op_named name op). destruct (op_named name op); [reflexivity|exact IH].
  Qed.
  Definition started (x x' : launch * comp O) : Prop := fst x = fst x' /\ sim (snd x) (snd x').
  Lemma start_operation_sim fuel validate validate' l doc name vars : map placeless (validate doc) = map placeless (validate' (strip_doc same doc)) ->
    alike started (start_operation O typenames has_field roots fuel validate l doc name vars) (start_operation O typenames has_field roots fuel validate' l (strip_doc same doc) name vars).
  Proof.
    intros Hval. unfold start_operation. rewrite fragments_strip. apply (alike_bind (fun x x' => x' = strip_fragments x)); [apply make_fragments_strip|]. intros frags _ ->.
    destruct (validate doc) as [|e errs], (validate' (strip_doc same doc)) as [|e' errs']; try discriminate; [|cbn [alike placeless_exn]; f_equal; exact Hval]. clear Hval.
    rewrite find_operation_strip. destruct (find_operation doc name) as [op|]; cbn [option_map]; [|reflexivity]. change (op_kind (strip_op same op)) with (op_kind op).
    destruct (String.eqb (op_kind op) "subscription"); [reflexivity|]. cbv zeta. apply (alike_bind sim); [apply visit_operation_sim|]. intros c c' H. split; [reflexivity|exact H].
  Qed.

  (** * Executions *)
  Variable St : Type.
  Variable handler : St -> O -> string -> fparams -> St * answer O.

  Inductive tsim : thread O -> thread O -> Prop :=
  | tsim_t ks ks' c c' : ksims ks ks' -> sim c c' -> tsim (T ks c) (T ks' c')
  with ksim : kid O -> kid O -> Prop :=
  | ksim_def c c' : sim c c' -> ksim (KDef c) (KDef c')
  | ksim_run t t' : tsim t t' -> ksim (KRun t) (KRun t')
  | ksim_done r r' : alike alike_rr r r' -> ksim (KDone r) (KDone r')
  with ksims : list (kid O) -> list (kid O) -> Prop :=
  | ksims_nil : ksims [] []
  | ksims_cons k k' ks ks' : ksim k k' -> ksims ks ks' -> ksims (k :: ks) (k' :: ks').

  Lemma ksims_nth ks ks' : ksims ks ks' -> forall i k, nth_error ks i = Some k -> exists k', nth_error ks' i = Some k' /\ ksim k k'.
  Proof. induction 1 as [|k k' ks ks' Hk H IH]; intros [|i] x E; try discriminate; cbn in *; [injection E as <-; eauto|eauto]. Qed.
  Lemma ksims_none ks ks' : ksims ks ks' -> forall i, nth_error ks i = None -> nth_error ks' i = None.
  Proof. induction 1; intros [|i]; cbn; auto. discriminate. Qed.
  Lemma ksims_length ks ks' : ksims ks ks' -> length ks = length ks'.
  Proof. induction 1; cbn; auto. Qed.
  Lemma ksims_snoc ks ks' k k' : ksims ks ks' -> ksim k k' -> ksims (ks ++ [k]) (ks' ++ [k']).
  Proof. intros H K. induction H; cbn; [repeat constructor; exact K|constructor; assumption]. Qed.
  Lemma ksims_update ks ks' k k' : ksims ks ks' -> ksim k k' -> forall i, ksims (update i k ks) (update i k' ks').
  Proof. intros H K. induction H as [|x x' ks ks' Hx H IH]; intros [|i]; cbn; constructor; auto. Qed.
  Lemma ksims_running ks ks' : ksims ks ks' -> existsb is_running ks = existsb is_running ks'.
  Proof. induction 1 as [|k k' ks ks' Hk H IH]; [reflexivity|]. cbn. rewrite IH. destruct Hk; reflexivity. Qed.
  Lemma ended_sim t t' r : tsim t t' -> ended t r -> exists r', ended t' r' /\ alike alike_rr r r'.
  Proof.
    intros H. destruct H as [ks ks' c c' Hk Hc]. destruct Hc; cbn; try contradiction. intros [<- E]. exists r'. rewrite <- (ksims_running _ _ Hk). auto.
  Qed.

  Lemma step_sim s t ev s1 t1 : step handler s t ev s1 t1 -> forall t', tsim t t' -> exists t1', step handler s t' ev s1 t1' /\ tsim t1 t1'.
  Proof.
    induction 1 as [s ks o f p k|s ks e k|s ks l c k Hl|s ks l c k Hl|s ks i k c E|s ks i k r E|s ks i k E|s ks c i t ev s' t1 E H IH|s ks c i t r E Hr]; intros t' Ht; inversion Ht as [? ks' ? c' Hk Hc]; subst.
    - inversion Hc; subst. eexists. split; [apply step_call|]. constructor; auto.
    - inversion Hc; subst. eexists. split; [apply step_emit|]. constructor; auto.
    - inversion Hc; subst. eexists. split; [apply step_defer; exact Hl|]. constructor; [apply ksims_snoc; [exact Hk|constructor; assumption]|]. rewrite <- (ksims_length _ _ Hk). auto.
    - inversion Hc; subst. eexists. split; [apply step_async; exact Hl|]. constructor; [apply ksims_snoc; [exact Hk|]; constructor; constructor; [constructor|assumption]|]. rewrite <- (ksims_length _ _ Hk). auto.
    - inversion Hc; subst. destruct (ksims_nth _ _ Hk _ _ E) as (x & E' & Hx). inversion Hx; subst. eexists. split; [eapply step_force; exact E'|].
      constructor; [apply ksims_update; [exact Hk|]; constructor; constructor; [constructor|assumption]|exact Hc].
    - inversion Hc; subst. destruct (ksims_nth _ _ Hk _ _ E) as (x & E' & Hx). inversion Hx; subst. eexists. split; [eapply step_get; exact E'|]. constructor; auto.
    - inversion Hc; subst. eexists. split; [eapply step_bad_get; eapply ksims_none; eassumption|]. constructor; auto. match goal with X : forall r r', _ -> sim _ _ |- _ => apply X end. exact I.
    - destruct (ksims_nth _ _ Hk _ _ E) as (x & E' & Hx). inversion Hx as [|? t2 Ht2|]; subst. destruct (IH t2 Ht2) as (t3 & S3 & T3). eexists. split; [eapply step_kid; eassumption|].
      constructor; [apply ksims_update; [exact Hk|constructor; exact T3]|exact Hc].
    - destruct (ksims_nth _ _ Hk _ _ E) as (x & E' & Hx). inversion Hx as [|? t2 Ht2|]; subst. destruct (ended_sim _ _ _ Ht2 Hr) as (r' & Hr' & A). eexists. split; [eapply step_join; eassumption|].
      constructor; [apply ksims_update; [exact Hk|constructor; exact A]|exact Hc].
  Qed.
  Lemma steps_sim n s t evs s1 t1 : steps handler n s t evs s1 t1 -> forall t', tsim t t' -> exists t1', steps handler n s t' evs s1 t1' /\ tsim t1 t1'.
  Proof.
    induction 1 as [s t|n s t ev s1 t1 evs s2 t2 H H' IH]; intros t' Ht; [exists t'; split; [constructor|exact Ht]|].
    destruct (step_sim _ _ _ _ _ H t' Ht) as (t1' & H1 & T1). destruct (IH t1' T1) as (t2' & H2 & T2). exists t2'. split; [econstructor; eassumption|exact T2].
  Qed.
End Programs.
