(** A text with the same tokens spells the same document, except for positions (for C55). *)
From Coq Require Import String Ascii NArith ZArith Arith Bool List Lia.
From Verif Require Import Cpp Value Ast Layout ParseSpec Relaid.
From Verif Require RequestTextModel RequestTextProofs.
Import ListNotations.
Local Open Scope list_scope.
Local Open Scope char_scope.
Notation same := (fun s : string => s).

(** * Ignorable text *)
Lemma blanks_app v w : blanks v -> blanks w -> blanks (v ++ w).
Proof. exact (RequestTextProofs.blanks_app v w). Qed.
Lemma blank_first b : blank b -> exists c r, b = c :: r /\ In c ignored.
Proof. intros [c Hc|body Hb]; eexists _, _; (split; [reflexivity|]); [|cbn; auto 9]. unfold ignored. cbn in Hc |- *. tauto. Qed.
Lemma blanks_first w c r : blanks w -> w = c :: r -> In c ignored.
Proof. intros [|b w' Hb Hw] E; [discriminate E|]. destruct (blank_first b Hb) as (x & y & -> & Hx). injection E as <- _. exact Hx. Qed.
(** A character that does not begin ignorable text comes next. *)
Definition solid (r : text) : Prop := exists c s, r = c :: s /\ ~ In c ignored.
Definition sprout (r : text) : Prop := exists c s, r = c :: s /\ ~ In c ignored /\ ~ In c closing_.
Lemma sprout_solid r : sprout r -> solid r.
Proof. intros (c & s & E & H & _). exists c, s. auto. Qed.
Lemma sprout_app a b : sprout a -> sprout (a ++ b).
Proof. intros (c & s & -> & H). exists c, (s ++ b). auto. Qed.
Lemma solid_app a b : solid a -> solid (a ++ b).
Proof. intros (c & s & -> & H). exists c, (s ++ b). auto. Qed.
Lemma solid_cons c s : ~ In c ignored -> solid (c :: s).
Proof. intros H. exists c, s. auto. Qed.
Ltac out := cbn; intros X; repeat (destruct X as [X|X]; [discriminate X|]); exact X.
Lemma blanks_solid w r s : blanks w -> w ++ r = s -> solid s -> w = [] /\ r = s.
Proof.
  intros Hw E (c & s' & -> & Hc). destruct w as [|d w]; [auto|]. injection E as -> E. exfalso. apply Hc. exact (blanks_first _ _ _ Hw eq_refl).
Qed.
Lemma same_comment (b1 b2 : text) x y : ~ In (code 10) b1 -> ~ In (code 10) b2 -> b1 ++ code 10 :: x = b2 ++ code 10 :: y -> b1 = b2 /\ x = y.
Proof.
  revert b2. induction b1 as [|c b1 IH]; intros [|d b2] H1 H2 E.
  - injection E as E. auto.
  - injection E as E _. exfalso. apply H2. left. symmetry. exact E.
  - injection E as E _. exfalso. apply H1. left. exact E.
  - injection E as -> E. destruct (IH b2 (fun X => H1 (or_intror X)) (fun X => H2 (or_intror X)) E) as [-> ->]. auto.
Qed.
(** Blanks come in units. *)
Lemma blank_unit b b' x y : blank b -> blank b' -> b ++ x = b' ++ y -> b = b' /\ x = y.
Proof.
  intros [c Hc|body Hb] [c' Hc'|body' Hb'] E.
  - injection E as -> E. auto.
  - injection E as -> E. exfalso. revert Hc. out.
  - injection E as <- E. exfalso. revert Hc'. out.
  - cbn [app] in E. assert (E' : (body ++ [code 10]) ++ x = (body' ++ [code 10]) ++ y) by (injection E as E; exact E). rewrite <- !app_assoc in E'.
    destruct (same_comment body body' x y Hb Hb' E') as [-> ->]. auto.
Qed.
Lemma blanks_align v : blanks v -> forall w t r, blanks w -> v ++ t = w ++ r -> solid r -> exists w2, w = v ++ w2 /\ blanks w2 /\ t = w2 ++ r.
Proof.
  induction 1 as [|b v Hb Hv IH]; intros w t r Hw E Hr; [exists w; auto|]. destruct Hw as [|b' w Hb' Hw].
  - exfalso. cbn [app] in E. destruct (blank_first b Hb) as (c & s & -> & Hc). destruct Hr as (d & s' & -> & Hd). injection E as -> E. exact (Hd Hc).
  - rewrite <- !app_assoc in E. destruct (blank_unit b b' _ _ Hb Hb' E) as [<- E']. destruct (IH w t r Hw E' Hr) as (w2 & -> & H2 & ->). exists w2. rewrite app_assoc. auto.
Qed.
Lemma blanks_rest v : blanks v -> forall t, blanks (v ++ t) -> blanks t.
Proof.
  induction 1 as [|b v Hb Hv IH]; intros t H; [exact H|]. inversion H as [E|b' w Hb' Hw E].
  - destruct (blank_first b Hb) as (c & s & -> & _). discriminate E.
  - rewrite <- app_assoc in E. destruct (blank_unit b' b w (v ++ t) Hb' Hb E) as [_ ->]. exact (IH t Hw).
Qed.
Lemma trailing_rest v : blanks v -> forall t, trailing (v ++ t) -> trailing t.
Proof.
  induction 1 as [|b v Hb Hv IH]; intros t H; [exact H|]. apply IH. inversion H as [w Hw E|w body Hw Hbody E]; clear IH.
  - subst w. constructor. apply (blanks_rest b (RequestTextProofs.blanks_one b Hb)). rewrite app_assoc. exact Hw.
  - rewrite <- app_assoc in E. destruct Hw as [|b' w Hb' Hw].
    + exfalso. cbn [app] in E. destruct Hb as [c Hc|body' Hb]; [injection E as <- E; revert Hc; out|]. apply Hbody. cbn [app] in E. assert (E' : body = (body' ++ [code 10]) ++ v ++ t) by (injection E as E; exact E). rewrite E'.
      apply in_or_app. left. apply in_or_app. right. left. reflexivity.
    + rewrite <- app_assoc in E. destruct (blank_unit b' b _ _ Hb' Hb E) as [_ <-]. apply trailing_comment; assumption.
Qed.
Lemma trailing_solid e : trailing e -> solid e -> False.
Proof.
  intros H (c & s & -> & Hc). inversion H as [w Hw E|w body Hw Hbody E]; subst.
  - exact (Hc (blanks_first _ _ _ Hw eq_refl)).
  - destruct w as [|d w]; injection E as E _; rewrite <- E in *; apply Hc; [cbn; auto 9|exact (blanks_first _ _ _ Hw eq_refl)].
Qed.
Lemma some_blanks_app v w : some_blanks v -> blanks w -> some_blanks (v ++ w).
Proof. intros [H1 H2] Hw. split; [apply blanks_app; assumption|]. destruct v; [congruence|discriminate]. Qed.

(** * What comes next *)
Definition same_head (r r' : text) : Prop := exists c s s', r = c :: s /\ r' = c :: s'.
Lemma relaid_gap x t' : relaid x t' -> forall w r, x = w ++ r -> blanks w -> solid r ->
  exists w' r', t' = w' ++ r' /\ blanks w' /\ relaid r r' /\ same_head r r' /\ (w <> [] -> sprout r -> w' <> []).
Proof.
  assert (Z : forall x y w r, x = w ++ r -> blanks w -> solid x -> relaid x y -> same_head x y ->
    exists w' r', y = w' ++ r' /\ blanks w' /\ relaid r r' /\ same_head r r' /\ (w <> [] -> sprout r -> w' <> [])).
  { intros y y' w r E Hw Hs H Hh. destruct (blanks_solid w r y Hw (eq_sym E) Hs) as [-> ->]. exists [], y'. split; [reflexivity|]. split; [constructor|]. split; [exact H|]. split; [exact Hh|congruence]. }
  induction 1 as [e e' He He'|c t t' Hc Hq H IH|s t t' Hs Hn H IH|s t t' Hs H IH|v v' t t' Hv Hv' H IH|c v v' t t' Hc Hv Hv' H IH|v v' t t' Hv Hv' H IH|c v v' t t' Hc Hv Hv' H IH]; intros w r E Hw Hr.
  - exfalso. subst e. exact (trailing_solid _ (trailing_rest w Hw r He) Hr).
  - eapply Z; [exact E|exact Hw|apply solid_cons; exact Hc|constructor; assumption|]. exists c, t, t'. auto.
  - eapply Z; [exact E|exact Hw|apply solid_cons; out|constructor; assumption|]. eexists _, _, _. split; reflexivity.
  - eapply Z; [exact E|exact Hw|apply solid_cons; out|constructor; assumption|]. eexists _, _, _. split; reflexivity.
  - destruct (blanks_align v (proj1 Hv) w t r Hw E Hr) as (w2 & -> & H2 & Et). destruct (IH w2 r Et H2 Hr) as (w2' & r' & -> & Hw2' & Hr' & Hh & Hne). exists (v' ++ w2'), r'.
    split; [apply app_assoc|]. split; [apply blanks_app; [apply Hv'|exact Hw2']|]. split; [exact Hr'|]. split; [exact Hh|]. intros _ _. destruct v' as [|z v']; [exfalso; apply (proj2 Hv'); reflexivity|discriminate].
  - eapply Z; [exact E|exact Hw| |constructor; assumption|eexists _, _, _; split; reflexivity]. apply solid_cons. unfold opening in Hc. cbn in Hc. repeat (destruct Hc as [<-|Hc]; [out|]). contradiction.
  - eapply Z; [exact E|exact Hw| |constructor; assumption|eexists _, _, _; split; reflexivity]. apply solid_cons. out.
  - assert (Hcs : ~ In c ignored) by (clear -Hc; unfold closing_ in Hc; cbn in Hc; repeat (destruct Hc as [<-|Hc]; [out|]); contradiction).
    destruct (blanks_align v Hv w (c :: t) r Hw E Hr) as (w2 & -> & H2 & Et). symmetry in Et. destruct (blanks_solid w2 r (c :: t) H2 Et (solid_cons c t Hcs)) as [-> ->]. exists v', (c :: t').
    split; [reflexivity|]. split; [exact Hv'|]. split; [exact H|]. split; [exists c, t, t'; auto|]. intros _ (d & s & X & _ & Y). injection X as <- _. exfalso. exact (Y Hc).
Qed.
(** After an opening character the rest has, perhaps, other ignorable text before it. *)
Definition loose (t t' : text) : Prop := exists w w' u u', t = w ++ u /\ t' = w' ++ u' /\ blanks w /\ blanks w' /\ relaid u u'.
Lemma loose_gap w r t' : loose (w ++ r) t' -> blanks w -> solid r -> exists w' r', t' = w' ++ r' /\ blanks w' /\ relaid r r' /\ same_head r r'.
Proof.
  intros (v & v' & u & u' & E & -> & Hv & Hv' & H) Hw Hr. symmetry in E. destruct (blanks_align v Hv w u r Hw E Hr) as (w2 & -> & H2 & ->).
  destruct (relaid_gap _ _ H w2 r eq_refl H2 Hr) as (w2' & r' & -> & H3 & H4 & H5 & _). exists (v' ++ w2'), r'. rewrite app_assoc. split; [reflexivity|]. split; [apply blanks_app; assumption|]. auto.
Qed.
Lemma relaid_loose t t' : relaid t t' -> loose t t'.
Proof. intros H. exists [], [], t, t'. split; [reflexivity|]. split; [reflexivity|]. split; [constructor|]. split; [constructor|exact H]. Qed.

(** The next character. *)
Lemma next_char x y : relaid x y -> forall c t, x = c :: t -> ~ In c ignored -> c <> quote -> ~ In c opening -> ~ In c closing_ -> (c = "." -> ~ begins [c] t) -> exists t', y = c :: t' /\ relaid t t'.
Proof.
  induction 1 as [e e' He He'|c t t' Hc Hq H IH|s t t' Hs Hn H IH|s t t' Hs H IH|v v' t t' Hv Hv' H IH|c v v' t t' Hc Hv Hv' H IH|v v' t t' Hv Hv' H IH|c v v' t t' Hc Hv Hv' H IH]; intros d r E H1 H2 H3 H4 H5.
  - exfalso. subst e. exact (trailing_solid _ He (solid_cons d r H1)).
  - injection E as -> ->. exists t'. auto.
  - injection E as E _. exfalso. exact (H2 (eq_sym E)).
  - injection E as E _. exfalso. exact (H2 (eq_sym E)).
  - exfalso. destruct v as [|z v]; [exact (proj2 Hv eq_refl)|]. injection E as -> E. exact (H1 (blanks_first _ _ _ (proj1 Hv) eq_refl)).
  - injection E as -> E. contradiction.
  - injection E as <- E. exfalso. apply (H5 eq_refl). rewrite <- E. eexists. reflexivity.
  - destruct v as [|z v]; [injection E as -> E; contradiction|]. injection E as -> E. exfalso. exact (H1 (blanks_first _ _ _ Hv eq_refl)).
Qed.
Definition inert (c : ascii) : Prop := ~ In c ignored /\ c <> quote /\ ~ In c opening /\ ~ In c closing_ /\ c <> ".".
Lemma next_inert cs : Forall inert cs -> forall r y, relaid (cs ++ r) y -> exists r', y = cs ++ r' /\ relaid r r'.
Proof.
  induction 1 as [|c cs (H1 & H2 & H3 & H4 & H5) Hcs IH]; intros r y H; [exists y; auto|]. destruct (next_char _ _ H c (cs ++ r) eq_refl H1 H2 H3 H4 ltac:(congruence)) as (t' & -> & Ht).
  destruct (IH r t' Ht) as (r' & -> & Hr). exists r'. auto.
Qed.
(** The next character, when it is there in both texts. *)
Lemma next_loose x y : relaid x y -> forall c t t', x = c :: t -> y = c :: t' -> ~ In c ignored -> c <> quote -> c <> "." -> loose t t' /\ (~ In c opening -> relaid t t').
Proof.
  induction 1 as [e e' He He'|c t t' Hc Hq H IH|s t t' Hs Hn H IH|s t t' Hs H IH|v v' t t' Hv Hv' H IH|c v v' t t' Hc Hv Hv' H IH|v v' t t' Hv Hv' H IH|c v v' t t' Hc Hv Hv' H IH]; intros d r r' E E' H1 H2 H3.
  - exfalso. subst e. exact (trailing_solid _ He (solid_cons d r H1)).
  - injection E as -> ->. injection E' as ->. split; [apply relaid_loose|]; auto.
  - injection E as E _. exfalso. exact (H2 (eq_sym E)).
  - injection E as E _. exfalso. exact (H2 (eq_sym E)).
  - exfalso. destruct v as [|z v]; [exact (proj2 Hv eq_refl)|]. injection E as -> E. exact (H1 (blanks_first _ _ _ (proj1 Hv) eq_refl)).
  - injection E as -> <-. injection E' as <-. split; [|contradiction]. exists v, v', t, t'. auto.
  - injection E as E _. congruence.
  - destruct v as [|z v]; [|injection E as -> E; exfalso; exact (H1 (blanks_first _ _ _ Hv eq_refl))]. destruct v' as [|z v']; [|injection E' as -> E'; exfalso; exact (H1 (blanks_first _ _ _ Hv' eq_refl))].
    apply (IH d r r'); auto.
Qed.
Lemma next_dots t y : relaid (chars "..." ++ t) y -> ~ begins ["."] t -> exists t', y = chars "..." ++ t' /\ loose t t'.
Proof.
  assert (C : forall x y, relaid x y -> forall t, x = "." :: t -> exists t', y = "." :: t' /\ (relaid t t' \/ exists u u', t = ["."; "."] ++ u /\ t' = ["."; "."] ++ u' /\ loose u u')).
  { induction 1 as [e e' He He'|c u u' Hc Hq H IH|s u u' Hs Hn H IH|s u u' Hs H IH|v v' u u' Hv Hv' H IH|c v v' u u' Hc Hv Hv' H IH|v v' u u' Hv Hv' H IH|c v v' u u' Hc Hv Hv' H IH]; intros r E.
    - exfalso. subst e. exact (trailing_solid _ He (solid_cons "." r ltac:(out))).
    - injection E as -> ->. exists u'. auto.
    - discriminate E.
    - discriminate E.
    - exfalso. destruct v as [|z v]; [exact (proj2 Hv eq_refl)|]. injection E as -> E. assert (X := blanks_first _ _ _ (proj1 Hv) eq_refl). revert X. out.
    - injection E as -> E. exfalso. revert Hc. out.
    - injection E as <-. eexists. split; [reflexivity|]. right. exists (v ++ u), (v' ++ u'). split; [reflexivity|]. split; [reflexivity|]. exists v, v', u, u'. auto.
    - exfalso. destruct v as [|z v]; injection E as -> E; [revert Hc; out|]. assert (X := blanks_first _ _ _ Hv eq_refl). revert X. out. }
  intros H Hd. assert (D : forall u, t <> "." :: u) by (intros u ->; apply Hd; exists u; reflexivity). clear Hd.
  destruct (C _ _ H (["."; "."] ++ t) eq_refl) as (t1 & -> & [H1|(u & u' & E & -> & H1)]).
  - destruct (C _ _ H1 ("." :: t) eq_refl) as (t2 & -> & [H2|(u & u' & E & _)]); [|injection E as E; exfalso; exact (D _ E)].
    destruct (C _ _ H2 t eq_refl) as (t3 & -> & [H3|(u & u' & E & _)]); [|exfalso; exact (D _ E)].
    exists t3. split; [reflexivity|]. apply relaid_loose. exact H3.
  - injection E as ->. exists u'. auto.
Qed.

(** * String literals *)
Lemma string_unique s : string_bytes s -> forall s0 t t0, string_bytes s0 -> s ++ quote :: t = s0 ++ quote :: t0 -> s = s0 /\ t = t0.
Proof.
  induction 1 as [|c s H1 H2 Hs IH|c s Hs IH]; intros s0 t t0 H0 E.
  - destruct H0 as [|d s0 X1 X2 H0|d s0 H0]; [injection E as E; auto|injection E as E _; exfalso; exact (X1 (eq_sym E))|discriminate E].
  - destruct H0 as [|d s0 X1 X2 H0|d s0 H0]; [injection E as E _; contradiction| |injection E as E _; contradiction].
    injection E as -> E. destruct (IH s0 t t0 H0 E) as [-> ->]. auto.
  - destruct H0 as [|d s0 X1 X2 H0|d s0 H0]; [discriminate E|injection E as E _; exfalso; exact (X2 (eq_sym E))|]. injection E as -> E. destruct (IH s0 t t0 H0 E) as [-> ->]. auto.
Qed.
Lemma begins_longer p a b t : p ++ t = a ++ b -> length p <= length a -> begins p a.
Proof.
  revert a. induction p as [|c p IH]; intros a E Hl; [exists a; reflexivity|]. destruct a as [|d a]; [cbn in Hl; lia|]. injection E as -> E. cbn in Hl. destruct (IH a E ltac:(lia)) as [r ->]. exists r. reflexivity.
Qed.
Lemma block_unique : forall s, block_bytes s -> forall s0 t t0, block_bytes s0 -> s ++ q3 ++ t = s0 ++ q3 ++ t0 -> s = s0 /\ t = t0.
Proof.
  assert (A : forall c s (t t0 : text), q3 ++ t = (c :: s) ++ q3 ++ t0 -> begins q3 (c :: s ++ q3)).
  { intros c s t t0 E. apply (begins_longer q3 (c :: s ++ q3) t0 t); [cbn [app] in *; rewrite E, <- app_assoc; reflexivity|]. cbn. rewrite app_length. cbn. lia. }
  assert (B : forall c s u (t t0 : text), "\" :: q3 ++ u ++ t = (c :: s) ++ q3 ++ t0 -> begins ("\" :: q3) (c :: s ++ q3)).
  { intros c s u t t0 E. apply (begins_longer ("\" :: q3) (c :: s ++ q3) t0 (u ++ t)); [cbn [app] in *; rewrite E, <- app_assoc; reflexivity|]. cbn. rewrite app_length. cbn. lia. }
  induction 1 as [|c s H1 H2 Hs IH|s Hs IH]; intros s0 t t0 H0 E.
  - destruct H0 as [|d s0 X1 X2 H0|s0 H0]; [cbn in E; injection E as E; auto|exfalso; exact (X1 (A _ _ _ _ E))|discriminate E].
  - destruct H0 as [|d s0 X1 X2 H0|s0 H0]; [exfalso; exact (H1 (A _ _ _ _ (eq_sym E)))| |].
    + cbn [app] in E. assert (Ec : c = d) by (injection E as E _; exact E). assert (E' : s ++ q3 ++ t = s0 ++ q3 ++ t0) by (injection E as _ E; exact E). subst d. destruct (IH s0 t t0 H0 E') as [-> ->]. auto.
    + exfalso. apply H2. apply (B c s s0 (q3 ++ t0) t). cbn [app] in *. symmetry. exact E.
  - destruct H0 as [|d s0 X1 X2 H0|s0 H0]; [discriminate E| |].
    + exfalso. apply X2. apply (B d s0 s (q3 ++ t) t0). cbn [app] in *. exact E.
    + assert (E' : s ++ q3 ++ t = s0 ++ q3 ++ t0) by (cbn in E; injection E as E; exact E). destruct (IH s0 t t0 H0 E') as [-> ->]. auto.
Qed.
Definition calm (r : text) : Prop := ~ begins [quote] r.
Lemma calm_cons c r : c <> quote -> calm (c :: r).
Proof. intros H [s E]. injection E as E _. exact (H E). Qed.
Lemma string_calm s t : string_bytes s -> s <> [] -> calm (s ++ t).
Proof. intros [|c u H1 H2 _|c u _] H; [congruence|apply calm_cons; exact H1|apply calm_cons; discriminate]. Qed.
Lemma next_string x y : relaid x y -> forall s t, x = quote :: s ++ quote :: t -> string_bytes s -> calm t -> exists t', y = quote :: s ++ quote :: t' /\ relaid t t'.
Proof.
  induction 1 as [e e' He He'|c t t' Hc Hq H IH|s t t' Hs Hn H IH|s t t' Hs H IH|v v' t t' Hv Hv' H IH|c v v' t t' Hc Hv Hv' H IH|v v' t t' Hv Hv' H IH|c v v' t t' Hc Hv Hv' H IH]; intros u r E Hu Hr.
  - exfalso. subst e. exact (trailing_solid _ He (solid_cons quote _ ltac:(out))).
  - exfalso. apply Hq. injection E as E _. exact E.
  - injection E as E. destruct (string_unique s Hs u t r Hu E) as [-> ->]. exists t'. auto.
  - exfalso. cbn [q3 app] in E. injection E as E. destruct u as [|z u].
    + cbn [app] in E. injection E as E. apply Hr. rewrite <- E. eexists. reflexivity.
    + apply (string_calm (z :: u) (quote :: r) Hu ltac:(discriminate)). rewrite <- E. eexists. reflexivity.
  - exfalso. destruct v as [|z v]; [exact (proj2 Hv eq_refl)|]. injection E as -> E. assert (X := blanks_first _ _ _ (proj1 Hv) eq_refl). revert X. out.
  - injection E as -> E. exfalso. revert Hc. out.
  - discriminate E.
  - exfalso. destruct v as [|z v]; injection E as -> E; [revert Hc; out|]. assert (X := blanks_first _ _ _ Hv eq_refl). revert X. out.
Qed.
Lemma next_block x y : relaid x y -> forall s t, x = q3 ++ s ++ q3 ++ t -> block_bytes s -> exists t', y = q3 ++ s ++ q3 ++ t' /\ relaid t t'.
Proof.
  induction 1 as [e e' He He'|c t t' Hc Hq H IH|s t t' Hs Hn H IH|s t t' Hs H IH|v v' t t' Hv Hv' H IH|c v v' t t' Hc Hv Hv' H IH|v v' t t' Hv Hv' H IH|c v v' t t' Hc Hv Hv' H IH]; intros u r E Hu.
  - exfalso. subst e. exact (trailing_solid _ He (solid_cons quote _ ltac:(out))).
  - exfalso. apply Hq. injection E as E _. exact E.
  - exfalso. cbn [q3 app] in E. injection E as E. destruct s as [|z s].
    + cbn [app] in E. injection E as E. apply (Hn eq_refl). rewrite E. eexists. reflexivity.
    + apply (string_calm (z :: s) (quote :: t) Hs ltac:(discriminate)). rewrite E. eexists. reflexivity.
  - assert (E' : s ++ q3 ++ t = u ++ q3 ++ r) by (cbn in E; injection E as E; exact E). destruct (block_unique s Hs u t r Hu E') as [-> ->]. exists t'. auto.
  - exfalso. destruct v as [|z v]; [exact (proj2 Hv eq_refl)|]. injection E as -> E. assert (X := blanks_first _ _ _ (proj1 Hv) eq_refl). revert X. out.
  - injection E as -> E. exfalso. revert Hc. out.
  - discriminate E.
  - exfalso. destruct v as [|z v]; injection E as -> E; [revert Hc; out|]. assert (X := blanks_first _ _ _ Hv eq_refl). revert X. out.
Qed.
Lemma high_byte x k : (128 <= k)%N -> (k + x < 256)%N -> (128 <= N_of_ascii (ascii_of_N (k + x)))%N.
Proof. intros H1 H2. rewrite N_ascii_embedding by exact H2. lia. Qed.
Lemma utf8_shape c : (c < 65536)%N -> (c < 128)%N /\ utf8 c = [ascii_of_N c] \/ Forall (fun b => 128 <= N_of_ascii b)%N (utf8 c).
Proof.
  intros Hb. unfold utf8.
  assert (M : forall x, (128 <= N_of_ascii (ascii_of_N (128 + x mod 64)))%N).
  { intros x. apply high_byte; [lia|]. assert (x mod 64 < 64)%N by (apply N.mod_lt; discriminate). generalize dependent (x mod 64)%N. intros y H. lia. }
  destruct (c <? 128)%N eqn:E1; [apply N.ltb_lt in E1; auto|apply N.ltb_ge in E1; right; destruct (c <? 2048)%N eqn:E2; [apply N.ltb_lt in E2|apply N.ltb_ge in E2]].
  - constructor; [|constructor; [apply M|constructor]]. apply high_byte; [lia|]. assert (H : (c / 64 < 32)%N) by (apply N.div_lt_upper_bound; lia). generalize dependent (c / 64)%N. intros y H. lia.
  - constructor; [|constructor; [apply M|constructor; [apply M|constructor]]]. apply high_byte; [lia|]. assert (H : (c / 4096 < 16)%N) by (apply N.div_lt_upper_bound; lia). generalize dependent (c / 4096)%N. intros y H. lia.
Qed.
Lemma high_char b : (128 <= N_of_ascii b)%N -> forall c, (N_of_ascii c < 128)%N -> b <> c.
Proof. intros H c Hc ->. lia. Qed.
Lemma quoted_bytes a s d : quoted a s d -> string_bytes s.
Proof.
  induction 1 as [a|a c t d Hc H1 H2 Hq IH|a c t d Hc Hq IH|a c t d Hc Hq IH|a h1 h2 h3 h4 t d X1 X2 X3 X4 Hq IH].
  - constructor.
  - destruct Hc as [Hc _]. destruct (utf8_shape c ltac:(lia)) as [[Hl ->]|Hh].
    + cbn [app]. constructor; [| |exact IH]; intros X; apply (f_equal N_of_ascii) in X; rewrite N_ascii_embedding in X by lia; [exact (H1 X)|exact (H2 X)].
    + induction Hh as [|b bs Hb Hbs IHb]; [exact IH|]. cbn [app]. constructor; [apply (high_char b Hb); reflexivity|apply (high_char b Hb); reflexivity|exact IHb].
  - constructor; [| |exact IH]; destruct Hc as [->| ->]; discriminate.
  - apply string_escape. exact IH.
  - apply string_escape. assert (N : forall h, hex_digit h -> h <> quote /\ h <> "\").
    { intros h Hh. assert (K : forall a b, between a b h -> (35 <= N_of_ascii a)%N -> (N_of_ascii b < 92)%N \/ (92 < N_of_ascii a)%N -> h <> quote /\ h <> "\").
      { intros x y [B1 B2] B3 B4. split; intros ->; [change (N_of_ascii quote) with 34%N in *|change (N_of_ascii "\") with 92%N in *]; lia. }
      destruct Hh as [Hh|[Hh|Hh]]; apply (K _ _ Hh); cbn; lia. }
    apply N in X1, X2, X3, X4. constructor; [apply X1..|]. constructor; [apply X2..|]. constructor; [apply X3..|]. constructor; [apply X4..|]. exact IH.
Qed.
Lemma block_chars_bytes s : block_chars s -> block_bytes s.
Proof.
  induction 1 as [|c t Hc H1 H2 Ht IH|t Ht IH]; [constructor| |constructor; exact IH].
  assert (Hl : (c < 65536)%N) by (destruct Hc as [[Hc _]|Hc]; lia). destruct (utf8_shape c Hl) as [[_ E]|Hh].
  - rewrite E in *. cbn [app] in *. constructor; assumption.
  - clear H1 H2. induction Hh as [|b bs Hb Hbs IHb]; [exact IH|]. cbn [app]. constructor; [| |exact IHb]; intros [r E]; injection E as E _; revert E; apply (high_char b Hb); reflexivity.
Qed.

(** * Names and numbers *)
Lemma inert_code c : (forall d, In d (ignored ++ [quote; "."] ++ opening ++ closing_) -> N_of_ascii c <> N_of_ascii d) -> inert c.
Proof.
  intros H. assert (K : ~ In c (ignored ++ [quote; "."] ++ opening ++ closing_)) by (intros X; exact (H c X eq_refl)). rewrite !in_app_iff in K. unfold inert. repeat split; try tauto; intros ->; apply K; cbn; auto.
Qed.
Lemma between_inert a b c : between a b c -> (forall d, In d (ignored ++ [quote; "."] ++ opening ++ closing_) -> (N_of_ascii d < N_of_ascii a \/ N_of_ascii b < N_of_ascii d)%N) -> inert c.
Proof. intros [H1 H2] H. apply inert_code. intros d X Y. destruct (H d X); lia. Qed.
Ltac far := let d := fresh in let X := fresh in intros d X; cbn in X; repeat (destruct X as [<-|X]; [cbn; lia|]); contradiction.
Lemma digit_inert c : digit c -> inert c.
Proof. intros H. apply (between_inert _ _ _ H). far. Qed.
Lemma letter_inert c : letter c -> inert c.
Proof. intros [H|[H|H]]; [apply (between_inert _ _ _ H); far|apply (between_inert _ _ _ H); far|]. subst c. apply (between_inert "_" "_"); [split; reflexivity|far]. Qed.
Lemma name_inert n : name n -> Forall inert (chars n).
Proof.
  unfold name. destruct (chars n) as [|c r]; [contradiction|]. intros [H1 H2]. constructor; [apply letter_inert; exact H1|]. eapply Forall_impl; [|exact H2]. intros x [H|H]; [apply letter_inert|apply digit_inert]; exact H.
Qed.
Lemma one_inert c : between c c c -> (forall d, In d (ignored ++ [quote; "."] ++ opening ++ closing_) -> (N_of_ascii d < N_of_ascii c \/ N_of_ascii c < N_of_ascii d)%N) -> inert c.
Proof. intros H. apply between_inert. exact H. Qed.
Ltac inert1 := apply one_inert; [split; apply N.le_refl|far].
Lemma int_inert t : int_text t -> Forall inert t.
Proof.
  intros (sign & ds & -> & Hs & Hd). apply Forall_app. split.
  - destruct Hs as [->| ->]; [constructor|]. constructor; [inert1|constructor].
  - destruct Hd as [->|(d & r & -> & H1 & H2)]; [constructor; [inert1|constructor]|]. constructor; [apply (between_inert _ _ _ H1); far|]. eapply Forall_impl; [|exact H2]. exact digit_inert.
Qed.
Lemma exponent_inert t : exponent_text t -> Forall inert t.
Proof.
  intros (e & sign & ds & -> & He & Hs & _ & Hd). constructor; [destruct He as [->| ->]; inert1|]. apply Forall_app. split; [destruct Hs as [->|[->| ->]]; repeat constructor; inert1|].
  eapply Forall_impl; [|exact Hd]. exact digit_inert.
Qed.
Lemma name_next n r y : name n -> relaid (chars n ++ r) y -> exists r', y = chars n ++ r' /\ relaid r r'.
Proof. intros Hn. apply next_inert. apply name_inert. exact Hn. Qed.
Lemma inert_sprout c r : inert c -> sprout (c :: r).
Proof. intros (H1 & _ & _ & H2 & _). exists c, r. auto. Qed.
Lemma name_sprout n : name n -> sprout (chars n).
Proof. intros H. assert (K := name_inert n H). unfold name in H. destruct (chars n) as [|c r]; [contradiction|]. inversion K; subst. apply inert_sprout. assumption. Qed.
Lemma float_next i f r y : int_text i -> fraction_text f \/ exponent_text f -> relaid ((i ++ f) ++ r) y -> exists r', y = (i ++ f) ++ r' /\ relaid r r'.
Proof.
  intros Hi Hf H. rewrite <- app_assoc in H. destruct (next_inert i (int_inert i Hi) _ _ H) as (y1 & -> & H1). destruct Hf as [(ds & -> & Hne & Hd)|Hf].
  - cbn [app] in H1. destruct (next_char _ _ H1 "." (ds ++ r) eq_refl ltac:(out) ltac:(discriminate) ltac:(out) ltac:(out)) as (y2 & -> & H2).
    { intros _ [s E]. destruct ds as [|d ds]; [congruence|]. inversion Hd as [|x l X _]; subst. injection E as -> _. destruct X as [X _]. cbv in X. apply X. reflexivity. }
    destruct (next_inert ds ltac:(eapply Forall_impl; [exact digit_inert|exact Hd]) _ _ H2) as (y3 & -> & H3). exists y3. split; [rewrite <- app_assoc; reflexivity|exact H3].
  - destruct (next_inert f (exponent_inert f Hf) _ _ H1) as (y2 & -> & H2). exists y2. split; [rewrite <- app_assoc; reflexivity|exact H2].
Qed.
Lemma head_same x y : relaid x y -> sprout x -> same_head x y.
Proof.
  induction 1 as [e e' He He'|c t t' Hc Hq H IH|s t t' Hs Hn H IH|s t t' Hs H IH|v v' t t' Hv Hv' H IH|c v v' t t' Hc Hv Hv' H IH|v v' t t' Hv Hv' H IH|c v v' t t' Hc Hv Hv' H IH]; intros Hx.
  - exfalso. exact (trailing_solid _ He (sprout_solid _ Hx)).
  - eexists _, _, _. split; reflexivity.
  - eexists _, _, _. split; reflexivity.
  - eexists _, _, _. split; reflexivity.
  - exfalso. destruct Hx as (d & s & E & Hd & _). destruct v as [|z v]; [exact (proj2 Hv eq_refl)|]. injection E as -> E. exact (Hd (blanks_first _ _ _ (proj1 Hv) eq_refl)).
  - eexists _, _, _. split; reflexivity.
  - eexists _, _, _. split; reflexivity.
  - exfalso. destruct Hx as (d & s & E & Hd & Hcl). destruct v as [|z v]; injection E as -> E; [exact (Hcl Hc)|exact (Hd (blanks_first _ _ _ Hv eq_refl))].
Qed.
(** A character that begins a bracket, and one that ends it. *)
Lemma next_open c t y : relaid (c :: t) y -> same_head (c :: t) y -> In c opening -> exists t', y = c :: t' /\ loose t t'.
Proof.
  intros H (d & s & s' & E & ->) Hc. injection E as <- <-. exists s'. split; [reflexivity|].
  apply (next_loose _ _ H c t s' eq_refl eq_refl); unfold opening in Hc; cbn in Hc; repeat (destruct Hc as [<-|Hc]; [first [out|discriminate]|]); contradiction.
Qed.
Lemma next_close c t y : relaid (c :: t) y -> same_head (c :: t) y -> In c closing_ -> exists t', y = c :: t' /\ loose t t' /\ (~ In c opening -> relaid t t').
Proof.
  intros H (d & s & s' & E & ->) Hc. injection E as <- <-. exists s'. split; [reflexivity|].
  apply (next_loose _ _ H c t s' eq_refl eq_refl); unfold closing_ in Hc; cbn in Hc; repeat (destruct Hc as [<-|Hc]; [first [out|discriminate]|]); contradiction.
Qed.
Lemma closing_solid c r : In c closing_ -> solid (c :: r).
Proof. intros Hc. apply solid_cons. unfold closing_ in Hc. cbn in Hc. repeat (destruct Hc as [<-|Hc]; [out|]). contradiction. Qed.
(** Ignorable text and a character that may have some before it. *)
Lemma gap_close w c t y : relaid (w ++ c :: t) y -> blanks w -> In c closing_ -> exists w' t', y = w' ++ c :: t' /\ blanks w' /\ loose t t' /\ (~ In c opening -> relaid t t').
Proof.
  intros H Hw Hc. destruct (relaid_gap _ _ H w (c :: t) eq_refl Hw (closing_solid c t Hc)) as (w' & r' & -> & Hw' & Hr & Hh & _). destruct (next_close c t r' Hr Hh Hc) as (t' & -> & K). exists w', t'. auto.
Qed.
Lemma loose_close w c t y : loose (w ++ c :: t) y -> blanks w -> In c closing_ -> exists w' t', y = w' ++ c :: t' /\ blanks w' /\ loose t t' /\ (~ In c opening -> relaid t t').
Proof.
  intros H Hw Hc. destruct (loose_gap _ _ _ H Hw (closing_solid c t Hc)) as (w' & r' & -> & Hw' & Hr & Hh). destruct (next_close c t r' Hr Hh Hc) as (t' & -> & K). exists w', t'. auto.
Qed.
Lemma gap_some w r y : relaid (w ++ r) y -> some_blanks w -> sprout r -> exists w' r', y = w' ++ r' /\ some_blanks w' /\ relaid r r' /\ same_head r r'.
Proof.
  intros H [Hw Hn] Hr. destruct (relaid_gap _ _ H w r eq_refl Hw (sprout_solid r Hr)) as (w' & r' & -> & Hw' & K & Hh & Hne). exists w', r'. split; [reflexivity|]. split; [split; [exact Hw'|exact (Hne Hn Hr)]|]. auto.
Qed.
Lemma blanks_calm w r : blanks w -> calm r -> calm (w ++ r).
Proof.
  intros Hw Hr. destruct w as [|c w]; [exact Hr|]. apply calm_cons. intros ->. assert (X := blanks_first _ _ _ Hw eq_refl). revert X. out.
Qed.
Lemma some_calm w r : some_blanks w -> calm (w ++ r).
Proof. intros [Hw Hn]. destruct w as [|c w]; [congruence|]. apply calm_cons. intros ->. assert (X := blanks_first _ _ _ Hw eq_refl). revert X. out. Qed.

(** * Everything else *)
Section Moves.
  Variables (L L' : nat -> schema_location) (atof : string -> spec_float).
  (** However the text is laid out, it spells the same thing. *)
  Definition moves {A B} (g : A -> B) (P P' : nat -> A -> text -> Prop) (u : text) : Prop :=
    forall o x, P o x u -> forall r y, relaid (u ++ r) y -> same_head (u ++ r) y -> calm r ->
    forall o', exists u' x' r', y = u' ++ r' /\ P' o' x' u' /\ relaid r r' /\ g x' = g x.

  Lemma items_relaid {A B} (g : A -> B) (P P' : nat -> A -> text -> Prop) (sep : text -> Prop) :
    (forall w r y, relaid (w ++ r) y -> sep w -> sprout r -> exists w' r', y = w' ++ r' /\ sep w' /\ relaid r r' /\ same_head r r') ->
    (forall o x t w r, P o x t -> sep w -> calm (w ++ t ++ r)) -> (forall o x t, P o x t -> sprout t) ->
    forall o xs t, items sep P o xs t -> (forall t', length t' <= length t -> moves g P P' t') ->
    forall r y, relaid (t ++ r) y -> same_head (t ++ r) y -> calm r -> forall o', exists t' xs' r', y = t' ++ r' /\ items sep P' o' xs' t' /\ relaid r r' /\ map g xs' = map g xs.
  Proof.
    intros Hsep Hcalm Hsp. induction 1 as [o x t Hx|o x t w xs t2 Hx Hw Hi IH]; intros H r y Hy Hh Hr o'.
    - destruct (H t (le_n _) o x Hx r y Hy Hh Hr o') as (u' & x' & r' & -> & Hx' & Hr' & E). exists u', [x'], r'. split; [reflexivity|]. split; [constructor; exact Hx'|]. split; [exact Hr'|]. cbn [map]. rewrite E. reflexivity.
    - rewrite <- !app_assoc in *. assert (Ht2 : sprout (t2 ++ r)) by (apply sprout_app; destruct Hi; [eapply Hsp; eassumption|apply sprout_app; eapply Hsp; eassumption]).
      assert (Hc : calm (w ++ t2 ++ r)) by (destruct Hi; [eapply Hcalm; eassumption|rewrite <- app_assoc; eapply Hcalm; eassumption]).
      destruct (H t ltac:(rewrite app_length; lia) o x Hx _ y Hy Hh Hc o') as (u' & x' & y1 & -> & Hx' & Hy1 & E).
      destruct (Hsep w _ _ Hy1 Hw Ht2) as (w' & y2 & -> & Hw' & Hy2 & Hh2).
      destruct (IH ltac:(intros t0 Ht0; apply H; rewrite !app_length; lia) r y2 Hy2 Hh2 Hr (o' + length u' + length w')) as (t' & xs' & r' & -> & Hxs & Hr' & Es).
      exists (u' ++ w' ++ t'), (x' :: xs'), r'. split; [rewrite <- !app_assoc; reflexivity|]. split; [constructor; assumption|]. split; [exact Hr'|]. cbn [map]. rewrite E, Es. reflexivity.
  Qed.
  Lemma items_sprout {A} sep (P : nat -> A -> text -> Prop) : (forall o x t, P o x t -> sprout t) -> forall o xs t, items sep P o xs t -> sprout t.
  Proof. intros H o xs t [o0 x u Hx|o0 x u w xs' u' Hx _ _]; [exact (H _ _ _ Hx)|apply sprout_app; exact (H _ _ _ Hx)]. Qed.
  Lemma some_items {A B} (g : A -> B) (P P' : nat -> A -> text -> Prop) : (forall o x t, P o x t -> sprout t) ->
    forall o xs t, items some_blanks P o xs t -> (forall t', length t' <= length t -> moves g P P' t') ->
    forall r y, relaid (t ++ r) y -> same_head (t ++ r) y -> calm r -> forall o', exists t' xs' r', y = t' ++ r' /\ items some_blanks P' o' xs' t' /\ relaid r r' /\ map g xs' = map g xs.
  Proof. intros Hsp. apply items_relaid; [exact gap_some|intros o x t w r _ Hw; apply some_calm; exact Hw|exact Hsp]. Qed.
  Lemma bracketed_relaid {A B} (g : A -> B) (l r : ascii) (P P' : nat -> A -> text -> Prop) o xs t : In l opening -> In r closing_ -> ~ In r opening -> (forall o x t, P o x t -> sprout t) ->
    bracketed l r P o xs t -> (forall t', length t' < length t -> moves g P P' t') ->
    forall s y, relaid (t ++ s) y -> same_head (t ++ s) y -> forall o', exists t' xs' s', y = t' ++ s' /\ bracketed l r P' o' xs' t' /\ relaid s s' /\ map g xs' = map g xs.
  Proof.
    intros Hl Hr Hrn Hsp Hb. destruct Hb as [o w1 xs t w2 H1 Hi H2]. intros H s y Hy Hh o'.
    assert (E : (l :: w1 ++ t ++ w2 ++ [r]) ++ s = l :: w1 ++ t ++ w2 ++ r :: s) by (cbn [app]; rewrite <- !app_assoc; reflexivity). rewrite E in *. clear E.
    destruct (next_open l _ y Hy Hh Hl) as (y1 & -> & Hy1). assert (Ht : sprout (t ++ w2 ++ r :: s)) by (apply sprout_app; exact (items_sprout _ _ Hsp _ _ _ Hi)).
    destruct (loose_gap w1 _ y1 Hy1 H1 (sprout_solid _ Ht)) as (w1' & y2 & -> & Hw1 & Hy2 & Hh2).
    assert (Hc : calm (w2 ++ r :: s)) by (apply blanks_calm; [exact H2|]; apply calm_cons; intros ->; revert Hr; out).
    destruct (some_items g P P' Hsp _ _ _ Hi ltac:(intros t' Ht'; apply H; cbn [length]; rewrite !app_length; cbn [length]; lia) _ y2 Hy2 Hh2 Hc (o' + 1 + length w1')) as (t' & xs' & y3 & -> & Hxs & Hy3 & Ex).
    destruct (gap_close w2 r s y3 Hy3 H2 Hr) as (w2' & s' & -> & Hw2 & _ & Hs). exists (l :: w1' ++ t' ++ w2' ++ [r]), xs', s'.
    split; [cbn [app]; rewrite <- !app_assoc; reflexivity|]. split; [constructor; assumption|]. split; [exact (Hs Hrn)|exact Ex].
  Qed.
  (** What was said about a text that begins with ignorable text holds before and after an opening character. *)
  Definition gapped (R : text -> text -> Prop) : Prop :=
    (forall w r y, R (w ++ r) y -> blanks w -> solid r -> exists w' r', y = w' ++ r' /\ blanks w' /\ relaid r r' /\ same_head r r') /\ (forall r y, relaid r y -> R r y).
  Lemma relaid_gapped : gapped relaid.
  Proof. split; [|auto]. intros w r y H Hw Hr. destruct (relaid_gap _ _ H w r eq_refl Hw Hr) as (w' & r' & E & H1 & H2 & H3 & _). exists w', r'. auto. Qed.
  Lemma loose_gapped : gapped loose.
  Proof. split; [exact loose_gap|exact relaid_loose]. Qed.
  Lemma optional_relaid {A B} (g : A -> B) (P P' : nat -> list A -> text -> Prop) R : gapped R -> forall o xs t, optional P o xs t -> (forall o xs u, P o xs u -> solid u) ->
    (forall t', length t' <= length t -> moves (map g) P P' t') -> forall r y, R (t ++ r) y -> calm r ->
    forall o', exists t' xs' r', y = t' ++ r' /\ optional P' o' xs' t' /\ R r r' /\ map g xs' = map g xs.
  Proof.
    intros [G1 G2] o xs t [|o0 w ys u Hw Hp] Hs H r y Hy Hr o'; [exists [], [], y; split; [reflexivity|]; split; [constructor|]; split; [exact Hy|reflexivity]|].
    rewrite <- app_assoc in Hy. destruct (G1 w (u ++ r) y Hy Hw (solid_app _ _ (Hs _ _ _ Hp))) as (w' & y1 & -> & Hw' & Hy1 & Hh1).
    destruct (H u ltac:(rewrite app_length; lia) _ _ Hp r y1 Hy1 Hh1 Hr (o' + length w')) as (u' & xs' & r' & -> & Hxs & Hr' & E). exists (w' ++ u'), xs', r'.
    split; [apply app_assoc|]. split; [constructor; assumption|]. split; [apply G2; exact Hr'|exact E].
  Qed.

  Definition Gl := strip_lit same.
  Definition Gf (a : schema_location * (string * lit)) := (nowhere, (fst (snd a), Gl (snd (snd a)))).
  Lemma named_sprout P o x t : named L P o x t -> sprout t.
  Proof. intros [o0 n w1 w2 v u Hn _ _ _]. apply sprout_app. apply name_sprout. exact Hn. Qed.
  Lemma bracketed_first {A} l r (P : nat -> A -> text -> Prop) o xs t : bracketed l r P o xs t -> exists s, t = l :: s.
  Proof. intros [o0 w1 xs0 u w2 _ _ _]. eexists. reflexivity. Qed.
  Ltac sprout1 := eexists _, _; (split; [reflexivity|]); split; out.
  Lemma value_sprout o v t : value L atof o v t -> sprout t.
  Proof.
    intros Hv. assert (I : forall t, t <> [] -> Forall inert t -> sprout t) by (intros u Hu Hf; destruct Hf as [|c u Hc _]; [congruence|apply inert_sprout; exact Hc]).
    assert (J : forall t, int_text t -> sprout t).
    { intros u Hu. apply I; [|apply int_inert; exact Hu]. destruct Hu as (sign & ds & -> & _ & Hd). destruct sign; [|discriminate]. destruct Hd as [->|(d & r & -> & _)]; discriminate. }
    destruct Hv as [o n Hn|o t Ht|o i f Hi Hf|o t d Ht|o t Ht|o|o|o|o n Hn Hne|o w Hw|o vs t Hb|o w Hw|o fs t Hb]; try sprout1.
    - exact (J t Ht).
    - apply sprout_app. exact (J i Hi).
    - apply name_sprout. exact Hn.
    - destruct (bracketed_first _ _ _ _ _ _ Hb) as [s ->]. sprout1.
    - destruct (bracketed_first _ _ _ _ _ _ Hb) as [s ->]. sprout1.
  Qed.
  Lemma value_sprout' o v t : value L atof o v t -> sprout t.
  Proof. exact (value_sprout o v t). Qed.
  Lemma named_relaid (P P' : nat -> lit -> text -> Prop) t : (forall o x t, P o x t -> sprout t) -> (forall t', length t' < length t -> moves Gl P P' t') -> moves Gf (named L P) (named L' P') t.
  Proof.
    intros Hsp H o x Hn r y Hy Hh Hr o'. destruct Hn as [o n w1 w2 v t Hn H1 H2 Hv]. rewrite <- !app_assoc in Hy. cbn [app] in Hy. rewrite <- app_assoc in Hy.
    destruct (name_next n _ y Hn Hy) as (y1 & -> & Hy1). destruct (gap_close w1 ":" _ y1 Hy1 H1 ltac:(cbn; auto 9)) as (w1' & y2 & -> & Hw1 & Hy2 & _).
    destruct (loose_gap w2 _ y2 Hy2 H2 (sprout_solid _ (sprout_app _ _ (Hsp _ _ _ Hv)))) as (w2' & y3 & -> & Hw2 & Hy3 & Hh3).
    destruct (H t ltac:(rewrite !app_length; cbn [length]; rewrite app_length; lia) _ _ Hv r y3 Hy3 Hh3 Hr (o' + length (chars n) + length w1' + 1 + length w2')) as (u' & v' & r' & -> & Hv' & Hr' & E).
    exists (chars n ++ w1' ++ ":" :: w2' ++ u'), (L' o', (n, v')), r'. split; [rewrite <- !app_assoc; cbn [app]; rewrite <- app_assoc; reflexivity|]. split; [constructor; assumption|]. split; [exact Hr'|].
    unfold Gf. cbn [fst snd]. rewrite E. reflexivity.
  Qed.
  Lemma value_relaid_at N : forall t, length t < N -> moves Gl (value L atof) (value L' atof) t.
  Proof.
    induction N as [|N IH]; intros t Hl o v Hv r y Hy Hh Hr o'; [lia|].
    assert (Dollar : inert "$") by inert1.
    inversion Hv as [o0 n Hn|o0 t0 Ht|o0 i f Hi Hf|o0 t0 d Ht|o0 t0 Ht|o0|o0|o0|o0 n Hn Hne|o0 w Hw|o0 vs t0 Hb|o0 w Hw|o0 fs t0 Hb]; subst.
    - destruct (next_inert ("$" :: chars n) (Forall_cons _ Dollar (name_inert n Hn)) r y Hy) as (r' & -> & Hr'). exists ("$" :: chars n), (LVar (L' o') n), r'.
      split; [reflexivity|]. split; [constructor; exact Hn|]. split; [exact Hr'|reflexivity].
    - destruct (next_inert t (int_inert t Ht) r y Hy) as (r' & -> & Hr'). exists t, (LInt (L' o') (number t)), r'. split; [reflexivity|]. split; [constructor; exact Ht|]. split; [exact Hr'|reflexivity].
    - destruct (float_next i f r y Hi Hf Hy) as (r' & -> & Hr'). exists (i ++ f), (LFloat (L' o') (atof (str (i ++ f)))), r'. split; [reflexivity|]. split; [constructor; assumption|]. split; [exact Hr'|reflexivity].
    - assert (E : ("""" :: t0 ++ [""""]) ++ r = quote :: t0 ++ quote :: r) by (cbn [app]; rewrite <- app_assoc; reflexivity).
      destruct (next_string _ _ Hy t0 r E (quoted_bytes _ _ _ Ht) Hr) as (r' & -> & Hr'). exists ("""" :: t0 ++ [""""]), (LString (L' o') (str d)), r'.
      split; [cbn [app]; rewrite <- app_assoc; reflexivity|]. split; [apply value_string; exact Ht|]. split; [exact Hr'|reflexivity].
    - assert (E : (q3 ++ t0 ++ q3) ++ r = q3 ++ t0 ++ q3 ++ r) by (rewrite <- !app_assoc; reflexivity).
      destruct (next_block _ _ Hy t0 r E (block_chars_bytes _ Ht)) as (r' & -> & Hr'). exists (q3 ++ t0 ++ q3), (LString (L' o') (str t0)), r'.
      split; [rewrite <- !app_assoc; reflexivity|]. split; [apply value_block; exact Ht|]. split; [exact Hr'|reflexivity].
    - destruct (next_inert (chars "true") ltac:(cbn; repeat (constructor; [inert1|]); constructor) r y Hy) as (r' & -> & Hr'). exists (chars "true"), (LBool (L' o') true), r'.
      split; [reflexivity|]. split; [constructor|]. split; [exact Hr'|reflexivity].
    - destruct (next_inert (chars "false") ltac:(cbn; repeat (constructor; [inert1|]); constructor) r y Hy) as (r' & -> & Hr'). exists (chars "false"), (LBool (L' o') false), r'.
      split; [reflexivity|]. split; [constructor|]. split; [exact Hr'|reflexivity].
    - destruct (next_inert (chars "null") ltac:(cbn; repeat (constructor; [inert1|]); constructor) r y Hy) as (r' & -> & Hr'). exists (chars "null"), (LNull (L' o')), r'.
      split; [reflexivity|]. split; [constructor|]. split; [exact Hr'|reflexivity].
    - destruct (name_next n r y Hn Hy) as (r' & -> & Hr'). exists (chars n), (LEnum (L' o') n), r'. split; [reflexivity|]. split; [constructor; assumption|]. split; [exact Hr'|reflexivity].
    - cbn [app] in Hy, Hh. rewrite <- app_assoc in Hy, Hh. destruct (next_open "[" _ y Hy Hh ltac:(cbn; auto 9)) as (y1 & -> & Hy1).
      destruct (loose_close w "]" r y1 Hy1 Hw ltac:(cbn; auto 9)) as (w' & r' & -> & Hw' & _ & Hr'). exists ("[" :: w' ++ ["]"]), (LList (L' o') []), r'.
      split; [cbn [app]; rewrite <- app_assoc; reflexivity|]. split; [constructor; exact Hw'|]. split; [apply Hr'; out|reflexivity].
    - destruct (bracketed_relaid Gl "[" "]" (value L atof) (value L' atof) _ _ _ ltac:(cbn; auto 9) ltac:(cbn; auto 9) ltac:(out) value_sprout Hb) with (s := r) (y := y) (o' := o') as (t' & vs' & r' & -> & Hv' & Hr' & E); [|exact Hy|exact Hh|].
      { intros t' Ht'. apply IH. lia. }
      exists t', (LList (L' o') vs'), r'. split; [reflexivity|]. split; [constructor; exact Hv'|]. split; [exact Hr'|]. unfold Gl in *. cbn [strip_lit]. rewrite E. reflexivity.
    - cbn [app] in Hy, Hh. rewrite <- app_assoc in Hy, Hh. destruct (next_open "{" _ y Hy Hh ltac:(cbn; auto 9)) as (y1 & -> & Hy1).
      destruct (loose_close w "}" r y1 Hy1 Hw ltac:(cbn; auto 9)) as (w' & r' & -> & Hw' & _ & Hr'). exists ("{" :: w' ++ ["}"]), (LObject (L' o') []), r'.
      split; [cbn [app]; rewrite <- app_assoc; reflexivity|]. split; [constructor; exact Hw'|]. split; [apply Hr'; out|reflexivity].
    - destruct (bracketed_relaid Gf "{" "}" (named L (value L atof)) (named L' (value L' atof)) _ _ _ ltac:(cbn; auto 9) ltac:(cbn; auto 9) ltac:(out) (named_sprout _) Hb) with (s := r) (y := y) (o' := o') as (t' & fs' & r' & -> & Hv' & Hr' & E); [|exact Hy|exact Hh|].
      { intros t' Ht'. apply named_relaid; [exact value_sprout|]. intros t2 Ht2. apply IH. lia. }
      exists t', (LObject (L' o') fs'), r'. split; [reflexivity|]. split; [constructor; exact Hv'|]. split; [exact Hr'|]. unfold Gl, Gf in *. cbn [strip_lit]. f_equal. exact E.
  Qed.
  Lemma value_relaid t : moves Gl (value L atof) (value L' atof) t.
  Proof. apply (value_relaid_at (Datatypes.S (length t))). lia. Qed.
  Lemma named_value_relaid t : moves Gf (named L (value L atof)) (named L' (value L' atof)) t.
  Proof. apply named_relaid; [exact value_sprout|]. intros t' _. apply value_relaid. Qed.
  Lemma type_sprout ty t : type_ref ty t -> sprout t.
  Proof. induction 1 as [n Hn|w1 ty x w2 H1 Ht IH H2|ty x w Ht IH Hn Hw]; [apply name_sprout; exact Hn|sprout1|apply sprout_app; exact IH]. Qed.
  Lemma type_relaid ty t : type_ref ty t -> forall r y, relaid (t ++ r) y -> exists t' r', y = t' ++ r' /\ type_ref ty t' /\ relaid r r'.
  Proof.
    induction 1 as [n Hn|w1 ty x w2 H1 Ht IH H2|ty x w Ht IH Hn Hw]; intros r y Hy.
    - destruct (name_next n r y Hn Hy) as (r' & -> & Hr'). exists (chars n), r'. split; [reflexivity|]. split; [constructor; exact Hn|exact Hr'].
    - cbn [app] in Hy. rewrite <- !app_assoc in Hy. cbn [app] in Hy. destruct (next_open "[" _ y Hy (head_same _ _ Hy ltac:(sprout1)) ltac:(cbn; auto 9)) as (y1 & -> & Hy1).
      destruct (loose_gap w1 _ y1 Hy1 H1 (sprout_solid _ (sprout_app _ _ (type_sprout _ _ Ht)))) as (w1' & y2 & -> & Hw1 & Hy2 & _).
      destruct (IH _ _ Hy2) as (x' & y3 & -> & Hx & Hy3). destruct (gap_close w2 "]" r y3 Hy3 H2 ltac:(cbn; auto 9)) as (w2' & r' & -> & Hw2 & _ & Hr). exists ("[" :: w1' ++ x' ++ w2' ++ ["]"]), r'.
      split; [cbn [app]; rewrite <- !app_assoc; reflexivity|]. split; [constructor; assumption|apply Hr; out].
    - rewrite <- !app_assoc in Hy. cbn [app] in Hy. destruct (IH _ _ Hy) as (x' & y1 & -> & Hx & Hy1). destruct (gap_close w "!" r y1 Hy1 Hw ltac:(cbn; auto 8)) as (w' & r' & -> & Hw' & _ & Hr).
      exists (x' ++ w' ++ ["!"]), r'. split; [rewrite <- !app_assoc; reflexivity|]. split; [constructor; assumption|apply Hr; out].
  Qed.
  Lemma arguments_relaid t : moves (map Gf) (arguments L atof) (arguments L' atof) t.
  Proof.
    intros o xs H r y Hy Hh Hr o'. unfold arguments in *. apply (bracketed_relaid Gf "(" ")" _ _ _ _ _ ltac:(cbn; auto 9) ltac:(cbn; auto 9) ltac:(out) (named_sprout _) H); [|exact Hy|exact Hh].
    intros t' _. apply named_value_relaid.
  Qed.
  Lemma arguments_solid o xs t : arguments L atof o xs t -> solid t.
  Proof. intros H. destruct (bracketed_first _ _ _ _ _ _ H) as [s ->]. apply solid_cons. out. Qed.
  Lemma opt_arguments_relaid R o xs t : gapped R -> optional (arguments L atof) o xs t -> forall r y, R (t ++ r) y -> calm r ->
    forall o', exists t' xs' r', y = t' ++ r' /\ optional (arguments L' atof) o' xs' t' /\ R r r' /\ strip_args same xs' = strip_args same xs.
  Proof. intros G H. exact (optional_relaid Gf _ _ R G _ _ _ H arguments_solid (fun t' _ => arguments_relaid t')). Qed.
  Definition Gd := strip_dir same.
  Lemma directive_sprout o x t : directive_use L atof o x t -> sprout t.
  Proof. intros [o0 n a u Hn _]. sprout1. Qed.
  Lemma directive_relaid t : moves Gd (directive_use L atof) (directive_use L' atof) t.
  Proof.
    intros o x H r y Hy Hh Hr o'. destruct H as [o n a t Hn Ha]. assert (At : inert "@") by inert1.
    change (("@" :: chars n ++ t) ++ r) with (("@" :: chars n ++ t) ++ r) in Hy. cbn [app] in Hy. rewrite <- app_assoc in Hy.
    destruct (next_inert ("@" :: chars n) (Forall_cons _ At (name_inert n Hn)) (t ++ r) y Hy) as (y1 & -> & Hy1).
    destruct (opt_arguments_relaid relaid _ _ _ relaid_gapped Ha r y1 Hy1 Hr (o' + 1 + length (chars n))) as (t' & a' & r' & -> & Ha' & Hr' & E).
    exists ("@" :: chars n ++ t'), (mkDir (L' o') n a'), r'. split; [cbn [app]; rewrite <- app_assoc; reflexivity|]. split; [constructor; assumption|]. split; [exact Hr'|].
    unfold Gd, strip_dir. cbn [d_name d_args]. rewrite E. reflexivity.
  Qed.
  Lemma directives_relaid t : moves (map Gd) (directives L atof) (directives L' atof) t.
  Proof. intros o xs H r y Hy Hh Hr o'. apply (some_items Gd _ _ directive_sprout _ _ _ H); [intros t' _; apply directive_relaid|exact Hy|exact Hh|exact Hr]. Qed.
  Lemma directives_solid o xs t : directives L atof o xs t -> solid t.
  Proof. intros H. apply sprout_solid. exact (items_sprout _ _ directive_sprout _ _ _ H). Qed.
  Lemma opt_directives_relaid R o xs t : gapped R -> optional (directives L atof) o xs t -> forall r y, R (t ++ r) y -> calm r ->
    forall o', exists t' xs' r', y = t' ++ r' /\ optional (directives L' atof) o' xs' t' /\ R r r' /\ strip_dirs same xs' = strip_dirs same xs.
  Proof. intros G H. exact (optional_relaid Gd _ _ R G _ _ _ H directives_solid (fun t' _ => directives_relaid t')). Qed.
  Lemma on_inert : Forall inert (chars "on").
  Proof. cbn. repeat (constructor; [inert1|]). constructor. Qed.
  Lemma condition_relaid o c t : condition L o c t -> forall r y, relaid (t ++ r) y -> forall o', exists t' r', y = t' ++ r' /\ condition L' o' (L' o', snd c) t' /\ relaid r r'.
  Proof.
    intros [o0 w n Hw Hn] r y Hy o'. rewrite <- !app_assoc in Hy. destruct (next_inert _ on_inert _ _ Hy) as (y1 & -> & Hy1).
    destruct (gap_some w _ y1 Hy1 Hw (sprout_app _ _ (name_sprout n Hn))) as (w' & y2 & -> & Hw' & Hy2 & _). destruct (name_next n r y2 Hn Hy2) as (r' & -> & Hr').
    exists (chars "on" ++ w' ++ chars n), r'. split; [rewrite <- !app_assoc; reflexivity|]. split; [constructor; assumption|exact Hr'].
  Qed.
  Lemma alias_relaid al t : alias al t -> forall r y, relaid (t ++ r) y -> solid r -> exists t' r', y = t' ++ r' /\ alias al t' /\ relaid r r'.
  Proof.
    intros [|n w1 w2 Hn H1 H2] r y Hy Hr; [exists [], y; split; [reflexivity|]; split; [constructor|exact Hy]|]. rewrite <- !app_assoc in Hy. cbn [app] in Hy.
    destruct (name_next n _ y Hn Hy) as (y1 & -> & Hy1). destruct (gap_close w1 ":" _ y1 Hy1 H1 ltac:(cbn; auto 9)) as (w1' & y2 & -> & Hw1 & Hy2 & _).
    destruct (loose_gap w2 r y2 Hy2 H2 Hr) as (w2' & r' & -> & Hw2 & Hr' & _). exists (chars n ++ w1' ++ ":" :: w2'), r'. split; [rewrite <- !app_assoc; reflexivity|]. split; [constructor; assumption|exact Hr'].
  Qed.
  Lemma on_type_relaid R o c t : gapped R -> on_type L o c t -> forall r y, R (t ++ r) y -> forall o', exists t' c' r', y = t' ++ r' /\ on_type L' o' c' t' /\ R r r' /\ strip_cond c' = strip_cond c.
  Proof.
    intros [G1 G2] [o0|o0 w x u Hw Hc] r y Hy o'; [exists [], None, y; split; [reflexivity|]; split; [constructor|]; split; [exact Hy|reflexivity]|].
    rewrite <- app_assoc in Hy. destruct (G1 w (u ++ r) y Hy Hw) as (w' & y1 & -> & Hw' & Hy1 & _); [apply solid_app; destruct Hc; apply solid_cons; out|].
    destruct (condition_relaid _ _ _ Hc r y1 Hy1 (o' + length w')) as (t' & r' & -> & Hc' & Hr'). exists (w' ++ t'), (Some (L' (o' + length w'), snd x)), r'. split; [apply app_assoc|].
    split; [constructor; assumption|]. split; [apply G2; exact Hr'|]. destruct x; reflexivity.
  Qed.
  Definition Gs := strip_sel same.
  Definition strip_sub (s : option (schema_location * list selection)) := match s with Some (_, ss) => Some (nowhere, map Gs ss) | None => None end.
  Lemma selects_sprout o x t : selects L atof o x t -> sprout t.
  Proof.
    intros [o0 al ta n args targs dirs tdirs sub tsub Hal Hn Ha Hd Hsub|o0 w n dirs tdirs Hw Hn Hon Hd|o0 c tc dirs tdirs w ss u Hc Hd Hw Hb]; [|sprout1|sprout1].
    destruct Hal as [|m w1 w2 Hm _ _]; [apply (sprout_app (chars n)); apply name_sprout; exact Hn|]. rewrite <- app_assoc. apply sprout_app. apply name_sprout. exact Hm.
  Qed.
  Lemma subfields_relaid (P P' : nat -> selection -> text -> Prop) o s t : (forall o x t, P o x t -> sprout t) -> subfields L P o s t -> (forall t', length t' < length t -> moves Gs P P' t') ->
    forall r y, relaid (t ++ r) y -> forall o', exists t' s' r', y = t' ++ r' /\ subfields L' P' o' s' t' /\ relaid r r' /\ strip_sub s' = strip_sub s.
  Proof.
    intros Hsp [o0|o0 w ss u Hw Hb] H r y Hy o'; [exists [], None, y; split; [reflexivity|]; split; [constructor|]; split; [exact Hy|reflexivity]|].
    rewrite <- app_assoc in Hy. assert (Hu : solid (u ++ r)) by (destruct (bracketed_first _ _ _ _ _ _ Hb) as [q ->]; apply solid_cons; out).
    destruct (relaid_gap _ _ Hy w (u ++ r) eq_refl Hw Hu) as (w' & y1 & -> & Hw' & Hy1 & Hh1 & _).
    destruct (bracketed_relaid Gs "{" "}" P P' _ _ _ ltac:(cbn; auto 9) ltac:(cbn; auto 9) ltac:(out) Hsp Hb ltac:(intros t' Ht'; apply H; rewrite app_length; lia) r y1 Hy1 Hh1 (o' + length w')) as (t' & ss' & r' & -> & Hss & Hr' & E).
    exists (w' ++ t'), (Some (L' (o' + length w'), ss')), r'. split; [apply app_assoc|]. split; [constructor; assumption|]. split; [exact Hr'|]. cbn [strip_sub]. rewrite E. reflexivity.
  Qed.
  Lemma name_length n : name n -> 0 < length (chars n).
  Proof. unfold name. destruct (chars n); [contradiction|]. cbn [length]. lia. Qed.
  Lemma optional_calm {A} (P : nat -> list A -> text -> Prop) o xs t r : (forall o xs u, P o xs u -> calm (u ++ r)) -> optional P o xs t -> calm r -> calm (t ++ r).
  Proof. intros H [|o0 w ys u Hw Hp] Hr; [exact Hr|]. rewrite <- app_assoc. apply blanks_calm; [exact Hw|]. exact (H _ _ _ Hp). Qed.
  Lemma directives_calm o xs u r : directives L atof o xs u -> calm (u ++ r).
  Proof. intros [o0 x t [o1 n a t1 _ _]|o0 x t w xs0 t2 [o1 n a t1 _ _] _ _]; apply calm_cons; discriminate. Qed.
  Lemma bracket_calm {A} (P : nat -> A -> text -> Prop) c d o xs u r : c <> quote -> bracketed c d P o xs u -> calm (u ++ r).
  Proof. intros Hc H. destruct (bracketed_first _ _ _ _ _ _ H) as [s ->]. apply calm_cons. exact Hc. Qed.
  Lemma opt_directives_calm o xs t r : optional (directives L atof) o xs t -> calm r -> calm (t ++ r).
  Proof. apply optional_calm. intros. eapply directives_calm. eassumption. Qed.
  Lemma subfields_calm P o s t r : subfields L P o s t -> calm r -> calm (t ++ r).
  Proof. intros [o0|o0 w ss u Hw Hb] Hr; [exact Hr|]. rewrite <- app_assoc. apply blanks_calm; [exact Hw|]. apply (bracket_calm _ "{" "}" _ _ _ _ ltac:(discriminate) Hb). Qed.
  Lemma selects_relaid_at N : forall t, length t < N -> moves Gs (selects L atof) (selects L' atof) t.
  Proof.
    induction N as [|N IH]; intros t Hl o s Hs r y Hy Hh Hr o'; [lia|].
    inversion Hs as [o0 al ta n args targs dirs tdirs sub tsub Hal Hn Ha Hd Hsub|o0 w n dirs tdirs Hw Hn Hon Hd|o0 c tc dirs tdirs w ss u Hc Hd Hw Hb]; subst.
    - rewrite <- !app_assoc in Hy. assert (C2 : calm (tsub ++ r)) by (eapply subfields_calm; eassumption). assert (C1 : calm (tdirs ++ tsub ++ r)) by (eapply opt_directives_calm; eassumption).
      destruct (alias_relaid _ _ Hal _ y Hy (solid_app _ _ (sprout_solid _ (name_sprout n Hn)))) as (ta' & y1 & -> & Hal' & Hy1). destruct (name_next n _ y1 Hn Hy1) as (y2 & -> & Hy2).
      destruct (opt_arguments_relaid relaid _ _ _ relaid_gapped Ha _ y2 Hy2 C1 (o' + length ta' + length (chars n))) as (targs' & args' & y3 & -> & Ha' & Hy3 & Ea).
      destruct (opt_directives_relaid relaid _ _ _ relaid_gapped Hd _ y3 Hy3 C2 (o' + length ta' + length (chars n) + length targs')) as (tdirs' & dirs' & y4 & -> & Hd' & Hy4 & Ed).
      destruct (subfields_relaid _ (selects L' atof) _ _ _ selects_sprout Hsub) with (r := r) (y := y4) (o' := o' + length ta' + length (chars n) + length targs' + length tdirs') as (tsub' & sub' & r' & -> & Hs' & Hr' & Es); [|exact Hy4|].
      { intros t' Ht'. apply IH. rewrite !app_length in Hl. assert (Hx := name_length n Hn). lia. }
      exists (ta' ++ chars n ++ targs' ++ tdirs' ++ tsub'), (SField (L' o') al n args' dirs' sub'), r'. split; [rewrite <- !app_assoc; reflexivity|]. split; [constructor; assumption|]. split; [exact Hr'|].
      unfold Gs in *. cbn [strip_sel]. rewrite Ea, Ed. f_equal. exact Es.
    - rewrite <- !app_assoc in Hy. assert (ND : ~ begins ["."] (w ++ chars n ++ tdirs ++ r)).
      { intros [s E]. destruct w as [|z w]; [|injection E as -> E; assert (X := blanks_first _ _ _ Hw eq_refl); revert X; out]. cbn [app] in E. assert (Hi := name_inert n Hn). unfold name in Hn. destruct (chars n) as [|c q]; [contradiction|].
        injection E as -> E. inversion Hi as [|x l X _]; subst. destruct X as (_ & _ & _ & _ & X). congruence. }
      destruct (next_dots _ y Hy ND) as (y1 & -> & Hy1). destruct (loose_gap w _ y1 Hy1 Hw (solid_app _ _ (sprout_solid _ (name_sprout n Hn)))) as (w' & y2 & -> & Hw' & Hy2 & _).
      destruct (name_next n _ y2 Hn Hy2) as (y3 & -> & Hy3).
      destruct (opt_directives_relaid relaid _ _ _ relaid_gapped Hd _ y3 Hy3 Hr (o' + 3 + length w' + length (chars n))) as (tdirs' & dirs' & r' & -> & Hd' & Hr' & Ed).
      exists (chars "..." ++ w' ++ chars n ++ tdirs'), (SSpread (L' (o' + 3)) n dirs'), r'. split; [rewrite <- !app_assoc; reflexivity|]. split; [constructor; assumption|]. split; [exact Hr'|].
      unfold Gs. cbn [strip_sel]. rewrite Ed. reflexivity.
    - rewrite <- !app_assoc in Hy. assert (ND : ~ begins ["."] (tc ++ tdirs ++ w ++ u ++ r)).
      { assert (Z : forall w x, blanks w -> solid x -> ~ begins ["."] x -> ~ begins ["."] (w ++ x)).
        { clear. intros w x Hw Hx H [s E]. destruct w as [|z w]; [apply H; exists s; exact E|]. injection E as -> E. assert (X := blanks_first _ _ _ Hw eq_refl). revert X. out. }
        assert (U : solid (u ++ r) /\ ~ begins ["."] (u ++ r)) by (destruct (bracketed_first _ _ _ _ _ _ Hb) as [s ->]; split; [apply solid_cons; out|intros [q E]; discriminate E]).
        assert (W : ~ begins ["."] (w ++ u ++ r)) by (apply Z; [exact Hw|apply U|apply U]).
        assert (D : ~ begins ["."] (tdirs ++ w ++ u ++ r)).
        { destruct Hd as [|o1 w1 ys q Hw1 Hp]; [exact W|]. rewrite <- app_assoc. apply Z; [exact Hw1|apply solid_app; exact (directives_solid _ _ _ Hp)|].
          destruct Hp as [o2 x t [o3 m a t1 _ _]|o2 x t w3 xs0 t2 [o3 m a t1 _ _] _ _]; intros [q E]; discriminate E. }
        destruct Hc as [o1|o1 w1 x q Hw1 Hc]; [exact D|]. rewrite <- app_assoc. destruct Hc. apply Z; [exact Hw1|apply solid_cons; out|]. intros [q E]; discriminate E. }
      destruct (next_dots _ y Hy ND) as (y1 & -> & Hy1).
      destruct (on_type_relaid loose _ _ _ loose_gapped Hc _ y1 Hy1 (o' + 3)) as (tc' & c' & y2 & -> & Hc' & Hy2 & Ec).
      assert (C1 : calm (w ++ u ++ r)) by (apply blanks_calm; [exact Hw|]; apply (bracket_calm _ "{" "}" _ _ _ _ ltac:(discriminate) Hb)).
      destruct (opt_directives_relaid loose _ _ _ loose_gapped Hd _ y2 Hy2 C1 (o' + 3 + length tc')) as (tdirs' & dirs' & y3 & -> & Hd' & Hy3 & Ed).
      assert (Hu : solid (u ++ r)) by (destruct (bracketed_first _ _ _ _ _ _ Hb) as [s ->]; apply solid_cons; out).
      destruct (loose_gap w _ y3 Hy3 Hw Hu) as (w' & y4 & -> & Hw' & Hy4 & Hh4).
      destruct (bracketed_relaid Gs "{" "}" _ (selects L' atof) _ _ _ ltac:(cbn; auto 9) ltac:(cbn; auto 9) ltac:(out) selects_sprout Hb) with (s := r) (y := y4) (o' := o' + 3 + length tc' + length tdirs' + length w') as (u' & ss' & r' & -> & Hss & Hr' & Es); [|exact Hy4|exact Hh4|].
      { intros t' Ht'. apply IH. rewrite !app_length in Hl. cbn [length] in Hl. lia. }
      exists (chars "..." ++ tc' ++ tdirs' ++ w' ++ u'), (SInline (L' (o' + 3)) c' dirs' ss'), r'. split; [rewrite <- !app_assoc; reflexivity|]. split; [constructor; assumption|]. split; [exact Hr'|].
      unfold Gs in *. cbn [strip_sel]. rewrite Ec, Ed, Es. reflexivity.
  Qed.
  Lemma selects_relaid t : moves Gs (selects L atof) (selects L' atof) t.
  Proof. apply (selects_relaid_at (Datatypes.S (length t))). lia. Qed.
  (** Ignorable text and a selection set. *)
  Lemma selection_set_relaid o ss t w r y : blanks w -> selection_set L atof o ss t -> relaid (w ++ t ++ r) y ->
    exists w' y1, y = w' ++ y1 /\ blanks w' /\ forall o', exists t' ss' r', y1 = t' ++ r' /\ selection_set L' atof o' ss' t' /\ relaid r r' /\ map Gs ss' = map Gs ss.
  Proof.
    intros Hw Hb Hy. assert (Hu : solid (t ++ r)) by (destruct (bracketed_first _ _ _ _ _ _ Hb) as [s ->]; apply solid_cons; out).
    destruct (relaid_gap _ _ Hy w (t ++ r) eq_refl Hw Hu) as (w' & y1 & -> & Hw' & Hy1 & Hh1 & _). exists w', y1. split; [reflexivity|]. split; [exact Hw'|]. intros o'.
    apply (bracketed_relaid Gs "{" "}" _ (selects L' atof) _ _ _ ltac:(cbn; auto 9) ltac:(cbn; auto 9) ltac:(out) selects_sprout Hb); [intros t' _; apply selects_relaid|exact Hy1|exact Hh1].
  Qed.
  Lemma default_relaid o d l t : default L atof o d l t -> forall r y, relaid (t ++ r) y -> calm r ->
    forall o', exists t' d' l' r', y = t' ++ r' /\ default L' atof o' d' l' t' /\ relaid r r' /\ option_map Gl d' = option_map Gl d.
  Proof.
    intros [o0|o0 w1 w2 v u H1 H2 Hv] r y Hy Hr o'; [exists [], None, (mkLoc 0 1), y; split; [reflexivity|]; split; [constructor|]; split; [exact Hy|reflexivity]|].
    rewrite <- app_assoc in Hy. cbn [app] in Hy. rewrite <- app_assoc in Hy. destruct (gap_close w1 "=" _ y Hy H1 ltac:(cbn; auto 9)) as (w1' & y1 & -> & Hw1 & Hy1 & _).
    destruct (loose_gap w2 _ y1 Hy1 H2 (solid_app _ _ (sprout_solid _ (value_sprout _ _ _ Hv)))) as (w2' & y2 & -> & Hw2 & Hy2 & Hh2).
    destruct (value_relaid _ _ _ Hv r y2 Hy2 Hh2 Hr (o' + length w1' + 1 + length w2')) as (u' & v' & r' & -> & Hv' & Hr' & E). exists (w1' ++ "=" :: w2' ++ u'), (Some v'), (L' (o' + length w1')), r'.
    split; [rewrite <- !app_assoc; cbn [app]; rewrite <- app_assoc; reflexivity|]. split; [constructor; assumption|]. split; [exact Hr'|]. cbn [option_map]. rewrite E. reflexivity.
  Qed.
  Definition Gv := strip_var same.
  Lemma variable_sprout o x t : variable L atof o x t -> sprout t.
  Proof. intros [o0 n w1 w2 ty u d dl td _ _ _ _ _]. sprout1. Qed.
  Lemma variable_relaid t : moves Gv (variable L atof) (variable L' atof) t.
  Proof.
    intros o x H r y Hy Hh Hr o'. destruct H as [o n w1 w2 ty t d dl td Hn H1 H2 Ht Hd]. assert (Dollar : inert "$") by inert1.
    cbn [app] in Hy. rewrite <- !app_assoc in Hy. cbn [app] in Hy. rewrite <- !app_assoc in Hy.
    destruct (next_inert ("$" :: chars n) (Forall_cons _ Dollar (name_inert n Hn)) _ y Hy) as (y1 & -> & Hy1). destruct (gap_close w1 ":" _ y1 Hy1 H1 ltac:(cbn; auto 9)) as (w1' & y2 & -> & Hw1 & Hy2 & _).
    destruct (loose_gap w2 _ y2 Hy2 H2 (solid_app _ _ (sprout_solid _ (type_sprout _ _ Ht)))) as (w2' & y3 & -> & Hw2 & Hy3 & _). destruct (type_relaid ty t Ht _ y3 Hy3) as (t' & y4 & -> & Ht' & Hy4).
    destruct (default_relaid _ _ _ _ Hd r y4 Hy4 Hr (o' + 1 + length (chars n) + length w1' + 1 + length w2' + length t')) as (td' & d' & dl' & r' & -> & Hd' & Hr' & E).
    exists ("$" :: chars n ++ w1' ++ ":" :: w2' ++ t' ++ td'), (mkVar (L' o') n ty (L' (o' + 1 + length (chars n) + length w1' + 1 + length w2')) d' dl'), r'.
    split; [cbn [app]; rewrite <- !app_assoc; cbn [app]; rewrite <- !app_assoc; reflexivity|]. split; [constructor; assumption|]. split; [exact Hr'|]. unfold Gv, strip_var. cbn [v_name v_type v_default]. unfold Gl in E. rewrite E. reflexivity.
  Qed.
  Lemma operation_name_relaid n t : operation_name n t -> forall r y, relaid (t ++ r) y -> exists t' r', y = t' ++ r' /\ operation_name n t' /\ relaid r r'.
  Proof.
    intros [|w m Hw Hm] r y Hy; [exists [], y; split; [reflexivity|]; split; [constructor|exact Hy]|]. rewrite <- app_assoc in Hy.
    destruct (gap_some w _ y Hy Hw (sprout_app _ _ (name_sprout m Hm))) as (w' & y1 & -> & Hw' & Hy1 & _). destruct (name_next m r y1 Hm Hy1) as (r' & -> & Hr'). exists (w' ++ chars m), r'.
    split; [apply app_assoc|]. split; [constructor; assumption|exact Hr'].
  Qed.
  Definition Go := strip_op same.
  Lemma operation_relaid t : moves Go (operation L atof) (operation L' atof) t.
  Proof.
    intros o x H r y Hy Hh Hr o'. destruct H as [o ss t Hs|o k n tn vars tv dirs td w ss t Hk Hn Hv Hd Hw Hs].
    - destruct (selection_set_relaid _ _ _ [] r y blanks_nil Hs Hy) as (w' & y1 & -> & Hw' & K).
      assert (w' = []) as ->.
      { destruct w' as [|z w']; [reflexivity|]. exfalso. destruct (bracketed_first _ _ _ _ _ _ Hs) as [q ->]. destruct Hh as (c & s & s' & E1 & E2). injection E1 as <- _. injection E2 as -> _.
        assert (X := blanks_first _ _ _ Hw' eq_refl). revert X. out. }
      destruct (K o') as (t' & ss' & r' & -> & Hs' & Hr' & E). exists t', (mkOp (L' o') None None [] [] ss'), r'. split; [reflexivity|]. split; [constructor; exact Hs'|]. split; [exact Hr'|].
      unfold Go, strip_op, strip_sels. cbn [op_type op_name op_vars op_dirs op_sel]. unfold Gs in E. rewrite E. reflexivity.
    - assert (Ik : Forall inert (chars k)) by (cbn in Hk; destruct Hk as [<-|[<-|[<-|[]]]]; cbn; repeat (constructor; [inert1|]); constructor).
      rewrite <- !app_assoc in Hy. destruct (next_inert _ Ik _ y Hy) as (y1 & -> & Hy1). destruct (operation_name_relaid _ _ Hn _ y1 Hy1) as (tn' & y2 & -> & Hn' & Hy2).
      assert (C2 : calm (w ++ t ++ r)) by (apply blanks_calm; [exact Hw|]; apply (bracket_calm _ "{" "}" _ _ _ _ ltac:(discriminate) Hs)). assert (C1 : calm (td ++ w ++ t ++ r)) by (eapply opt_directives_calm; eassumption).
      destruct (optional_relaid Gv _ (bracketed "(" ")" (variable L' atof)) relaid relaid_gapped _ _ _ Hv) with (r := td ++ w ++ t ++ r) (y := y2) (o' := o' + length (chars k) + length tn') as (tv' & vars' & y3 & -> & Hv' & Hy3 & Ev); [| |exact Hy2|exact C1|].
      { intros o1 xs u Hx. destruct (bracketed_first _ _ _ _ _ _ Hx) as [q ->]. apply solid_cons. out. }
      { intros t' _ o1 xs Hx r1 y3 Hy3 Hh3 Hr3 o2. apply (bracketed_relaid Gv "(" ")" _ _ _ _ _ ltac:(cbn; auto 9) ltac:(cbn; auto 9) ltac:(out) variable_sprout Hx); [intros t2 _; apply variable_relaid|exact Hy3|exact Hh3]. }
      destruct (opt_directives_relaid relaid _ _ _ relaid_gapped Hd _ y3 Hy3 C2 (o' + length (chars k) + length tn' + length tv')) as (td' & dirs' & y4 & -> & Hd' & Hy4 & Ed).
      destruct (selection_set_relaid _ _ _ w r y4 Hw Hs Hy4) as (w' & y5 & -> & Hw' & K).
      destruct (K (o' + length (chars k) + length tn' + length tv' + length td' + length w')) as (t' & ss' & r' & -> & Hs' & Hr' & Es).
      exists (chars k ++ tn' ++ tv' ++ td' ++ w' ++ t'), (mkOp (L' o') (Some k) n vars' dirs' ss'), r'. split; [rewrite <- !app_assoc; reflexivity|]. split; [constructor; assumption|]. split; [exact Hr'|].
      unfold Go, strip_op, strip_sels. cbn [op_type op_name op_vars op_dirs op_sel]. unfold Gs, Gv in *. rewrite Es, Ev, Ed. reflexivity.
  Qed.
  Definition Gg := strip_frag same.
  Lemma fragment_relaid t : moves Gg (fragment L atof) (fragment L' atof) t.
  Proof.
    intros o x H r y Hy Hh Hr o'. destruct H as [o w1 n w2 lc c tc dirs td w ss t H1 Hn Hon H2 Hc Hd Hw Hs]. rewrite <- !app_assoc in Hy.
    destruct (next_inert (chars "fragment") ltac:(cbn; repeat (constructor; [inert1|]); constructor) _ y Hy) as (y1 & -> & Hy1).
    destruct (gap_some w1 _ y1 Hy1 H1 (sprout_app _ _ (name_sprout n Hn))) as (w1' & y2 & -> & Hw1 & Hy2 & _). destruct (name_next n _ y2 Hn Hy2) as (y3 & -> & Hy3).
    assert (Sc : sprout tc) by (destruct Hc; sprout1). destruct (gap_some w2 _ y3 Hy3 H2 (sprout_app _ _ Sc)) as (w2' & y4 & -> & Hw2 & Hy4 & _).
    set (o1 := o' + 8 + length w1' + length (chars n) + length w2'). destruct (condition_relaid _ _ _ Hc _ y4 Hy4 o1) as (tc' & y5 & -> & Hc' & Hy5). cbn [snd] in Hc'.
    assert (C2 : calm (w ++ t ++ r)) by (apply blanks_calm; [exact Hw|]; apply (bracket_calm _ "{" "}" _ _ _ _ ltac:(discriminate) Hs)).
    destruct (opt_directives_relaid relaid _ _ _ relaid_gapped Hd _ y5 Hy5 C2 (o1 + length tc')) as (td' & dirs' & y6 & -> & Hd' & Hy6 & Ed).
    destruct (selection_set_relaid _ _ _ w r y6 Hw Hs Hy6) as (w' & y7 & -> & Hw' & K). destruct (K (o1 + length tc' + length td' + length w')) as (t' & ss' & r' & -> & Hs' & Hr' & Es).
    exists (chars "fragment" ++ w1' ++ chars n ++ w2' ++ tc' ++ td' ++ w' ++ t'), (mkFrag (L' o') n c (L' o1) dirs' ss'), r'. split; [rewrite <- !app_assoc; reflexivity|]. split; [constructor; assumption|]. split; [exact Hr'|].
    unfold Gg, strip_frag, strip_sels. cbn [f_name f_cond f_dirs f_sel]. unfold Gs in *. rewrite Es, Ed. reflexivity.
  Qed.
  Definition GD := strip_def same.
  Lemma executable_relaid t : moves GD (executable L atof) (executable L' atof) t.
  Proof.
    intros o x [o0 d u H|o0 d u H] r y Hy Hh Hr o'.
    - destruct (operation_relaid _ _ _ H r y Hy Hh Hr o') as (t' & d' & r' & E1 & H' & Hr' & E). exists t', (DOp d'), r'. split; [exact E1|]. split; [constructor; exact H'|]. split; [exact Hr'|]. unfold GD. cbn [strip_def]. f_equal. exact E.
    - destruct (fragment_relaid _ _ _ H r y Hy Hh Hr o') as (t' & d' & r' & E1 & H' & Hr' & E). exists t', (DFrag d'), r'. split; [exact E1|]. split; [constructor; exact H'|]. split; [exact Hr'|]. unfold GD. cbn [strip_def]. f_equal. exact E.
  Qed.
  Lemma executable_first o x t : executable L atof o x t -> sprout t /\ forall r, calm (t ++ r).
  Proof.
    intros [o0 d u [o1 ss v Hs|o1 k n tn vars tv dirs td w ss v Hk _ _ _ _ _]|o0 d u [o1 w1 n w2 lc c tc dirs td w ss v _ _ _ _ _ _ _ _]].
    - destruct (bracketed_first _ _ _ _ _ _ Hs) as [q ->]. split; [sprout1|]. intros r. apply calm_cons. discriminate.
    - cbn in Hk. destruct Hk as [<-|[<-|[<-|[]]]]; (split; [sprout1|]); intros r; apply calm_cons; discriminate.
    - split; [sprout1|]. intros r. apply calm_cons. discriminate.
  Qed.
  Lemma trailing_calm e : trailing e -> calm e.
  Proof.
    intros [w Hw|w body Hw _]; [rewrite <- (app_nil_r w); apply blanks_calm; [exact Hw|intros [q E]; discriminate E]|]. apply blanks_calm; [exact Hw|]. apply calm_cons. discriminate.
  Qed.
  Lemma trailing_app w e : blanks w -> trailing e -> trailing (w ++ e).
  Proof. intros Hw [v Hv|v body Hv Hb]; [constructor; apply blanks_app; assumption|]. rewrite app_assoc. apply trailing_comment; [apply blanks_app; assumption|exact Hb]. Qed.
  Lemma trailing_relaid x y : relaid x y -> trailing x -> trailing y.
  Proof.
    induction 1 as [e e' He He'|c t t' Hc Hq H IH|s t t' Hs Hn H IH|s t t' Hs H IH|v v' t t' Hv Hv' H IH|c v v' t t' Hc Hv Hv' H IH|v v' t t' Hv Hv' H IH|c v v' t t' Hc Hv Hv' H IH]; intros Ht.
    - exact He'.
    - exfalso. exact (trailing_solid _ Ht (solid_cons c t Hc)).
    - exfalso. exact (trailing_solid _ Ht (solid_cons quote _ ltac:(out))).
    - exfalso. exact (trailing_solid _ Ht (solid_cons quote _ ltac:(out))).
    - apply trailing_app; [apply Hv'|]. apply IH. exact (trailing_rest v (proj1 Hv) t Ht).
    - exfalso. refine (trailing_solid _ Ht (solid_cons c _ _)). unfold opening in Hc. cbn in Hc. repeat (destruct Hc as [<-|Hc]; [out|]). contradiction.
    - exfalso. exact (trailing_solid _ Ht (solid_cons "." _ ltac:(out))).
    - exfalso. exact (trailing_solid _ (trailing_rest v Hv _ Ht) (closing_solid c t Hc)).
  Qed.
  Lemma document_relaid ds t : document L atof ds t -> forall t', relaid t t' -> exists ds', document L' atof ds' t' /\ same_but_positions ds ds'.
  Proof.
    intros [bom w ds0 u e Hb Hw Hi He] t' Ht.
    assert (Ib : Forall inert bom) by (destruct Hb as [->| ->]; [constructor|]; unfold byte_order_mark; cbn; repeat (constructor; [inert1|]); constructor).
    destruct (next_inert bom Ib _ t' Ht) as (y1 & -> & Hy1). assert (Su : sprout (u ++ e)) by (apply sprout_app; exact (items_sprout _ _ (fun o x t H => proj1 (executable_first o x t H)) _ _ _ Hi)).
    destruct (relaid_gap _ _ Hy1 w _ eq_refl Hw (sprout_solid _ Su)) as (w' & y2 & -> & Hw' & Hy2 & Hh2 & _).
    destruct (items_relaid GD (executable L atof) (executable L' atof) blanks) with (o := length bom + length w) (xs := ds0) (t := u) (r := e) (y := y2) (o' := length bom + length w') as (u' & ds' & e' & -> & Hi' & He' & E).
    - intros v r y Hy Hv Hr. destruct (relaid_gap _ _ Hy v r eq_refl Hv (sprout_solid _ Hr)) as (v' & r' & E & H1 & H2 & H3 & _). exists v', r'. auto.
    - intros o x v q r Hx Hq. apply blanks_calm; [exact Hq|]. apply (executable_first _ _ _ Hx).
    - intros o x v Hx. apply (executable_first _ _ _ Hx).
    - exact Hi.
    - intros v _. apply executable_relaid.
    - exact Hy2.
    - exact Hh2.
    - apply trailing_calm. exact He.
    - exists ds'. split; [apply document_of; [exact Hb|exact Hw'|exact Hi'|exact (trailing_relaid _ _ He' He)]|]. symmetry. exact E.
  Qed.
End Moves.
