(** Laying a text out differently: line feeds followed by two tabs (for C54). *)
From Coq Require Import String Ascii NArith ZArith Arith Bool List Lia.
From Verif Require Import Cpp Value Ast Layout ParseSpec RequestTextModel.
Import ListNotations.
Local Open Scope list_scope.
Local Open Scope char_scope.

(** * Two tabs after every line feed *)
Definition tab1 (c : ascii) : text := if Ascii.eqb c feed then [feed; tab_char; tab_char] else [c].
Definition tab (t : text) : text := flat_map tab1 t.
Definition tab_string (s : string) : string := str (tab (chars s)).
Lemma tab_app a b : tab (a ++ b) = tab a ++ tab b.
Proof. apply flat_map_app. Qed.
Lemma tab_cons c t : Ascii.eqb c feed = false -> tab (c :: t) = c :: tab t.
Proof. intros H. unfold tab. cbn [flat_map]. unfold tab1 at 1. rewrite H. reflexivity. Qed.
Lemma tab_none t : ~ In feed t -> tab t = t.
Proof.
  induction t as [|c t IH]; intros H; [reflexivity|]. rewrite tab_cons; [rewrite IH; [reflexivity|]|]; [intros X; apply H; right; exact X|].
  apply Ascii.eqb_neq. intros ->. apply H. left. reflexivity.
Qed.
Lemma tab_feed t : tab (feed :: t) = feed :: tab_char :: tab_char :: tab t.
Proof. reflexivity. Qed.

Lemma between_not_feed a b c : (10 < N_of_ascii a)%N -> between a b c -> c <> feed.
Proof. unfold between. intros Ha [H _] ->. change (N_of_ascii feed) with 10%N in H. lia. Qed.
Lemma digit_not_feed c : digit c -> c <> feed.
Proof. apply between_not_feed. reflexivity. Qed.
Lemma letter_not_feed c : letter c -> c <> feed.
Proof. intros [H|[H| ->]]; [exact (between_not_feed "a" "z" c eq_refl H)|exact (between_not_feed "A" "Z" c eq_refl H)|discriminate]. Qed.
Lemma hex_not_feed c : hex_digit c -> c <> feed.
Proof. intros [H|[H|H]]; [exact (digit_not_feed c H)|exact (between_not_feed "a" "f" c eq_refl H)|exact (between_not_feed "A" "F" c eq_refl H)]. Qed.
Lemma digits_not_feed ds : Forall digit ds -> ~ In feed ds.
Proof. intros H X. rewrite Forall_forall in H. exact (digit_not_feed _ (H _ X) eq_refl). Qed.
Lemma name_tab n : name n -> tab (chars n) = chars n.
Proof.
  intros H. apply tab_none. unfold name in H. destruct (chars n) as [|c r]; [contradiction|]. destruct H as [Hc Hr]. intros [X|X].
  - exact (letter_not_feed c Hc X).
  - rewrite Forall_forall in Hr. destruct (Hr _ X) as [Y|Y]; [exact (letter_not_feed _ Y eq_refl)|exact (digit_not_feed _ Y eq_refl)].
Qed.
Lemma int_no_feed t : int_text t -> ~ In feed t.
Proof.
  intros (sign & ds & -> & Hs & Hd) X. apply in_app_or in X. destruct X as [X|X].
  - destruct Hs as [->| ->]; [contradiction|]. destruct X as [X|[]]. discriminate X.
  - destruct Hd as [->|(d & r & -> & H1 & H2)]; [destruct X as [X|[]]; discriminate X|]. destruct X as [X|X]; [exact (between_not_feed "1" "9" d eq_refl H1 X)|exact (digits_not_feed r H2 X)].
Qed.
Lemma fraction_no_feed t : fraction_text t -> ~ In feed t.
Proof. intros (ds & -> & _ & Hd) [X|X]; [discriminate X|exact (digits_not_feed ds Hd X)]. Qed.
Lemma exponent_no_feed t : exponent_text t -> ~ In feed t.
Proof.
  intros (e & sign & ds & -> & He & Hs & _ & Hd) [X|X]; [destruct He as [->| ->]; discriminate X|]. apply in_app_or in X. destruct X as [X|X]; [|exact (digits_not_feed ds Hd X)].
  destruct Hs as [->|[->| ->]]; [contradiction|destruct X as [X|[]]; discriminate X..].
Qed.
Lemma ascii_not_feed x : (x < 256)%N -> x <> 10%N -> ascii_of_N x <> feed.
Proof. intros H Hn X. apply (f_equal N_of_ascii) in X. rewrite (N_ascii_embedding x H) in X. exact (Hn X). Qed.
Lemma byte_not_feed x k : (10 < k)%N -> (x + k < 256)%N -> ascii_of_N (k + x) <> feed.
Proof. intros H1 H2. apply ascii_not_feed; lia. Qed.
Lemma utf8_no_feed c : c <> 10%N -> (c < 65536)%N -> ~ In feed (utf8 c).
Proof.
  intros Hc Hb. unfold utf8.
  assert (M : forall x, ascii_of_N (128 + x mod 64) <> feed).
  { intros x. apply byte_not_feed; [reflexivity|]. assert (x mod 64 < 64)%N by (apply N.mod_lt; discriminate). generalize dependent (x mod 64)%N. intros y H. lia. }
  destruct (c <? 128)%N eqn:E1; [apply N.ltb_lt in E1|apply N.ltb_ge in E1; destruct (c <? 2048)%N eqn:E2; [apply N.ltb_lt in E2|apply N.ltb_ge in E2]]; cbn [In].
  - intros [X|[]]. revert X. apply ascii_not_feed; lia.
  - intros [X|[X|[]]]; [revert X|exact (M _ X)]. apply byte_not_feed; [reflexivity|]. assert (H : (c / 64 < 32)%N) by (apply N.div_lt_upper_bound; lia). generalize dependent (c / 64)%N. intros y H. lia.
  - intros [X|[X|[X|[]]]]; [revert X|exact (M _ X)|exact (M _ X)]. apply byte_not_feed; [reflexivity|]. assert (H : (c / 4096 < 16)%N) by (apply N.div_lt_upper_bound; lia).
    generalize dependent (c / 4096)%N. intros y H. lia.
Qed.
Lemma source_no_feed c : source_code c -> ~ In feed (utf8 c).
Proof. intros [H _]. apply utf8_no_feed; lia. Qed.
Lemma quoted_no_feed b t d : quoted b t d -> ~ In feed t /\ ~ In feed d.
Proof.
  induction 1 as [a|a c t d Hc H1 H2 Hq IH|a c t d Hc Hq IH|a c t d Hc Hq IH|a h1 h2 h3 h4 t d X1 X2 X3 X4 Hq IH].
  - split; intros [].
  - assert (F := source_no_feed c Hc). split; intros X; apply in_app_or in X; tauto.
  - split; intros [X|X]; try tauto; destruct Hc; subst; discriminate X.
  - split.
    + intros [X|[X|X]]; [discriminate X| |tauto]. subst c. cbn in Hc. repeat (destruct Hc as [Hc|Hc]; [discriminate Hc|]). exact Hc.
    + intros [X|X]; [|tauto]. subst c. cbn in Hc. repeat (destruct Hc as [Hc|Hc]; [discriminate Hc|]). exact Hc.
  - apply hex_not_feed in X1, X2, X3, X4. split.
    + intros [X|[X|[X|[X|[X|[X|X]]]]]]; try discriminate X; tauto.
    + intros X. apply in_app_or in X. destruct X as [X|X]; [destruct a; [destruct X as [X|[]]; discriminate X|contradiction]|].
      destruct X as [X|[X|[X|[X|[X|X]]]]]; try discriminate X; tauto.
Qed.

(** * Ignored text *)
Lemma blanks_app v w : blanks v -> blanks w -> blanks (v ++ w).
Proof. intros Hv Hw. induction Hv as [|b v Hb Hv IH]; [exact Hw|]. rewrite <- app_assoc. constructor; [exact Hb|exact IH]. Qed.
Lemma blanks_one b : blank b -> blanks b.
Proof. intros H. rewrite <- (app_nil_r b). constructor; [exact H|constructor]. Qed.
Lemma blank_tab b : blank b -> blanks (tab b).
Proof.
  intros [c Hc|body Hb].
  - destruct (Ascii.eqb_spec c feed) as [->|Hn].
    + apply (blanks_cons [feed]); [constructor; cbn; auto 8|]. apply (blanks_cons [tab_char]); [constructor; cbn; auto|]. apply (blanks_cons [tab_char]); [constructor; cbn; auto|constructor].
    + rewrite tab_none by (intros [X|[]]; exact (Hn X)). apply blanks_one. constructor. exact Hc.
  - rewrite tab_cons by reflexivity. rewrite tab_app, tab_none by exact Hb. change (tab [code 10]) with ([code 10] ++ [tab_char] ++ [tab_char]).
    rewrite app_assoc, app_comm_cons. constructor; [apply blank_comment; exact Hb|]. apply (blanks_cons [tab_char]); [constructor; cbn; auto|]. apply blanks_one. constructor. cbn. auto.
Qed.
Lemma blanks_tab w : blanks w -> blanks (tab w).
Proof. induction 1 as [|b w Hb Hw IH]; [constructor|]. rewrite tab_app. apply blanks_app; [apply blank_tab; exact Hb|exact IH]. Qed.
Lemma tab_nil t : tab t = [] -> t = [].
Proof. destruct t as [|c t]; [reflexivity|]. unfold tab, tab1. cbn [flat_map]. destruct (Ascii.eqb c feed); discriminate. Qed.
Lemma some_blanks_tab w : some_blanks w -> some_blanks (tab w).
Proof. intros [H1 H2]. split; [apply blanks_tab; exact H1|]. intros X. exact (H2 (tab_nil w X)). Qed.

(** * Block strings *)
Lemma begins_tab p : ~ In feed p -> forall s, begins p (tab s) -> begins p s.
Proof.
  induction p as [|c p IH]; intros Hp s [r E]; [exists s; reflexivity|]. destruct s as [|d s]; [discriminate E|].
  destruct (Ascii.eqb_spec d feed) as [->|Hd].
  - rewrite tab_feed in E. injection E as E _. exfalso. apply Hp. left. symmetry. exact E.
  - rewrite tab_cons in E by (apply Ascii.eqb_neq; exact Hd). cbn [app] in E. injection E as <- E.
    destruct (IH (fun X => Hp (or_intror X)) s (ex_intro _ r E)) as [r' ->]. exists r'. reflexivity.
Qed.
Lemma not_begins_head c p d s : c <> d -> ~ begins (c :: p) (d :: s).
Proof. intros H [r E]. injection E as E _. apply H. symmetry. exact E. Qed.
Lemma block_tab t : block_chars t -> block_chars (tab t).
Proof.
  assert (N1 : ~ In feed q3) by (intros [X|[X|[X|[]]]]; discriminate X).
  assert (N2 : ~ In feed ("\" :: q3)) by (intros [X|X]; [discriminate X|exact (N1 X)]).
  assert (T : forall t, block_chars t -> block_chars (tab_char :: t)).
  { intros u H. change (tab_char :: u) with (utf8 9 ++ u). constructor; [auto| | |exact H]; apply not_begins_head; discriminate. }
  induction 1 as [|c t Hc H1 H2 Ht IH|t Ht IH]; [constructor| |].
  - rewrite tab_app. destruct (N.eq_dec c 10) as [->|Hn].
    + change (tab (utf8 10)) with ([feed] ++ [tab_char; tab_char]). rewrite <- app_assoc. change [feed] with (utf8 10).
      constructor; [auto| | |apply T, T, IH]; apply not_begins_head; discriminate.
    + assert (F : ~ In feed (utf8 c)) by (destruct Hc as [Hc|[->|[->| ->]]]; [exact (source_no_feed c Hc)| |congruence|]; intros [X|[]]; discriminate X).
      rewrite (tab_none (utf8 c) F). assert (E : utf8 c ++ tab t ++ q3 = tab (utf8 c ++ t ++ q3)) by (rewrite !tab_app, (tab_none (utf8 c) F), (tab_none q3 N1); reflexivity).
      constructor; [exact Hc| | |exact IH]; rewrite E; intros X; [exact (H1 (begins_tab _ N1 _ X))|exact (H2 (begins_tab _ N2 _ X))].
  - rewrite tab_cons by reflexivity. rewrite tab_app, (tab_none q3 N1). constructor. exact IH.
Qed.

(** * Everything else *)
Section Tab.
  Variables (L L' : nat -> schema_location) (atof : string -> spec_float).
  Definition Fl := strip_lit tab_string.
  Definition Gl := strip_lit (fun s => s).
  (** Two more tabs after every line feed of the text, and it spells the same thing. *)
  Definition moves {A B} (f g : A -> B) (P P' : nat -> A -> text -> Prop) (t : text) : Prop :=
    forall o x, P o x t -> forall o', exists x', P' o' x' (tab t) /\ g x' = f x.

  Section Lists.
    Context {A B : Type} (f g : A -> B) (P P' : nat -> A -> text -> Prop) (sep : text -> Prop).
    Hypothesis Hsep : forall w, sep w -> sep (tab w).
    Lemma items_tab o xs t : items sep P o xs t -> (forall t', length t' <= length t -> moves f g P P' t') -> forall o', exists xs', items sep P' o' xs' (tab t) /\ map g xs' = map f xs.
    Proof.
      induction 1 as [o x t Hx|o x t w xs t' Hx Hw Hi IH]; intros H o'.
      - destruct (H t (le_n _) o x Hx o') as (x' & Hx' & E). exists [x']. split; [constructor; exact Hx'|cbn [map]; rewrite E; reflexivity].
      - destruct (H t ltac:(rewrite app_length; lia) o x Hx o') as (x' & Hx' & E).
        destruct (IH ltac:(intros t0 Ht0; apply H; rewrite !app_length; lia) (o' + length (tab t) + length (tab w))) as (xs' & Hxs & Es).
        exists (x' :: xs'). split; [rewrite !tab_app; constructor; [exact Hx'|apply Hsep; exact Hw|exact Hxs]|]. cbn [map]. rewrite E, Es. reflexivity.
    Qed.
  End Lists.
  Lemma bracketed_tab {A B} (f g : A -> B) (l r : ascii) P P' o xs t : Ascii.eqb l feed = false -> Ascii.eqb r feed = false -> bracketed l r P o xs t ->
    (forall t', length t' < length t -> moves f g P P' t') -> forall o', exists xs', bracketed l r P' o' xs' (tab t) /\ map g xs' = map f xs.
  Proof.
    intros Hl Hr Hb. destruct Hb as [o w1 xs t w2 H1 Hi H2]. intros H o'.
    destruct (items_tab f g P P' some_blanks some_blanks_tab _ _ _ Hi ltac:(intros t' Ht'; apply H; cbn [length]; rewrite !app_length; cbn [length]; lia) (o' + 1 + length (tab w1))) as (xs' & Hxs & E).
    exists xs'. split; [|exact E]. rewrite tab_cons by exact Hl. rewrite !tab_app, tab_cons by exact Hr. constructor; [apply blanks_tab; exact H1|exact Hxs|apply blanks_tab; exact H2].
  Qed.
  Lemma optional_tab {A B} (f g : A -> B) (P P' : nat -> list A -> text -> Prop) o xs t : optional P o xs t ->
    (forall t', length t' <= length t -> moves (map f) (map g) P P' t') -> forall o', exists xs', optional P' o' xs' (tab t) /\ map g xs' = map f xs.
  Proof.
    intros [|o0 w ys u Hw Hp] H o'; [exists []; split; [constructor|reflexivity]|].
    destruct (H u ltac:(rewrite app_length; lia) _ _ Hp (o' + length (tab w))) as (xs' & Hx & E). exists xs'. split; [|exact E]. rewrite tab_app. constructor; [apply blanks_tab; exact Hw|exact Hx].
  Qed.
  Definition Ff (a : schema_location * (string * lit)) := (nowhere, (fst (snd a), Fl (snd (snd a)))).
  Definition Gf (a : schema_location * (string * lit)) := (nowhere, (fst (snd a), Gl (snd (snd a)))).
  Lemma named_tab P P' t : (forall t', length t' < length t -> moves Fl Gl P P' t') -> moves Ff Gf (named L P) (named L' P') t.
  Proof.
    intros H o x Hn o'. destruct Hn as [o n w1 w2 v t Hn H1 H2 Hv].
    destruct (H t ltac:(rewrite !app_length; cbn [length]; rewrite app_length; lia) _ _ Hv (o' + length (chars n) + length (tab w1) + 1 + length (tab w2))) as (v' & Hv' & E).
    exists (L' o', (n, v')). split; [|unfold Ff, Gf; cbn [fst snd]; rewrite E; reflexivity].
    rewrite !tab_app, tab_cons, tab_app, (name_tab n Hn) by reflexivity. constructor; [exact Hn|apply blanks_tab; exact H1|apply blanks_tab; exact H2|exact Hv'].
  Qed.
  Lemma moves_more {A B} (f g : A -> B) P P' N : (forall t, length t < N -> moves f g P P' t) -> forall t : text, length t <= N -> forall t', length t' < length t -> moves f g P P' t'.
  Proof. intros H t Ht t' Hl. apply H. lia. Qed.
  Lemma value_tab_at N : forall t, length t < N -> moves Fl Gl (value L atof) (value L' atof) t.
  Proof.
    induction N as [|N IH]; intros t Hl o v Hv o'; [lia|].
    inversion Hv as [o0 n Hn|o0 t0 Ht|o0 i f Hi Hf|o0 t0 d Ht|o0 t0 Ht|o0|o0|o0|o0 n Hn Hne|o0 w Hw|o0 vs t0 Hb|o0 w Hw|o0 fs t0 Hb]; subst.
    - exists (LVar (L' o') n). split; [|reflexivity]. rewrite tab_cons, (name_tab n Hn) by reflexivity. constructor. exact Hn.
    - exists (LInt (L' o') (number t)). split; [|reflexivity]. rewrite (tab_none t (int_no_feed t Ht)). constructor. exact Ht.
    - exists (LFloat (L' o') (atof (str (i ++ f)))). split; [|reflexivity]. rewrite tab_none; [constructor; assumption|]. intros X. apply in_app_or in X. destruct X as [X|X]; [exact (int_no_feed i Hi X)|].
      destruct Hf as [Hf|Hf]; [exact (fraction_no_feed f Hf X)|exact (exponent_no_feed f Hf X)].
    - destruct (quoted_no_feed _ _ _ Ht) as [N1 N2]. exists (LString (L' o') (str d)). split.
      + rewrite tab_cons, tab_app, (tab_none t0 N1) by reflexivity. apply value_string. exact Ht.
      + unfold Fl, Gl. cbn [strip_lit]. unfold tab_string. rewrite list_ascii_of_string_of_list_ascii, (tab_none d N2). reflexivity.
    - exists (LString (L' o') (str (tab t0))). split.
      + rewrite !tab_app. change (tab q3) with q3. apply value_block. apply block_tab. exact Ht.
      + unfold Fl, Gl. cbn [strip_lit]. unfold tab_string. rewrite list_ascii_of_string_of_list_ascii. reflexivity.
    - exists (LBool (L' o') true). split; [|reflexivity]. change (tab (chars "true")) with (chars "true"). constructor.
    - exists (LBool (L' o') false). split; [|reflexivity]. change (tab (chars "false")) with (chars "false"). constructor.
    - exists (LNull (L' o')). split; [|reflexivity]. change (tab (chars "null")) with (chars "null"). constructor.
    - exists (LEnum (L' o') n). split; [|reflexivity]. rewrite (name_tab n Hn). constructor; assumption.
    - exists (LList (L' o') []). split; [|reflexivity]. rewrite tab_cons, tab_app by reflexivity. constructor. apply blanks_tab. exact Hw.
    - destruct (bracketed_tab Fl Gl "[" "]" (value L atof) (value L' atof) _ _ _ eq_refl eq_refl Hb (moves_more _ _ _ _ N IH t ltac:(lia)) o') as (vs' & Hv' & E).
      exists (LList (L' o') vs'). split; [constructor; exact Hv'|]. unfold Fl, Gl in *. cbn [strip_lit]. rewrite E. reflexivity.
    - exists (LObject (L' o') []). split; [|reflexivity]. rewrite tab_cons, tab_app by reflexivity. constructor. apply blanks_tab. exact Hw.
    - destruct (bracketed_tab Ff Gf "{" "}" (named L (value L atof)) (named L' (value L' atof)) _ _ _ eq_refl eq_refl Hb) with (o' := o') as (fs' & Hf' & E).
      { intros t' Ht'. apply named_tab. intros t2 Ht2. apply IH. lia. }
      exists (LObject (L' o') fs'). split; [constructor; exact Hf'|]. unfold Fl, Gl, Ff, Gf in *. cbn [strip_lit]. f_equal. exact E.
  Qed.
  Lemma value_tab t : moves Fl Gl (value L atof) (value L' atof) t.
  Proof. apply (value_tab_at (Datatypes.S (length t))). lia. Qed.
  Lemma named_value_tab t : moves Ff Gf (named L (value L atof)) (named L' (value L' atof)) t.
  Proof. apply named_tab. intros t' _. apply value_tab. Qed.
  Lemma type_tab ty t : type_ref ty t -> type_ref ty (tab t).
  Proof.
    induction 1 as [n Hn|w1 ty x w2 H1 Ht IH H2|ty x w Ht IH Hn Hw].
    - rewrite (name_tab n Hn). constructor. exact Hn.
    - rewrite tab_cons, !tab_app by reflexivity. change (tab ["]"]) with ["]"]. constructor; [apply blanks_tab; exact H1|exact IH|apply blanks_tab; exact H2].
    - rewrite !tab_app. change (tab ["!"]) with ["!"]. constructor; [exact IH|exact Hn|apply blanks_tab; exact Hw].
  Qed.
  Lemma arguments_tab t : moves (strip_args tab_string) (strip_args (fun s => s)) (arguments L atof) (arguments L' atof) t.
  Proof. intros o xs H o'. unfold arguments in *. apply (bracketed_tab Ff Gf "(" ")" _ _ _ _ _ eq_refl eq_refl H). intros t' _. apply named_value_tab. Qed.
  Definition Fd := strip_dir tab_string.
  Definition Gd := strip_dir (fun s => s).
  Lemma directive_tab t : moves Fd Gd (directive_use L atof) (directive_use L' atof) t.
  Proof.
    intros o x H o'. destruct H as [o n a t Hn Ha].
    destruct (optional_tab Ff Gf _ (arguments L' atof) _ _ _ Ha (fun t' _ => arguments_tab t') (o' + 1 + length (chars n))) as (a' & Ha' & E).
    exists (mkDir (L' o') n a'). split; [rewrite tab_cons, tab_app, (name_tab n Hn) by reflexivity; constructor; assumption|]. unfold Fd, Gd, strip_dir. cbn [d_name d_args].
    change (strip_args (fun s => s) a') with (map Gf a'). change (strip_args tab_string a) with (map Ff a). rewrite E. reflexivity.
  Qed.
  Lemma directives_tab t : moves (map Fd) (map Gd) (directives L atof) (directives L' atof) t.
  Proof. intros o xs H o'. apply (items_tab Fd Gd _ _ some_blanks some_blanks_tab _ _ _ H). intros t' _. apply directive_tab. Qed.
  Lemma opt_arguments_tab o xs t : optional (arguments L atof) o xs t -> forall o', exists xs', optional (arguments L' atof) o' xs' (tab t) /\ strip_args (fun s => s) xs' = strip_args tab_string xs.
  Proof. intros H o'. exact (optional_tab Ff Gf _ _ _ _ _ H (fun t' _ => arguments_tab t') o'). Qed.
  Lemma opt_directives_tab o xs t : optional (directives L atof) o xs t -> forall o', exists xs', optional (directives L' atof) o' xs' (tab t) /\ strip_dirs (fun s => s) xs' = strip_dirs tab_string xs.
  Proof. intros H o'. exact (optional_tab Fd Gd _ _ _ _ _ H (fun t' _ => directives_tab t') o'). Qed.
  Lemma condition_tab o c t : condition L o c t -> forall o', condition L' o' (L' o', snd c) (tab t).
  Proof.
    intros [o0 w n Hw Hn] o'. rewrite !tab_app, (name_tab n Hn). change (tab (chars "on")) with (chars "on"). constructor; [apply some_blanks_tab; exact Hw|exact Hn].
  Qed.
  Lemma alias_tab al t : alias al t -> alias al (tab t).
  Proof.
    intros [|n w1 w2 Hn H1 H2]; [constructor|]. rewrite !tab_app, tab_cons, (name_tab n Hn) by reflexivity. constructor; [exact Hn|apply blanks_tab; exact H1|apply blanks_tab; exact H2].
  Qed.
  Lemma on_type_tab o c t : on_type L o c t -> forall o', exists c', on_type L' o' c' (tab t) /\ strip_cond c' = strip_cond c.
  Proof.
    intros [o0|o0 w x u Hw Hc] o'; [exists None; split; [constructor|reflexivity]|]. exists (Some (L' (o' + length (tab w)), snd x)). split; [|destruct x; reflexivity].
    rewrite tab_app. constructor; [apply blanks_tab; exact Hw|]. apply (condition_tab _ _ _ Hc).
  Qed.
  Definition Fs := strip_sel tab_string.
  Definition Gs := strip_sel (fun s => s).
  Definition strip_sub (f : selection -> selection) (s : option (schema_location * list selection)) := match s with Some (_, ss) => Some (nowhere, map f ss) | None => None end.
  Lemma subfields_tab P P' o s t : subfields L P o s t -> (forall t', length t' < length t -> moves Fs Gs P P' t') ->
    forall o', exists s', subfields L' P' o' s' (tab t) /\ strip_sub Gs s' = strip_sub Fs s.
  Proof.
    intros [o0|o0 w ss u Hw Hb] H o'; [exists None; split; [constructor|reflexivity]|].
    destruct (bracketed_tab Fs Gs "{" "}" P P' _ _ _ eq_refl eq_refl Hb ltac:(intros t' Ht'; apply H; rewrite app_length; lia) (o' + length (tab w))) as (ss' & Hss & E).
    exists (Some (L' (o' + length (tab w)), ss')). split; [rewrite tab_app; constructor; [apply blanks_tab; exact Hw|exact Hss]|]. cbn [strip_sub]. rewrite E. reflexivity.
  Qed.
  Lemma name_length n : name n -> 0 < length (chars n).
  Proof. unfold name. destruct (chars n); [contradiction|]. cbn [length]. lia. Qed.
  Lemma selects_tab_at N : forall t, length t < N -> moves Fs Gs (selects L atof) (selects L' atof) t.
  Proof.
    induction N as [|N IH]; intros t Hl o s Hs o'; [lia|].
    inversion Hs as [o0 al ta n args targs dirs tdirs sub tsub Hal Hn Ha Hd Hsub|o0 w n dirs tdirs Hw Hn Hon Hd|o0 c tc dirs tdirs w ss u Hc Hd Hw Hb]; subst.
    - destruct (opt_arguments_tab _ _ _ Ha (o' + length (tab ta) + length (chars n))) as (args' & Ha' & Ea).
      destruct (opt_directives_tab _ _ _ Hd (o' + length (tab ta) + length (chars n) + length (tab targs))) as (dirs' & Hd' & Ed).
      destruct (subfields_tab _ (selects L' atof) _ _ _ Hsub) with (o' := o' + length (tab ta) + length (chars n) + length (tab targs) + length (tab tdirs)) as (sub' & Hs' & Es).
      { intros t' Ht'. apply IH. rewrite !app_length in Hl. assert (Hx := name_length n Hn). lia. }
      exists (SField (L' o') al n args' dirs' sub'). split.
      + rewrite !tab_app, (name_tab n Hn). constructor; [apply alias_tab; exact Hal|exact Hn|exact Ha'|exact Hd'|exact Hs'].
      + unfold Fs, Gs in *. cbn [strip_sel]. rewrite Ea, Ed. f_equal. exact Es.
    - destruct (opt_directives_tab _ _ _ Hd (o' + 3 + length (tab w) + length (chars n))) as (dirs' & Hd' & Ed).
      exists (SSpread (L' (o' + 3)) n dirs'). split.
      + rewrite !tab_app, (name_tab n Hn). change (tab (chars "...")) with (chars "..."). constructor; [apply blanks_tab; exact Hw|exact Hn|exact Hon|exact Hd'].
      + unfold Fs, Gs in *. cbn [strip_sel]. rewrite Ed. reflexivity.
    - destruct (on_type_tab _ _ _ Hc (o' + 3)) as (c' & Hc' & Ec).
      destruct (opt_directives_tab _ _ _ Hd (o' + 3 + length (tab tc))) as (dirs' & Hd' & Ed).
      destruct (bracketed_tab Fs Gs "{" "}" _ (selects L' atof) _ _ _ eq_refl eq_refl Hb) with (o' := o' + 3 + length (tab tc) + length (tab tdirs) + length (tab w)) as (ss' & Hss & Es).
      { intros t' Ht'. apply IH. rewrite !app_length in Hl. lia. }
      exists (SInline (L' (o' + 3)) c' dirs' ss'). split.
      + rewrite !tab_app. change (tab (chars "...")) with (chars "..."). constructor; [exact Hc'|exact Hd'|apply blanks_tab; exact Hw|exact Hss].
      + unfold Fs, Gs in *. cbn [strip_sel]. rewrite Ec, Ed, Es. reflexivity.
  Qed.
  Lemma selects_tab t : moves Fs Gs (selects L atof) (selects L' atof) t.
  Proof. apply (selects_tab_at (Datatypes.S (length t))). lia. Qed.
  Lemma selection_set_tab t : moves (map Fs) (map Gs) (selection_set L atof) (selection_set L' atof) t.
  Proof. intros o xs H o'. apply (bracketed_tab Fs Gs "{" "}" _ _ _ _ _ eq_refl eq_refl H). intros t' _. apply selects_tab. Qed.
  Lemma default_tab o d l t : default L atof o d l t -> forall o', exists d' l', default L' atof o' d' l' (tab t) /\ option_map Gl d' = option_map Fl d.
  Proof.
    intros [o0|o0 w1 w2 v u H1 H2 Hv] o'; [exists None, (mkLoc 0 1); split; [constructor|reflexivity]|].
    destruct (value_tab _ _ _ Hv (o' + length (tab w1) + 1 + length (tab w2))) as (v' & Hv' & E). exists (Some v'), (L' (o' + length (tab w1))). split; [|cbn [option_map]; rewrite E; reflexivity].
    rewrite tab_app, tab_cons, tab_app by reflexivity. constructor; [apply blanks_tab; exact H1|apply blanks_tab; exact H2|exact Hv'].
  Qed.
  Definition Fv := strip_var tab_string.
  Definition Gv := strip_var (fun s => s).
  Lemma variable_tab t : moves Fv Gv (variable L atof) (variable L' atof) t.
  Proof.
    intros o x H o'. destruct H as [o n w1 w2 ty t d dl td Hn H1 H2 Ht Hd].
    destruct (default_tab _ _ _ _ Hd (o' + 1 + length (chars n) + length (tab w1) + 1 + length (tab w2) + length (tab t))) as (d' & dl' & Hd' & E).
    eexists (mkVar (L' o') n ty (L' (o' + 1 + length (chars n) + length (tab w1) + 1 + length (tab w2))) d' dl'). split; [|unfold Fv, Gv, strip_var; cbn [v_name v_type v_default]; unfold Fl, Gl in E; rewrite E; reflexivity].
    rewrite tab_cons, !tab_app, tab_cons, !tab_app, (name_tab n Hn) by reflexivity.
    constructor; [exact Hn|apply blanks_tab; exact H1|apply blanks_tab; exact H2|apply type_tab; exact Ht|exact Hd'].
  Qed.
  Lemma operation_name_tab n t : operation_name n t -> operation_name n (tab t).
  Proof. intros [|w m Hw Hm]; [constructor|]. rewrite tab_app, (name_tab m Hm). constructor; [apply some_blanks_tab; exact Hw|exact Hm]. Qed.
  Definition Fo := strip_op tab_string.
  Definition Go := strip_op (fun s => s).
  Lemma operation_tab t : moves Fo Go (operation L atof) (operation L' atof) t.
  Proof.
    intros o x H o'. destruct H as [o ss t Hs|o k n tn vars tv dirs td w ss t Hk Hn Hv Hd Hw Hs].
    - destruct (selection_set_tab _ _ _ Hs o') as (ss' & Hs' & E). exists (mkOp (L' o') None None [] [] ss'). split; [constructor; exact Hs'|].
      unfold Fo, Go, strip_op, strip_sels. cbn [op_type op_name op_vars op_dirs op_sel]. unfold Fs, Gs in E. rewrite E. reflexivity.
    - assert (Ek : tab (chars k) = chars k) by (cbn in Hk; destruct Hk as [<-|[<-|[<-|[]]]]; reflexivity).
      destruct (optional_tab Fv Gv _ (bracketed "(" ")" (variable L' atof)) _ _ _ Hv) with (o' := o' + length (chars k) + length (tab tn)) as (vars' & Hv' & Ev).
      { intros t' _ o1 xs Hx o2. apply (bracketed_tab Fv Gv "(" ")" _ _ _ _ _ eq_refl eq_refl Hx). intros t2 _. apply variable_tab. }
      destruct (opt_directives_tab _ _ _ Hd (o' + length (chars k) + length (tab tn) + length (tab tv))) as (dirs' & Hd' & Ed).
      destruct (selection_set_tab _ _ _ Hs (o' + length (chars k) + length (tab tn) + length (tab tv) + length (tab td) + length (tab w))) as (ss' & Hs' & Es).
      exists (mkOp (L' o') (Some k) n vars' dirs' ss'). split.
      + rewrite !tab_app, Ek. constructor; [exact Hk|apply operation_name_tab; exact Hn|exact Hv'|exact Hd'|apply blanks_tab; exact Hw|exact Hs'].
      + unfold Fo, Go, strip_op, strip_sels. cbn [op_type op_name op_vars op_dirs op_sel]. unfold Fs, Gs, Fv, Gv in *. rewrite Es, Ev, Ed. reflexivity.
  Qed.
  Definition Fg := strip_frag tab_string.
  Definition Gg := strip_frag (fun s => s).
  Lemma fragment_tab t : moves Fg Gg (fragment L atof) (fragment L' atof) t.
  Proof.
    intros o x H o'. destruct H as [o w1 n w2 lc c tc dirs td w ss t H1 Hn Hon H2 Hc Hd Hw Hs].
    set (o1 := o' + 8 + length (tab w1) + length (chars n) + length (tab w2)).
    assert (Hc' := condition_tab _ _ _ Hc o1). cbn [snd] in Hc'.
    destruct (opt_directives_tab _ _ _ Hd (o1 + length (tab tc))) as (dirs' & Hd' & Ed).
    destruct (selection_set_tab _ _ _ Hs (o1 + length (tab tc) + length (tab td) + length (tab w))) as (ss' & Hs' & Es).
    exists (mkFrag (L' o') n c (L' o1) dirs' ss'). split.
    - rewrite !tab_app, (name_tab n Hn). change (tab (chars "fragment")) with (chars "fragment").
      constructor; [apply some_blanks_tab; exact H1|exact Hn|exact Hon|apply some_blanks_tab; exact H2|exact Hc'|exact Hd'|apply blanks_tab; exact Hw|exact Hs'].
    - unfold Fg, Gg, strip_frag, strip_sels. cbn [f_name f_cond f_dirs f_sel]. unfold Fs, Gs in *. rewrite Es, Ed. reflexivity.
  Qed.
  Definition FD := strip_def tab_string.
  Definition GD := strip_def (fun s => s).
  Lemma executable_tab t : moves FD GD (executable L atof) (executable L' atof) t.
  Proof.
    intros o x [o0 d u H|o0 d u H] o'.
    - destruct (operation_tab _ _ _ H o') as (d' & H' & E). exists (DOp d'). split; [constructor; exact H'|]. unfold FD, GD. cbn [strip_def]. f_equal. exact E.
    - destruct (fragment_tab _ _ _ H o') as (d' & H' & E). exists (DFrag d'). split; [constructor; exact H'|]. unfold FD, GD. cbn [strip_def]. f_equal. exact E.
  Qed.
  Lemma executables_tab o ds t : items blanks (executable L atof) o ds t ->
    forall o', exists ds', items blanks (executable L' atof) o' ds' (tab t) /\ strip_doc (fun s => s) ds' = strip_doc tab_string ds.
  Proof. intros H o'. exact (items_tab FD GD _ _ blanks blanks_tab _ _ _ H (fun t' _ => executable_tab t') o'). Qed.
End Tab.

(** * Trimming *)
Lemma isspace_blank c : isspace c = true -> In c [" "; code 9; code 10; code 11; code 12; code 13].
Proof.
  unfold isspace. cbv zeta. intros H. apply orb_true_iff in H. assert (E : c = code (nat_of_ascii c)) by (symmetry; apply ascii_nat_embedding).
  destruct H as [H|H].
  - apply Nat.eqb_eq in H. rewrite H in E. left. symmetry. exact E.
  - apply andb_true_iff in H. destruct H as [H1 H2]. apply Nat.leb_le in H1, H2.
    assert (X : nat_of_ascii c = 9 \/ nat_of_ascii c = 10 \/ nat_of_ascii c = 11 \/ nat_of_ascii c = 12 \/ nat_of_ascii c = 13) by lia.
    destruct X as [X|[X|[X|[X|X]]]]; rewrite X in E; rewrite E; cbn; auto 8.
Qed.
Definition solid (c : ascii) : Prop := isspace c = false.
(** The text of a definition begins and ends with something that is not a space. *)
Definition starts (t : text) : Prop := exists c r, t = c :: r /\ solid c.
Definition ends (t : text) : Prop := exists r c, t = r ++ [c] /\ solid c.
Lemma starts_app a b : starts a -> starts (a ++ b).
Proof. intros (c & r & -> & H). exists c, (r ++ b). auto. Qed.
Lemma ends_app a b : ends b -> ends (a ++ b).
Proof. intros (r & c & -> & H). exists (a ++ r), c. rewrite app_assoc. auto. Qed.
Lemma ends_cons a b : ends b -> ends (a :: b).
Proof. apply (ends_app [a]). Qed.
Section Ends.
  Variables (L : nat -> schema_location) (atof : string -> spec_float).
  Lemma set_starts o ss t : selection_set L atof o ss t -> starts t.
  Proof. intros [o0 w1 xs u w2 _ _ _]. eexists _, _. split; [reflexivity|reflexivity]. Qed.
  Lemma set_ends o ss t : selection_set L atof o ss t -> ends t.
  Proof. intros [o0 w1 xs u w2 _ _ _]. exists ("{" :: w1 ++ u ++ w2), "}". split; [|reflexivity]. cbn [app]. rewrite <- !app_assoc. reflexivity. Qed.
  Lemma executable_ends o d t : executable L atof o d t -> starts t /\ ends t.
  Proof.
    intros [o0 d0 u H|o0 d0 u H].
    - destruct H as [o1 ss v Hs|o1 k n tn vars tv dirs td w ss v Hk _ _ _ _ Hs]; [split; [exact (set_starts _ _ _ Hs)|exact (set_ends _ _ _ Hs)]|].
      split; [|repeat apply ends_app; exact (set_ends _ _ _ Hs)]. cbn in Hk. destruct Hk as [<-|[<-|[<-|[]]]]; eexists _, _; split; reflexivity.
    - destruct H as [o1 w1 n w2 lc c tc dirs td w ss v _ _ _ _ _ _ _ Hs]. split; [eexists _, _; split; reflexivity|]. do 7 apply ends_app. exact (set_ends _ _ _ Hs).
  Qed.
  Lemma items_ends sep o ds t : items sep (executable L atof) o ds t -> starts t /\ ends t.
  Proof.
    induction 1 as [o d t H|o d t w ds t' H Hw Hi IH]; [exact (executable_ends _ _ _ H)|]. split; [apply starts_app, (executable_ends _ _ _ H)|apply ends_app, ends_app, IH].
  Qed.
End Ends.
Lemma skip_spaces_skips t : starts t -> skip_spaces t = t.
Proof. intros (c & r & -> & H). unfold solid in H. cbn [skip_spaces]. rewrite H. reflexivity. Qed.
Lemma skip_blanks w r : blanks w -> starts r -> exists w', blanks w' /\ skip_spaces (w ++ r) = w' ++ r.
Proof.
  intros Hw Hr. induction Hw as [|b w Hb Hw IH]; [exists []; split; [constructor|exact (skip_spaces_skips r Hr)]|].
  assert (K : blanks (b ++ w)) by (constructor; assumption). destruct Hb as [c Hc|body Hb].
  - cbn [app skip_spaces]. destruct (isspace c); [exact IH|]. exists (c :: w). split; [exact K|reflexivity].
  - exists (("#" :: body ++ [code 10]) ++ w). split; [exact K|]. cbn [app skip_spaces]. reflexivity.
Qed.
Lemma skip_spaces_app s t : Forall (fun c => isspace c = true) s -> skip_spaces (s ++ t) = skip_spaces t.
Proof. induction 1 as [|c s Hc _ IH]; [reflexivity|]. cbn [app skip_spaces]. rewrite Hc. exact IH. Qed.
Lemma skip_split t : exists s, t = s ++ skip_spaces t /\ Forall (fun c => isspace c = true) s.
Proof.
  induction t as [|c t IH]; [exists []; auto|]. cbn [skip_spaces]. destruct (isspace c) eqn:E; [|exists []; auto]. destruct IH as (s & Es & Hs). exists (c :: s).
  split; [cbn [app]; f_equal; exact Es|constructor; assumption].
Qed.
(** The text without the spaces before and after it. *)
Lemma trim_middle a m b : Forall (fun c => isspace c = true) a -> Forall (fun c => isspace c = true) b -> starts m -> ends m -> trim_whitespace (a ++ m ++ b) = m.
Proof.
  intros Ha Hb Hm He. unfold trim_whitespace. rewrite skip_spaces_app by exact Ha. rewrite (skip_spaces_skips (m ++ b)) by (apply starts_app; exact Hm).
  rewrite !rev_app_distr, <- app_assoc. rewrite skip_spaces_app by (apply Forall_rev; exact Hb). rewrite skip_spaces_skips.
  2: { destruct He as (r & c & -> & Hc). rewrite rev_app_distr. eexists _, _. split; [reflexivity|exact Hc]. }
  rewrite !app_length, !rev_length. replace (length a + (length m + length b) - (length m + length b)) with (length a) by lia.
  destruct (Nat.leb_spec (length a) (length m + length a)) as [_|X]; [|lia]. rewrite skipn_app, skipn_all, Nat.sub_diag. cbn [app skipn].
  replace (length m + length a - length a) with (length m) by lia. rewrite firstn_app, Nat.sub_diag, firstn_O, app_nil_r, firstn_all. reflexivity.
Qed.
(** What comes after the last definition still does when it loses its last space. *)
Lemma trailing_shorter e c : isspace c = true -> trailing (e ++ [c]) -> trailing e.
Proof.
  intros Hc H. inversion H as [w Hw E|w body Hw Hb E]; subst.
  - assert (G : forall w, blanks w -> forall e, w = e ++ [c] -> trailing e).
    { clear -Hc. induction 1 as [|b w Hb Hw IH]; intros e E; [destruct e; discriminate E|]. destruct w as [|d w].
      - rewrite app_nil_r in E. destruct Hb as [x Hx|body Hb].
        + destruct e as [|y e]; [constructor; constructor|]. destruct e; discriminate E.
        + rewrite app_comm_cons in E. apply app_inj_tail in E. destruct E as [<- <-]. apply (trailing_comment []); [constructor|exact Hb].
      - destruct (exists_last (l := d :: w)) as (e' & c' & E'); [discriminate|]. rewrite E' in E. rewrite app_assoc in E. apply app_inj_tail in E. destruct E as [<- ->].
        destruct (IH e' E') as [w0 H0|w0 body H0 Hb0]; [constructor; constructor; assumption|]. rewrite app_assoc. apply trailing_comment; [constructor; assumption|exact Hb0]. }
    exact (G _ Hw _ eq_refl).
  - destruct (exists_last (l := "#" :: body)) as (b' & c' & E'); [discriminate|]. rewrite E' in E. rewrite app_assoc in E. apply app_inj_tail in E. destruct E as [<- ->].
    destruct b' as [|x b']; [injection E' as E' _; subst c; discriminate Hc|]. cbn [app] in E'. injection E' as <- E'. apply trailing_comment; [exact Hw|]. intros X. apply Hb. rewrite E'.
    apply in_or_app. left. exact X.
Qed.
Lemma trailing_spaces e s : Forall (fun c => isspace c = true) s -> trailing (e ++ s) -> trailing e.
Proof.
  revert e. induction s as [|c s IH] using rev_ind; intros e Hs H; [rewrite app_nil_r in H; exact H|]. apply Forall_app in Hs. destruct Hs as [Hs Hc]. inversion Hc as [|x l Hx _]; subst.
  apply IH; [exact Hs|]. rewrite app_assoc in H. exact (trailing_shorter _ c Hx H).
Qed.
Lemma last_spaces (t : text) : exists e s, t = e ++ s /\ Forall (fun c => isspace c = true) s /\ (e = [] \/ ends e).
Proof.
  induction t as [|c t IH] using rev_ind; [exists [], []; auto|]. destruct (isspace c) eqn:E.
  - destruct IH as (e & s & -> & Hs & He). exists e, (s ++ [c]). split; [apply app_assoc_reverse|]. split; [apply Forall_app; split; [exact Hs|constructor; [exact E|constructor]]|exact He].
  - exists (t ++ [c]), []. split; [rewrite app_nil_r; reflexivity|]. split; [constructor|]. right. exists t, c. auto.
Qed.
(** Trimming leaves some of the ignorable text before the first and after the last definition. *)
Lemma trim_document w t e : blanks w -> starts t -> ends t -> trailing e -> exists w' e', blanks w' /\ trailing e' /\ trim_whitespace (w ++ t ++ e) = w' ++ t ++ e' /\ ends (w' ++ t ++ e').
Proof.
  intros Hw Ht Het He. destruct (skip_blanks w t Hw Ht) as (w' & Hw' & Ew). destruct (skip_split (w ++ t)) as (s & Es & Hs). rewrite Ew, app_assoc in Es. apply app_inv_tail in Es. subst w.
  destruct (last_spaces e) as (e' & s' & -> & Hs' & He'). exists w', e'. assert (Q : ends (w' ++ t ++ e')).
  { apply ends_app. destruct He' as [->|He']; [rewrite app_nil_r; exact Het|apply ends_app; exact He']. }
  split; [exact Hw'|]. split; [exact (trailing_spaces e' s' Hs' He)|]. split; [|exact Q].
  rewrite <- !app_assoc. rewrite (app_assoc w'), (app_assoc (w' ++ t)). rewrite <- (app_assoc w' t e'). apply trim_middle; [exact Hs|exact Hs'| |exact Q].
  assert (K : starts (w' ++ t)).
  { rewrite <- Ew. rewrite <- app_assoc. rewrite skip_spaces_app by exact Hs. rewrite <- app_assoc in Ew. rewrite skip_spaces_app in Ew by exact Hs. rewrite Ew.
    destruct w' as [|c w']; [exact Ht|]. exists c, (w' ++ t). split; [reflexivity|]. unfold solid. destruct (isspace c) eqn:X; [|reflexivity]. exfalso.
    cbn [app skip_spaces] in Ew. rewrite X in Ew. destruct (skip_split (w' ++ t)) as (s2 & E2 & _). rewrite Ew in E2. apply (f_equal (@length ascii)) in E2. rewrite !app_length in E2. cbn [length] in E2.
    rewrite app_length in E2. lia. }
  rewrite app_assoc. apply starts_app. exact K.
Qed.

(** * The lines and the literal *)
Lemma lines_are line t : ends (line ++ t) -> flat_map (fun l => [tab_char; tab_char] ++ l ++ [feed]) (lines_from line t) = [tab_char; tab_char] ++ line ++ tab t ++ [feed].
Proof.
  revert line. induction t as [|c t IH]; intros line H.
  - cbn [lines_from]. rewrite app_nil_r in H. destruct line as [|x line]; [destruct H as ([|] & c & E & _); discriminate E|]. cbn [flat_map]. rewrite app_nil_r. reflexivity.
  - cbn [lines_from]. destruct (Ascii.eqb_spec c feed) as [->|Hc].
    + rewrite tab_feed. cbn [flat_map]. destruct t as [|d t].
      * exfalso. destruct H as (r & c & E & Hc). apply app_inj_tail in E. destruct E as [_ <-]. discriminate Hc.
      * assert (K : ends ([] ++ d :: t)).
        { destruct H as (r & x & E & Hx). destruct (exists_last (l := d :: t)) as (l' & y & E'); [discriminate|]. change (line ++ feed :: d :: t) with (line ++ [feed] ++ (d :: t)) in E. rewrite E' in E.
          rewrite !app_assoc in E. apply app_inj_tail in E. destruct E as [_ ->]. exists l', x. auto. }
        rewrite (IH [] K). rewrite <- !app_assoc. reflexivity.
    + rewrite IH by (rewrite <- app_assoc; exact H). rewrite tab_cons by (apply Ascii.eqb_neq; exact Hc). rewrite <- !app_assoc. reflexivity.
Qed.
Lemma without_prefix_app p t : without_prefix p (p ++ t) = Some t.
Proof. induction p as [|c p IH]; [reflexivity|]. cbn [app without_prefix]. rewrite Ascii.eqb_refl. exact IH. Qed.
Lemma without_prefix_some p : forall t r, without_prefix p t = Some r -> t = p ++ r.
Proof.
  induction p as [|c p IH]; intros t r H; [injection H as ->; reflexivity|]. destruct t as [|d t]; [discriminate H|]. cbn [without_prefix] in H.
  destruct (Ascii.eqb_spec c d) as [->|_]; [|discriminate H]. cbn [app]. f_equal. exact (IH t r H).
Qed.
(** [p] occurs somewhere in the text. *)
Definition occurs (p t : text) : Prop := exists a b, t = a ++ p ++ b.
Lemma raw_first rest t : ~ occurs closing t -> raw_content (t ++ [tab_char] ++ closing ++ rest) = Some (t ++ [tab_char], rest).
Proof.
  induction t as [|c t IH]; intros H.
  - cbn [app raw_content]. change (without_prefix closing (tab_char :: closing ++ rest)) with (@None text). change (raw_content (closing ++ rest)) with (Some (@nil ascii, rest)). reflexivity.
  - cbn [app raw_content].
    destruct (without_prefix closing (c :: t ++ tab_char :: closing ++ rest)) as [r|] eqn:E.
    + exfalso. apply without_prefix_some in E. apply H.
      assert (X : forall p t u, ~ In tab_char p -> t ++ tab_char :: u = p ++ r -> exists b, t = p ++ b).
      { clear. induction p as [|x p IH]; intros t u Hp E; [exists t; reflexivity|]. destruct t as [|y t].
        - cbn [app] in E. injection E as E _. exfalso. apply Hp. left. symmetry. exact E.
        - cbn [app] in E. injection E as -> E. destruct (IH t u (fun X => Hp (or_intror X)) E) as [b ->]. exists b. reflexivity. }
      destruct (X closing (c :: t) _ ltac:(cbn; intuition discriminate) E) as [b Hb]. exists [], b. exact Hb.
    + assert (X := IH ltac:(intros (a & b & X); apply H; exists (c :: a), b; rewrite X; reflexivity)). cbn [app] in X. rewrite X. reflexivity.
Qed.
Lemma occurs_tab p t : ~ In feed p -> ~ In tab_char p -> p <> [] -> occurs p (tab t) -> occurs p t.
Proof.
  intros Hf Ht Hp (a & b & E). revert a E. induction t as [|c t IH]; intros a E; [exfalso; destruct a, p; try discriminate E; congruence|].
  destruct (Ascii.eqb_spec c feed) as [->|Hc].
  - rewrite tab_feed in E. destruct p as [|x p]; [congruence|]. assert (N : x <> feed /\ x <> tab_char) by (split; intros ->; [apply Hf|apply Ht]; left; reflexivity).
    destruct a as [|y0 a]; [injection E as E _; exfalso; apply (proj1 N); symmetry; exact E|].
    destruct a as [|y1 a]; [injection E as _ E _; exfalso; apply (proj2 N); symmetry; exact E|].
    destruct a as [|y2 a]; [injection E as _ _ E _; exfalso; apply (proj2 N); symmetry; exact E|].
    injection E as _ _ _ E. destruct (IH a E) as (a' & b' & ->). exists (feed :: a'), b'. reflexivity.
  - destruct a as [|y a].
    + destruct (begins_tab p Hf (c :: t)) as [r Hr]; [exists b; exact E|]. exists [], r. exact Hr.
    + rewrite tab_cons in E by (apply Ascii.eqb_neq; exact Hc). injection E as -> E. destruct (IH a E) as (a' & b' & ->). exists (y :: a'), b'. reflexivity.
Qed.
