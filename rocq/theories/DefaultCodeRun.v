(** Running the code of default values (proofs for C61, second part). *)
From Coq Require Import ZArith NArith Arith Ascii String List Bool Lia SpecFloat.
From Verif Require Import Cpp ParseSpec SortedMapModel Value ResponseModel ResponseSpec ResponseProofs LoaderModel GenServiceModel RequestTextModel RequestTextProofs DefaultCodeModel DefaultCodeProofs.
Import ListNotations.
Local Open Scope string_scope.
Local Open Scope list_scope.

(** The double that the compiler reads where the generator has written [f]. *)
Definition written_double (f : spec_float) : spec_float :=
  match lex Between (show_float f) with
  | Some ts => match float_value ts with Some (g, _) => g | None => S754_nan end
  | None => S754_nan
  end.

(** The tokens of the code. *)
Fixpoint default_tokens (v : value) : list token :=
  match v with
  | VMap members =>
      code_ "entry = []() { response::Value members(response::Type::Map); response::Value entry;"
      ++ flat_map (fun entry => default_tokens (snd entry) ++ code_ "members.emplace_back(" ++ [Str (chars (fst entry))] ++ code_ ", std::move(entry));") members
      ++ code_ "return members; }();"
  | VList elements =>
      code_ "entry = []() { response::Value elements(response::Type::List); response::Value entry;"
      ++ flat_map (fun entry => default_tokens entry ++ code_ "elements.emplace_back(std::move(entry));") elements
      ++ code_ "return elements; }();"
  | VString s _ => code_ "entry = response::Value(std::string(" ++ [RawStr (chars s)] ++ code_ "));"
  | VNull => code_ "entry = {}" ++ code_ ";"
  | VBool b => code_ (if b then "entry = response::Value(true" else "entry = response::Value(false") ++ code_ ");"
  | VInt z => code_ "entry = response::Value(static_cast<response::IntType>("
      ++ match z with Zneg p => [Punct "-"; Word (digits_of (Npos p))] | _ => [Word (digits_of (Z.to_N z))] end ++ code_ "));"
  | VFloat f => code_ "entry = response::Value(static_cast<response::FloatType>("
      ++ match lex Between (show_float f) with Some ts => ts | None => [] end ++ code_ "));"
  | VEnum s => (code_ "entry = response::Value(response::Type::EnumValue" ++ code_ ");")
      ++ code_ "entry.set<response::StringType>(" ++ [RawStr (chars s)] ++ code_ ");"
  | VScalar _ => []
  end.

(** Values that the code can carry: no raw string literal ends early, the numbers are those of int and finite doubles, the names of members are distinct and need no escapes. *)
Inductive writable : value -> Prop :=
| wr_map es : (forall n v, In (n, v) es -> writable v /\ forallb plain_char (chars n) = true) -> NoDup (map fst es) -> writable (VMap es)
| wr_list l : (forall v, In v l -> writable v) -> writable (VList l)
| wr_string s : ~ occurs closing (chars s) -> writable (VString s false)
| wr_null : writable VNull
| wr_bool b : writable (VBool b)
| wr_int z : in_int_range z = true -> writable (VInt z)
| wr_float f : is_finite f = true -> writable (VFloat f)
| wr_enum s : ~ occurs closing (chars s) -> writable (VEnum s).

(** ** The text has these tokens *)
Lemma gives_number w : lexs Between w = Some ([], InWord w) -> gives (w ++ chars "));") (Word w :: code_ "));").
Proof.
  intros L r. rewrite <- app_assoc, (lexs_lex w _ _ _ L), put_nil. cbn [list_ascii_of_string app].
  assert (C : continues w ")" = false) by (unfold continues; destruct w as [|d w]; [reflexivity|]; cbn; apply andb_false_r).
  rewrite (lex_cons (InWord w) ")" (")"%char :: ";"%char :: r) [Word w; Punct ")"] Between) by (cbn [lex_step]; rewrite C; reflexivity).
  rewrite (lex_cons Between ")" (";"%char :: r) [Punct ")"] Between) by reflexivity. rewrite (lex_cons Between ";" r [Punct ";"] Between) by reflexivity.
  rewrite !put_put. reflexivity.
Qed.
Lemma digits_lexs n : lexs Between (digits_of n) = Some ([], InWord (digits_of n)).
Proof.
  pose proof (digits_digits n) as D. destruct (digits_of n) as [|c r] eqn:E; [destruct (digits_some n E)|]. simpl in D. apply andb_true_iff in D as [Dc Dr]. now apply lexs_number.
Qed.
Lemma gives_minus w ts : gives w ts -> gives ("-"%char :: w) (Punct "-" :: ts).
Proof. intros H. change (gives (["-"%char] ++ w) ([Punct "-"] ++ ts)). apply gives_app; [closed|exact H]. Qed.
Lemma lex_word w : lexs Between w = Some ([], InWord w) -> lex Between w = Some [Word w].
Proof. intros H. rewrite <- (app_nil_r w) at 1. rewrite (lexs_lex w _ _ _ H []). reflexivity. Qed.
Lemma float_tokens f : is_finite f = true -> exists (s : bool) w g, lex Between (show_float f) = Some ((if s then [Punct "-"] else []) ++ [Word w]) /\
  gives (show_float f ++ chars "));") (((if s then [Punct "-"] else []) ++ [Word w]) ++ code_ "));") /\ double_literal w = Some g /\ written_double f = if s then SFopp g else g.
Proof.
  intros H. destruct (float_shape f H) as (s & w & E & N). destruct (numeral_double w N) as [g G]. pose proof (numeral_lexs w N) as L.
  assert (LX : lex Between (show_float f) = Some ((if s then [Punct "-"] else []) ++ [Word w])).
  { rewrite E. destruct s; cbn [show_sign app]; [|now apply lex_word]. rewrite (lex_cons Between "-" w [Punct "-"] Between) by reflexivity. rewrite (lex_word w L). reflexivity. }
  exists s, w, g. split; [exact LX|]. split.
  { rewrite E. destruct s; cbn [show_sign app]; [apply gives_minus|]; now apply gives_number. }
  split; [exact G|]. unfold written_double. rewrite LX. destruct s; cbn [app float_value]; rewrite G; reflexivity.
Qed.
Lemma gives_flat {A} (f : A -> text) (g : A -> list token) l : (forall x, In x l -> gives (f x) (g x)) -> gives (flat_map f l) (flat_map g l).
Proof.
  induction l as [|x l IH]; intros H; [apply gives_nil|]. cbn [flat_map]. apply gives_app; [apply H; now left|]. apply IH. intros y Hy. apply H. now right.
Qed.
Lemma gives_named c name : forallb plain_char (chars name) = true -> lexs Between (chars c) = Some (code_ c, Between) ->
  gives (chars c ++ """"%char :: chars name ++ chars """, std::move(entry));") (code_ c ++ [Str (chars name)] ++ code_ ", std::move(entry));").
Proof.
  intros H Hc. apply gives_app; [now apply gives_lexs|].
  change ("""" %char :: chars name ++ chars """, std::move(entry));") with (chars """" ++ chars name ++ chars """" ++ chars ", std::move(entry));").
  replace (chars """" ++ chars name ++ chars """" ++ chars ", std::move(entry));") with ((chars """" ++ chars name ++ chars """") ++ chars ", std::move(entry));") by (now rewrite <- !app_assoc).
  apply gives_app; [now apply gives_string|closed].
Qed.
Lemma default_gives v : writable v -> forall level, gives (default_code level v) (default_tokens v).
Proof.
  induction v as [es IH|l IH|s j| |b|z|f|s| |o IH] using value_ind'; intros W level; cbn [default_code default_tokens].
  - inversion W as [? H ND| | | | | | |]; subst.
    change (code_ "entry = []() { response::Value members(response::Type::Map); response::Value entry;") with
      (code_ "entry = []()" ++ code_ "{" ++ code_ "response::Value members(response::Type::Map);" ++ code_ "response::Value entry;" ++ []).
    change (code_ "return members; }();") with (code_ "return members;" ++ code_ "}();"). rewrite <- !app_assoc.
    repeat (apply gives_app; [first [apply gives_line; closed|apply gives_feed]|]). apply gives_app; [|apply gives_app; apply gives_line; closed].
    apply gives_flat. intros [n x] I. cbn [fst snd]. destruct (H n x I) as [Hx Hn]. rewrite Forall_forall in IH. apply gives_app; [exact (IH _ I Hx (S level))|].
    apply gives_line. exact (gives_named "members.emplace_back(" n Hn eq_refl).
  - inversion W as [|? H| | | | | |]; subst.
    change (code_ "entry = []() { response::Value elements(response::Type::List); response::Value entry;") with
      (code_ "entry = []()" ++ code_ "{" ++ code_ "response::Value elements(response::Type::List);" ++ code_ "response::Value entry;" ++ []).
    change (code_ "return elements; }();") with (code_ "return elements;" ++ code_ "}();"). rewrite <- !app_assoc.
    repeat (apply gives_app; [first [apply gives_line; closed|apply gives_feed]|]). apply gives_app; [|apply gives_app; apply gives_line; closed].
    apply gives_flat. intros x I. rewrite Forall_forall in IH. apply gives_app; [exact (IH _ I (H _ I) (S level))|]. apply gives_line. closed.
  - inversion W; subst. apply gives_line. apply gives_app; [closed|].
    replace (opening ++ chars s ++ closing ++ chars "));") with ((opening ++ chars s ++ closing) ++ chars "));") by (now rewrite <- !app_assoc). apply gives_app; [now apply gives_raw|closed].
  - apply gives_line. closed.
  - apply gives_line. destruct b; closed.
  - apply gives_line. apply gives_app; [closed|]. destruct z as [|p|p]; [exact (gives_number _ (digits_lexs 0))|exact (gives_number _ (digits_lexs (Npos p)))|].
    exact (gives_minus _ _ (gives_number _ (digits_lexs (Npos p)))).
  - inversion W; subst. apply gives_line. apply gives_app; [closed|]. destruct (float_tokens f) as (s & w & g & -> & G & _); [assumption|exact G].
  - inversion W; subst. apply gives_app; apply gives_line; [closed|]. apply gives_app; [closed|].
    replace (opening ++ chars s ++ closing ++ chars ");") with ((opening ++ chars s ++ closing) ++ chars ");") by (now rewrite <- !app_assoc). apply gives_app; [now apply gives_raw|closed].
  - inversion W.
  - inversion W.
Qed.

(** ** What the tokens do *)
Lemma after_app p r : after p (p ++ r) = Some r.
Proof.
  assert (T : forall t, text_eqb t t = true) by (induction t as [|c t IH]; simpl; [reflexivity|]; now rewrite Ascii.eqb_refl).
  induction p as [|a p IH]; [reflexivity|]. simpl. replace (token_eqb a a) with true; [exact IH|]. destruct a; simpl; rewrite ?T, ?Ascii.eqb_refl; reflexivity.
Qed.
Lemma exec_more f : forall fr ts out, exec f fr ts = Some out -> exec (S f) fr ts = Some out.
Proof.
  induction f as [|f IH]; intros fr ts out H; [discriminate|].
  cbn [exec] in H. cbn [exec]. destruct (read_statement ts) as [[[k t|x|s|k n|k] r]|]; [| | | | |exact H].
  - destruct (exec f (new_frame k t) r) as [[fr' r1]|] eqn:E; [|discriminate]. pose proof (IH _ _ _ E) as E'. cbn [exec] in E'. rewrite E'.
    destruct (after _ r1) as [r2|]; [|discriminate]. apply IH in H. exact H.
  - apply IH in H. exact H.
  - destruct (c_set_string _ s); try discriminate. apply IH in H. exact H.
  - destruct (String.eqb k (f_name fr)); [|discriminate]. destruct (c_emplace_back _ _ _) as [[c b]| |]; try discriminate. apply IH in H. exact H.
  - destruct (String.eqb k (f_name fr)); [|discriminate]. destruct (c_emplace_back_list _ _); try discriminate. apply IH in H. exact H.
Qed.
Lemma exec_mono f g fr ts out : f <= g -> exec f fr ts = Some out -> exec g fr ts = Some out.
Proof. intros L. induction L; auto. intros H. apply exec_more. auto. Qed.

(** The tokens leave [c] in the variable [entry]. *)
Definition carried (ts : list token) (c : cvalue) : Prop := forall fr rest f out, exec f (assign fr c) rest = Some out -> exec (List.length ts + f) fr (ts ++ rest) = Some out.

Definition named (pre : list token) (n : string) : list token := pre ++ [Str (chars n)] ++ code_ ", std::move(entry));".
Lemma exec_members {A} (tk : A -> list token) (val : A -> value) (name : A -> string) nm pre
    (Rd : forall n r, read_statement (named pre n ++ r) = Some (SMember nm n, r)) (Lp : 1 <= List.length pre) : forall es map ms e,
  (forall x, In x es -> exists c, abs c = val x /\ wf c /\ carried (tk x) c) -> wf (CMap map ms) -> NoDup (List.map fst map ++ List.map name es) ->
  exists map' ms' e', List.map (fun kv => (fst kv, abs (snd kv))) map' = List.map (fun kv => (fst kv, abs (snd kv))) map ++ List.map (fun x => (name x, val x)) es /\ wf (CMap map' ms') /\
    forall rest f out, exec f (mkFrame nm (CMap map' ms') e') rest = Some out ->
      exec (List.length (flat_map (fun x => tk x ++ named pre (name x)) es) + f) (mkFrame nm (CMap map ms) e) (flat_map (fun x => tk x ++ named pre (name x)) es ++ rest) = Some out.
Proof.
  induction es as [|x es IH]; intros map ms e H W ND.
  - exists map, ms, e. split; [simpl; now rewrite app_nil_r|]. split; [exact W|]. intros rest f out E. exact E.
  - destruct (H x (or_introl eq_refl)) as (c & Ac & Wc & Cc). inversion W as [? ? Wi Wx| | | | | | | | |]; subst.
    assert (NI : ~ In (name x) (List.map fst map)).
    { simpl in ND. apply NoDup_remove_2 in ND. intros I. apply ND. apply in_or_app. now left. }
    destruct (emplace_absent_c map ms (name x) c Wi NI) as (ms1 & E1 & Wi1).
    assert (W1 : wf (CMap (map ++ [(name x, c)]) ms1)).
    { constructor; [exact Wi1|]. intros n y I. apply in_app_or in I as [I|[[= <- <-]|[]]]; eauto. }
    destruct (IH (map ++ [(name x, c)]) ms1 (c_moved_from c)) as (map' & ms' & e' & Am & Wm & Ex); [intros y Hy; apply H; now right|exact W1| |].
    { rewrite map_app, <- app_assoc. exact ND. }
    exists map', ms', e'. split; [rewrite Am, map_app, <- app_assoc; simpl; rewrite Ac; reflexivity|]. split; [exact Wm|].
    intros rest f out E. apply Ex in E. cbn [flat_map]. rewrite <- !app_assoc. rewrite !app_length.
    set (toks := flat_map (fun x0 => tk x0 ++ named pre (name x0)) es) in *.
    rewrite <- Nat.add_assoc.
    apply Cc. apply exec_mono with (f := S (List.length toks + f)); [unfold named; rewrite !app_length; lia|].
    cbn [exec]. rewrite Rd. cbn [f_name assign f_container f_entry]. rewrite String.eqb_refl, E1. exact E.
Qed.
Lemma exec_elements {A} (tk : A -> list token) (val : A -> value) : forall es l e,
  (forall x, In x es -> exists c, abs c = val x /\ wf c /\ carried (tk x) c) -> wf (CList l) ->
  exists l' e', List.map abs l' = List.map abs l ++ List.map val es /\ wf (CList l') /\
    forall rest f out, exec f (mkFrame "elements" (CList l') e') rest = Some out ->
      exec (List.length (flat_map (fun x => tk x ++ code_ "elements.emplace_back(std::move(entry));") es) + f) (mkFrame "elements" (CList l) e)
        (flat_map (fun x => tk x ++ code_ "elements.emplace_back(std::move(entry));") es ++ rest) = Some out.
Proof.
  assert (Rd : forall r, read_statement (code_ "elements.emplace_back(std::move(entry));" ++ r) = Some (SElement "elements", r)) by (intros r; vm_compute; reflexivity).
  assert (Lp : 1 <= List.length (code_ "elements.emplace_back(std::move(entry));")) by (vm_compute; lia).
  set (put_back := code_ "elements.emplace_back(std::move(entry));") in *. clearbody put_back.
  induction es as [|x es IH]; intros l e H W.
  - exists l, e. split; [simpl; now rewrite app_nil_r|]. split; [exact W|]. intros rest f out E. exact E.
  - destruct (H x (or_introl eq_refl)) as (c & Ac & Wc & Cc). inversion W as [|? Wx| | | | | | | |]; subst.
    destruct (IH (l ++ [c]) (c_moved_from c)) as (l' & e' & Am & Wm & Ex); [intros y Hy; apply H; now right| |].
    { constructor. intros y I. apply in_app_or in I as [I|[<-|[]]]; auto. }
    exists l', e'. split; [rewrite Am, map_app, <- app_assoc; simpl; rewrite Ac; reflexivity|]. split; [exact Wm|].
    intros rest f out E. apply Ex in E. cbn [flat_map]. rewrite <- !app_assoc. rewrite !app_length.
    set (toks := flat_map (fun x0 => tk x0 ++ put_back) es) in *.
    rewrite <- Nat.add_assoc.
    apply Cc. apply exec_mono with (f := S (List.length toks + f)); [lia|].
    cbn [exec]. rewrite Rd. cbn [f_name assign f_container f_entry]. cbn [String.eqb Ascii.eqb Bool.eqb c_emplace_back_list]. exact E.
Qed.
Lemma carried_assign ts x : (forall r, read_statement (ts ++ r) = Some (SAssign x, r)) -> 1 <= List.length ts -> carried ts x.
Proof.
  intros R L fr rest f out E. apply exec_mono with (f := S f); [lia|]. cbn [exec]. rewrite R. exact E.
Qed.
Lemma statement_none ts : read_statement ts = None -> forall fr, exec 1 fr ts = Some (fr, ts).
Proof. intros H fr. cbn [exec]. now rewrite H. Qed.
Lemma string_back s : string_of_list_ascii (chars s) = s.
Proof. apply string_of_list_ascii_of_string. Qed.
Lemma read_made {A} before (read : list token -> option (A * list token)) behind x ts r : (forall q, read (ts ++ q) = Some (x, q)) ->
  read_between before read behind (code_ before ++ ts ++ code_ behind ++ r) = Some (x, r).
Proof. intros H. unfold read_between. rewrite after_app, H, after_app. reflexivity. Qed.
Ltac skip_alternative := match goal with |- orelse ?a _ = _ => replace a with (@None (statement * list token)) by (vm_compute; reflexivity); cbn [orelse] end.
Lemma read_int z r : in_int_range z = true -> read_statement (default_tokens (VInt z) ++ r) = Some (SAssign (CInt z), r).
Proof.
  intros H. cbn [default_tokens]. set (num := match z with Zneg p => _ | _ => _ end).
  assert (V : forall q, int_value (num ++ q) = Some (z, q)).
  { intros q. subst num. destruct z as [|p|p]; cbn [app int_value]; rewrite ?number_digits; reflexivity. }
  rewrite <- !app_assoc. unfold read_statement.
  clearbody num. do 5 skip_alternative.
  rewrite (read_made _ int_value _ z num r V). rewrite H. reflexivity.
Qed.
Lemma read_float f g ts r : lex Between (show_float f) = Some ts -> (forall q, float_value (ts ++ q) = Some (g, q)) ->
  read_statement (default_tokens (VFloat f) ++ r) = Some (SAssign (CFloat g), r).
Proof.
  intros E V. cbn [default_tokens]. rewrite E, <- !app_assoc. clear E. unfold read_statement. do 6 skip_alternative.
  rewrite (read_made _ float_value _ g ts r V). reflexivity.
Qed.
Lemma exec_default v : writable v -> exists c, abs c = in_source written_double v /\ wf c /\ carried (default_tokens v) c.
Proof.
  induction v as [es IH|l IH|s j| |b|z|f|s| |o IH] using value_ind'; intros W; cbn [in_source].
  - inversion W as [? H ND| | | | | | |]; subst. rewrite Forall_forall in IH.
    set (tk := fun e : string * value => default_tokens (snd e)).
    destruct (exec_members tk (fun e => in_source written_double (snd e)) fst "members" (code_ "members.emplace_back(")) with (es := es) (map := @nil (string * cvalue)) (ms := @nil nat) (e := CNull)
      as (map' & ms' & e' & Am & Wm & Ex).
    { intros n r. rewrite <- (string_back n) at 2. unfold named. rewrite <- !app_assoc. generalize (chars n). intros k. vm_compute. reflexivity. }
    { vm_compute. lia. }
    { intros [n x] I. exact (IH _ I (proj1 (H n x I))). }
    { apply (built_wf (cnew TMap)). constructor. }
    { exact ND. }
    exists (CMap map' ms'). split; [cbn [abs]; rewrite Am; reflexivity|]. split; [exact Wm|].
    intros fr rest f out E. cbn [default_tokens].
    set (body := flat_map (fun x => tk x ++ named (code_ "members.emplace_back(") (fst x)) es) in *.
    change (flat_map (fun entry => default_tokens (snd entry) ++ code_ "members.emplace_back(" ++ [Str (chars (fst entry))] ++ code_ ", std::move(entry));") es) with body.
    rewrite <- !app_assoc, !app_length.
    apply exec_mono with (f := S (S (List.length body + f))); [assert (1 <= List.length (code_ "return members; }();") /\ 1 <= List.length (code_ "entry = []() { response::Value members(response::Type::Map); response::Value entry;")) by (vm_compute; lia); lia|].
    remember (S (List.length body + f)) as k eqn:Ek. cbn [exec].
    assert (Rl : forall r, read_statement (code_ "entry = []() { response::Value members(response::Type::Map); response::Value entry;" ++ r) = Some (SLambda "members" TMap, r)) by (intros r; vm_compute; reflexivity).
    rewrite Rl. rewrite (exec_mono (List.length body + 1) k _ _ (mkFrame "members" (CMap map' ms') e', code_ "return members; }();" ++ rest)); [|lia|].
    2: { apply Ex. apply statement_none. vm_compute. reflexivity. }
    change (code_ "return members; }();") with (code_ "return" ++ [Word (chars "members")] ++ code_ "; }();"). rewrite after_app. cbn [f_container].
    apply exec_mono with (f := f); [lia|exact E].
  - inversion W as [|? H| | | | | |]; subst. rewrite Forall_forall in IH.
    destruct (exec_elements default_tokens (in_source written_double) l [] CNull) as (l' & e' & Am & Wm & Ex).
    { intros x I. exact (IH _ I (H x I)). }
    { constructor. intros x []. }
    exists (CList l'). split; [cbn [abs]; rewrite Am; reflexivity|]. split; [exact Wm|].
    intros fr rest f out E. cbn [default_tokens]. set (body := flat_map _ l) in *. rewrite <- !app_assoc, !app_length.
    apply exec_mono with (f := S (S (List.length body + f))); [assert (1 <= List.length (code_ "return elements; }();") /\ 1 <= List.length (code_ "entry = []() { response::Value elements(response::Type::List); response::Value entry;")) by (vm_compute; lia); lia|].
    remember (S (List.length body + f)) as k eqn:Ek. cbn [exec].
    assert (Rl : forall r, read_statement (code_ "entry = []() { response::Value elements(response::Type::List); response::Value entry;" ++ r) = Some (SLambda "elements" TList, r)) by (intros r; vm_compute; reflexivity).
    rewrite Rl. rewrite (exec_mono (List.length body + 1) k _ _ (mkFrame "elements" (CList l') e', code_ "return elements; }();" ++ rest)); [|lia|].
    2: { apply Ex. apply statement_none. vm_compute. reflexivity. }
    change (code_ "return elements; }();") with (code_ "return" ++ [Word (chars "elements")] ++ code_ "; }();"). rewrite after_app. cbn [f_container].
    apply exec_mono with (f := f); [lia|exact E].
  - inversion W; subst. exists (CString s false). split; [reflexivity|]. split; [constructor|]. apply carried_assign; [|vm_compute; lia].
    intros r. rewrite <- (string_back s) at 2. cbn [default_tokens]. generalize (chars s). intros k. vm_compute. reflexivity.
  - exists CNull. split; [reflexivity|]. split; [constructor|]. apply carried_assign; [intros r; vm_compute; reflexivity|vm_compute; lia].
  - exists (CBool b). split; [reflexivity|]. split; [constructor|]. destruct b; (apply carried_assign; [intros r; vm_compute; reflexivity|vm_compute; lia]).
  - inversion W; subst. exists (CInt z). split; [reflexivity|]. split; [constructor|]. apply carried_assign; [intros r; now apply read_int|].
    cbn [default_tokens]. rewrite app_length. assert (1 <= List.length (code_ "entry = response::Value(static_cast<response::IntType>(")) by (vm_compute; lia). lia.
  - inversion W as [| | | | | |? Fi|]; subst. destruct (float_tokens f Fi) as (s & w & g & E & _ & G & Wd).
    exists (CFloat (written_double f)). split; [reflexivity|]. split; [constructor|]. apply carried_assign.
    + intros r. apply (read_float f (written_double f) _ r E). intros q. rewrite Wd. destruct s; cbn [app float_value]; rewrite G; reflexivity.
    + cbn [default_tokens]. rewrite app_length. assert (1 <= List.length (code_ "entry = response::Value(static_cast<response::FloatType>(")) by (vm_compute; lia). lia.
  - inversion W; subst. exists (CEnum s). split; [reflexivity|]. split; [constructor|].
    intros fr rest f out E. apply exec_mono with (f := S (S f)); [cbn [default_tokens]; rewrite !app_length; assert (1 <= List.length (code_ "entry = response::Value(response::Type::EnumValue") /\ 1 <= List.length (code_ ");")) by (vm_compute; lia); lia|].
    cbn [default_tokens]. rewrite <- (app_assoc (_ ++ _)). cbn [exec].
    assert (R1 : forall r, read_statement ((code_ "entry = response::Value(response::Type::EnumValue" ++ code_ ");") ++ r) = Some (SAssign (cnew TEnumValue), r)) by (intros r; vm_compute; reflexivity).
    assert (R2 : forall r, read_statement ((code_ "entry.set<response::StringType>(" ++ [RawStr (chars s)] ++ code_ ");") ++ r) = Some (SSet s, r)).
    { intros r. rewrite <- (string_back s) at 2. generalize (chars s). intros k. vm_compute. reflexivity. }
    rewrite R1, R2. cbn [assign f_name f_container f_entry cnew c_set_string]. exact E.
  - inversion W.
  - inversion W.
Qed.
