(** clientgen's schema is the declared one (for C53). *)
From Coq Require Import Permutation.
From Verif Require Import Cpp Value Ast ModifiersModel SortedMapModel SchemaModel RegistryModel RegistrySpec RegistryProofs RegistryProps
  IntroModel IntroSpec LoaderModel LoaderSpec GenModel GenSpec GenRun GenEval GenLoad GenDecl GenMain ClientSchemaModel ClientSchemaProofs.
Local Open Scope string_scope.
Local Open Scope list_scope.

Lemma new_lookup {X} (name : X -> string) (l : list X) (new : list (string * address)) : map fst new = map name l -> NoDup (map name l) ->
  forall t, In t l -> exists a, assoc (name t) new = Some a /\ In (name t, a) new.
Proof.
  intros E Hn t Ht. assert (Hi : In (name t) (map fst new)) by (rewrite E; apply in_map, Ht). apply in_map_iff in Hi as ([n a] & En & Hi). cbn [fst] in En. subst n.
  exists a. split; [|exact Hi]. apply assoc_nodup; [rewrite E; exact Hn|exact Hi].
Qed.
Lemma client_schema b l A r : good (map fst (ps_types A)) l -> rep b r [] A [] ->
  exists r', client_add_types l r = Ok r' /\
    rep b r' [] (mkPS (ps_types A ++ loaded_types false l) (last_operation is_q (ps_query A) (l_operations l)) (last_operation is_m (ps_mutation A) (l_operations l))
                   (last_operation is_s (ps_subscription A) (l_operations l)) (ps_directives A ++ map (dir_def false) (l_directives l))) [].
Proof.
  intros G R. assert (Hn := gd_names _ _ G). unfold loaded_names in Hn. unfold client_add_types.
  rewrite !app_assoc in Hn.
  assert (N5 := Hn). assert (N4 := nodup_app_l _ _ N5). assert (N3 := nodup_app_l _ _ N4). assert (N2 := nodup_app_l _ _ N3). assert (N1 := nodup_app_l _ _ N2). assert (N0 := nodup_app_l _ _ N1).
  assert (R0 := declare_scalars_ok b (l_scalars l) r A R N0).
  set (r0 := declare_scalars r (l_scalars l)) in *. set (A0 := with_types A (ps_types A ++ map _ (l_scalars l))) in *.
  assert (E0 : map fst (ps_types A0) = map fst (ps_types A) ++ map sc_type (l_scalars l)) by (unfold A0; cbn [ps_types with_types]; rewrite map_app, map_map; reflexivity).
  destruct (declare_types_ok b ENUM et_type et_desc eq_refl (l_enums l) r0 [] [] A0 R0) as (r1 & m1 & D1 & M1 & R1); [rewrite E0; exact N1|intros ? ? []|].
  cbn [app] in D1, R1. rewrite D1. set (A1 := with_types A0 _) in R1.
  assert (E1 : map fst (ps_types A1) = map fst (ps_types A0) ++ map et_type (l_enums l)) by (unfold A1; cbn [ps_types with_types]; rewrite map_app, map_map; reflexivity).
  destruct (declare_types_ok b INPUT_OBJECT it_type it_desc eq_refl (l_inputs l) r1 [] m1 A1 R1) as (r2 & m2 & D2 & M2 & R2); [rewrite E1, E0; exact N2|intros ? ? []|].
  cbn [app] in D2. rewrite D2. set (A2 := with_types A1 _) in R2.
  assert (E2 : map fst (ps_types A2) = map fst (ps_types A1) ++ map it_type (l_inputs l)) by (unfold A2; cbn [ps_types with_types]; rewrite map_app, map_map; reflexivity).
  destruct (declare_types_ok b UNION un_type un_desc eq_refl (l_unions l) r2 [] (m1 ++ m2) A2 R2) as (r3 & m3 & D3 & M3 & R3); [rewrite E2, E1, E0; exact N3|intros ? ? []|].
  cbn [app] in D3. rewrite D3. set (A3 := with_types A2 _) in R3.
  assert (E3 : map fst (ps_types A3) = map fst (ps_types A2) ++ map un_type (l_unions l)) by (unfold A3; cbn [ps_types with_types]; rewrite map_app, map_map; reflexivity).
  destruct (declare_types_ok b INTERFACE if_type if_desc eq_refl (l_interfaces l) r3 [] ((m1 ++ m2) ++ m3) A3 R3) as (r4 & m4 & D4 & M4 & R4); [rewrite E3, E2, E1, E0; exact N4|intros ? ? []|].
  cbn [app] in D4. rewrite D4. set (A4 := with_types A3 _) in R4.
  assert (E4 : map fst (ps_types A4) = map fst (ps_types A3) ++ map if_type (l_interfaces l)) by (unfold A4; cbn [ps_types with_types]; rewrite map_app, map_map; reflexivity).
  destruct (declare_types_ok b OBJECT ob_type ob_desc eq_refl (l_objects l) r4 [] (((m1 ++ m2) ++ m3) ++ m4) A4 R4) as (r5 & m5 & D5 & M5 & R5); [rewrite E4, E3, E2, E1, E0; exact N5|intros ? ? []|].
  cbn [app] in D5. rewrite D5. set (A5 := with_types A4 _) in R5. set (e := ((((m1 ++ m2) ++ m3) ++ m4) ++ m5)) in R5.
  clear D1 D2 D3 D4 D5 R0 R1 R2 R3 R4 R.
  assert (Et : ps_types A5 = ps_types A ++ fresh_types false l).
  { unfold A5, A4, A3, A2, A1, A0, fresh_types. cbn [ps_types with_types]. rewrite <- !app_assoc. reflexivity. }
  assert (Ee : map fst e = map et_type (l_enums l) ++ map it_type (l_inputs l) ++ map un_type (l_unions l) ++ map if_type (l_interfaces l) ++ map ob_type (l_objects l)).
  { unfold e. rewrite !map_app, M1, M2, M3, M4, M5, <- !app_assoc. reflexivity. }
  assert (Hne : NoDup (map fst e)) by (rewrite Ee; rewrite <- !app_assoc in Hn; apply nodup_app_r in Hn; apply nodup_app_r in Hn; exact Hn).
  assert (Hnames : map fst (signature A5) = map fst (ps_types A) ++ loaded_names l).
  { rewrite signature_names, Et, map_app, fresh_names. reflexivity. }
  assert (Hsig : forall n k d, In (n, new_def k d) (fresh_types false l) -> assoc n (signature A5) = Some k).
  { intros n k d Hin. apply assoc_nodup; [rewrite Hnames; exact (gd_names _ _ G)|]. unfold signature. rewrite Et. apply in_map_iff. exists (n, new_def k d).
    split; [reflexivity|]. apply in_or_app. auto. }
  assert (Hne' := Hne). rewrite Ee in Hne'.
  assert (K1 := nodup_app_l _ _ Hne'). apply nodup_app_r in Hne'. assert (K2 := nodup_app_l _ _ Hne'). apply nodup_app_r in Hne'. assert (K3 := nodup_app_l _ _ Hne'). apply nodup_app_r in Hne'.
  assert (K4 := nodup_app_l _ _ Hne'). assert (K5 := nodup_app_r _ _ Hne'). clear Hne'.
  assert (Se : forall t, In t (l_enums l) -> assoc (et_type t) (signature A5) = Some ENUM).
  { intros t Ht. apply (Hsig _ _ (et_desc t)). unfold fresh_types. rewrite !in_app_iff. right. left. apply in_map_iff. exists t. auto. }
  assert (Si : forall t, In t (l_inputs l) -> assoc (it_type t) (signature A5) = Some INPUT_OBJECT).
  { intros t Ht. apply (Hsig _ _ (it_desc t)). unfold fresh_types. rewrite !in_app_iff. right. right. left. apply in_map_iff. exists t. auto. }
  assert (Su : forall t, In t (l_unions l) -> assoc (un_type t) (signature A5) = Some UNION).
  { intros t Ht. apply (Hsig _ _ (un_desc t)). unfold fresh_types. rewrite !in_app_iff. right. right. right. left. apply in_map_iff. exists t. auto. }
  assert (Sf : forall t, In t (l_interfaces l) -> assoc (if_type t) (signature A5) = Some INTERFACE).
  { intros t Ht. apply (Hsig _ _ (if_desc t)). unfold fresh_types. rewrite !in_app_iff. right. right. right. right. left. apply in_map_iff. exists t. auto. }
  assert (So : forall t, In t (l_objects l) -> assoc (ob_type t) (signature A5) = Some OBJECT).
  { intros t Ht. apply (Hsig _ _ (ob_desc t)). unfold fresh_types. rewrite !in_app_iff. right. right. right. right. right. apply in_map_iff. exists t. auto. }
  assert (I1 : forall x, In x m1 -> In x e) by (intros x Hx; unfold e; rewrite !in_app_iff; auto).
  assert (I2 : forall x, In x m2 -> In x e) by (intros x Hx; unfold e; rewrite !in_app_iff; auto).
  assert (I3 : forall x, In x m3 -> In x e) by (intros x Hx; unfold e; rewrite !in_app_iff; auto).
  assert (I4 : forall x, In x m4 -> In x e) by (intros x Hx; unfold e; rewrite !in_app_iff; auto).
  assert (I5 : forall x, In x m5 -> In x e) by (intros x Hx; unfold e; rewrite !in_app_iff; auto).
  destruct (for_each_ok b e (signature A5) (enum_details m1) (enum_updates false) (l_enums l)) with (A := A5) (r := r5) as (r6 & F6 & R6 & S6); [|reflexivity|exact R5|].
  { intros t Ht. destruct (new_lookup et_type _ _ M1 K1 t Ht) as (a & H1 & H2). apply (enum_step b e _ m1 t a H1 (I1 _ H2) (Se t Ht)). }
  destruct (for_each_ok b e (signature A5) (input_details m2) (input_updates false) (l_inputs l)) with (A := with_types A5 (updated (all_updates (flat_map (enum_updates false) (l_enums l))) (ps_types A5))) (r := r6) as (r7 & F7 & R7 & S7); [|exact S6|exact R6|].
  { intros t Ht. destruct (new_lookup it_type _ _ M2 K2 t Ht) as (a & H1 & H2). apply (input_step b e _ m2 t a H1 (I2 _ H2) (Si t Ht)). intros f Hf. rewrite Hnames. exact (gd_inputs _ _ G t f Ht Hf). }
  edestruct (for_each_ok b e (signature A5) (union_details m3) union_updates (l_unions l)) as (r8 & F8 & R8 & S8); [|exact S7|exact R7|].
  { intros t Ht. destruct (new_lookup un_type _ _ M3 K3 t Ht) as (a & H1 & H2). apply (union_step b e _ m3 t a H1 (I3 _ H2) (Su t Ht)). intros f Hf. rewrite Hnames. exact (gd_options _ _ G t f Ht Hf). }
  edestruct (for_each_ok b e (signature A5) (interface_details m4) (interface_updates false) (l_interfaces l)) as (r9 & F9 & R9 & S9); [|exact S8|exact R8|].
  { intros t Ht. destruct (new_lookup if_type _ _ M4 K4 t Ht) as (a & H1 & H2). apply (interface_step b e _ m4 t a H1 (I4 _ H2) (Sf t Ht)). intros f Hf. rewrite Hnames. exact (gd_interface_fields _ _ G t f Ht Hf). }
  edestruct (for_each_ok b e (signature A5) (object_details m4 m5) (object_updates false) (l_objects l)) as (r10 & F10 & R10 & S10); [|exact S9|exact R9|].
  { intros t Ht. destruct (new_lookup ob_type _ _ M5 K5 t Ht) as (a & H1 & H2). apply (object_step b e _ m4 m5 t a Hne H1 (I5 _ H2) (So t Ht)).
    - intros i Hi. assert (Hi' := gd_interfaces _ _ G t i Ht Hi). apply in_map_iff in Hi' as (x & <- & Hx). destruct (new_lookup if_type _ _ M4 K4 x Hx) as (p & P1 & P2). exists p. auto.
    - intros f Hf. rewrite Hnames. exact (gd_object_fields _ _ G t f Ht Hf). }
  edestruct (directives_ok b e (signature A5) (l_directives l)) as (r11 & F11 & R11); [|exact S10|exact R10|].
  { intros d f Hd Hf. rewrite Hnames. exact (gd_directives _ _ G d f Hd Hf). }
  edestruct (operations_ok b e (signature A5) m5 Hne (l_operations l)) as (r12 & F12 & R12); [| |exact R11|].
  { intros o Ho. destruct (gd_operations _ _ G o Ho) as (t & Ht & <- & _). destruct (new_lookup ob_type _ _ M5 K5 t Ht) as (a & H1 & H2). exists a. auto. }
  { exact S10. }
  exists r12. rewrite F6. cbn [bind]. rewrite F7. cbn [bind]. rewrite F8. cbn [bind]. rewrite F9. cbn [bind]. rewrite F10. cbn [bind]. rewrite F11. cbn [bind]. split; [exact F12|].
  apply rep_no_env in R12. cbn [ps_types with_types ps_query ps_mutation ps_subscription ps_directives] in R12. rewrite <- (final_types false A l G), <- Et.
  assert (Eu : forall T, updated (all_updates (detail_updates false l)) T = updated (all_updates (flat_map (object_updates false) (l_objects l)))
    (updated (all_updates (flat_map (interface_updates false) (l_interfaces l))) (updated (all_updates (flat_map union_updates (l_unions l)))
    (updated (all_updates (flat_map (input_updates false) (l_inputs l))) (updated (all_updates (flat_map (enum_updates false) (l_enums l))) T))))).
  { intros T. unfold updated, detail_updates. rewrite !map_map. apply map_ext. intros [n d]. cbn [fst snd]. rewrite !all_updates_app. reflexivity. }
  rewrite Eu. exact R12.
Qed.
