(** The errors about the attributes of structs and of variants, continued. *)
From Verif Require Import LemWf LemWfD LemWfE LemSmall LemItems LemAttr.
From Verif Require Export LemDiag4.

Lemma entries_valid {env : Env} {O} (G : grammar O) s xs s' : entries_in G s xs s' -> Forall (valid G) xs.
Proof.
  induction 1 as [|s k sp s1 x s2 N K ER E|s k sp s1 x s2 c r xs s3 N K ER E C R IH]; constructor; auto; exact (proj1 (rest_valid _ _ _ _ _ _ ER)).
Qed.
Lemma entries_valid_all {env : Env} {O} (G : grammar O) l xs l' : entries_in_all G l xs l' -> Forall (valid G) xs.
Proof. induction 1; [constructor|]. apply Forall_app. split; auto. eapply entries_valid; eauto. Qed.
Lemma tried_st {O A} (G : grammar O) k (get : O -> option A) xs : Forall (valid G) xs ->
  fs_is_none (st_of k get xs) = negb (tried k xs).
Proof.
  intro V. rewrite Forall_forall in V. unfold st_of.
  assert (T : forall x, In x xs -> is_key k (entry_key x) = true -> match x with Good _ _ _ | Wrong _ _ _ => True | _ => False end -> tried k xs = true).
  { intros x I K G1. apply existsb_exists. exists x. split; auto. destruct x; auto; destruct G1. }
  assert (F : forall x, In x xs -> is_key k (entry_key x) = true -> match x with Good _ _ _ | Wrong _ _ _ => False | _ => True end -> tried k xs = false).
  { intros x I K G1. destruct (tried k xs) eqn:E; auto. apply existsb_exists in E as [y [J E]]. pose proof (V x I) as VX. pose proof (V y J) as VY.
    unfold is_key in *. destruct x as [kx sx ox|kx sx ex|kx sx mx|kx sx], y as [ky sy oy|ky sy ey|ky sy my|ky sy]; cbn [entry_key valid] in *; try discriminate E; try contradiction;
      apply String.eqb_eq in E; apply String.eqb_eq in K; subst; destruct VY; try destruct VX; congruence. }
  destruct (filter (fun x => is_key k (entry_key x)) xs) as [|y l] eqn:FI.
  - cbn. destruct (tried k xs) eqn:E; auto. apply existsb_exists in E as [y [J E]].
    assert (X : In y (filter (fun x => is_key k (entry_key x)) xs)); [|rewrite FI in X; destruct X].
    apply filter_In. split; auto. destruct y; auto; discriminate E.
  - assert (I : In y (filter (fun x => is_key k (entry_key x)) xs)) by (rewrite FI; now left). apply filter_In in I as [I E].
    destruct y as [ky sy oy|ky sy ey|ky sy my|ky sy].
    + rewrite (T _ I E Logic.I). destruct (get oy); reflexivity.
    + now rewrite (T _ I E Logic.I).
    + now rewrite (F _ I E Logic.I).
    + now rewrite (F _ I E Logic.I).
Qed.
(** *** Structs *)
Section S.
Context {env : Env}.
Variable sy : synlib.
Hypothesis SY : good_syn_lib sy.
Lemma rep_ds_init : rep_ds [] sst_init.
Proof. exists [], []. reflexivity. Qed.
Lemma l_struct_diag i gs fes xs : fields_read sy (ss_fields i) gs fes -> has_entries (grammar_s sy (ss_shape i) gs) (ss_attrs i) xs ->
  diagnosed (read_struct sy i) (problems_s sy (ss_shape i) gs fes xs).
Proof.
  intros FR [cs [cs' [C [W P]]]]. unfold read_struct. rewrite deluxe_items_ok.
  destruct (diag_read _ (struct_arm sy (ss_shape i) gs) (wb_struct_arm sy SY _ gs) rep_ds (struct_diag sy (ss_shape i) gs) cs xs cs' sst_init fes W rep_ds_init) as [st [RD [a [p ->]]]].
  apply (attrs_diag _ (fun _ => wbm_struct_body sy SY i) _ cs cs'); auto.
  unfold struct_body, pbind. rewrite (fields_diag sy SY _ _ _ FR). cbn [app]. rewrite RD. cbn [fst snd w_default w_crate w_transparent w_unknown w_attributes w_and_thens].
  split; [|reflexivity]. rewrite (tried_st (grammar_s sy (ss_shape i) gs)) by (eapply entries_valid_all; eauto).
  assert (FS : (if negb (tried "default" xs) then map skip_fill gs else gs) = fields_left gs xs).
  { unfold fields_left. destruct (tried "default" xs); cbn; auto. apply map_ext, filled_ok. }
  rewrite FS. unfold struct_checks. rewrite gaps_ok.
  pose proof (field_list_diag (fields_left gs xs) [] [] (fes ++ judged (grammar_s sy (ss_shape i) gs) xs) (fun _ => eq_refl)) as FL. cbn [existsb] in FL. rewrite FL.
  unfold problems_s. rewrite <- !app_assoc. apply check_diag.
Qed.
End S.

(** *** Variants *)
Definition get_vt (o : vopt) := match o with VTransparent x => Some x | _ => None end.
Definition get_vu (o : vopt) := match o with VUnknown x => Some x | _ => None end.
Definition get_vf (o : vopt) := match o with VFlatten x => Some x | _ => None end.
Definition get_vs (o : vopt) := match o with VSkip x => Some x | _ => None end.
Section V.
Context {env : Env}.
Lemma nd_v v gs : NoDup (map fst (gr_keys (grammar_v v gs))).
Proof. nodup. Qed.
Lemma nb_v v gs : NoDup (map fst (gr_barred (grammar_v v gs))).
Proof. unfold grammar_v. cbn [gr_barred]. destruct (sv_shape v); nodup. Qed.
Lemma barred_v v gs k : is_key "allow_unknown_fields" k = false -> listed_in k (map fst (gr_barred (grammar_v v gs))) = false.
Proof. intro H. unfold grammar_v. cbn [gr_barred]. destruct (sv_shape v); auto. cbn. unfold is_key in *. rewrite orb_false_r. rewrite String.eqb_sym in H. rewrite String.eqb_sym. now rewrite String.eqb_sym in H. Qed.
Definition own_v (v : src_variant) : option string := Some (fst (sv_ident v)).
Definition rep_dv v gs (before : list (aentry vopt)) (st : vst) : Prop :=
  exists n, names_st (grammar_v v gs) "variant" (own_v v) variant_name_of before n /\
    st = mkVst n (st_of "flatten" get_vf before) (st_of "transparent" get_vt before) (st_of "skip" get_vs before) (st_of "allow_unknown_fields" get_vu before).
Lemma other_names_v v gs before n x k sp s s' : names_st (grammar_v v gs) "variant" (own_v v) variant_name_of before n -> entry_rest (grammar_v v gs) k sp s x s' ->
  is_key "rename" k = false -> is_key "alias" k = false -> names_st (grammar_v v gs) "variant" (own_v v) variant_name_of (before ++ [x]) n.
Proof.
  intros N ER KR KA. destruct (rest_valid _ _ _ _ _ _ ER) as [_ K]. apply names_other; auto; try (rewrite K; auto).
  intros k' sp' o ->. cbn [entry_key] in K. subst k'. inversion ER as [p o' s1 B I P E1 E2| | |]; subst.
  unfold grammar_v in I. cbn [gr_keys In] in I.
  repeat (destruct I as [I|I]; [injection I as IK <-; subst k; apply pmap_inv in P as [[a|e|b] [_ P]]; try discriminate P; injection P as ->; first [reflexivity|discriminate KR|discriminate KA]|]). destruct I.
Qed.
Ltac st_f OT := f_equal; first [reflexivity|symmetry; apply OT; reflexivity].
Ltac rest_v OT := eexists; split; [reflexivity|]; eexists; split; [eapply other_names_v; eauto; fail|]; st_f OT.
Ltac slot_v C get nm k OT := erewrite (slot_diag _ (nd_v _ _) C get nm k);
    [rest_v OT|reflexivity|assumption|cbn; tauto| |reflexivity|reflexivity|reflexivity|reflexivity|assumption].
Lemma variant_diag v gs before k sp st es s x s' : rep_dv v gs before st -> Forall (valid (grammar_v v gs)) before -> entry_rest (grammar_v v gs) k sp s x s' -> ends (toks s') ->
  exists st', variant_arm v gs k sp st es s = (Ok (st', es ++ judge (grammar_v v gs) before x), s') /\ rep_dv v gs (before ++ [x]) st'.
Proof.
  intros [n [NS ->]] V ER EN. destruct (rest_valid _ _ _ _ _ _ ER) as [VX K].
  assert (OT : forall A k' (get : vopt -> option A), is_key k' k = false -> st_of k' get (before ++ [x]) = st_of k' get before).
  { intros A k' get E. apply st_other. now rewrite K. }
  clear K VX. unfold variant_arm.
  repeat match goal with |- context [String.eqb k ?y] => destruct (String.eqb_spec k y) as [E|] end; try subst k.
  - erewrite (slot_diag2 _ (nd_v v gs) VTransparent get_vt "transparent" "transparent" sp _ (unless_fault "variant" gs (d_named (option_dict (spanned_dict bool_dict)))));
      [rest_v OT|reflexivity|assumption|cbn; tauto|now apply barred_v|reflexivity|reflexivity|now apply item_fault|reflexivity|assumption].
  - assert (SH : sv_shape v <> ShUnnamed \/ sv_shape v = ShUnnamed) by (destruct (sv_shape v); auto; left; discriminate).
    destruct SH as [SH|SH].
    + assert (B : listed_in "allow_unknown_fields" (map fst (gr_barred (grammar_v v gs))) = false).
      { unfold grammar_v. cbn [gr_barred]. destruct (sv_shape v); auto. congruence. }
      assert (M : forall (a b : parser (vst * errors)), match sv_shape v with ShUnnamed => a | _ => b end = b) by (intros; destruct (sv_shape v); auto; congruence).
      rewrite M. slot_v VUnknown get_vu "allow_unknown_fields" "allow_unknown_fields" OT. exact B.
    + assert (B : gr_barred (grammar_v v gs) = [("allow_unknown_fields", "`allow_unknown_fields` not allowed on tuple variant")]).
      { unfold grammar_v. cbn [gr_barred]. now rewrite SH. }
      rewrite SH. erewrite (refuse_barred (grammar_v v gs)); [|apply nb_v|rewrite B; cbn; tauto|reflexivity|exact ER].
      eexists; split; [reflexivity|]; eexists; split; [eapply other_names_v; eauto; fail|].
      assert (B2 : listed_in "allow_unknown_fields" (map fst (gr_barred (grammar_v v gs))) = true) by now rewrite B.
      destruct (barred_entry _ _ _ _ _ _ ER B2) as [msg ->]. now rewrite !st_barred.
  - slot_v VFlatten get_vf "flatten" "flatten" OT. now apply barred_v.
  - unfold on_names.
    destruct (rename_diag (grammar_v v gs) "variant" (own_v v) variant_name_of VRename (nd_v v gs) (fun x => eq_refl) eq_refl ltac:(cbn; tauto) eq_refl eq_refl sp n es s x s' before NS V (barred_v v gs "rename" eq_refl) ER EN) as [n' [RA NS']].
    unfold own_v in RA. rewrite RA. cbn [rmap fst snd]. eexists; split; [reflexivity|]; exists n'; split; [exact NS'|st_f OT].
  - unfold on_names.
    assert (BB : listed_in "alias" (map fst (gr_barred (grammar_v v gs))) = listed_in "rename" (map fst (gr_barred (grammar_v v gs)))) by (now rewrite !barred_v).
    destruct (alias_diag (grammar_v v gs) "variant" (own_v v) variant_name_of VAlias (nd_v v gs) (fun x => eq_refl) eq_refl ltac:(cbn; tauto) eq_refl BB sp n es s x s' before NS (barred_v v gs "rename" eq_refl) ER) as [n' [RA NS']].
    unfold own_v in RA. rewrite RA. cbn [rmap fst snd]. eexists; split; [reflexivity|]; exists n'; split; [exact NS'|st_f OT].
  - slot_v VSkip get_vs "skip" "skip" OT. now apply barred_v.
  - assert (MS : mem_str k variant_attr_names = false) by strange.
    assert (KS : listed_in k (map fst (gr_keys (grammar_v v gs))) = false) by strange.
    assert (KB : listed_in k (map fst (gr_barred (grammar_v v gs))) = false) by (now apply barred_v, key_ne).
    rewrite (refuse_strange (grammar_v v gs) k sp _ es s x s' before variant_attr_names eq_refl MS KS KB ER).
    eexists; split; [reflexivity|]; eexists n; split; [eapply other_names_v; eauto; now apply key_ne|].
    rewrite !OT by (now apply key_ne). reflexivity.
Qed.
Lemma rep_dv_init v gs : rep_dv v gs [] vst_init.
Proof. eexists; split; [apply names_init|reflexivity]. Qed.
Lemma flat_span xs : span_if snd (flat_status (st_of "flatten" get_vf xs)) =
  option_map snd (first_value "flatten" (fun o => match o with VFlatten x => x | _ => None end) xs).
Proof.
  unfold st_of, first_value. destruct (filter _ xs) as [|[k sp o|k sp e|k sp m|k sp] l]; try reflexivity.
  destruct o as [x|x|[x|]|x|x|x]; reflexivity.
Qed.
Variable sy : synlib.
Hypothesis SY : good_syn_lib sy.
Lemma l_variant_diag v gs fes xs : snake_ok v -> fields_read sy (sv_fields v) gs fes -> has_entries (grammar_v v gs) (sv_attrs v) xs ->
  diagnosed (read_variant sy v) (problems_v v gs fes xs).
Proof.
  intros SN FR [cs [cs' [C [W P]]]]. unfold read_variant. rewrite deluxe_items_ok.
  destruct (diag_read _ (variant_arm v gs) (wb_variant_arm v gs) (rep_dv v gs) (variant_diag v gs) cs xs cs' vst_init fes W (rep_dv_init v gs)) as [st [RD [n [NS ->]]]].
  apply (attrs_diag _ (fun _ => wbm_variant_body sy SY v SN) _ cs cs'); auto.
  unfold variant_body, pbind. rewrite (fields_diag sy SY _ _ _ FR). cbn [app]. rewrite RD. cbn [fst snd].
  split; [|reflexivity].
  match goal with |- context [variant_idents v ?st] => assert (VI : exists ids, variant_idents v st = Ok ids) end.
  { apply snake_ok_text in SN. unfold variant_idents. rewrite SN. destruct (_ && _); eauto. }
  destruct VI as [ids ->]. cbn [rbind].
  replace (map skip_fill gs) with (map filled gs) by (symmetry; apply map_ext, filled_ok).
  unfold variant_checks. rewrite gaps_ok.
  unfold variant_only_one. cbn [x_flatten x_names]. rewrite !clash_ok, flat_span, (renamed_ok _ _ _ _ _ _ NS), (aliased_ok _ _ _ _ _ _ NS).
  match goal with |- context [container_checks ?fs false ?es] => pose proof (container_diag fs [] es) as FL end. cbn [existsb] in FL. rewrite FL.
  unfold problems_v, clashes_v. rewrite <- !app_assoc. apply check_diag.
Qed.
End V.
