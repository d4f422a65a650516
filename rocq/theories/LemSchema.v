(** Lemmas about the front end of the derive: it is well behaved, and what an accepted
    attribute list says. *)
From Verif Require Import LemWf LemWfD LemWfE LemSmall LemEnum4 SpecSmall.
From Verif Require Import LemSnake.
From Verif Require Export SpecSchema.

Section W.
Context {env : Env}.

Definition wb_arm {St} (arm : string -> span -> St -> errors -> parser (St * errors)) : Prop :=
  forall k sp st es, well_behaved (arm k sp st es).

Lemma wb_slot {St A} nm sp (p : string -> span -> parser A) v (set : fstatus A -> St) es :
  (forall n sp, well_behaved (p n sp)) -> well_behaved (slot nm sp p v set es).
Proof.
  intros H s. unfold slot, fs_parse_named. destruct (H nm sp s) as [H1 H2].
  destruct (p nm sp s) as [[a|e|b] s1]; cbn [fst snd rmap returns] in *; auto.
  split; auto. eapply adv_trans; eauto using adv_skip.
Qed.
Lemma wb_collect {St A} (st : St) (p : parser A) add es :
  well_behaved p -> well_behaved (collect st p add es).
Proof.
  intros H s. unfold collect. destruct (H s) as [H1 H2].
  destruct (p s) as [[a|e|b] s1]; cbn [fst snd returns] in *; auto.
  split; auto. eapply adv_trans; eauto using adv_skip.
Qed.
Lemma wb_refuse {St} (st : St) es : well_behaved (refuse st es).
Proof. intro s. unfold refuse. cbn. split; auto. apply adv_skip. Qed.
Lemma wb_same {St} (st : St) (es : errors) : well_behaved (fun s => (Ok (st, es), s)).
Proof. intro s. cbn. split; auto. apply adv_refl. Qed.
Lemma wbm_read_items {St} (arm : string -> span -> St -> errors -> parser (St * errors)) st es :
  wb_arm arm -> well_behaved_m (read_items arm st es).
Proof.
  intros H l. unfold read_items.
  pose proof (parse_struct_good (fun _ : St * errors => True)
    (fun k sp q s => match arm k sp (fst q) (snd q) s with
                     | (Ok q1, s1) => (Ok tt, q1, s1)
                     | (Err e, s1) => (Err e, q, s1)
                     | (Bad b, s1) => (Bad b, q, s1) end)) as G.
  assert (F : good_func (fun _ : St * errors => True)
    (fun k sp q s => match arm k sp (fst q) (snd q) s with
                     | (Ok q1, s1) => (Ok tt, q1, s1)
                     | (Err e, s1) => (Err e, q, s1)
                     | (Bad b, s1) => (Bad b, q, s1) end)).
  { intros k sp q s _. destruct (H k sp (fst q) (snd q) s) as [H1 H2].
    destruct (arm k sp (fst q) (snd q) s) as [[a|e|b] s1]; cbn [fst snd returns] in *; auto. }
  specialize (G F l (st, es) Logic.I). cbv zeta in G. destruct G as [A1 [_ A2]].
  destruct (parse_struct _ (st, es) l) as [[[u|e|b] q] l1]; cbn [fst snd returns] in *; auto.
Qed.

Lemma wb_all_tokens : well_behaved all_tokens.
Proof. intro s. unfold all_tokens. cbn. split; auto. apply adv_set. exists (toks s). now rewrite app_nil_r. Qed.
Lemma good_default : good_dict default_dict.
Proof. apply good_item_flag; intros; [apply wb_map, wb_all_tokens|exact Logic.I]. Qed.
Lemma wb_bool_or {A} (lit : bool -> span -> A) inline m :
  (forall m, well_behaved_m (inline m)) -> well_behaved (bool_or_braces lit inline m).
Proof.
  intros H s. unfold bool_or_braces. destruct (peek_lit sel_bool s).
  - apply wb_map. apply wb_lit.
  - destruct (peek_group Brace s).
    + apply wb_delimited, wb_single. auto.
    + cbn. split; auto. apply adv_refl.
Qed.
Lemma wbm_inline_gen {St A} (arm : string -> span -> St -> errors -> parser (St * errors)) st es
      (out : St -> list stream -> A) : wb_arm arm ->
  well_behaved_m (fun inputs =>
    (q <- read_items arm st es ;;
     fun l => (rmap (fun _ => out (fst q) inputs) (check (snd q)), l)) inputs).
Proof.
  intros H l0. apply (wbm_bind (read_items arm st es)
    (fun q l => (rmap (fun _ => out (fst q) l0) (check (snd q)), l))).
  - now apply wbm_read_items.
  - intros q l. cbn [fst snd]. split; [apply returns_rmap, returns_check|apply advs_refl].
Qed.
Lemma good_flatten : good_dict flatten_dict.
Proof.
  assert (L : forall m, well_behaved_m (flatten_inline m)).
  { intros m. unfold flatten_inline.
    apply (wbm_inline_gen flatten_arm FNone []
             (fun st inputs => mkFlatten (to_full_span m inputs) true (fs_into_option st))).
    intros k sp st es. unfold flatten_arm. destruct (String.eqb k "prefix").
    - apply wb_slot. intros. apply (gd_named _ good_any_path).
    - apply wb_refuse. }
  apply good_full; intros; auto; try exact Logic.I. now apply wb_bool_or.
Qed.
Lemma good_transparent_d : good_dict transparent_dict.
Proof.
  assert (L : forall m, well_behaved_m (transparent_inline m)).
  { intros m. unfold transparent_inline.
    apply (wbm_inline_gen transparent_arm (mkTst FNone FNone FNone FNone) []
             (fun t inputs => mkTransparent (to_full_span m inputs) true (fs_into_option (t_fn t))
                                            (fs_into_option (t_fu t)) (fs_into_option (t_append t))
                                            (fs_into_option (t_rest t)))).
    intros k sp st es. unfold transparent_arm.
    repeat match goal with |- well_behaved (if ?b then _ else _) => destruct b end;
      try apply wb_refuse; apply wb_slot; intros; apply (gd_named _ good_bool). }
  apply good_full; intros; auto; try exact Logic.I. now apply wb_bool_or.
Qed.

Variable sy : synlib.
Hypothesis SY : good_syn_lib sy.

Lemma good_container_d : good_dict (container_dict sy).
Proof.
  destruct SY as [S1 [S2 [S3 S4]]].
  assert (L : forall m, well_behaved_m (container_inline sy m)).
  { intros m. unfold container_inline.
    apply (wbm_inline_gen (container_arm sy) (mkCst FNone FNone) []
             (fun t inputs => mkContainer (to_full_span m inputs) true (fs_into_option (c_lifetime t))
                                          (fs_into_option (c_ty t)))).
    intros k sp st es. unfold container_arm.
    repeat match goal with |- well_behaved (if ?b then _ else _) => destruct b end;
      try apply wb_refuse; apply wb_slot; intros; apply gd_named, good_syn; auto. }
  apply good_full; intros; auto; try exact Logic.I. now apply wb_bool_or.
Qed.
Lemma good_sv_bool : good_dict sv_bool.
Proof. apply good_spanned, good_bool. Qed.
Lemma good_opt_bool : good_dict opt_bool.
Proof. apply good_option, good_sv_bool. Qed.

Lemma wb_on_names {St} (set : nst -> St) p : well_behaved p -> well_behaved (on_names set p).
Proof.
  intros H s. unfold on_names. destruct (H s) as [H1 H2].
  destruct (p s) as [[a|e|b] s1]; cbn [fst snd rmap returns] in *; auto.
Qed.
Lemma wb_rename what own sp n es : well_behaved (rename_arm what own sp n es).
Proof.
  intro s. unfold rename_arm. destruct (gd_named _ good_ident "rename" sp s) as [H1 H2].
  destruct (d_named ident_dict "rename" sp s) as [[x|e|b] s1]; cbn [fst snd returns] in *; auto.
  - destruct (match own with Some o => _ | None => _ end); [|destruct (has_name x (n_idents n))];
      cbn [fst snd returns]; split; auto; eapply adv_trans; eauto using adv_skip.
  - split; auto. eapply adv_trans; eauto using adv_skip.
Qed.
Lemma wb_alias what own sp n es : well_behaved (alias_arm what own sp n es).
Proof.
  intro s. unfold alias_arm. destruct (gd_named _ good_ident "alias" sp s) as [H1 H2].
  destruct (d_named ident_dict "alias" sp s) as [[x|e|b] s1]; cbn [fst snd returns] in *; auto.
  - destruct (match own with Some o => _ | None => _ end); [|destruct (has_name x (n_idents n))];
      cbn [fst snd returns]; split; auto; eapply adv_trans; eauto using adv_skip.
  - split; auto. eapply adv_trans; eauto using adv_skip.
Qed.

Ltac arms := repeat match goal with |- well_behaved (if ?b then _ else _) => destruct b end;
  try apply wb_refuse; try apply wb_same;
  try (apply wb_on_names; first [apply wb_rename | apply wb_alias]);
  try (apply wb_slot; intros; first
        [ apply (gd_named _ good_flatten) | apply (gd_named _ good_sv_bool)
        | apply (gd_named _ good_default) | apply (gd_named _ good_bool)
        | apply (gd_named _ good_container_d) | apply (gd_named _ good_opt_bool)
        | apply (gd_named _ good_transparent_d)
        | apply gd_named, good_syn; destruct SY as [S1 [S2 [S3 S4]]]; auto ]);
  try (apply wb_collect; first [apply (gd_named _ good_tokenstream)
        | apply gd_named, good_with_vec, good_syn; destruct SY as [S1 [S2 [S3 S4]]]; auto]).

Lemma wb_field_arm f : wb_arm (field_arm sy f).
Proof. intros k sp st es. unfold field_arm. destruct st. arms. Qed.
Lemma wbm_field_body f : well_behaved_m (field_body sy f).
Proof.
  unfold field_body. apply wbm_bind.
  - apply wbm_read_items, wb_field_arm.
  - intros q l. cbn [fst snd]. split; [apply returns_rmap, returns_check|apply advs_refl].
Qed.
Lemma read_field_returns f : returns (read_field sy f).
Proof. apply attr_tokens_good. intro. apply wbm_field_body. Qed.

Lemma read_all_returns {A B} (rd : A -> res B) : (forall a, returns (rd a)) ->
  forall l es, returns (read_all rd l es).
Proof.
  intro H. induction l as [|a l IH]; intro es; cbn [read_all]; [exact Logic.I|].
  pose proof (H a) as X. destruct (rd a); cbn [returns] in X; auto; try contradiction.
  apply returns_rmap, IH.
Qed.

Lemma wb_transparent_item {A} what fs (p : string -> span -> parser A) nm sp :
  well_behaved (p nm sp) -> well_behaved (transparent_item what fs p nm sp).
Proof.
  intros H s. unfold transparent_item. destruct (transparent_check what fs); [|apply H].
  cbn. split; auto. apply adv_refl.
Qed.
Lemma wb_struct_arm sh fs : wb_arm (struct_arm sy sh fs).
Proof.
  intros k sp st es. unfold struct_arm. destruct st.
  destruct (String.eqb k "transparent").
  { apply wb_slot. intros. apply wb_transparent_item, (gd_named _ good_transparent_d). }
  destruct (String.eqb k "allow_unknown_fields"); [destruct sh; arms|].
  destruct (String.eqb k "default"); [destruct sh; arms|]. arms.
Qed.
Lemma wbm_struct_body i : well_behaved_m (struct_body sy i).
Proof.
  intro l. unfold struct_body.
  pose proof (read_all_returns (read_field sy) read_field_returns (ss_fields i) []) as R.
  destruct (read_all (read_field sy) (ss_fields i) []) as [[fs es]|e|b]; cbn [returns] in R;
    [|cbn; split; auto; apply advs_refl|contradiction].
  apply wbm_bind.
  - apply wbm_read_items, wb_struct_arm.
  - intros q l1. cbn [fst snd]. split; [apply returns_rmap, returns_check|apply advs_refl].
Qed.
Lemma l_read_struct_returns i : returns (read_struct sy i).
Proof. apply attr_tokens_good. intro. apply wbm_struct_body. Qed.

Lemma wb_variant_arm v fs : wb_arm (variant_arm v fs).
Proof.
  intros k sp st es. unfold variant_arm. destruct st.
  destruct (String.eqb k "transparent").
  { apply wb_slot. intros. apply wb_transparent_item, (gd_named _ good_opt_bool). }
  destruct (String.eqb k "allow_unknown_fields"); [destruct (sv_shape v); arms|]. arms.
Qed.
Lemma snake_ok_text v : snake_ok v <-> ident_text (snake_case (unraw (fst (sv_ident v)))) = true.
Proof. unfold snake_ok. now rewrite unraw_plain, l_snake_ident. Qed.
Lemma wbm_variant_body v : snake_ok v -> well_behaved_m (variant_body sy v).
Proof.
  intros SN l. apply snake_ok_text in SN. unfold variant_body.
  pose proof (read_all_returns (read_field sy) read_field_returns (sv_fields v) []) as R.
  destruct (read_all (read_field sy) (sv_fields v) []) as [[fs es]|e|b]; cbn [returns] in R;
    [|cbn; split; auto; apply advs_refl|contradiction].
  apply wbm_bind.
  - apply wbm_read_items, wb_variant_arm.
  - intros q l1. cbn [fst snd]. split; [|apply advs_refl]. apply returns_rbind.
    + unfold variant_idents. rewrite SN. destruct (_ && _); exact Logic.I.
    + intros. apply returns_rmap, returns_check.
Qed.
Lemma read_variant_returns v : snake_ok v -> returns (read_variant sy v).
Proof. intro. apply attr_tokens_good. intro. now apply wbm_variant_body. Qed.
Lemma wb_enum_arm : wb_arm (enum_arm sy).
Proof. intros k sp st es. unfold enum_arm. destruct st. arms. Qed.
Lemma read_all_returns_in {A B} (rd : A -> res B) : forall l es, (forall a, In a l -> returns (rd a)) ->
  returns (read_all rd l es).
Proof.
  induction l as [|a l IH]; intros es H; cbn [read_all]; [exact Logic.I|].
  pose proof (H a (or_introl eq_refl)) as X.
  destruct (rd a); cbn [returns] in X; try contradiction.
  - apply returns_rmap, IH. intros. apply H. now right.
  - apply IH. intros. apply H. now right.
Qed.
Lemma l_read_enum_returns i : Forall snake_ok (se_variants i) -> returns (read_enum sy i).
Proof.
  intro F. apply attr_tokens_good. intros _. unfold enum_body. apply wbm_bind.
  - apply wbm_read_items, wb_enum_arm.
  - intros q l. cbn [fst snd]. split; [|apply advs_refl]. apply returns_rbind.
    + apply read_all_returns_in. intros v Hv. apply read_variant_returns.
      rewrite Forall_forall in F. auto.
    + intros. apply returns_rmap, returns_check.
Qed.
End W.
