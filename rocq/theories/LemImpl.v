(** Every implementation is fine. *)
From Verif Require Export SpecImpl LemColl2.

Section I.
Context {env : Env}.
Scheme regular_mut := Induction for regular Sort Prop
with usable_mut := Induction for usable Sort Prop
with field_type_mut := Induction for field_type Sort Prop
with flat_keys_mut := Induction for flat_keys Sort Prop
with flat_items_mut := Induction for flat_items Sort Prop
with collects_mut := Induction for collects Sort Prop.
Combined Scheme impl_mut from regular_mut, usable_mut, field_type_mut, flat_keys_mut, flat_items_mut, collects_mut.

Definition okd {A} (d : dict A) : Prop := good_dict d /\ unaware_dict d.
Lemma fine_okd {A} (d : dict A) : fine d -> okd d.
Proof. intro F. split; apply F. Qed.
Lemma okd_all {A} (ds : list (dict A)) : (forall d, In d ds -> okd d) -> Forall good_dict ds /\ Forall unaware_dict ds.
Proof. intro H. split; apply Forall_forall; intros d I; apply (H d I). Qed.
Lemma ud_map' {A B} (g : A -> B) (d : dict A) : unaware_dict d -> unaware_dict (dict_map g d).
Proof.
  intro U. split.
  - intro m. apply ub_map. apply U.
  - intro m. apply ubm_map. apply U.
  - intros n sp. apply ub_map. apply U.
Qed.
Lemma acc_struct {V} (s : sdef V) : (forall f, In f (s_raw s) -> good_kind (s_shape s) (f_kind f) /\ unaware_kind (f_kind f)) ->
  (s_is_transparent s = true -> good_transparent (s_raw s)) -> accepted_struct s /\ Forall unaware_field (s_raw s).
Proof.
  intros H T. split; [split; auto|]; apply Forall_forall; intros f I.
  - intros _. apply (H f I).
  - apply (H f I).
Qed.
Lemma acc_enum {V} (e : edef V) : (forall v f, In v (e_variants e) -> In f (v_raw v) -> good_kind (v_shape v) (f_kind f) /\ unaware_kind (f_kind f)) ->
  variants_ok e -> accepted_enum TMeta e /\ no_transparent_and_then e /\ Forall unaware_variant (e_variants e).
Proof.
  intros H [C [W T]]. split; [|split; auto].
  - apply Forall_forall. intros v I. split; [|split].
    + apply Forall_forall. intros f J _. apply (H v f I J).
    + apply Forall_forall. intros f J. apply (C v f I J).
    + apply (W v I).
  - apply Forall_forall. intros v I. apply Forall_forall. intros f J. apply (H v f I J).
Qed.
Lemma l_impl :
  (forall A d, regular A d -> fine d) /\
  (forall A d, usable A d -> okd d) /\
  (forall V sh k, field_type V sh k -> good_kind sh k /\ unaware_kind k) /\
  (forall A u, flat_keys A u -> good_fn u /\ forall m p v, unaware_m (fn_parse u m p v)) /\
  (forall A u, flat_items A u -> good_fu u /\ forall m i, unaware_m (fu_parse u m i)) /\
  (forall A a, collects A a -> good_multi a /\ forall l, unaware_m (a l)).
Proof.
  apply impl_mut.
  - apply fine_int.
  - apply fine_u8.
  - apply fine_float.
  - apply fine_bool.
  - apply fine_char.
  - apply fine_string.
  - apply fine_smallstring.
  - apply fine_unit.
  - apply fine_tokenstream.
  - apply fine_literal.
  - apply fine_group.
  - apply fine_ident.
  - apply fine_any_path.
  - intros A p [W [U [L K]]]. now apply fine_syn.
  - intros A p [W [U [L K]]]. now apply fine_paren_syn.
  - intros A d _ F. now apply fine_option.
  - intros A d _ F. now apply fine_wrapper.
  - intros A d _ [G U]. now apply fine_vec.
  - intros A eqb d _ [G U]. now apply fine_set.
  - intros K A eqb kstr dk dv _ [G U] _ [G2 U2]. now apply fine_mapd.
  - intros A n d _ [G U]. now apply fine_array.
  - intros A ds _ H. destruct (okd_all ds H). now apply fine_tuple.
  - intros A fs. apply fine_from_str.
  - intros A fs v. apply fine_from_str_default.
  - intros A d _ [G U]. now apply fine_quoted.
  - intros A d _ F. now apply fine_maybe_quoted.
  - intros A p [W [U [L K]]]. now apply fine_with_syn.
  - intros A p [W [U [L K]]]. now apply fine_syn_quoted.
  - intros A d _ F. now apply fine_with_optional.
  - intros A d _ [G U]. now apply fine_with_vec.
  - intros K A eqb kstr dk dv _ [G U] _ [G2 U2]. now apply fine_with_map.
  - intros A d _ F. now apply fine_identity.
  - intros A B g d _ F. now apply fine_map.
  - intros V s _ H T _ T2. destruct (acc_struct s H T) as [AC U]. apply fine_struct; auto.
    intros E f I. unfold fine_kind. destruct (f_kind f) eqn:K; auto. eapply T2; eauto.
  - intros V e _ H W. destruct (acc_enum e H W) as [AC [T U]]. now apply fine_enum.
  - intros A d _ F. now apply fine_okd.
  - split; [apply good_flag|apply ud_flag].
  - intros A d _ [G U]. split; [now apply good_spanned|now apply ud_spanned].
  - split; [apply good_tokentree|apply ud_tokentree].
  - split; [apply good_one|apply ud_one].
  - intros A B g d _ [G U]. split; [now apply good_map|now apply ud_map'].
  - intros V sh d _ [G U]. destruct sh; split; auto.
  - intros V pf u _ H. exact H.
  - intros V u _ H. exact H.
  - intros V a _ H. exact H.
  - intros V a _ H. exact H.
  - intros V s _ H T. destruct (acc_struct s H T) as [AC U]. split; [now apply good_struct_fn|intros; now apply ubm_struct_fn].
  - intros V e _ H W. destruct (acc_enum e H W) as [AC [T U]]. split; [now apply good_enum_fn|intros; now apply ubm_enum_fn].
  - intros A u _ [G U]. split; [now apply good_spanned_fn|intros; now apply ubm_sv].
  - intros A B g u _ [G U]. split; [now apply good_fn_map|intros; now apply ubm_map].
  - intros A d _ [G U]. split; [now apply good_vec_fu|intros; now apply ubm_vec].
  - intros A eqb d _ [G U]. split; [intros m i; now apply wbm_set|intros; now apply ubm_set].
  - intros K A eqb kstr dk dv _ [G U] _ [G2 U2]. split; [intros m i; now apply wbm_mapf|intros; now apply ubm_mapf].
  - intros A n d _ [G U]. split; [now apply good_array_fu|intros; now apply ubm_array].
  - intros A ds _ H. destruct (okd_all ds H). split; [now apply good_tuple_fu|intros; now apply ubm_tuple].
  - split; [apply good_tokenstream_flat|intros; apply ubm_tokenstream_flat].
  - intros V s _ H T. destruct (acc_struct s H T) as [AC U]. split; [now apply good_struct_fu|intros; now apply ubm_struct_fu].
  - intros V e _ H W. destruct (acc_enum e H W) as [AC [T U]]. split; [now apply good_enum_fu|intros; now apply (ubm_enum_fn e)].
  - intros A u _ [G U]. split; [now apply good_spanned_fu|intros; now apply ubm_sv].
  - intros A B g u _ [G U]. split; [now apply good_fu_map|intros; now apply ubm_map].
  - intros A d _ [G U]. split; [now apply good_vec_append|intros; now apply ubm_vec_append].
  - intros A eqb d _ [G U]. split; [now apply good_set_append|intros; now apply ubm_set_append].
  - intros K A eqb kstr dk dv _ [G U] _ [G2 U2]. split; [now apply good_map_rest|intros; now apply ubm_map_rest].
  - intros A a _ [G U]. split; [now apply good_spanned_multi|intros; now apply ubm_sv].
  - intros A B g a _ [G U]. split; [intro l; now apply wbm_map|intros; now apply ubm_map].
Qed.
End I.
