(** Proofs for PropsHold.v: the schemas the derive macros accept. *)
From Verif Require Import LemHold SpecSchema Schema Lower LemSchema3 LemSchema4 LemSchema5 LemSmall LemAttr LemWfD LemFlat2.
Local Open Scope list_scope.

Section D.
Context {env : Env} {V : Type}.
Variables (sy : synlib) (ru : rust V).
Lemma unit_variant v h : fields_fit (sv_shape v) (sv_fields v) -> read_variant sy v = Ok h ->
  v_shape (lower_variant ru h) = ShUnit -> v_raw (lower_variant ru h) = [].
Proof.
  intros W R E. destruct (variant_shape sy v h R) as [ES F]. cbn [lower_variant v_shape v_raw] in *. subst v. rewrite E in W. cbn in W.
  rewrite W in F. now inversion F.
Qed.
Lemma l_hold_derived_enum i d auto expr post pn obj : written_enum i -> derive_attr_enum sy i = Ok d ->
  fits_enum (TAttrs pn obj) (lower_enum ru auto expr post d).
Proof.
  intros W H. unfold derive_attr_enum in H. destruct (read_enum sy i) as [d0|e|b] eqn:R; cbn [rbind] in H; try discriminate H.
  destruct (gen_variants (j_variants d0)); cbn [rmap] in H; try discriminate H. injection H as <-.
  pose proof (enum_ok sy i d0 R) as [F _ _ FL _ _]. intros x I. cbn [lower_enum e_variants] in I. apply in_map_iff in I as [h [<- I]].
  destruct (Forall2_in_r _ _ _ _ F I) as [v [Iv Rv]]. unfold written_enum in W. rewrite Forall_forall in W.
  split; [|discriminate]. apply (unit_variant v h); auto.
Qed.
Lemma l_hold_derived_meta i d auto expr post : written_enum i -> derive_meta_enum sy i = Ok d ->
  fits_enum TMeta (lower_enum ru auto expr post d).
Proof.
  intros W H. unfold derive_meta_enum in H. destruct (read_enum sy i) as [d0|e|b] eqn:R; cbn [rbind] in H; try discriminate H.
  destruct (gen_variants (j_variants d0)); cbn [rbind] in H; try discriminate H.
  destruct (check (meta_container_check d0)) as [u|e|b] eqn:CH; cbn [rmap] in H; try discriminate H. injection H as <-.
  apply check_ok, meta_check_inv in CH. rewrite Forall_forall in CH.
  pose proof (enum_ok sy i d0 R) as [F _ _ FL _ _]. intros x I. cbn [lower_enum e_variants] in I. apply in_map_iff in I as [h [<- I]].
  destruct (Forall2_in_r _ _ _ _ F I) as [v [Iv Rv]]. unfold written_enum in W. rewrite Forall_forall in W.
  split; [apply (unit_variant v h); auto|]. intros _. specialize (CH h I). cbn [lower_variant v_raw].
  apply Forall_forall. intros g J. apply in_map_iff in J as [f [<- J]]. rewrite Forall_forall in CH. intro X. cbn [lower_field f_default f_container] in *.
  specialize (CH f J X). unfold g_default_value. destruct (g_default f); [discriminate|congruence].
Qed.
Lemma read_len : forall fs gs, Forall2 (fun f g => read_field sy f = Ok g) fs gs -> length gs = length fs.
Proof. induction 1; cbn; auto. Qed.
Lemma lowered i d0 d auto expr post : written_struct i -> read_struct sy i = Ok d0 -> (d = d0 \/ d = fill_struct d0) -> sound_defaults ru d auto expr ->
  fits (lower_struct ru auto expr post d).
Proof.
  intros W R E [LA [LE NC]]. destruct (struct_ok sy i d0 R) as [fs [A B C _ _ _ _ _ _]]. split; [|split].
  - cbn [lower_struct s_shape s_raw]. intro U. assert (N : i_fields d = []).
    { assert (Z : i_fields d0 = []). { rewrite C. assert (fs = []) as ->. { unfold written_struct in W. assert (X : ss_shape i = ShUnit) by (rewrite <- B; destruct E as [->| ->]; exact U). rewrite X in W. cbn in W. rewrite W in A. now inversion A. }
        now destruct (opt_some _). }
      destruct E as [->| ->]; auto. cbn. now rewrite Z. }
    now rewrite N.
  - cbn [lower_struct s_default s_raw]. rewrite map_length. intros t X. destruct (i_default d) as [[sp|ts]|]; cbn in X; [injection X as <-; auto..|discriminate].
  - cbn [lower_struct s_default s_raw s_transparent]. intros T D. unfold s_is_transparent in T. cbn [lower_struct s_transparent s_raw] in T. apply andb_true_iff in T as [T _].
    apply Forall_map. apply NC; [destruct (i_transparent d); congruence|destruct (i_default d); cbn in D; congruence].
Qed.
Lemma l_hold_derived_struct i d auto expr post : written_struct i -> (derive_attr_struct sy i = Ok d \/ derive_meta_struct sy i = Ok d) -> sound_defaults ru d auto expr ->
  fits (lower_struct ru auto expr post d).
Proof.
  intros W H S. unfold derive_attr_struct, derive_meta_struct in H. destruct (read_struct sy i) as [d0|e|b] eqn:R; cbn [rbind] in H; [|now destruct H..].
  eapply lowered; eauto. destruct H as [H|H]; [left|right].
  - destruct (gen_struct d0); cbn in H; congruence.
  - destruct (gen_struct (fill_struct d0)); cbn in H; congruence.
Qed.
End D.
