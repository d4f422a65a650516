(** No option is lost. *)
From Verif Require Export LemOpts7.

Lemma first_in {A B} (p : B -> list A) l x : once (flat_map p l) -> (exists o, In o l /\ p o = [x]) -> first_of (flat_map p l) = Some x.
Proof.
  intros O [o [I E]]. assert (J : In x (flat_map p l)) by (apply in_flat_map; exists o; split; auto; rewrite E; now left).
  unfold once in O. destruct (flat_map p l) as [|y [|z r]]; cbn in *; [destruct J|destruct J as [->|[]]; reflexivity|lia].
Qed.
Section L.
Context {env : Env}.
Variable sy : synlib.
Hypothesis SY : good_syn_lib sy.
Lemma l_field_all f g : read_field sy f = Ok g ->
  exists os, has_options (spells_f sy) (sf_attrs f) os /\ forall o, In o os -> shown_f os g o.
Proof.
  intro H. apply (l_field_ok sy SY) in H as [os [H [C ->]]]. exists os. split; auto.
  destruct C as [[C1 [C2 [C3 [C4 [C5 [C6 [C7 C8]]]]]]] [[N1 [N2 [N3 [N4 [N5 [N6 [N7 [N8 [N9 N10]]]]]]]]] [NN T]]].
  intros o I. assert (SIMPLE : forall {A} (p : fopt -> list A) x, once (flat_map p os) -> p o = [x] -> first_of (flat_map p os) = Some x) by (intros; apply first_in; eauto).
  assert (NI : forall x, In x (renames os ++ aliases os) -> In x (names_f f os)).
  { intros x J. unfold names_f. destruct (renames os) as [|r rs] eqn:RE; cbn [app] in *.
    - destruct (is_flattened os); [exact J|]. destruct (sf_ident f) as [[y sp]|]; [right|]; exact J.
    - exact J. }
  assert (RN : forall x, In (ORename x) os -> In x (renames os)) by (intros x J; apply in_flat_map; exists (ORename x); split; [exact J|now left]).
  assert (AL : forall x, In (OAlias x) os -> In x (aliases os)) by (intros x J; apply in_flat_map; exists (OAlias x); split; [exact J|now left]).
  destruct o; cbn [shown_f meaning_f g_flatten g_append g_rest g_default g_with g_idents g_container g_skip g_transforms];
    try (apply SIMPLE; auto; fail).
  - split; [apply NI, in_or_app; auto|]. intro y. unfold names_f. specialize (RN _ I). destruct (renames os) as [|r [|r2 rs]] eqn:RE; [destruct RN| |unfold once in C6; cbn in C6; lia].
    destruct RN as [->|[]]. intro J. destruct J as [J|J]; [auto|]. right. unfold aliases in J. apply in_flat_map in J as [o [Io Jo]]. destruct o; cbn in Jo; try (destruct Jo; fail). destruct Jo as [<-|[]]. exact Io.
  - apply NI, in_or_app. auto.
  - unfold transforms. apply in_flat_map. exists (OMap e). split; [exact I|now left].
  - unfold transforms. apply in_flat_map. exists (OAndThen e). split; [exact I|now left].
Qed.
Lemma l_struct_all i d : read_struct sy i = Ok d ->
  exists os, has_options (spells_s sy) (ss_attrs i) os /\ forall o, In o os -> shown_s d o.
Proof.
  intro H. apply (l_struct_ok sy SY) in H as [gs [os [_ [H [C ->]]]]]. exists os. split; auto.
  destruct C as [[C1 [C2 [C3 C4]]] _].
  intros o I. assert (SIMPLE : forall {A} (p : sopt -> list A) x, once (flat_map p os) -> p o = [x] -> first_of (flat_map p os) = Some x) by (intros; apply first_in; eauto).
  destruct o; cbn [shown_s meaning_s i_transparent i_unknown_ok i_default i_crate i_and_thens i_attributes]; try (apply SIMPLE; auto; fail).
  - apply in_flat_map. exists (SAndThenS e). split; [exact I|now left].
  - intros p J. apply in_flat_map. exists (SAttributes l). auto.
Qed.
Lemma l_variant_all v h : read_variant sy v = Ok h ->
  exists os, has_options spells_v (sv_attrs v) os /\ forall o, In o os -> shown_v os h o.
Proof.
  intros H. apply (l_variant_ok sy SY) in H as [gs [os [_ [H [C [_ ->]]]]]]. exists os. split; auto.
  destruct C as [[C1 [C2 [C3 [C4 C5]]]] _].
  intros o I. assert (SIMPLE : forall {A} (p : vopt -> list A) x, once (flat_map p os) -> p o = [x] -> first_of (flat_map p os) = Some x) by (intros; apply first_in; eauto).
  assert (SOME : forall {A} (p : vopt -> list (option A)) x, once (flat_map p os) -> p o = [Some x] -> first_of (somes (flat_map p os)) = Some x).
  { intros A p x O E. pose proof (SIMPLE _ p _ O E) as F. destruct (flat_map p os) as [|y l]; [discriminate F|]. injection F as ->. reflexivity. }
  assert (NONE : forall {A} (p : vopt -> list (option A)), once (flat_map p os) -> p o = [None] -> first_of (somes (flat_map p os)) = None).
  { intros A p O E. pose proof (SIMPLE _ p _ O E) as F. unfold once in O. destruct (flat_map p os) as [|y [|z l]]; [discriminate F| |cbn in O; lia]. injection F as ->. reflexivity. }
  assert (NI : forall x, In x (v_renames os ++ v_aliases os) -> In x (names_v v os)).
  { intros x J. unfold names_v. destruct (v_renames os) as [|r rs] eqn:RE; cbn [app] in *; [destruct (is_flattened_v os); [exact J|right; exact J]|exact J]. }
  assert (RN : forall x, In (VRename x) os -> In x (v_renames os)) by (intros x J; apply in_flat_map; exists (VRename x); split; [exact J|now left]).
  assert (AL : forall x, In (VAlias x) os -> In x (v_aliases os)) by (intros x J; apply in_flat_map; exists (VAlias x); split; [exact J|now left]).
  destruct o as [[[b sp]|]|b|[[b sp]|]|x|x|x]; cbn [shown_v meaning_v h_transparent h_unknown_ok h_flatten h_idents h_skip]; auto;
    try (apply SIMPLE; auto; fail); try (apply (f_equal (option_map fst)); unfold v_transparents, v_flattens; first [apply SOME|apply NONE]; auto; fail).
  - split; [apply NI, in_or_app; auto|]. intro y. unfold names_v. specialize (RN _ I). destruct (v_renames os) as [|r [|r2 rs]] eqn:RE; [destruct RN| |unfold once in C4; cbn in C4; lia].
    destruct RN as [->|[]]. intro J. destruct J as [J|J]; [auto|]. right. unfold v_aliases in J. apply in_flat_map in J as [o [Io Jo]]. destruct o; cbn in Jo; try (destruct Jo; fail). destruct Jo as [<-|[]]. exact Io.
  - apply NI, in_or_app. auto.
Qed.
Lemma l_enum_all i d : written_enum i -> read_enum sy i = Ok d ->
  exists os, has_options (spells_e sy) (se_attrs i) os /\ forall o, In o os -> shown_e d o.
Proof.
  intros W H. apply (l_enum_ok sy SY) in H as [gs [os [_ [H [C ->]]]]]; auto. exists os. split; auto.
  destruct C as [[C1 [C2 C3]] _].
  intros o I. assert (SIMPLE : forall {A} (p : eopt -> list A) x, once (flat_map p os) -> p o = [x] -> first_of (flat_map p os) = Some x) by (intros; apply first_in; eauto).
  destruct o; cbn [shown_e meaning_e j_unknown_ok j_default j_crate j_and_thens j_attributes]; try (apply SIMPLE; auto; fail).
  - apply in_flat_map. exists (EAndThen e). split; [exact I|now left].
  - intros p J. apply in_flat_map. exists (EAttributes l). auto.
Qed.
End L.
