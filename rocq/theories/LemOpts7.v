(** The attributes have one reading; what is not accepted is reported. *)
From Verif Require Import LemWf LemWfD LemWfE LemSmall LemItems LemAttr.
From Verif Require Export LemOpts6.

Section D.
Context {env : Env} {O : Type}.
Variable spells : string -> span -> stream -> O -> stream -> Prop.
Hypothesis FUN : forall k sp s o1 s1 o2 s2, spells k sp s o1 s1 -> spells k sp s o2 s2 -> o1 = o2 /\ s1 = s2.
Lemma at_key_fun s k1 sp1 s1 k2 sp2 s2 : at_key s k1 sp1 s1 -> at_key s k2 sp2 s2 -> k1 = k2 /\ sp1 = sp2 /\ s1 = s2.
Proof. intros [p [P [<- <-]]] [q [Q [<- <-]]]. rewrite P in Q. injection Q as <- <-. auto. Qed.
Lemma opts_in_fun s os1 s1 : opts_in spells s os1 s1 -> forall os2 s2, opts_in spells s os2 s2 -> os1 = os2 /\ s1 = s2.
Proof.
  induction 1 as [s E|s k sp s1 o s2 NE AT SP E|s k sp s1 o s2 c r os s3 NE AT SP E CT W IH];
    intros os2 z H; inversion H as [x E'|x k' sp' s1' o' s2' NE' AT' SP' E'|x k' sp' s1' o' s2' c' r' os' s3' NE' AT' SP' E' CT' W']; subst; try congruence; auto;
    destruct (at_key_fun _ _ _ _ _ _ _ AT AT') as [-> [-> ->]]; destruct (FUN _ _ _ _ _ _ _ SP SP') as [-> ->]; auto; try congruence.
  rewrite E in E'. injection E' as <- <-. destruct (IH _ _ W') as [-> ->]. auto.
Qed.
Lemma opts_in_all_fun l os1 l1 : opts_in_all spells l os1 l1 -> forall os2 l2, opts_in_all spells l os2 l2 -> os1 = os2 /\ l1 = l2.
Proof.
  induction 1 as [|s os s' l os' l' W Ws IH]; intros os2 l2 H; inversion H; subst; auto.
  destruct (opts_in_fun _ _ _ W _ _ H2) as [-> ->]. destruct (IH _ _ H5) as [-> ->]. auto.
Qed.
Lemma attr_content_fun it s1 s2 : attr_content it s1 -> attr_content it s2 -> s1 = s2.
Proof. intros H1 H2. inversion H1; subst; inversion H2; subst; reflexivity. Qed.
Lemma contents_fun l : forall c1 c2, Forall2 attr_content l c1 -> Forall2 attr_content l c2 -> c1 = c2.
Proof.
  induction l as [|it l IH]; intros c1 c2 H1 H2; inversion H1; subst; inversion H2; subst; auto. f_equal; eauto using attr_content_fun.
Qed.
Lemma has_options_fun l os1 os2 : has_options spells l os1 -> has_options spells l os2 -> os1 = os2.
Proof.
  intros [c1 [d1 [C1 [W1 _]]]] [c2 [d2 [C2 [W2 _]]]]. rewrite (contents_fun _ _ _ C1 C2) in *. now apply (opts_in_all_fun _ _ _ W1 _ _ W2).
Qed.
End D.

Section R.
Context {env : Env}.
Variable sy : synlib.
Hypothesis SY : good_syn_lib sy.
Ltac fun_tac := intros k sp s o1 s1 o2 s2 H1 H2; inversion H1; subst; inversion H2; subst; try discriminate; split; congruence.
Lemma spells_f_fun : forall k sp s o1 s1 o2 s2, spells_f sy k sp s o1 s1 -> spells_f sy k sp s o2 s2 -> o1 = o2 /\ s1 = s2.
Proof. fun_tac. Qed.
Lemma spells_s_fun : forall k sp s o1 s1 o2 s2, spells_s sy k sp s o1 s1 -> spells_s sy k sp s o2 s2 -> o1 = o2 /\ s1 = s2.
Proof. fun_tac. Qed.
Lemma spells_v_fun : forall k sp s o1 s1 o2 s2, spells_v k sp s o1 s1 -> spells_v k sp s o2 s2 -> o1 = o2 /\ s1 = s2.
Proof. fun_tac. Qed.
Lemma spells_e_fun : forall k sp s o1 s1 o2 s2, spells_e sy k sp s o1 s1 -> spells_e sy k sp s o2 s2 -> o1 = o2 /\ s1 = s2.
Proof. fun_tac. Qed.

Lemma returns_err {A} (r : res A) : returns r -> (forall a, r <> Ok a) -> exists e, r = Err e.
Proof. destruct r as [a|e|b]; cbn; [intros _ H; now elim (H a)|eauto|contradiction]. Qed.
Lemma l_field_err f os : has_options (spells_f sy) (sf_attrs f) os -> ~ consistent_f f os -> exists e, read_field sy f = Err e.
Proof.
  intros H N. apply returns_err; [apply (read_field_returns sy SY)|]. intros g E. apply (l_field_ok sy SY) in E as [os2 [H2 [C _]]].
  apply N. now rewrite (has_options_fun _ spells_f_fun _ _ _ H H2).
Qed.
Lemma l_field_unreadable f : (forall os, ~ has_options (spells_f sy) (sf_attrs f) os) -> exists e, read_field sy f = Err e.
Proof.
  intros H. apply returns_err; [apply (read_field_returns sy SY)|]. intros g E. apply (l_field_ok sy SY) in E as [os2 [H2 [C _]]]. exact (H _ H2).
Qed.
Lemma field_means_fun f g1 g2 : field_means sy f g1 -> field_means sy f g2 -> g1 = g2.
Proof. intros [o1 [H1 [_ ->]]] [o2 [H2 [_ ->]]]. now rewrite (has_options_fun _ spells_f_fun _ _ _ H1 H2). Qed.
Lemma fields_fun l : forall g1 g2, Forall2 (field_means sy) l g1 -> Forall2 (field_means sy) l g2 -> g1 = g2.
Proof. induction l as [|f l IH]; intros g1 g2 H1 H2; inversion H1; subst; inversion H2; subst; auto. f_equal; eauto using field_means_fun. Qed.
Lemma l_struct_err i gs os : Forall2 (field_means sy) (ss_fields i) gs -> has_options (spells_s sy) (ss_attrs i) os ->
  ~ consistent_s (ss_shape i) gs os -> exists e, read_struct sy i = Err e.
Proof.
  intros F H N. apply returns_err; [apply (l_read_struct_returns sy SY)|]. intros d E. apply (l_struct_ok sy SY) in E as [g2 [o2 [F2 [H2 [C _]]]]].
  apply N. now rewrite (fields_fun _ _ _ F F2), (has_options_fun _ spells_s_fun _ _ _ H H2).
Qed.
Lemma l_struct_unreadable i : (exists f, In f (ss_fields i) /\ forall g, ~ field_means sy f g) \/ (forall os, ~ has_options (spells_s sy) (ss_attrs i) os) ->
  exists e, read_struct sy i = Err e.
Proof.
  intros H. apply returns_err; [apply (l_read_struct_returns sy SY)|]. intros d E. apply (l_struct_ok sy SY) in E as [g2 [o2 [F2 [H2 [C _]]]]].
  destruct H as [[f [I H]]|H]; [|exact (H _ H2)]. clear - F2 I H. induction F2 as [|a b l l' R F IH]; [destruct I|]. destruct I as [->|I]; auto. exact (H _ R).
Qed.
Lemma l_variant_err v gs os : snake_ok v -> Forall2 (field_means sy) (sv_fields v) gs -> has_options spells_v (sv_attrs v) os ->
  ~ consistent_v v gs os -> exists e, read_variant sy v = Err e.
Proof.
  intros SN F H N. apply returns_err; [now apply (read_variant_returns sy SY)|]. intros d E. apply (l_variant_ok sy SY) in E as [g2 [o2 [F2 [H2 [C _]]]]]; auto.
  apply N. now rewrite (fields_fun _ _ _ F F2), (has_options_fun _ spells_v_fun _ _ _ H H2).
Qed.
Lemma variant_means_fun v h1 h2 : variant_means sy v h1 -> variant_means sy v h2 -> h1 = h2.
Proof. intros [g1 [o1 [F1 [H1 [_ [_ ->]]]]]] [g2 [o2 [F2 [H2 [_ [_ ->]]]]]]. now rewrite (fields_fun _ _ _ F1 F2), (has_options_fun _ spells_v_fun _ _ _ H1 H2). Qed.
Lemma variants_fun l : forall g1 g2, Forall2 (variant_means sy) l g1 -> Forall2 (variant_means sy) l g2 -> g1 = g2.
Proof. induction l as [|f l IH]; intros g1 g2 H1 H2; inversion H1; subst; inversion H2; subst; auto. f_equal; eauto using variant_means_fun. Qed.
Lemma l_enum_err i vs os : written_enum i -> Forall snake_ok (se_variants i) ->
  Forall2 (variant_means sy) (se_variants i) vs -> has_options (spells_e sy) (se_attrs i) os ->
  ~ consistent_e vs os -> exists e, read_enum sy i = Err e.
Proof.
  intros W SN F H N. apply returns_err; [now apply (l_read_enum_returns sy SY)|]. intros d E. apply (l_enum_ok sy SY) in E as [g2 [o2 [F2 [H2 [C _]]]]]; auto.
  apply N. now rewrite (variants_fun _ _ _ F F2), (has_options_fun _ spells_e_fun _ _ _ H H2).
Qed.
End R.
