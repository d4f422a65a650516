(** Proofs for PropsAdvice.v. *)
From Verif Require Import LemWf LemItems LemSmall.
From Verif Require Export SpecAdvice LemDiag8.

Lemma in_with_before {A B} (j : list A -> A -> list B) x l : In x l -> forall b0,
  exists b, incl (j b x) (with_before j b0 l).
Proof.
  induction l as [|y l IH]; intros H b0; [destruct H|]. cbn [with_before].
  destruct H as [->|H].
  - exists b0. apply incl_appl, incl_refl.
  - destruct (IH H (b0 ++ [y])) as [b Hb]. exists b. apply incl_appr, Hb.
Qed.
Lemma strange_advised {env : Env} {O} (G : grammar O) xs k sp options l :
  In (Strange k sp) xs -> incl (judged G xs) l ->
  (forall x, In x (gr_hints G) <-> In x options) -> advised options k sp l.
Proof.
  intros H Hl Ho. destruct (in_with_before (judge G) _ _ H []) as [b Hb]. cbn [judge] in Hb.
  assert (Hi : incl (errs_of (unknown_error k sp (gr_hints G))) l).
  { intros x Hx. apply Hl, Hb, Hx. }
  destruct (l_suggestion env k sp (gr_hints G)) as [(c & Hc & Hs & Hm & E)|[Hm E]]; rewrite E in Hi.
  - right. exists c. split; [apply Ho, Hc|]. split; [exact Hs|]. split; [|apply Hi; left; reflexivity].
    intros y Hy. apply Hm, Ho, Hy.
  - left. split; [|apply Hi; left; reflexivity]. intros y Hy. apply Hm, Ho, Hy.
Qed.
Lemma advised_some {env : Env} {A} (r : res A) options k sp l :
  diagnosed r l -> advised options k sp l -> exists e, r = Err e /\ advised options k sp (errs_of e).
Proof.
  intros D H. destruct r as [a|e|b]; cbn in D.
  - subst l. destruct H as [[_ H]|(x & _ & _ & _ & H)]; destruct H.
  - exists e. split; [reflexivity|]. rewrite D. exact H.
  - destruct D.
Qed.

Lemma l_advice_field : forall (env : Env) sy, good_syn_lib sy -> forall f xs k sp,
  has_entries (grammar_f sy f) (sf_attrs f) xs -> In (Strange k sp) xs ->
  exists e, read_field sy f = Err e /\ advised options_of_field k sp (errs_of e).
Proof.
  intros env sy Hy f xs k sp H Hi.
  refine (advised_some _ _ _ _ _ (l_field_diag _ Hy _ _ H) (strange_advised _ _ _ _ _ _ Hi _ _)).
  - apply incl_appl, incl_refl.
  - intros x. cbn. tauto.
Qed.
Lemma l_advice_struct : forall (env : Env) sy, good_syn_lib sy -> forall i gs fes xs k sp,
  fields_read sy (ss_fields i) gs fes -> has_entries (grammar_s sy (ss_shape i) gs) (ss_attrs i) xs ->
  In (Strange k sp) xs ->
  exists e, read_struct sy i = Err e /\ advised options_of_struct k sp (errs_of e).
Proof.
  intros env sy Hy i gs fes xs k sp F H Hi.
  refine (advised_some _ _ _ _ _ (l_struct_diag _ Hy _ _ _ _ F H) (strange_advised _ _ _ _ _ _ Hi _ _)).
  - apply incl_appr, incl_appl, incl_refl.
  - intros x. cbn. tauto.
Qed.
Lemma l_advice_variant : forall (env : Env) sy, good_syn_lib sy -> forall v gs fes xs k sp, snake_ok v ->
  fields_read sy (sv_fields v) gs fes -> has_entries (grammar_v v gs) (sv_attrs v) xs ->
  In (Strange k sp) xs ->
  exists e, read_variant sy v = Err e /\ advised options_of_variant k sp (errs_of e).
Proof.
  intros env sy Hy v gs fes xs k sp Hv F H Hi.
  refine (advised_some _ _ _ _ _ (l_variant_diag _ Hy _ _ _ _ Hv F H) (strange_advised _ _ _ _ _ _ Hi _ _)).
  - apply incl_appr, incl_appl, incl_refl.
  - intros x. cbn. tauto.
Qed.
Lemma l_advice_enum : forall (env : Env) sy, good_syn_lib sy -> forall i hs ves xs fes des k sp, written_enum i ->
  variants_read sy (se_variants i) hs ves -> has_entries (grammar_e sy) (se_attrs i) xs ->
  flatten_faults hs [] hs fes -> default_fault hs xs des -> In (Strange k sp) xs ->
  exists e, read_enum sy i = Err e /\
    advised ["default"; "crate"; "and_then"; "attributes"] k sp (errs_of e).
Proof.
  intros env sy Hy i hs ves xs fes des k sp W V H F D Hi.
  refine (advised_some _ _ _ _ _ (l_enum_diag _ Hy _ _ _ _ _ _ W V H F D) (strange_advised _ _ _ _ _ _ Hi _ _)).
  - apply incl_appl, incl_refl.
  - intros x. cbn. tauto.
Qed.
