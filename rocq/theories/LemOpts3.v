(** The options of a field: what it is when it is accepted. *)
From Verif Require Import LemSnake LemWf LemWfD LemWfE LemSmall LemItems LemAttr.
From Verif Require Export LemOpts2.

Lemma deluxe_items_ok l : deluxe_attrs l = deluxe_items l.
Proof.
  unfold deluxe_attrs, deluxe_items, ref_tokens. cbn [attrs]. f_equal. apply filter_ext. intro a.
  unfold is_deluxe, deluxe_path. destruct (p_leading (a_path a)); [reflexivity|]. cbn [negb andb]. destruct (p_segs (a_path a)) as [|x [|y r]]; reflexivity.
Qed.
Lemma only2_iff a b sa sb es : only_one [(a, sa); (b, sb)] "" es = [] <-> es = [] /\ (sa = None \/ sb = None).
Proof. split; [apply only2|]. intros [-> H]. destruct sa, sb; destruct H; try discriminate; reflexivity. Qed.
Lemma only3_iff a b c sa sb sc es : only_one [(a, sa); (b, sb); (c, sc)] "" es = [] <->
  es = [] /\ (sa = None \/ sb = None) /\ (sa = None \/ sc = None) /\ (sb = None \/ sc = None).
Proof. split; [apply only3|]. intros [-> [H1 [H2 H3]]]. destruct sa, sb, sc; destruct H1, H2, H3; try discriminate; reflexivity. Qed.
Lemma span_status {A} (f : A -> span) (l : list A) : span_if f (status l) = None <-> l = [].
Proof. destruct l; cbn; split; congruence. Qed.
Lemma span_shows {A} v (l : list A) : shows v l -> (span_if (fun x => x) v = None <-> l = []).
Proof. destruct l; cbn; [intros ->; cbn; tauto|intros [sp ->]; cbn; split; congruence]. Qed.

Ltac dconj := repeat match goal with H : _ /\ _ |- _ => destruct H end.
Ltac sconj := repeat match goal with |- _ /\ _ => split end.
Section F.
Context {env : Env}.
Variable sy : synlib.
Hypothesis SY : good_syn_lib sy.
Variable f : src_field.

Lemma rep_f_init : rep_f f [] fst_init.
Proof.
  split; [split; [repeat split; unfold once; cbn; lia|split; [|auto]]|].
  - split; [constructor|auto].
  - eexists. split; [|reflexivity]. repeat split.
Qed.
Lemma field_checks_ok os st : rep_f f os st -> field_checks st [] = [] <-> consistent_f f os.
Proof.
  intros [[A [N T]] [n [[NI [SR SA]] ->]]]. unfold field_checks. cbn [v_flat v_append v_rest v_container v_names_ v_with v_default].
  rewrite !only2_iff, only3_iff, !span_status, (span_shows _ _ SR), (span_shows _ _ SA). unfold consistent_f, not_both.
  split; intro H; dconj; sconj; first [assumption|reflexivity|now apply or_comm].
Qed.
Lemma field_meaning os st : rep_f f os st ->
  mkSField f (field_idents f st) (fs_into_option (v_default st))
                             (fs_into_option (v_with st)) (fs_into_option (v_flat st))
                             (fs_into_option (v_append st)) (fs_into_option (v_rest st))
                             (fs_into_option (v_container st)) (fs_into_option (v_skipped st))
                             (v_transforms st) = meaning_f f os.
Proof.
  intros [[A [N T]] [n [[NI [SR SA]] ->]]]. unfold meaning_f. cbn [v_flat v_append v_rest v_container v_names_ v_with v_default v_skipped v_transforms].
  rewrite !status_option. f_equal. unfold field_idents, names_f. cbn [v_names_ v_flat]. rewrite NI.
  assert (FE : (match status (flattens os) with FSome x => ff_value x | _ => false end) = is_flattened os).
  { unfold is_flattened. destruct A as [A _]. unfold once in A. destruct (flattens os) as [|x [|y l]]; cbn in *; [reflexivity|now rewrite orb_false_r|lia]. }
  rewrite FE. destruct (renames os) as [|r rs] eqn:RE.
  - cbn in SR. rewrite SR. cbn [fs_is_none andb]. destruct (is_flattened os); cbn [negb]; [reflexivity|]. destruct (sf_ident f) as [[x sp]|]; [now rewrite unraw_plain|reflexivity].
  - destruct SR as [sp ->]. cbn [fs_is_none andb]. reflexivity.
Qed.
Lemma l_field_ok g : read_field sy f = Ok g <->
  exists os, has_options (spells_f sy) (sf_attrs f) os /\ consistent_f f os /\ g = meaning_f f os.
Proof.
  unfold read_field. rewrite deluxe_items_ok.
  rewrite (l_attributes_ok _ (fun _ => wbm_field_body sy SY f)). unfold has_options. split.
  - intros [cs [C [H P]]]. destruct (field_body sy f cs) as [r cs'] eqn:B. cbn [fst snd] in *. subst r.
    unfold field_body in B. apply mbind_inv in B as [[st es] [l1 [RD B]]]. cbn [fst snd] in B.
    destruct (check (field_checks st es)) as [u|e|b] eqn:CH; cbn [rmap] in B; try discriminate B. injection B as <- <-.
    apply check_ok in CH. 
    assert (es = []) as ->.
    { unfold field_checks in CH. rewrite !only2_iff, only3_iff in CH. dconj. assumption. }
    destruct (read_sound _ _ (rep_f f) (field_keys sy f) (field_sound sy f) [] _ _ _ _ _ rep_f_init RD) as [_ [os [W R]]].
    cbn [app] in R. exists os. split; [eauto|]. split; [now apply (field_checks_ok _ _ R)|now apply field_meaning].
  - intros [os [[cs [cs' [C [W P]]]] [K ->]]]. exists cs. split; auto.
    assert (I : inc_f f ([] ++ os)). { cbn [app]. unfold consistent_f in K. unfold inc_f. dconj. sconj; assumption. }
    destruct (read_complete _ _ (rep_f f) (inc_f f) (wb_field_arm sy SY f) (field_complete sy f) (inc_f_prefix f) [] _ _ _ _ rep_f_init W I) as [st [RD R]].
    cbn [app] in R. unfold field_body, pbind. rewrite RD. cbn [fst snd].
    rewrite (proj2 (field_checks_ok _ _ R) K). cbn. split; [|exact P]. f_equal. now apply field_meaning.
Qed.
End F.
