(** The options of a variant: what it is when it is accepted. *)
From Verif Require Import LemSnake LemWf LemWfD LemWfE LemSmall LemItems LemAttr.
From Verif Require Export LemOpts4 LemSchema4.

Section V.
Context {env : Env}.
Variable v : src_variant.
Variable gs : list sfield.
Definition inc_v (l : list vopt) : Prop :=
  (once (v_transparents l) /\ once (v_unknowns l) /\ once (v_flattens l) /\ once (v_renames l) /\ once (v_skips l)) /\
  (v_transparents l <> [] -> transparent_fits gs) /\
  (v_unknowns l <> [] -> sv_shape v <> ShUnnamed) /\
  new_names (Some (fst (sv_ident v))) (v_renames l ++ v_aliases l).
Definition rep_v (l : list vopt) (st : vst) : Prop :=
  inc_v l /\ exists n, names_rep n (v_renames l) (v_aliases l) /\
    st = mkVst n (status (v_flattens l)) (status (v_transparents l)) (status (v_skips l)) (status (v_unknowns l)).
Ltac norm := unfold v_transparents, v_unknowns, v_flattens, v_renames, v_aliases, v_skips in *;
  rewrite ?flat_map_app in *; cbn [flat_map] in *; rewrite ?app_nil_r in *.
Lemma inc_v_prefix a b : inc_v (a ++ b) -> inc_v a.
Proof.
  unfold inc_v. intros [[A1 [A2 [A3 [A4 A5]]]] [T [U N]]]. norm.
  split; [repeat split; eapply once_app; eassumption|]. split; [|split]; [intro H; apply T; now apply app_ne|intro H; apply U; now apply app_ne|eapply new_names_sub; eassumption].
Qed.
Lemma variant_keys k sp st es s st' s' : variant_arm v gs k sp st es s = (Ok (st', []), s') -> es = [].
Proof. intro H. exact (proj1 (keeps_variant v gs _ _ _ _ _ _ _ _ H eq_refl)). Qed.
Ltac once_tac := first [assumption|apply once_one|(eapply once_app; eassumption)].
Ltac fin n := split; [refine (conj _ (conj _ (conj _ _))); [repeat split; once_tac|first [assumption|auto]|first [assumption|congruence]|assumption]
                     |exists n; split; [assumption|reflexivity]].
Lemma variant_sound os k sp st s st' s' : rep_v os st -> variant_arm v gs k sp st [] s = (Ok (st', []), s') ->
  exists o, spells_v k sp s o s' /\ rep_v (os ++ [o]) st'.
Proof.
  intros [[[A1 [A2 [A3 [A4 A5]]]] [T [U N]]] [n [NR ->]]]. unfold variant_arm.
  repeat match goal with |- context [String.eqb k ?x] => destruct (String.eqb_spec k x) as [E|] end; try subst k.
  - intro H. apply slot_sound in H as [L [a [D ->]]]. apply transparent_item_inv in D as [TF D]. exists (VTransparent a). split; [now constructor|]. unfold rep_v, inc_v. norm. rewrite L in *. fin n.
  - assert (X : sv_shape v <> ShUnnamed -> slot "allow_unknown_fields" sp (d_named bool_dict) (status (v_unknowns os)) (fun x => mkVst n (status (v_flattens os)) (status (v_transparents os)) (status (v_skips os)) x) [] s = (Ok (st', []), s') ->
      exists o, spells_v "allow_unknown_fields" sp s o s' /\ rep_v (os ++ [o]) st').
    { intros NS H. apply slot_sound in H as [L [a [D ->]]]. exists (VUnknown a). split; [now constructor|]. unfold rep_v, inc_v. norm. rewrite L in *. fin n. }
    destruct (sv_shape v); intro H; [apply X; [congruence|exact H]|now apply refuse_push in H|apply X; [congruence|exact H]].
  - intro H. apply slot_sound in H as [L [a [D ->]]]. exists (VFlatten a). split; [now constructor|]. unfold rep_v, inc_v. norm. rewrite L in *. fin n.
  - intro H. apply on_names_inv in H as [n' [H ->]]. apply rename_inv in H as [_ [RN [y [D [O [HN ->]]]]]].
    destruct NR as [NI [SR SA]]. pose proof (shows_none _ _ SR RN) as RE.
    exists (VRename y). split; [now constructor|]. unfold rep_v, inc_v. norm. rewrite RE in *. cbn [app] in *. split.
    + refine (conj _ (conj _ (conj _ _))); [repeat split; once_tac|assumption|assumption|].
      apply (new_names_front _ [] _ y). cbn [app]. apply new_names_app. rewrite NI in HN. auto.
    + eexists. split; [|reflexivity]. split; [|split]; cbn [n_idents n_rename n_alias]; [now rewrite NI|cbn; eauto|exact SA].
  - intro H. apply on_names_inv in H as [n' [H ->]]. apply alias_inv in H as [_ [y [D [O [HN ->]]]]].
    destruct NR as [NI [SR SA]].
    exists (VAlias y). split; [now constructor|]. unfold rep_v, inc_v. norm. split.
    + refine (conj _ (conj _ (conj _ _))); [repeat split; once_tac|assumption|assumption|].
      rewrite app_assoc. apply new_names_app. rewrite NI in HN. auto.
    + eexists. split; [|reflexivity]. split; [|split]; cbn [n_idents n_rename n_alias]; [now rewrite NI, app_assoc|exact SR|now apply shows_snoc].
  - intro H. apply slot_sound in H as [L [a [D ->]]]. exists (VSkip a). split; [now constructor|]. unfold rep_v, inc_v. norm. rewrite L in *. fin n.
  - intro H. apply refuse_unknown in H; [contradiction|].
    unfold variant_attr_names. cbn [mem_str existsb]. repeat match goal with H : k <> ?x |- _ => apply String.eqb_neq in H; rewrite H; clear H end. reflexivity.
Qed.
Ltac byslot D A n I NR := let L := fresh "L" in let E := fresh "E" in unfold rep_v; clear - D A n I NR; revert I; norm; intro I;
    match goal with |- context [slot ?nm ?sp ?p (status ?l) ?set [] ?s] => destruct (slot_ok nm sp p l set s _ _ A D) as [L E] end;
    rewrite E; eexists; split; [reflexivity|]; split; [exact I|]; exists n; rewrite L; split; [assumption|reflexivity].
Lemma variant_complete os k sp st s o s' : rep_v os st -> spells_v k sp s o s' -> inc_v (os ++ [o]) ->
  exists st', variant_arm v gs k sp st [] s = (Ok (st', []), s') /\ rep_v (os ++ [o]) st'.
Proof.
  intros [_ [n [NR ->]]] SP I. pose proof I as [[A1 [A2 [A3 [A4 A5]]]] [T [U N]]].
  unfold variant_arm.
  destruct SP as [x s' -> D|x s' -> D|x s' -> D|x s' -> D|x s' -> D|x s' -> D];
    cbn [String.eqb Ascii.eqb Bool.eqb].
  - assert (TF : transparent_fits gs). { apply T. norm. apply snoc_ne. }
    assert (D2 : transparent_item "variant" gs (d_named opt_bool) "transparent" sp s = (Ok x, s')) by (apply transparent_item_inv; auto).
    clear D. byslot D2 A1 n I NR.
  - assert (NS : sv_shape v <> ShUnnamed). { apply U. norm. apply snoc_ne. }
    destruct (sv_shape v); try congruence; byslot D A2 n I NR.
  - byslot D A3 n I NR.
  - assert (RE : v_renames os = []) by (norm; now apply once_two in A4).
    destruct NR as [NI [SR SA]]. rewrite RE in SR. cbn in SR.
    assert (NN : own_is (Some (fst (sv_ident v))) x = false /\ has_name x (n_idents n) = false).
    { rewrite NI. unfold v_renames at 1, v_aliases in N. rewrite !flat_map_app in N. fold (v_renames os) (v_aliases os) in N. rewrite RE in *. cbn [flat_map app] in N. rewrite app_nil_r in N.
      apply (new_names_front _ [] _ x) in N. cbn [app] in *. apply new_names_app in N. tauto. }
    unfold on_names, rename_arm. rewrite D. unfold own_is in NN. rewrite SR, (proj1 NN), (proj2 NN). cbn [rmap fst snd fs_is_none].
    eexists. split; [reflexivity|]. split; [exact I|].
    eexists. split; [|unfold v_flattens, v_transparents, v_skips, v_unknowns; rewrite !flat_map_app; cbn [flat_map]; rewrite !app_nil_r; reflexivity].
    unfold v_renames, v_aliases in *. rewrite !flat_map_app, RE. cbn [flat_map app]. rewrite !app_nil_r. rewrite NI, RE. cbn [app].
    split; [reflexivity|]. split; [cbn; eauto|exact SA].
  - destruct NR as [NI [SR SA]].
    assert (NN : own_is (Some (fst (sv_ident v))) x = false /\ has_name x (n_idents n) = false).
    { rewrite NI. unfold v_renames, v_aliases in N. rewrite !flat_map_app in N. fold (v_renames os) (v_aliases os) in N. cbn [flat_map app] in N. rewrite app_nil_r, app_assoc in N.
      apply new_names_app in N. tauto. }
    unfold on_names, alias_arm. rewrite D. unfold own_is in NN. rewrite (proj1 NN), (proj2 NN). cbn [rmap fst snd].
    eexists. split; [reflexivity|]. split; [exact I|].
    eexists. split; [|unfold v_flattens, v_transparents, v_skips, v_unknowns; rewrite !flat_map_app; cbn [flat_map]; rewrite !app_nil_r; reflexivity].
    unfold v_renames, v_aliases in *. rewrite !flat_map_app. cbn [flat_map app]. rewrite !app_nil_r. rewrite NI.
    split; [cbn [n_idents]; now rewrite app_assoc|]. split; [exact SR|]. now apply shows_snoc.
  - byslot D A5 n I NR.
Qed.
Lemma rep_v_init : rep_v [] vst_init.
Proof.
  split.
  - split; [repeat split; unfold once; cbn; lia|]. split; [intro H; now elim H|]. split; [intro H; now elim H|]. split; [constructor|auto].
  - eexists. split; [|reflexivity]. repeat split.
Qed.
End V.

Lemma flat_status_ok {A} (l : list (option A)) : once l -> flat_status (status l) = status (somes l).
Proof. unfold once. destruct l as [|[x|] [|y l]]; cbn; intro; try reflexivity; lia. Qed.
Section V2.
Context {env : Env}.
Variable sy : synlib.
Hypothesis SY : good_syn_lib sy.
Lemma variant_checks_ok sh gs es : variant_checks sh gs es = [] <-> es = [] /\ one_container gs /\
  (sh = ShUnnamed -> defaults_last gs).
Proof.
  unfold variant_checks. destruct sh; rewrite ?default_gaps_iff, container_iff; intuition congruence.
Qed.
Lemma variant_only_ok v gs os st es : rep_v v gs os st -> variant_only_one st es = [] <->
  es = [] /\ not_both (somes (v_flattens os)) (v_renames os) /\ not_both (somes (v_flattens os)) (v_aliases os).
Proof.
  intros [[[_ [_ [O _]]] _] [n [[NI [SR SA]] ->]]]. unfold variant_only_one. cbn [x_flatten x_names].
  rewrite !only2_iff, (flat_status_ok _ O), !span_status, (span_shows _ _ SR), (span_shows _ _ SA). unfold not_both. tauto.
Qed.
Lemma variant_idents_ok v gs os st ids : rep_v v gs os st -> variant_idents v st = Ok ids <-> named_v v os /\ ids = names_v v os.
Proof.
  intros [[[_ [_ [O _]]] _] [n [[NI [SR SA]] ->]]]. unfold variant_idents, names_v, named_v. cbn [x_flatten x_names].
  rewrite (flat_status_ok _ O), NI. replace (snake_case (unraw (fst (sv_ident v)))) with (own_name v) by (unfold own_name; now rewrite unraw_plain, snake_case_form).
  rewrite <- l_snake_ident, <- unraw_plain, snake_case_form, unraw_plain. fold (own_name v) in *.
  assert (FE : status_true (status (somes (v_flattens os))) = is_flattened_v os).
  { unfold is_flattened_v. unfold once in O. destruct (v_flattens os) as [|[[b sp]|] [|y l]]; cbn in *; [reflexivity|now rewrite orb_false_r|lia|reflexivity|lia]. }
  rewrite FE. destruct (v_renames os) as [|r rs].
  - cbn in SR. rewrite SR. cbn [fs_is_none andb]. destruct (is_flattened_v os); cbn [negb app].
    + split; [intro H; injection H as <-; split; auto; discriminate|intros [_ ->]; reflexivity].
    + destruct (ident_text (own_name v)) eqn:T; [split; [intro H; injection H as <-; auto|intros [_ ->]; reflexivity]|].
      split; [discriminate|intros [H _]; discriminate (H eq_refl eq_refl)].
  - destruct SR as [sp ->]. cbn [fs_is_none andb]. split; [intro H; injection H as <-; split; auto; discriminate|intros [_ ->]; reflexivity].
Qed.
Lemma adv_variant_body v l : Forall2 advances l (snd (variant_body sy v l)).
Proof.
  unfold variant_body. destruct (read_all (read_field sy) (sv_fields v) []) as [[fs es]|e|b]; [|apply advs_refl..].
  pose proof (proj2 (wbm_read_items (variant_arm v fs) vst_init es (wb_variant_arm v fs) l)) as A. unfold pbind.
  destruct (read_items (variant_arm v fs) vst_init es l) as [[q|e|b] l1]; cbn [snd] in *; auto.
Qed.
Lemma l_variant_ok v h : read_variant sy v = Ok h <-> variant_means sy v h.
Proof.
  unfold read_variant, variant_means. rewrite deluxe_items_ok.
  rewrite (l_attributes_ok_weak _ (fun _ => adv_variant_body v)). unfold has_options.
  assert (FS : forall gs, map skip_fill gs = map filled gs) by (intro; apply map_ext, filled_ok).
  assert (CS : forall gs os st, rep_v v gs os st -> variant_checks (sv_shape v) (map filled gs) (variant_only_one st []) = [] <-> consistent_v v gs os).
  { intros gs os st R. rewrite variant_checks_ok, filled_containers, (variant_only_ok _ _ _ _ _ R). destruct R as [[I1 [I2 [I3 I4]]] _]. unfold consistent_v. tauto. }
  assert (ME : forall gs os st, rep_v v gs os st ->
     mkSVariant v (map filled gs) (names_v v os) (option_map fst (fs_into_option (flat_status (x_flatten st))))
                             (option_map fst (fs_into_option (flat_status (x_transparent st))))
                             (fs_into_option (x_skip st)) (fs_into_option (x_unknown st)) = meaning_v v gs os).
  { intros gs os st [[[O1 [_ [O2 _]]] _] [n [_ ->]]]. cbn [x_flatten x_transparent x_skip x_unknown]. unfold meaning_v. now rewrite (flat_status_ok _ O1), (flat_status_ok _ O2), !status_option. }
  split.
  - intros [cs [C [H P]]]. destruct (variant_body sy v cs) as [r cs'] eqn:B. cbn [fst snd] in *. subst r.
    unfold variant_body in B. destruct (read_all (read_field sy) (sv_fields v) []) as [[gs es]|e|b] eqn:RA; try discriminate B.
    apply mbind_inv in B as [[st es1] [l1 [RD B]]]. cbn [fst snd] in B. rewrite FS in B.
    destruct (variant_idents v st) as [ids|e|b] eqn:VI; cbn [rbind] in B; try discriminate B.
    match type of B with context [check ?c] => destruct (check c) as [u|e|b] eqn:CH end; cbn [rmap] in B; try discriminate B. injection B as <- <-.
    apply check_ok in CH.
    assert (es1 = []) as ->. { apply variant_checks_ok in CH as [CH _]. unfold variant_only_one in CH. rewrite !only2_iff in CH. tauto. }
    destruct (read_sound _ _ (rep_v v gs) (variant_keys v gs) (variant_sound v gs) [] _ _ _ _ _ (rep_v_init v gs) RD) as [-> [os [W R]]].
    cbn [app] in R. apply (variant_idents_ok _ _ _ _ _ R) in VI as [NV ->].
    exists gs, os. split; [apply (fields_means sy SY); now apply read_all_iff|]. split; [eauto|]. split; [now apply (CS _ _ _ R)|]. split; [exact NV|]. now apply ME.
  - intros [gs [os [FM [[cs [cs' [C [W P]]]] [K [NV ->]]]]]]. exists cs. split; auto.
    assert (I : inc_v v gs ([] ++ os)). { cbn [app]. unfold consistent_v in K. unfold inc_v. tauto. }
    unfold variant_body. rewrite (proj2 (read_all_iff _ _ _) (proj2 (fields_means sy SY _ _) FM)).
    destruct (read_complete _ _ (rep_v v gs) (inc_v v gs) (wb_variant_arm v gs) (variant_complete v gs) (inc_v_prefix v gs) [] _ _ _ _ (rep_v_init v gs) W I) as [st [RD R]].
    cbn [app] in R. unfold pbind. rewrite RD. cbn [fst snd]. rewrite FS, (proj2 (variant_idents_ok _ _ _ _ _ R) (conj NV eq_refl)). cbn [rbind].
    rewrite (proj2 (CS _ _ _ R) K). cbn [check into_result rmap]. split; [|exact P]. cbn. f_equal. now apply ME.
Qed.
End V2.
