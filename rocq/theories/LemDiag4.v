(** The errors about the attributes of structs and of variants. *)
From Verif Require Import LemWf LemWfD LemWfE LemSmall LemItems LemAttr.
From Verif Require Export LemDiag3 LemOpts5.

Section C.
Context {env : Env}.
Lemma has_app y a b : has_name y (a ++ b) = has_name y a || has_name y b.
Proof. unfold has_name, mem_str. now rewrite map_app, existsb_app. Qed.
Lemma dup_names_diag msg : forall ids seen pre es, (forall y, has_name y seen = has_name y pre) ->
  exists seen', dup_names msg ids seen es = (seen', es ++ repeated msg pre ids) /\ forall y, has_name y seen' = has_name y (pre ++ ids).
Proof.
  unfold dup_names, repeated. induction ids as [|x ids IH]; intros seen pre es H; cbn [fold_left with_before].
  - exists seen. rewrite !app_nil_r. auto.
  - cbn [fst snd]. rewrite H. change (listed_in (fst x) (map fst pre)) with (has_name x pre). destruct (has_name x pre) eqn:HN.
    + destruct (IH seen (pre ++ [x]) (push es (snd x) (msg ++ tick (fst x))%string)) as [seen' [E1 E2]].
      { intro y. rewrite H, has_app. unfold has_name at 3. cbn. destruct (String.eqb_spec (fst y) (fst x)) as [E|]; [|now rewrite !orb_false_r].
        unfold has_name in *. rewrite E, HN. reflexivity. }
      exists seen'. rewrite E1. split; [|intro y; now rewrite E2, <- app_assoc]. f_equal. unfold push, push_syn, tick. now rewrite <- app_assoc.
    + destruct (IH (seen ++ [x]) (pre ++ [x]) es) as [seen' [E1 E2]]. { intro y. now rewrite !has_app, H. }
      exists seen'. rewrite E1. split; [reflexivity|]. intro y. now rewrite E2, <- app_assoc.
Qed.
Definition has_container (g : sfield) : bool := match g_container g with Some _ => true | None => false end.
Lemma dup_container_diag g before es :
  dup_container g (existsb has_container before) es = (existsb has_container (before ++ [g]), es ++ second_container before g).
Proof.
  rewrite existsb_app. cbn [existsb]. rewrite orb_false_r. unfold dup_container, second_container. change (has_container g) with (match g_container g with Some _ => true | None => false end).
  change (fun h => match g_container h with Some _ => true | None => false end) with has_container.
  destruct (g_container g) as [c|]; [|now rewrite app_nil_r, orb_false_r]. rewrite orb_true_r. destruct (existsb has_container before); [reflexivity|now rewrite app_nil_r].
Qed.
Lemma field_list_diag : forall fs before seen es, (forall y, has_name y seen = has_name y (flat_map g_idents before)) ->
  field_list_checks fs seen (existsb has_container before) es =
  es ++ with_before (fun before g => repeated "duplicate field name for " (flat_map g_idents before) (g_idents g) ++ second_container before g) before fs.
Proof.
  induction fs as [|f fs IH]; intros before seen es H; cbn [field_list_checks with_before]; [now rewrite app_nil_r|].
  destruct (dup_names_diag "duplicate field name for " (g_idents f) seen (flat_map g_idents before) es H) as [seen' [E1 E2]]. rewrite E1, dup_container_diag.
  rewrite IH; [now rewrite <- !app_assoc|]. intro y. rewrite E2, flat_map_app. cbn [flat_map]. now rewrite app_nil_r.
Qed.
Lemma container_diag : forall fs before es,
  container_checks fs (existsb has_container before) es = es ++ with_before second_container before fs.
Proof.
  induction fs as [|f fs IH]; intros before es; cbn [container_checks with_before]; [now rewrite app_nil_r|].
  rewrite dup_container_diag, IH. now rewrite <- app_assoc.
Qed.
Lemma own_field g : on_its_own g = g_is_parsable g && negb (g_is_flat g).
Proof. reflexivity. Qed.
Lemma gaps_diag what : forall fs later es,
  default_gaps what fs (existsb (fun h => on_its_own h && match g_default h with None => true | Some _ => false end) later) es =
  es ++ with_before (fun later g =>
    match g_default g with
    | Some d =>
      if on_its_own g &&
         existsb (fun h => on_its_own h && match g_default h with None => true | Some _ => false end) later
      then [mkErr (default_span d) ("`default` fields can only be at the end of a tuple " ++ what)%string]
      else []
    | None => []
    end) later fs.
Proof.
  induction fs as [|f fs IH]; intros later es; cbn [default_gaps with_before]; [now rewrite app_nil_r|]. rewrite <- own_field.
  specialize (IH (later ++ [f])). rewrite existsb_app in IH. cbn [existsb] in IH. rewrite orb_false_r in IH.
  destruct (on_its_own f); cbn [andb] in *.
  - destruct (g_default f) as [d|]; cbn [app].
    + rewrite orb_false_r in IH. destruct (existsb _ later); rewrite IH; [|reflexivity]. unfold push, push_syn. now rewrite <- app_assoc.
    + rewrite orb_true_r in IH. apply IH.
  - rewrite orb_false_r in IH. rewrite IH. destruct (g_default f); reflexivity.
Qed.
Lemma gaps_ok what sh fs es : (match sh with ShUnnamed => default_gaps what (rev fs) false es | _ => es end) = es ++ tuple_gaps what sh fs.
Proof. destruct sh; cbn [tuple_gaps]; [now rewrite app_nil_r| |now rewrite app_nil_r]. exact (gaps_diag what (rev fs) [] es). Qed.
Lemma fault_ok what fs : transparent_check what fs = transparent_fault what fs.
Proof.
  unfold transparent_check, transparent_fault. change taken_part with g_is_parsable. destruct (filter g_is_parsable fs) as [|g [|h r]]; reflexivity.
Qed.
Lemma item_fault {A} what fs (p : string -> span -> parser A) nm k sp s : p nm sp s = p k sp s ->
  transparent_item what fs p nm sp s = unless_fault what fs p k sp s.
Proof. intro E. unfold unless_fault, transparent_item. now rewrite fault_ok, E. Qed.

Variable sy : synlib.
Hypothesis SY : good_syn_lib sy.
Lemma fields_diag fs gs fes : fields_read sy fs gs fes -> forall es, read_all (read_field sy) fs es = Ok (gs, es ++ fes).
Proof.
  induction 1 as [|f g fs gs es F R IH|f xs fs gs es H N R IH]; intro es0; cbn [read_all].
  - now rewrite app_nil_r.
  - rewrite (proj2 (l_field_ok sy SY f g) F), IH. reflexivity.
  - pose proof (l_field_diag sy SY f xs H) as D. destruct (read_field sy f) as [g|e|b]; cbn in D; [contradiction| |destruct D].
    rewrite IH. unfold push_syn. now rewrite D, <- app_assoc.
Qed.
End C.

Definition get_st (o : sopt) := match o with STransparent x => Some x | _ => None end.
Definition get_su (o : sopt) := match o with SUnknown x => Some x | _ => None end.
Definition get_sd (o : sopt) := match o with SDefault x => Some x | _ => None end.
Definition get_sc (o : sopt) := match o with SCrate x => Some x | _ => None end.
Lemma not_in_keys k (l : list string) : (forall y, In y l -> k <> y) -> listed_in k l = false.
Proof.
  intro H. destruct (listed_in k l) eqn:E; auto. apply lin_in in E. now elim (H k E).
Qed.
Lemma key_ne k y : k <> y -> is_key y k = false.
Proof. intro H. unfold is_key. apply String.eqb_neq. congruence. Qed.
Ltac strange := apply not_in_keys; let H := fresh in let y := fresh in intros y H; cbn in H; intuition congruence.
Section S.
Context {env : Env}.
Variable sy : synlib.
Hypothesis SY : good_syn_lib sy.
Lemma nd_s sh gs : NoDup (map fst (gr_keys (grammar_s sy sh gs))).
Proof. nodup. Qed.
Lemma nb_s sh gs : NoDup (map fst (gr_barred (grammar_s sy sh gs))).
Proof. unfold grammar_s. destruct sh; nodup. Qed.
Definition rep_ds (before : list (aentry sopt)) (st : sst) : Prop :=
  exists a p, st = mkSst (st_of "transparent" get_st before) (st_of "allow_unknown_fields" get_su before)
                         (st_of "default" get_sd before) (st_of "crate" get_sc before) a p.
Ltac st_f OT := f_equal; first [reflexivity|symmetry; apply OT; reflexivity].
Ltac rest_s OT := eexists; split; [reflexivity|]; eexists _, _; st_f OT.
Ltac slot_s C get nm k OT := erewrite (slot_diag _ (nd_s _ _) C get nm k);
    [rest_s OT|reflexivity|assumption|cbn; tauto|reflexivity|reflexivity|reflexivity|reflexivity|reflexivity|assumption].
Ltac bar_s G ER k := erewrite (refuse_barred G); [|apply nb_s|cbn; tauto|reflexivity|exact ER];
    eexists; split; [reflexivity|]; eexists _, _;
    destruct (barred_entry _ _ _ _ _ _ ER (eq_refl : listed_in k (map fst (gr_barred G)) = true)) as [msg ->]; now rewrite !st_barred.
Lemma struct_diag sh gs before k sp st es s x s' : rep_ds before st -> Forall (valid (grammar_s sy sh gs)) before -> entry_rest (grammar_s sy sh gs) k sp s x s' -> ends (toks s') ->
  exists st', struct_arm sy sh gs k sp st es s = (Ok (st', es ++ judge (grammar_s sy sh gs) before x), s') /\ rep_ds (before ++ [x]) st'.
Proof.
  intros [a [p ->]] V ER EN. destruct (rest_valid _ _ _ _ _ _ ER) as [VX K].
  assert (OT : forall A k' (get : sopt -> option A), is_key k' k = false -> st_of k' get (before ++ [x]) = st_of k' get before).
  { intros A k' get E. apply st_other. now rewrite K. }
  clear K VX. unfold struct_arm.
  repeat match goal with |- context [String.eqb k ?y] => destruct (String.eqb_spec k y) as [E|] end; try subst k.
  - erewrite (slot_diag2 _ (nd_s sh gs) STransparent get_st "transparent" "transparent" sp _ (unless_fault "struct" gs (d_named transparent_dict)));
      [rest_s OT|reflexivity|assumption|cbn; tauto|destruct sh; reflexivity|reflexivity|reflexivity|now apply item_fault|reflexivity|assumption].
  - destruct sh; [slot_s SUnknown get_su "allow_unknown_fields" "allow_unknown_fields" OT|bar_s (grammar_s sy ShUnnamed gs) ER "allow_unknown_fields"|slot_s SUnknown get_su "allow_unknown_fields" "allow_unknown_fields" OT].
  - destruct sh; [slot_s SDefault get_sd "default" "default" OT|slot_s SDefault get_sd "default" "default" OT|bar_s (grammar_s sy ShUnit gs) ER "default"].
  - destruct sh; slot_s SCrate get_sc "crate" "crate" OT.
  - assert (B : listed_in "and_then" (map fst (gr_barred (grammar_s sy sh gs))) = false) by (unfold grammar_s; destruct sh; reflexivity).
    match goal with |- context [collect ?st _ ?add es s] =>
      destruct (collect_diag _ (nd_s sh gs) SAndThenS "and_then" sp (d_named tokenstream_dict) st add es s x s' before ltac:(cbn; tauto) B eq_refl (fun _ _ => eq_refl) ER) as [[b C]|C] end; rewrite C; rest_s OT.
  - assert (B : listed_in "attributes" (map fst (gr_barred (grammar_s sy sh gs))) = false) by (unfold grammar_s; destruct sh; reflexivity).
    match goal with |- context [collect ?st _ ?add es s] =>
      destruct (collect_diag _ (nd_s sh gs) SAttributes "attributes" sp (d_named (with_vec_dict (syn_dict (sy_mod_path sy)))) st add es s x s' before ltac:(cbn; tauto) B eq_refl (fun _ _ => eq_refl) ER) as [[b C]|C] end; rewrite C; rest_s OT.
  - assert (MS : mem_str k struct_attr_names = false) by strange.
    assert (KS : listed_in k (map fst (gr_keys (grammar_s sy sh gs))) = false) by strange.
    assert (KB : listed_in k (map fst (gr_barred (grammar_s sy sh gs))) = false) by (unfold grammar_s; destruct sh; strange).
    rewrite (refuse_strange (grammar_s sy sh gs) k sp _ es s x s' before struct_attr_names eq_refl MS KS KB ER).
    eexists; split; [reflexivity|]; eexists a, p. rewrite !OT by (now apply key_ne). reflexivity.
Qed.
End S.
