(** The errors about the attributes of a field, continued. *)
From Verif Require Import LemWf LemWfD LemWfE LemSmall LemItems LemAttr.
From Verif Require Export LemDiag2.

Definition get_flatten (o : fopt) := match o with OFlatten x => Some x | _ => None end.
Definition get_append (o : fopt) := match o with OAppend x => Some x | _ => None end.
Definition get_rest (o : fopt) := match o with ORest x => Some x | _ => None end.
Definition get_container (o : fopt) := match o with OContainer x => Some x | _ => None end.
Definition get_with (o : fopt) := match o with OWith x => Some x | _ => None end.
Definition get_default (o : fopt) := match o with ODefault x => Some x | _ => None end.
Definition get_skip (o : fopt) := match o with OSkip x => Some x | _ => None end.

Lemma barred_entry {O} (G : grammar O) k sp s x s' : entry_rest G k sp s x s' -> listed_in k (map fst (gr_barred G)) = true ->
  exists msg, x = Barred k sp msg.
Proof. intros ER B. destruct ER; try congruence. eauto. Qed.
Lemma st_barred {O A} k (get : O -> option A) xs k' sp msg : st_of k get (xs ++ [Barred k' sp msg]) = st_of k get xs.
Proof.
  unfold st_of. rewrite filter_snoc. destruct (filter _ xs); [|reflexivity]. cbn [app]. destruct (is_key k (entry_key (Barred k' sp msg))); reflexivity.
Qed.
Lemma attrs_diag {env : Env} {A} (func : list (string * span) -> mparser A) (WF : forall paths, well_behaved_m (func paths)) l cs cs' ls :
  Forall2 attr_content l cs -> Forall parsed_up cs' -> diagnosed (fst (func (attr_names l) cs)) ls /\ snd (func (attr_names l) cs) = cs' ->
  diagnosed (parse_struct_attr_tokens l func) ls.
Proof.
  intros C P [D S]. destruct (fst (func (attr_names l) cs)) as [v|e|b] eqn:F; [| |destruct D].
  - cbn in D. subst ls. assert (H : parse_struct_attr_tokens l func = Ok v); [|now rewrite H].
    apply (l_attributes_ok _ WF). exists cs. split; auto. split; auto. rewrite S.
    assert (LN : length l = length cs'). { rewrite <- S. destruct (WF (attr_names l) cs) as [_ AV]. rewrite (adv_len _ _ AV). clear - C. induction C; cbn; auto. }
    clear - P LN. revert l LN. induction P as [|s cs' [T K] P IH]; intros [|it l] LN; try discriminate LN; constructor; auto.
    split; [now left|now right].
  - assert (H : parse_struct_attr_tokens l func = Err e); [|now rewrite H].
    eapply l_attributes_err; eauto. now rewrite S.
Qed.
Ltac nodup := cbn; repeat constructor; cbn; intuition discriminate.
Section F.
Context {env : Env}.
Variable sy : synlib.
Hypothesis SY : good_syn_lib sy.
Variable f : src_field.
Let G := grammar_f sy f.
Let own := option_map fst (sf_ident f).
Lemma nd_f : NoDup (map fst (gr_keys G)).
Proof. nodup. Qed.
Definition rep_df (before : list (aentry fopt)) (st : fst_) : Prop :=
  exists n tr, names_st G "field" own field_name_of before n /\
    st = mkFst (st_of "default" get_default before) (st_of "with" get_with before) (st_of "flatten" get_flatten before)
               (st_of "append" get_append before) (st_of "rest" get_rest before) (st_of "container" get_container before)
               (st_of "skip" get_skip before) n tr.
Lemma barred_f k : listed_in k ["append"; "rest"; "rename"; "alias"] = false -> listed_in k (map fst (gr_barred G)) = false.
Proof. intro H. unfold G, grammar_f. cbn [gr_barred]. destruct (sf_ident f); [reflexivity|]. exact H. Qed.
Lemma named_f k x : sf_ident f = Some x -> listed_in k (map fst (gr_barred G)) = false.
Proof. intro H. unfold G, grammar_f. cbn [gr_barred]. rewrite H. reflexivity. Qed.
Lemma other_names before n x k sp s s' : names_st G "field" own field_name_of before n -> entry_rest G k sp s x s' ->
  is_key "rename" k = false -> is_key "alias" k = false -> names_st G "field" own field_name_of (before ++ [x]) n.
Proof.
  intros N ER KR KA. destruct (rest_valid _ _ _ _ _ _ ER) as [_ K]. apply names_other; auto; try (rewrite K; auto).
  intros k' sp' o ->. cbn [entry_key] in K. subst k'. inversion ER as [p o' s1 B I P E1 E2| | |]; subst.
  unfold G, grammar_f, keys_f in I. cbn [gr_keys In] in I.
  repeat (destruct I as [I|I]; [injection I as IK <-; subst k; apply pmap_inv in P as [[a|e|b] [_ P]]; try discriminate P; injection P as ->; first [reflexivity|discriminate KR|discriminate KA]|]). destruct I.
Qed.
Lemma in_barred k : sf_ident f = None -> listed_in k ["append"; "rest"; "rename"; "alias"] = true -> listed_in k (map fst (gr_barred G)) = true.
Proof. intros H1 H. unfold G, grammar_f. cbn [gr_barred]. rewrite H1. exact H. Qed.
Lemma bb_f : listed_in "alias" (map fst (gr_barred G)) = listed_in "rename" (map fst (gr_barred G)).
Proof. unfold G, grammar_f. cbn [gr_barred]. destruct (sf_ident f); reflexivity. Qed.
Lemma field_diag before k sp st es s x s' : rep_df before st -> Forall (valid G) before -> entry_rest G k sp s x s' -> ends (toks s') ->
  exists st', field_arm sy f k sp st es s = (Ok (st', es ++ judge G before x), s') /\ rep_df (before ++ [x]) st'.
Proof.
  intros [n [tr [NS ->]]] V ER EN. destruct (rest_valid _ _ _ _ _ _ ER) as [VX K].
  assert (OT : forall A k' (get : fopt -> option A), is_key k' k = false -> st_of k' get (before ++ [x]) = st_of k' get before).
  { intros A k' get E. apply st_other. now rewrite K. }
  assert (BN : sf_ident f = None -> gr_barred G = map not_on_tuples ["append"; "rest"; "rename"; "alias"]).
  { intro H. unfold G, grammar_f. cbn [gr_barred]. now rewrite H. }
  assert (SFC : (exists y, sf_ident f = Some y) \/ sf_ident f = None) by (destruct (sf_ident f); eauto).
  clear K VX. unfold field_arm.
  repeat match goal with |- context [String.eqb k ?y] => destruct (String.eqb_spec k y) as [E|] end; try subst k.
  Ltac st_f OT := f_equal; first [reflexivity|symmetry; apply OT; reflexivity].
  Ltac rest_f OT := eexists; split; [reflexivity|]; eexists _, _; split; [eapply other_names; eauto; fail|]; st_f OT.
  Ltac slot_f C get nm k OT := erewrite (slot_diag _ (nd_f) C get nm k);
    [rest_f OT|reflexivity|assumption|cbn; tauto| |reflexivity|reflexivity|reflexivity|reflexivity|assumption].
  Ltac bar_f V OT := erewrite refuse_barred; [rest_f OT|nodup|cbn; tauto|reflexivity|eassumption].
  - slot_f OFlatten get_flatten "flatten" "flatten" OT. now apply barred_f.
  - destruct SFC as [[y SF]|SF]; rewrite SF.
    + slot_f OAppend get_append "append" "append" OT. eapply named_f; eauto.
    + erewrite (refuse_barred G); [|rewrite BN by exact SF; nodup|rewrite BN by exact SF; cbn; tauto|reflexivity|exact ER].
      eexists; split; [reflexivity|]; eexists _, _; split; [eapply other_names; eauto; fail|].
      destruct (barred_entry _ _ _ _ _ _ ER (in_barred "append" SF eq_refl)) as [msg ->]. now rewrite !st_barred.
  - destruct SFC as [[y SF]|SF]; rewrite SF.
    + slot_f ORest get_rest "rest" "rest" OT. eapply named_f; eauto.
    + erewrite (refuse_barred G); [|rewrite BN by exact SF; nodup|rewrite BN by exact SF; cbn; tauto|reflexivity|exact ER].
      eexists; split; [reflexivity|]; eexists _, _; split; [eapply other_names; eauto; fail|].
      destruct (barred_entry _ _ _ _ _ _ ER (in_barred "rest" SF eq_refl)) as [msg ->]. now rewrite !st_barred.
  - slot_f ODefault get_default "default" "default" OT. now apply barred_f.
  - slot_f OWith get_with "with" "with" OT. now apply barred_f.
  - destruct SFC as [[y SF]|SF]; rewrite SF.
    + unfold on_names. 
      destruct (rename_diag G "field" own field_name_of ORename nd_f (fun x => eq_refl) eq_refl ltac:(cbn; tauto) eq_refl eq_refl sp n es s x s' before NS V (named_f _ _ SF) ER EN) as [n' [RA NS']].
      match type of RA with rename_arm _ ?o _ _ _ _ = _ => replace o with (Some (fst y)) in RA by (unfold own; now rewrite SF) end.
      rewrite RA. cbn [rmap fst snd]. eexists; split; [reflexivity|]; exists n', tr; split; [exact NS'|st_f OT].
    + destruct (barred_entry _ _ _ _ _ _ ER (in_barred "rename" SF eq_refl)) as [msg ->].
      eexists. split; [|exists n, tr; split; [apply names_barred; auto; now apply in_barred|now rewrite !st_barred]].
      inversion ER as [| |m s1 IB LO|]; subst. unfold G, grammar_f in IB, LO. cbn [gr_barred gr_loose] in IB, LO. rewrite SF in IB. cbn in LO, IB.
      subst s'. cbn [judge]. destruct IB as [IB|[IB|[IB|[IB|[]]]]]; try discriminate IB; injection IB as <-. reflexivity.
  - destruct SFC as [[y SF]|SF]; rewrite SF.
    + unfold on_names. 
      destruct (alias_diag G "field" own field_name_of OAlias nd_f (fun x => eq_refl) eq_refl ltac:(cbn; tauto) eq_refl (bb_f) sp n es s x s' before NS (named_f _ _ SF) ER) as [n' [RA NS']].
      match type of RA with alias_arm _ ?o _ _ _ _ = _ => replace o with (Some (fst y)) in RA by (unfold own; now rewrite SF) end.
      rewrite RA. cbn [rmap fst snd]. eexists; split; [reflexivity|]; exists n', tr; split; [exact NS'|st_f OT].
    + destruct (barred_entry _ _ _ _ _ _ ER (in_barred "alias" SF eq_refl)) as [msg ->].
      eexists. split; [|exists n, tr; split; [apply names_barred; auto; now apply in_barred|now rewrite !st_barred]].
      inversion ER as [| |m s1 IB LO|]; subst. unfold G, grammar_f in IB, LO. cbn [gr_barred gr_loose] in IB, LO. rewrite SF in IB. cbn in LO, IB.
      subst s'. cbn [judge]. destruct IB as [IB|[IB|[IB|[IB|[]]]]]; try discriminate IB; injection IB as <-. reflexivity.
  - slot_f OContainer get_container "container" "container" OT. now apply barred_f.
  - slot_f OSkip get_skip "container" "skip" OT. now apply barred_f.
  - match goal with |- context [collect ?st _ ?add es s] =>
      destruct (collect_diag G nd_f OMap "map" sp (d_named tokenstream_dict) st add es s x s' before ltac:(cbn; tauto) (barred_f "map" eq_refl) eq_refl (fun _ _ => eq_refl) ER) as [[a C]|C] end; rewrite C; rest_f OT.
  - match goal with |- context [collect ?st _ ?add es s] =>
      destruct (collect_diag G nd_f OAndThen "and_then" sp (d_named tokenstream_dict) st add es s x s' before ltac:(cbn; tauto) (barred_f "and_then" eq_refl) eq_refl (fun _ _ => eq_refl) ER) as [[a C]|C] end; rewrite C; rest_f OT.
  - assert (MS : mem_str k field_attr_names = false).
    { unfold field_attr_names. cbn [mem_str existsb]. repeat match goal with H : k <> ?x |- _ => apply String.eqb_neq in H; rewrite H; clear H end. reflexivity. }
    assert (KS : listed_in k (map fst (gr_keys G)) = false).
    { unfold listed_in, is_key. cbn [G grammar_f gr_keys keys_f map fst existsb]. repeat match goal with H : k <> ?x |- _ => apply String.eqb_neq in H; rewrite H; clear H end. reflexivity. }
    assert (KB : listed_in k (map fst (gr_barred G)) = false).
    { apply barred_f. unfold listed_in, is_key. cbn [existsb]. repeat match goal with H : k <> ?x |- _ => apply String.eqb_neq in H; rewrite H; clear H end. reflexivity. }
    assert (KN : forall y, In y field_attr_names -> is_key y k = false).
    { intros y I. unfold is_key. apply String.eqb_neq. intros ->. unfold mem_str in MS. assert (X : existsb (String.eqb k) field_attr_names = true); [|congruence].
      apply existsb_exists. exists k. split; auto. apply String.eqb_refl. }
    rewrite (refuse_strange G k sp _ es s x s' before field_attr_names eq_refl MS KS KB ER).
    eexists; split; [reflexivity|]; eexists n, tr; split; [eapply other_names; eauto; apply KN; cbn; tauto|].
    rewrite !OT by (apply KN; cbn; tauto). reflexivity.
Qed.
Lemma rep_df_init : rep_df [] fst_init.
Proof. exists (mkNst [] FNone FNone), []. split; [apply names_init|reflexivity]. Qed.
Lemma l_field_diag xs : has_entries G (sf_attrs f) xs -> diagnosed (read_field sy f) (problems_f sy f xs).
Proof.
  intros [cs [cs' [C [W P]]]]. unfold read_field. rewrite deluxe_items_ok.
  destruct (diag_read G (field_arm sy f) (wb_field_arm sy SY f) rep_df field_diag cs xs cs' fst_init [] W rep_df_init) as [st [RD [n [tr [NS ->]]]]].
  cbn [app] in RD.
  assert (CH : forall es, field_checks (mkFst (st_of "default" get_default xs) (st_of "with" get_with xs) (st_of "flatten" get_flatten xs)
               (st_of "append" get_append xs) (st_of "rest" get_rest xs) (st_of "container" get_container xs)
               (st_of "skip" get_skip xs) n tr) es = es ++ clashes_f f xs).
  { intro es. unfold field_checks. cbn [v_flat v_append v_rest v_container v_names_ v_with v_default]. rewrite !clash_ok, !st_span.
    rewrite (renamed_ok _ _ _ _ _ _ NS), (aliased_ok _ _ _ _ _ _ NS). rewrite <- !app_assoc. reflexivity. }
  apply (attrs_diag _ (fun _ => wbm_field_body sy SY f) _ cs cs'); auto.
  unfold field_body, pbind. rewrite RD. cbn [fst snd]. rewrite CH. split; [apply check_diag|reflexivity].
Qed.
End F.
