(** The errors about the values of `flatten(..)`, `container(..)` and `transparent(..)`. *)
From Verif Require Import LemWf LemWfD LemWfE LemSmall LemItems LemAttr.
From Verif Require Export LemDiag6.

Section I.
Context {env : Env}.
Variable sy : synlib.
Hypothesis SY : good_syn_lib sy.
Lemma refuse_other {O St} (G : grammar O) k sp (st : St) es s x s' before : listed_in k (map fst (gr_keys G)) = false ->
  listed_in k (map fst (gr_barred G)) = false -> entry_rest G k sp s x s' ->
  refuse st (push_syn es (unknown_error k sp (gr_hints G))) s = (Ok (st, es ++ judge G before x), s').
Proof.
  intros K B ER.
  destruct ER as [q o s' B2 I2 Q|q e s1 s' B2 I2 Q TC|msg s' B2 TC|s' K2 B2 TC]; try (apply in_key in I2; congruence); try (apply in_key in B2; congruence).
  unfold refuse, push_syn. now rewrite (skip_to _ _ TC).
Qed.
Ltac st_f OT := f_equal; first [reflexivity|symmetry; apply OT; reflexivity].
Ltac rest_i OT := eexists; split; [reflexivity|]; st_f OT.
Ltac slot_i N C get nm k OT := erewrite (slot_diag _ N C get nm k);
    [rest_i OT|reflexivity|assumption|cbn; tauto|reflexivity|reflexivity|reflexivity|reflexivity|reflexivity|assumption].
Ltac start O K OT := intros -> V ER EN; match type of ER with entry_rest _ ?k _ _ ?x _ => destruct (rest_valid _ _ _ _ _ _ ER) as [VX K];
  match type of V with Forall _ ?before =>
  assert (OT : forall A k' (get : O -> option A), is_key k' k = false -> st_of k' get (before ++ [x]) = st_of k' get before);
  [intros A k' get E; apply st_other; now rewrite K|] end; clear K VX end.
Ltac cases k := repeat match goal with |- context [String.eqb k ?y] => destruct (String.eqb_spec k y) as [E|] end; try subst k.
Lemma nd_l : NoDup (map fst (gr_keys grammar_flatten)).
Proof. nodup. Qed.
Lemma nd_c : NoDup (map fst (gr_keys (grammar_container sy))).
Proof. nodup. Qed.
Lemma nd_t : NoDup (map fst (gr_keys grammar_transparent)).
Proof. nodup. Qed.
Lemma wb_flatten_arm : wb_arm flatten_arm.
Proof.
  intros k sp st es. unfold flatten_arm. destruct (String.eqb k "prefix"); [|apply wb_refuse].
  apply wb_slot. intros. apply (gd_named _ good_any_path).
Qed.
Lemma wb_transparent_arm : wb_arm transparent_arm.
Proof.
  intros k sp st es. unfold transparent_arm.
  repeat match goal with |- well_behaved (if ?b then _ else _) => destruct b end;
    try apply wb_refuse; apply wb_slot; intros; apply (gd_named _ good_bool).
Qed.
Lemma wb_container_arm : wb_arm (container_arm sy).
Proof.
  destruct SY as [S1 [S2 [S3 S4]]]. intros k sp st es. unfold container_arm.
  repeat match goal with |- well_behaved (if ?b then _ else _) => destruct b end;
    try apply wb_refuse; apply wb_slot; intros; apply gd_named, good_syn; auto.
Qed.
Definition get_lp (o : lopt) := match o with LPrefix x => Some x end.
Definition rep_dl (before : list (aentry lopt)) (st : fstatus path) : Prop := st = st_of "prefix" get_lp before.
Lemma flatten_diag before k sp st es s x s' : rep_dl before st -> Forall (valid grammar_flatten) before -> entry_rest grammar_flatten k sp s x s' -> ends (toks s') ->
  exists st', flatten_arm k sp st es s = (Ok (st', es ++ judge grammar_flatten before x), s') /\ rep_dl (before ++ [x]) st'.
Proof.
  unfold rep_dl. start lopt K OT. unfold flatten_arm. cases k.
  - erewrite (slot_diag _ nd_l LPrefix get_lp "prefix" "prefix"); [eexists; split; reflexivity|reflexivity|assumption|cbn; tauto|reflexivity|reflexivity|reflexivity|reflexivity|reflexivity|assumption].
  - pose proof (refuse_other grammar_flatten k sp (st_of "prefix" get_lp before) es s x s' before ltac:(strange) eq_refl ER) as H. cbn [gr_hints grammar_flatten] in H.
    rewrite H. eexists; split; [reflexivity|]. rewrite OT; auto. now apply key_ne.
Qed.
Definition get_cl (o : copt) := match o with CLifetime x => Some x | _ => None end.
Definition get_ct (o : copt) := match o with CTy x => Some x | _ => None end.
Definition rep_dc (before : list (aentry copt)) (st : cst) : Prop := st = mkCst (st_of "lifetime" get_cl before) (st_of "ty" get_ct before).
Lemma container_diag2 before k sp st es s x s' : rep_dc before st -> Forall (valid (grammar_container sy)) before -> entry_rest (grammar_container sy) k sp s x s' -> ends (toks s') ->
  exists st', container_arm sy k sp st es s = (Ok (st', es ++ judge (grammar_container sy) before x), s') /\ rep_dc (before ++ [x]) st'.
Proof.
  unfold rep_dc. start copt K OT. unfold container_arm. cbn [c_lifetime c_ty]. cases k.
  - slot_i nd_c CLifetime get_cl "lifetime" "lifetime" OT.
  - slot_i nd_c CTy get_ct "ty" "ty" OT.
  - pose proof (refuse_other (grammar_container sy) k sp (mkCst (st_of "lifetime" get_cl before) (st_of "ty" get_ct before)) es s x s' before ltac:(strange) eq_refl ER) as H. cbn [gr_hints grammar_container] in H.
    rewrite H. eexists; split; [reflexivity|]. rewrite !OT by (now apply key_ne). reflexivity.
Qed.
Definition get_tn (o : topt) := match o with TFlattenNamed x => Some x | _ => None end.
Definition get_tu (o : topt) := match o with TFlattenUnnamed x => Some x | _ => None end.
Definition get_ta (o : topt) := match o with TAppend x => Some x | _ => None end.
Definition get_tr (o : topt) := match o with TRest x => Some x | _ => None end.
Definition rep_dt (before : list (aentry topt)) (st : tst) : Prop :=
  st = mkTst (st_of "flatten_named" get_tn before) (st_of "flatten_unnamed" get_tu before) (st_of "append" get_ta before) (st_of "rest" get_tr before).
Lemma transparent_diag before k sp st es s x s' : rep_dt before st -> Forall (valid grammar_transparent) before -> entry_rest grammar_transparent k sp s x s' -> ends (toks s') ->
  exists st', transparent_arm k sp st es s = (Ok (st', es ++ judge grammar_transparent before x), s') /\ rep_dt (before ++ [x]) st'.
Proof.
  unfold rep_dt. start topt K OT. unfold transparent_arm. cbn [t_fn t_fu t_append t_rest]. cases k.
  - slot_i nd_t TFlattenNamed get_tn "flatten_named" "flatten_named" OT.
  - slot_i nd_t TFlattenUnnamed get_tu "flatten_unnamed" "flatten_unnamed" OT.
  - slot_i nd_t TAppend get_ta "append" "append" OT.
  - slot_i nd_t TRest get_tr "rest" "rest" OT.
  - pose proof (refuse_other grammar_transparent k sp (mkTst (st_of "flatten_named" get_tn before) (st_of "flatten_unnamed" get_tu before) (st_of "append" get_ta before) (st_of "rest" get_tr before)) es s x s' before ltac:(strange) eq_refl ER) as H. cbn [gr_hints grammar_transparent] in H.
    rewrite H. eexists; split; [reflexivity|]. rewrite !OT by (now apply key_ne). reflexivity.
Qed.
Lemma l_flatten_diag m l xs l' : entries_in_all grammar_flatten l xs l' ->
  diagnosed (fst (flatten_inline m l)) (judged grammar_flatten xs) /\ snd (flatten_inline m l) = l'.
Proof.
  intro W. destruct (diag_read _ flatten_arm wb_flatten_arm rep_dl flatten_diag l xs l' FNone [] W eq_refl) as [st [RD R]].
  unfold flatten_inline, pbind. rewrite RD. cbn [fst snd app]. split; [apply check_diag|reflexivity].
Qed.
Lemma l_container_diag m l xs l' : entries_in_all (grammar_container sy) l xs l' ->
  diagnosed (fst (container_inline sy m l)) (judged (grammar_container sy) xs) /\ snd (container_inline sy m l) = l'.
Proof.
  intro W. destruct (diag_read _ (container_arm sy) (wb_container_arm) rep_dc container_diag2 l xs l' (mkCst FNone FNone) [] W eq_refl) as [st [RD R]].
  unfold container_inline, pbind. rewrite RD. cbn [fst snd app]. split; [apply check_diag|reflexivity].
Qed.
Lemma l_transparent_diag m l xs l' : entries_in_all grammar_transparent l xs l' ->
  diagnosed (fst (transparent_inline m l)) (judged grammar_transparent xs) /\ snd (transparent_inline m l) = l'.
Proof.
  intro W. destruct (diag_read _ transparent_arm wb_transparent_arm rep_dt transparent_diag l xs l' (mkTst FNone FNone FNone FNone) [] W eq_refl) as [st [RD R]].
  unfold transparent_inline, pbind. rewrite RD. cbn [fst snd app]. split; [apply check_diag|reflexivity].
Qed.
End I.
