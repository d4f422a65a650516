(** Proofs for PropsOff.v: structs and enums. *)
From Verif Require Import LemOpts2 LemOpts3 LemOpts4 LemOpts5 LemOpts6 LemOpts7.
From Verif Require Export LemOff.

Lemma rmap_ok {A B} (f : A -> B) r b : rmap f r = Ok b -> exists a, r = Ok a /\ b = f a.
Proof. destruct r; intros E; inversion E; eauto. Qed.

Lemma l_off_attr : forall (env : Env) V sy (ru : rust V) i i' d auto expr post, good_syn_lib sy -> by_type ru ->
  less_struct sy i i' -> derive_attr_struct sy i = Ok d ->
  exists d', derive_attr_struct sy i' = Ok d' /\ i_crate d' = i_crate d /\
             lower_struct ru auto expr post d' = lower_struct ru auto expr post d.
Proof.
  intros env V sy ru i i' d auto expr post SY RU L D. unfold derive_attr_struct in *.
  destruct (read_struct sy i) as [d0|e|b] eqn:R; try discriminate D. cbn [rbind] in D. apply rmap_ok in D as [u [G ->]].
  destruct (off_struct sy i i' d0 SY L R) as [d' [R' DS]]. rewrite R'. cbn [rbind].
  rewrite (off_gen_struct _ _ DS), G. exists d'. split; [reflexivity|]. split; [destruct DS as [_ ->]; reflexivity|now apply off_lower_s].
Qed.
Lemma l_off_meta : forall (env : Env) V sy (ru : rust V) i i' d auto expr post, good_syn_lib sy -> by_type ru ->
  less_struct sy i i' -> derive_meta_struct sy i = Ok d ->
  exists d', derive_meta_struct sy i' = Ok d' /\ i_crate d' = i_crate d /\
             lower_struct ru auto expr post d' = lower_struct ru auto expr post d.
Proof.
  intros env V sy ru i i' d auto expr post SY RU L D. unfold derive_meta_struct in *.
  destruct (read_struct sy i) as [d0|e|b] eqn:R; try discriminate D. cbn [rbind] in D. cbv zeta in D. apply rmap_ok in D as [u [G ->]].
  destruct (off_struct sy i i' d0 SY L R) as [d' [R' DS]]. rewrite R'. cbn [rbind]. cbv zeta. pose proof (off_fill _ _ DS) as DF.
  rewrite (off_gen_struct _ _ DF), G. exists (fill_struct d'). split; [reflexivity|]. split; [destruct DS as [_ ->]; reflexivity|now apply off_lower_s].
Qed.

(** ** variants *)
Definition drop_v (v : src_variant) (fs : list sfield) (h : svariant) : svariant :=
  mkSVariant v fs (h_idents h) (keep (fun b => b) (h_flatten h)) (keep (fun b => b) (h_transparent h)) (keep fst (h_skip h))
             (keep (fun b => b) (h_unknown_ok h)).
Definition dropped_v (h h' : svariant) : Prop :=
  sv_ident (h_src h') = sv_ident (h_src h) /\ sv_shape (h_src h') = sv_shape (h_src h) /\
  Forall2 dropped (h_fields h) (h_fields h') /\ h' = drop_v (h_src h') (h_fields h') h.

Definition on_ob (x : option (bool * span)) : bool := match x with Some (b, _) => b | None => false end.
Section V.
Variable l : list vopt.
Lemma v_trans : v_transparents (filter on_v l) = filter on_ob (v_transparents l). Proof. apply sort_filter. srt. Qed.
Lemma v_unk : v_unknowns (filter on_v l) = filter (fun b => b) (v_unknowns l). Proof. apply sort_filter. srt. Qed.
Lemma v_flat : v_flattens (filter on_v l) = filter on_ob (v_flattens l). Proof. apply sort_filter. srt. Qed.
Lemma v_ren : v_renames (filter on_v l) = v_renames l. Proof. apply sort_same. srt. Qed.
Lemma v_ali : v_aliases (filter on_v l) = v_aliases l. Proof. apply sort_same. srt. Qed.
Lemma v_ski : v_skips (filter on_v l) = filter fst (v_skips l). Proof. apply sort_filter. srt. Qed.
End V.
Lemma somes_filter (l : list (option (bool * span))) : somes (filter on_ob l) = filter fst (somes l).
Proof. induction l as [|[[[] sp]|] l IH]; cbn; [reflexivity|cbn; f_equal; exact IH|exact IH|exact IH]. Qed.
Lemma somes_once {A} (l : list (option A)) : once l -> once (somes l).
Proof. destruct l as [|[a|] [|b l]]; unfold once; cbn; lia. Qed.
Lemma keep_map (o : option (bool * span)) : option_map fst (keep fst o) = keep (fun b => b) (option_map fst o).
Proof. destruct o as [[[] sp]|]; reflexivity. Qed.

Lemma off_flat_v l : is_flattened_v (filter on_v l) = is_flattened_v l.
Proof. unfold is_flattened_v. now rewrite v_flat, somes_filter, existsb_filter. Qed.

Section R.
Context {env : Env}.
Variable sy : synlib.
Hypothesis SY : good_syn_lib sy.
Lemma off_fields fs fs' : Forall2 (less_field sy) fs fs' -> forall gs, Forall2 (field_means sy) fs gs ->
  exists gs', Forall2 (field_means sy) fs' gs' /\ Forall2 dropped gs gs'.
Proof.
  intros F. induction F as [|f f' fs fs' D F IH]; intros gs FM; inversion FM; subst; [now exists []|].
  destruct (off_field sy _ _ _ SY D H1) as [g' [M E]]. destruct (IH _ H3) as [gs' [Ms Es]]. exists (g' :: gs'). now split; constructor.
Qed.
Lemma off_variant v v' h : less_variant sy v v' -> variant_means sy v h ->
  exists h', variant_means sy v' h' /\ dropped_v h h'.
Proof.
  intros (SI & SH & F & os & A & B) (gs & os2 & FM & H & C & N & ->).
  rewrite (has_options_fun spells_v spells_v_fun _ _ _ A H) in *. clear A os.
  destruct (off_fields _ _ F _ FM) as [gs' [FM' D]].
  assert (FF : Forall2 dropped (map filled gs) (map filled gs')) by (now apply dropped_map; [apply dropped_filled|]).
  exists (meaning_v v' gs' (filter on_v os2)). split.
  - exists gs', (filter on_v os2). split; [exact FM'|]. split; [exact B|]. split; [|split; [|reflexivity]].
    + destruct C as [(o1 & o2 & o3 & o4 & o5) (t & u & (n1 & n2) & nn & oc & dl)]. unfold consistent_v.
      rewrite SH, SI, v_trans, v_unk, v_flat, v_ren, v_ali, v_ski, somes_filter.
      repeat split; try (now apply once_filter); try assumption.
      * intros Q. apply filter_ne in Q. now apply (dropped_fits gs), t.
      * intros Q. apply filter_ne in Q. now apply u.
      * now apply not_both_l.
      * now apply not_both_l.
      * exact (proj1 nn).
      * exact (proj2 nn).
      * now apply (dropped_one gs).
      * intros U. now apply (dropped_last _ _ FF), dl.
    + unfold named_v. now rewrite v_ren, off_flat_v, SI.
  - split; [exact SI|]. split; [exact SH|]. split; [exact FF|]. unfold meaning_v, drop_v.
    cbn [h_src h_fields h_idents h_flatten h_transparent h_skip h_unknown_ok].
    destruct C as [(o1 & o2 & o3 & o4 & o5) _].
    replace (names_v v' (filter on_v os2)) with (names_v v os2).
    2: { unfold names_v, own_name. now rewrite v_ren, v_ali, off_flat_v, SI. }
    rewrite v_trans, v_unk, v_flat, v_ski, !somes_filter, !first_filter by (auto using somes_once). now rewrite !keep_map.
Qed.
Lemma off_variants vs vs' : Forall2 (less_variant sy) vs vs' -> forall hs, Forall2 (variant_means sy) vs hs ->
  exists hs', Forall2 (variant_means sy) vs' hs' /\ Forall2 dropped_v hs hs'.
Proof.
  intros F. induction F as [|f f' fs fs' D F IH]; intros gs FM; inversion FM; subst; [now exists []|].
  destruct (off_variant _ _ _ D H1) as [g' [M E]]. destruct (IH _ H3) as [gs' [Ms Es]]. exists (g' :: gs'). now split; constructor.
Qed.
End R.

(** ** enums *)
Lemma dv_flattened h h' : dropped_v h h' -> flattened h' = flattened h.
Proof. intros (_ & _ & _ & ->). unfold flattened. cbn [h_flatten drop_v]. apply keep_b. Qed.
Lemma dv_ordinary h h' : dropped_v h h' -> ordinary h' = ordinary h.
Proof. intros D. unfold ordinary. f_equal. exact (dv_flattened _ _ D). Qed.
Lemma dv_idents h h' : dropped_v h h' -> h_idents h' = h_idents h.
Proof. intros (_ & _ & _ & ->). reflexivity. Qed.
Lemma forall2_in_r {A B} (R : A -> B -> Prop) l l' y : Forall2 R l l' -> In y l' -> exists x, In x l /\ R x y.
Proof. intros F. induction F as [|a b l l' D F IH]; [intros []|]. intros [->|I]; [exists a; cbn; auto|]. destruct (IH I) as [x [J Q]]. exists x. cbn. auto. Qed.
Lemma forall2_in_l {A B} (R : A -> B -> Prop) l l' x : Forall2 R l l' -> In x l -> exists y, In y l' /\ R x y.
Proof. intros F. induction F as [|a b l l' D F IH]; [intros []|]. intros [->|I]; [exists b; cbn; auto|]. destruct (IH I) as [y [J Q]]. exists y. cbn. auto. Qed.
Lemma d_required g g' : dropped g g' -> (required g' <-> required g).
Proof. intros [_ ->]. apply drop_required. Qed.
Lemma d_idents g g' : dropped g g' -> g_idents g' = g_idents g.
Proof. intros [_ ->]. reflexivity. Qed.
Lemma dv_fields h h' : dropped_v h h' -> Forall2 dropped (h_fields h) (h_fields h').
Proof. now intros (_ & _ & F & _). Qed.
Lemma dv_some h h' : dropped_v h h' -> (some_required h' <-> some_required h).
Proof.
  intros D. apply dv_fields in D. split; intros [f [I R]].
  - destruct (forall2_in_r _ _ _ _ D I) as [g [J Q]]. exists g. split; [exact J|now apply (d_required _ _ Q)].
  - destruct (forall2_in_l _ _ _ _ D I) as [g [J Q]]. exists g. split; [exact J|now apply (d_required _ _ Q)].
Qed.
Lemma dv_covered v v' w w' : dropped_v v v' -> dropped_v w w' -> covered v' w' -> covered v w.
Proof.
  intros D E C f I R. apply dv_fields in D. apply dv_fields in E. destruct (forall2_in_l _ _ _ _ D I) as [f' [I' Q]].
  destruct (C f' I' (proj2 (d_required _ _ Q) R)) as [g' [J' [Rg S]]]. destruct (forall2_in_r _ _ _ _ E J') as [g [J P]].
  exists g. split; [exact J|]. split; [now apply (d_required _ _ P)|]. unfold same_names in *.
  now rewrite (d_idents _ _ Q), (d_idents _ _ P) in S.
Qed.
Lemma dv_like v v' w w' : dropped_v v v' -> dropped_v w w' -> like_tag v' w' -> like_tag v w.
Proof.
  intros D E [S C]. split; [now apply (dv_some _ _ D)|]. intros f I R. destruct (forall2_in_l _ _ _ _ (dv_fields _ _ D) I) as [f' [I' Q]].
  pose proof (C f' I' (proj2 (d_required _ _ Q) R)) as N. now rewrite (d_idents _ _ Q), (dv_idents _ _ E) in N.
Qed.
Lemma dv_container h h' : dropped_v h h' -> container_of h' = container_of h.
Proof.
  intros D. apply dv_fields in D. unfold container_of.
  change (fun g : sfield => match g_container g with Some c => fc_value c | None => false end) with g_is_container.
  pose proof (dropped_filter g_is_container drop_is_container _ _ D) as F.
  assert (A : forall g, In g (filter g_is_container (h_fields h)) -> g_is_container g = true) by (intros g I; now apply filter_In in I).
  destruct F as [|g g' gs gs' [_ E] F]; [reflexivity|]. rewrite E. cbn [g_container drop_f]. specialize (A g (or_introl eq_refl)).
  unfold g_is_container in A. destruct (g_container g) as [c|]; [|reflexivity]. cbn. now rewrite A.
Qed.
Lemma dv_filter hs hs' : Forall2 dropped_v hs hs' ->
  flat_map h_idents (filter ordinary hs') = flat_map h_idents (filter ordinary hs).
Proof.
  intros F. induction F as [|h h' hs hs' D F IH]; [reflexivity|]. cbn [filter]. rewrite (dv_ordinary _ _ D).
  destruct (ordinary h); [|exact IH]. cbn [flat_map]. now rewrite IH, (dv_idents _ _ D).
Qed.
Section E.
Variable l : list eopt.
Lemma e_unk : e_unknowns (filter on_e l) = filter (fun b => b) (e_unknowns l). Proof. apply sort_filter. srt. Qed.
Lemma e_def : e_defaults (filter on_e l) = e_defaults l. Proof. apply sort_same. srt. Qed.
Lemma e_cra : e_crates (filter on_e l) = e_crates l. Proof. apply sort_same. srt. Qed.
Lemma e_andt : e_and_thens_of (filter on_e l) = e_and_thens_of l. Proof. apply sort_same. srt. Qed.
Lemma e_attr : e_attributes_of (filter on_e l) = e_attributes_of l. Proof. apply sort_same. srt. Qed.
End E.
Lemma off_consistent_e vs vs' os : Forall2 dropped_v vs vs' -> consistent_e vs os -> consistent_e vs' (filter on_e os).
Proof.
  intros F [(o1 & o2 & o3) (nd & sh & lt & cv & ct & df)]. unfold consistent_e. rewrite e_unk, e_def, e_cra.
  split; [repeat split; auto using once_filter|]. split; [now rewrite (dv_filter _ _ F)|].
  split; [|split; [|split; [|split]]].
  - intros v' I Q. destruct (forall2_in_r _ _ _ _ F I) as [v [J D]]. rewrite (dv_flattened _ _ D) in Q.
    destruct D as (_ & SH & _). rewrite SH. now apply sh.
  - intros v' w' I J Q O C. destruct (forall2_in_r _ _ _ _ F I) as [v [I0 D]]. destruct (forall2_in_r _ _ _ _ F J) as [w [J0 E]].
    rewrite (dv_flattened _ _ D) in Q. rewrite (dv_ordinary _ _ E) in O. exact (lt v w I0 J0 Q O (dv_like _ _ _ _ D E C)).
  - intros a v' b w' c -> Q P [C1 C2]. apply forall2_split in F as (a0 & v & t & -> & _ & D & F).
    apply forall2_split in F as (b0 & w & c0 & -> & _ & E & _). rewrite (dv_flattened _ _ D) in Q. rewrite (dv_flattened _ _ E) in P.
    apply (cv a0 v b0 w c0 eq_refl Q P). split; [exact (dv_covered _ _ _ _ D E C1)|exact (dv_covered _ _ _ _ E D C2)].
  - intros a v' b w' c x y -> Q P. apply forall2_split in F as (a0 & v & t & -> & _ & D & F).
    apply forall2_split in F as (b0 & w & c0 & -> & _ & E & _). rewrite (dv_container _ _ D) in Q. rewrite (dv_container _ _ E) in P.
    exact (ct a0 v b0 w c0 x y eq_refl Q P).
  - intros N v' I Q. destruct (forall2_in_r _ _ _ _ F I) as [v [J D]]. rewrite (dv_flattened _ _ D) in Q. now apply (dv_some _ _ D), df.
Qed.
Definition drop_e (vs : list svariant) (d : senum) : senum :=
  mkSEnum vs (j_default d) (j_crate d) (j_attributes d) (j_and_thens d) (keep (fun b => b) (j_unknown_ok d)).
Definition dropped_e (d d' : senum) : Prop := Forall2 dropped_v (j_variants d) (j_variants d') /\ d' = drop_e (j_variants d') d.

Lemma off_written {env : Env} sy i i' : less_enum sy i i' -> written_enum i -> written_enum i'.
Proof.
  intros [F _] W. unfold written_enum in *. induction F as [|v v' vs vs' (_ & SH & FF & _) F IH]; [constructor|].
  inversion W; subst. constructor; [|auto]. rewrite SH. clear -H1 FF. unfold fields_fit in *. destruct (sv_shape v).
  - induction FF as [|f f' fs fs' [SI _] FF IH]; [constructor|]. inversion H1; subst. constructor; [congruence|auto].
  - induction FF as [|f f' fs fs' [SI _] FF IH]; [constructor|]. inversion H1; subst. constructor; [congruence|auto].
  - rewrite H1 in FF. now inversion FF.
Qed.
Lemma off_enum {env : Env} sy i i' d : good_syn_lib sy -> less_enum sy i i' -> written_enum i -> read_enum sy i = Ok d ->
  exists d', read_enum sy i' = Ok d' /\ dropped_e d d'.
Proof.
  intros SY L W R. pose proof (off_written sy _ _ L W) as W'. destruct L as [F [os [A B]]].
  apply (l_enum_ok sy SY _ _ W) in R as (vs & os2 & FM & H & C & ->).
  rewrite (has_options_fun (spells_e sy) (spells_e_fun sy) _ _ _ A H) in *. clear A os.
  destruct (off_variants sy SY _ _ F _ FM) as [vs' [FM' D]].
  exists (meaning_e vs' (filter on_e os2)). split.
  - apply (l_enum_ok sy SY _ _ W'). exists vs', (filter on_e os2). split; [exact FM'|]. split; [exact B|]. split; [|reflexivity].
    now apply (off_consistent_e vs).
  - split; [exact D|]. unfold meaning_e, drop_e. cbn [j_variants j_default j_crate j_attributes j_and_thens j_unknown_ok].
    destruct C as [(o1 & o2 & o3) _]. now rewrite e_def, e_cra, e_andt, e_attr, e_unk, first_filter.
Qed.
Lemma off_gen_variants hs hs' : Forall2 dropped_v hs hs' -> gen_variants hs' = gen_variants hs.
Proof.
  intros F. induction F as [|h h' hs hs' D F IH]; [reflexivity|]. cbn [gen_variants]. rewrite IH. f_equal.
  destruct D as (SI & SH & FF & E). unfold gen_variant. rewrite SH, (off_gen_fields _ _ _ FF).
  replace (sv_true (h_skip h')) with (sv_true (h_skip h)) by (rewrite E; cbn [h_skip drop_v]; now rewrite keep_sv).
  replace (b_true (h_transparent h')) with (b_true (h_transparent h)) by (rewrite E; cbn [h_transparent drop_v]; now rewrite keep_b).
  destruct (sv_true (h_skip h)); [reflexivity|]. destruct (gen_fields _ _); try reflexivity. cbn [rbind].
  destruct (b_true (h_transparent h)); [|reflexivity]. pose proof (off_find _ _ FF) as Q.
  destruct (find plain_field (h_fields h')), (find plain_field (h_fields h)); try reflexivity; discriminate Q.
Qed.
Lemma off_lower_e {V} (ru : rust V) auto expr post d d' : by_type ru -> dropped_e d d' ->
  lower_enum ru auto expr post d' = lower_enum ru auto expr post d.
Proof.
  intros RU [F E]. unfold lower_enum. replace (map (lower_variant ru) (j_variants d')) with (map (lower_variant ru) (j_variants d)).
  { rewrite E. cbn [j_default j_attributes j_and_thens j_unknown_ok drop_e]. now rewrite keep_b. }
  clear E. induction F as [|h h' hs hs' (SI & SH & FF & G) F IH]; [reflexivity|]. cbn [map]. rewrite <- IH. f_equal.
  unfold lower_variant. cbv zeta. rewrite SI, SH.
  replace (b_true (h_transparent h')) with (b_true (h_transparent h)) by (rewrite G; cbn [h_transparent drop_v]; now rewrite keep_b).
  replace (b_true (h_flatten h')) with (b_true (h_flatten h)) by (rewrite G; cbn [h_flatten drop_v]; now rewrite keep_b).
  replace (b_true (h_unknown_ok h')) with (b_true (h_unknown_ok h)) by (rewrite G; cbn [h_unknown_ok drop_v]; now rewrite keep_b).
  replace (sv_true (h_skip h')) with (sv_true (h_skip h)) by (rewrite G; cbn [h_skip drop_v]; now rewrite keep_sv).
  replace (h_idents h') with (h_idents h) by (now rewrite G). now rewrite (off_lowers ru RU _ _ _ FF).
Qed.
Lemma off_meta_check d d' : dropped_e d d' -> meta_container_check d' = meta_container_check d.
Proof.
  intros [F _]. unfold meta_container_check. generalize (@nil err) as es.
  induction F as [|h h' hs hs' D F IH]; intros es; [reflexivity|]. cbn [fold_left].
  match goal with |- fold_left _ hs' ?a = fold_left _ hs ?b => replace a with b; [apply IH|] end.
  apply dv_fields in D. clear -D. revert es. induction D as [|g g' gs gs' [_ E] D IH]; intros es; [reflexivity|]. cbn [fold_left].
  match goal with |- fold_left _ gs ?a = fold_left _ gs' ?b => replace b with a; [apply IH|] end.
  replace (g_is_container g') with (g_is_container g) by (now rewrite E, drop_is_container). rewrite E. cbn [g_container g_default drop_f].
  unfold g_is_container. destruct (g_container g) as [c|]; cbn [keep]; [|reflexivity]. now destruct (fc_value c).
Qed.
Lemma l_off_enum_attr : forall (env : Env) V sy (ru : rust V) i i' d auto expr post, good_syn_lib sy -> by_type ru -> written_enum i ->
  less_enum sy i i' -> derive_attr_enum sy i = Ok d ->
  exists d', derive_attr_enum sy i' = Ok d' /\ j_crate d' = j_crate d /\
             lower_enum ru auto expr post d' = lower_enum ru auto expr post d.
Proof.
  intros env V sy ru i i' d auto expr post SY RU W L D. unfold derive_attr_enum in *.
  destruct (read_enum sy i) as [d0|e|b] eqn:R; try discriminate D. cbn [rbind] in D. apply rmap_ok in D as [u [G ->]].
  destruct (off_enum sy i i' d0 SY L W R) as [d' [R' DS]]. rewrite R'. cbn [rbind].
  rewrite (off_gen_variants _ _ (proj1 DS)), G. exists d'. split; [reflexivity|]. split; [destruct DS as [_ ->]; reflexivity|now apply off_lower_e].
Qed.
Lemma l_off_enum_meta : forall (env : Env) V sy (ru : rust V) i i' d auto expr post, good_syn_lib sy -> by_type ru -> written_enum i ->
  less_enum sy i i' -> derive_meta_enum sy i = Ok d ->
  exists d', derive_meta_enum sy i' = Ok d' /\ j_crate d' = j_crate d /\
             lower_enum ru auto expr post d' = lower_enum ru auto expr post d.
Proof.
  intros env V sy ru i i' d auto expr post SY RU W L D. unfold derive_meta_enum in *.
  destruct (read_enum sy i) as [d0|e|b] eqn:R; try discriminate D. cbn [rbind] in D.
  destruct (gen_variants (j_variants d0)) as [u|e|b] eqn:G; try discriminate D. cbn [rbind] in D. apply rmap_ok in D as [u' [C ->]].
  destruct (off_enum sy i i' d0 SY L W R) as [d' [R' DS]]. rewrite R'. cbn [rbind].
  rewrite (off_gen_variants _ _ (proj1 DS)), G. cbn [rbind]. rewrite (off_meta_check _ _ DS), C.
  exists d'. split; [reflexivity|]. split; [destruct DS as [_ ->]; reflexivity|now apply off_lower_e].
Qed.
