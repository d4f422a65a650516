(** Proofs about the variables of the emitted code: derives on enums. *)
From Verif Require Export LemEmit4.

(** *** what is known of a variant that is generated *)
Definition known_v (v : svariant) : Prop :=
  Forall (fits (sv_shape (h_src v))) (h_fields v) /\ (sv_shape (h_src v) = ShUnit -> h_fields v = []) /\
  (b_true (h_transparent v) = true ->
     find plain_field (h_fields v) <> None /\ (forall f, In f (h_fields v) -> g_is_flat f && g_is_parsable f = false)).
Section Accepted.
Context {env : Env}.
Variable sy : synlib.
Lemma gen_variants_all vs : gen_variants vs = Ok tt -> Forall (fun v => gen_variant v = Ok tt) vs.
Proof.
  induction vs as [|v vs IH]; intro H; constructor; cbn [gen_variants] in H; destruct (gen_variant v) as [[]|e|b]; cbn [rbind] in H;
    try discriminate H; auto.
Qed.
Lemma known_enum i d : written_enum i -> read_enum sy i = Ok d -> gen_variants (j_variants d) = Ok tt ->
  Forall (fun v => sv_true (h_skip v) = false -> known_v v) (j_variants d).
Proof.
  intros W R G. apply enum_ok in R as [RV _ _ _ _ _]. apply gen_variants_all in G. unfold written_enum in W.
  induction RV as [|v h vs hs H RV IH]; constructor.
  - intro SK. inversion W as [|? ? W1 W2]; subst. inversion G as [|? ? G1 G2]; subst. destruct (variant_shape sy v h H) as [SH F].
    rewrite <- SH in W1. destruct (fits_all _ _ _ W1 ltac:(rewrite SH; exact F)) as [A B]. repeat split; auto.
    + intro FN. unfold gen_variant in G1. rewrite SK in G1. destruct (gen_fields _ _); try discriminate G1. cbn [rbind] in G1.
      rewrite H0 in G1. rewrite FN in G1. discriminate G1.
    + intros f IF. apply one_not_flat with (h_fields h); auto.
      * exact (variant_transparent sy v h H H0).
      * intro FN. unfold gen_variant in G1. rewrite SK in G1. destruct (gen_fields _ _); try discriminate G1. cbn [rbind] in G1.
        rewrite H0 in G1. rewrite FN in G1. discriminate G1.
  - inversion W; inversion G; subst; auto.
Qed.
Lemma known_attr_enum i d : written_enum i -> derive_attr_enum sy i = Ok d ->
  Forall (fun v => sv_true (h_skip v) = false -> known_v v) (j_variants d).
Proof.
  unfold derive_attr_enum. intros W H. destruct (read_enum sy i) as [d0|e|b] eqn:R; try discriminate H. cbn [rbind] in H.
  destruct (gen_variants (j_variants d0)) as [[]|e|b] eqn:G; try discriminate H. injection H as <-. eapply known_enum; eauto.
Qed.
Lemma known_meta_enum i d : written_enum i -> derive_meta_enum sy i = Ok d ->
  Forall (fun v => sv_true (h_skip v) = false -> known_v v) (j_variants d).
Proof.
  unfold derive_meta_enum. intros W H. destruct (read_enum sy i) as [d0|e|b] eqn:R; try discriminate H. cbn [rbind] in H.
  destruct (gen_variants (j_variants d0)) as [[]|e|b] eqn:G; try discriminate H. cbn [rbind] in H.
  destruct (check (meta_container_check d0)); try discriminate H. injection H as <-. eapply known_enum; eauto.
Qed.
End Accepted.

(** *** variant.rs to_field_parsing_tokens *)
Definition variant_needs (m : gmode) (flat : bool) (x : string) : Prop :=
  In x ["inputs"; "prefix"; "span"; "errors"; "value"] \/
  (in_meta m = false /\ In x ["obj"; "path_name"]) \/
  (flat = false /\ In x ["input"; "p"]) \/ (flat = true /\ In x ["_mode"; "validate"; "allowed"]).
Ltac from A := apply A; unfold variant_needs; cbn [In]; tauto.
Lemma sc_variant_t (E : string -> Prop) v m : known_v v -> b_true (h_transparent v) = true ->
  above (variant_needs m false) E -> forall flat, sc E (c_variant v m flat).
Proof.
  intros [FI [UN ON]] T A flat. destruct (ON T) as [FP NF]. unfold c_variant. rewrite T.
  set (fd := mkFdata _ _ _ _ _ _ _). set (sh := sv_shape (h_src v)) in *. set (fs := h_fields v) in *.
  assert (U : sh <> ShUnit) by (intro U; rewrite (UN U) in FP; now apply FP).
  destruct (plain_index fs 0 FP) as [i [R PV]]. destruct (defs_pre sh fd fs U) as [DF _]. rewrite PV.
  assert (X : E "errors" /\ E "input" /\ E "p" /\ E "span" /\ E "value") by (sp; from A). destruct X as [X1 [X2 [X3 [X4 X5]]]].
  pose proof (DF i ltac:(lia)) as DI.
  cbn [seqs fold_right sc defs uses map arm]. unfold plus at 1. sp.
  all: try (apply sc_pre).
  all: try (unfold plus; cbn [In]; auto 20; fail).
  apply (sc_post sh fs FI).
  - intros _. exact NF.
  - intros x H. unfold post_needs in H. cbn [fd fd_target fd_mode fd_transparent] in H. unfold plus.
    destruct H as [[j [RJ ->]]|[[_ H]|[[H1 H2]|[H _]]]]; try discriminate H.
    + pose proof (DF j RJ). auto 20.
    + assert (E x) by (apply A; unfold variant_needs; tauto). auto 20.
  - cbn [fd fd_transparent]. discriminate.
  - intros _. left. unfold plus. auto 20.
Qed.
Lemma sc_variant (E : string -> Prop) v m flat : known_v v -> b_true (h_transparent v) = false ->
  above (variant_needs m flat) E -> sc E (c_variant v m flat).
Proof.
  intros [FI [UN ON]] T A. unfold c_variant. rewrite T. clear ON.
  set (sh := sv_shape (h_src v)) in *. set (fs := h_fields v) in *. set (unknown := b_true (h_unknown_ok v)).
  set (fd := mkFdata m _ _ _ _ _ _). set (fd2 := mkFdata (if flat then m else GMeta) _ _ _ _ _ _).
  set (pre2 := match sh with ShNamed => _ | _ => _ end).
  assert (SP2 : forall F, sc F pre2) by (intro F; unfold pre2; destruct sh; cbn [sc]; sp; auto; apply sc_field_names).
  assert (INL : forall F : string -> Prop,
    (forall x, In x ["inputs"; "prefix"; "span"] \/ in_meta m = false /\ In x ["obj"; "path_name"] \/ x = "_mode" \/ defs pre2 x -> F x) ->
    sc F (cd_inline (c_parsing sh fd2 fs (c_pre sh fd fs) (c_post sh fd fs)))).
  { intros F B. apply (sc_inline sh fd2 fs FI).
    - apply sc_pre.
    - intro U. destruct (defs_pre sh fd fs U) as [DF DE]. auto.
    - intros x H. apply B. unfold inline_needs in H. unfold pre2. destruct sh; cbn [In defs] in *; intuition (subst; auto 8).
    - intros SH G C. cbn [fd2 fd_allowed sc]. apply C, B. unfold pre2. rewrite SH. cbn [defs]. auto 8.
    - intros G C. apply (sc_post sh fs FI).
      + discriminate.
      + intros x H. unfold post_needs in H. apply C. destruct H as [[j [RJ ->]]|[[_ H]|[[H1 H2]|[_ H]]]].
        * left. destruct sh eqn:SH; [apply (defs_pre ShNamed fd fs); [discriminate|auto]|apply (defs_pre ShUnnamed fd fs); [discriminate|auto]|].
          rewrite (UN eq_refl) in RJ. cbn in RJ. lia.
        * discriminate H.
        * right. apply B. auto.
        * destruct sh eqn:SH; [| |destruct H].
          -- cbn [In] in H. destruct H as [<-|H]; [left; apply (defs_pre ShNamed fd fs); [discriminate|auto]|right; apply B; cbn [In]; tauto].
          -- cbn [In] in H. destruct H as [[<-|H]|[_ ->]]; [left; apply (defs_pre ShUnnamed fd fs); [discriminate|auto]|right; apply B|right; apply B; cbn; auto].
             unfold pre2. cbn [In defs]. intuition.
      + intros SH _. cbn [fd fd_allowed sc]. apply C. right. apply B. unfold pre2. rewrite SH. cbn [defs]. auto 8.
      + discriminate. }
  assert (X : E "errors" /\ E "inputs" /\ E "prefix" /\ E "span" /\ E "value") by (sp; from A). destruct X as [X1 [X2 [X3 [X4 X5]]]].
  assert (XO : in_meta m = false -> E "obj" /\ E "path_name") by (intro M; split; from A).
  destruct flat.
  - assert (E "_mode" /\ E "validate" /\ E "allowed") as [XM [XV XA]] by (sp; from A).
    cbn [seqs fold_right sc defs uses map arm]. sp.
    all: try (unfold plus; cbn [In]; auto 30; fail).
    + destruct (key_empty v && negb unknown); cbn [when sc]; [|exact I].
      cbn [seqs fold_right sc defs uses map arm]. unfold plus; cbn [In]. sp; auto 30.
    + destruct (key_empty v && negb unknown); cbn [when sc]; exact I.
    + apply INL. intros x H. unfold plus.
      assert (HE : defs pre2 x \/ E x).
      { destruct H as [H|[[H1 H2]|[->|H]]]; auto; right; [cbn [In] in H; intuition (subst; auto)|].
        destruct (XO H1). cbn [In] in H2. intuition (subst; auto). }
      destruct HE; auto 30.
  - assert (E "input" /\ E "p") as [XI XP] by (split; from A).
    assert (IE : forall F : string -> Prop, F "inline" -> F "input" -> F "_mode" -> sc F (uses ["inline"; "input"; "_mode"])).
    { intros F F1 F2 F3. cbn [seqs fold_right sc defs uses map]. unfold plus. sp; auto 12. }
    cbn [seqs fold_right sc defs uses map arm]. sp.
    all: try (unfold plus; cbn [In]; auto 30; fail).
    + apply INL. intros x H. unfold plus. cbn [In].
      assert (HE : defs pre2 x \/ E x \/ x = "_mode").
      { destruct H as [H|[[H1 H2]|[->|H]]]; auto; right; left; [cbn [In] in H; intuition (subst; auto)|].
        destruct (XO H1). cbn [In] in H2. intuition (subst; auto). }
      destruct HE as [?|[?| ->]]; auto 30.
    + apply sc_parse; auto; [unfold plus; auto 30|]. intros F B. apply IE; apply B; unfold plus; cbn [In]; auto 30.
    + destruct (cd_flag _) as [c|] eqn:FL; [|cbn [sc]; unfold plus; auto 30].
      revert FL. apply sc_flag; auto; [unfold plus; auto 30| |].
      * intros _ F B. apply IE; apply B; unfold plus; cbn [In]; auto 30.
      * intro U. cbn [sc]. split; [apply sc_pre|]. unfold c_post. rewrite U. exact I.
Qed.

(** *** variant.rs to_parsing_tokens *)
Definition enum_needs (m : gmode) (x : string) : Prop :=
  In x ["inputs"; "prefix"; "span"; "_mode"; "validate"; "allowed"] \/ (in_meta m = false /\ In x ["obj"; "path_name"]).
Lemma sc_validate (E : string -> Prop) u : E "validate" -> E "inputs" -> E "allowed" -> E "errors" -> sc E (c_validate u).
Proof.
  intros. unfold c_validate. destruct u; cbn [negb when sc]; [exact I|].
  cbn [seqs fold_right sc defs uses map arm]. unfold plus; cbn [In]. sp; auto 20.
Qed.
Lemma paths_defs vs v : In v (filter c_is_flat vs) -> existsb c_is_flat vs = true.
Proof. intro H. apply filter_In in H as [I F]. apply existsb_exists. eauto. Qed.
Lemma sc_enum (E : string -> Prop) d m : Forall (fun v => sv_true (h_skip v) = false -> known_v v) (j_variants d) ->
  above (enum_needs m) E -> ~ flat_and_transparent d -> sc E (c_enum d m).
Proof.
  intros K A NB. rewrite Forall_forall in K. unfold c_enum. set (vs := j_variants d) in *. set (unknown := b_true (j_unknown_ok d)).
  set (any_flat := existsb c_is_flat vs).
  assert (X : E "inputs" /\ E "prefix" /\ E "span" /\ E "_mode" /\ E "validate" /\ E "allowed")
    by (sp; apply A; unfold enum_needs; cbn [In]; tauto). destruct X as [X1 [X2 [X3 [X4 [X5 X6]]]]].
  assert (XO : in_meta m = false -> E "obj" /\ E "path_name") by (intro M; split; apply A; unfold enum_needs; cbn [In]; tauto).
  set (named := seqs (map _ (filter c_is_named vs))). set (flats := seqs (map _ (filter c_is_flat vs))).
  set (thens := seqs (map _ (j_and_thens d))). set (wp := when any_flat (CLet "paths" CNop)).
  assert (WP : any_flat = true -> defs wp "paths") by (unfold wp; now intros ->).
  assert (NM : forall F : string -> Prop, above E F -> (forall x, In x ["input"; "p"; "span"; "key"; "value"; "errors"; "inputs"] -> F x) -> sc F named).
  { intros F B H. apply sc_seqs. intros c G IC C. apply in_map_iff in IC as [v [<- IV]]. apply filter_In in IV as [IV FN].
    unfold c_is_named in FN. apply andb_prop in FN as [FL SK]. apply negb_true_iff in SK. pose proof (K v IV SK) as KV.
    assert (Y : forall x, In x ["input"; "p"; "span"; "key"; "value"; "errors"; "inputs"] -> G x) by auto.
    assert (G "prefix") by now apply C, B. 
    assert (AV : forall H : string -> Prop, above G H -> sc H (c_variant v m false)).
    { intros H' D. assert (above (variant_needs m false) H').
      { intros x N. apply D. unfold variant_needs in N. cbn [In] in N. destruct N as [N|[[N1 N2]|[[_ N]|[N _]]]]; try discriminate N.
        - intuition (subst; auto); apply Y; cbn; auto 10.
        - destruct (XO N1). apply C, B. intuition (subst; auto).
        - apply Y. cbn. intuition. }
      destruct (b_true (h_transparent v)) eqn:T; [now apply sc_variant_t|now apply sc_variant]. }
    assert (G "key" /\ G "span" /\ G "errors") as [? [? ?]] by (sp; apply Y; cbn; auto 10).
    cbn [arm seqs fold_right sc defs uses map]. sp.
    all: try (unfold plus; auto 20; fail).
    apply AV. intros x Gx. unfold plus. auto 20. }
  assert (FT : forall F : string -> Prop, above E F -> F "key" -> F "value" -> F "errors" -> (any_flat = true -> F "paths") -> sc F flats).
  { intros F B F1 F2 F3 F4. apply sc_seqs. intros c G IC C. apply in_map_iff in IC as [v [<- IV]].
    pose proof (F4 (paths_defs vs v IV)) as FP. apply filter_In in IV as [IV FN].
    unfold c_is_flat in FN. apply andb_prop in FN as [FL SK]. apply negb_true_iff in SK. pose proof (K v IV SK) as KV.
    assert (G "paths" /\ G "errors" /\ G "validate") as [? [? ?]] by (sp; auto).
    assert (T : b_true (h_transparent v) = false).
    { destruct (b_true (h_transparent v)) eqn:T; auto. destruct NB. exists v. auto. }
    cbn [sc defs]. sp.
    - destruct (key_empty v); cbn [negb when sc]; auto.
    - apply sc_variant; auto. intros x N. right. apply C. unfold variant_needs in N. cbn [In] in N.
      destruct N as [N|[[N1 N2]|[[N _]|[_ N]]]]; try discriminate N.
      + intuition (subst; auto).
      + destruct (XO N1). apply B. intuition (subst; auto).
      + intuition (subst; auto).
    - destruct (unknown || b_true (h_unknown_ok v)); cbn [negb when sc]; auto.
      cbn [seqs fold_right sc defs uses map]. unfold plus. sp; auto 12. }
  pose proof (fun F => @sc_and_thens F _ "value" (j_and_thens d)) as AT. fold thens in AT.
  assert (PW : forall F : string -> Prop, F "value" -> (any_flat = true -> F "paths") -> F "key" -> F "errors" -> F "validate" ->
    sc F (when (any_flat && negb unknown) (CSeq (CUse "validate") (CBlock (uses ["paths"; "key"; "errors"]))))).
  { intros F F1 F2 F3 F4 F5. destruct any_flat; cbn [andb when sc]; [|exact I]. specialize (F2 eq_refl). destruct unknown; cbn [negb when sc]; [exact I|].
    cbn [seqs fold_right sc defs uses map]. unfold plus. sp; auto 12. }
  clearbody named flats thens. cbn [arm seqs fold_right sc defs uses map]. sp.
  all: try exact I.
  all: try (unfold plus; cbn [In]; auto 30; fail).
  all: try (unfold wp; destruct any_flat; exact I).
  all: try (apply NM; [intros x Ex; unfold plus; auto 40|]; unfold plus; cbn [In]; intros x H; intuition (subst; auto 40); fail).
  all: try (apply PW; unfold plus; auto 40; fail).
  all: try (apply sc_validate; unfold plus; auto 40; fail).
  all: try (apply FT; unfold plus; auto 40; intros x Ex; auto 40; fail).
  - destruct any_flat; cbn [when sc]; [|exact I]. specialize (WP eq_refl). cbn [arm seqs fold_right sc defs uses map]. sp; unfold plus; cbn [In]; auto 40.
  - destruct (opt_some (j_default d)); cbn [sc]; [unfold plus; auto 40|]. split; [apply sc_validate; unfold plus; auto 40|].
    cbn [seqs fold_right sc defs uses map]. unfold plus. sp; auto 40.
Qed.
(** *** a flattened variant that is transparent *)
Lemma lacks_variant_t v m flat : b_true (h_transparent v) = true -> lacks "p" (c_variant v m flat).
Proof.
  intro T. unfold c_variant. rewrite T. cbn [seqs fold_right].
  apply lacks_right; [apply pre_defs; [discriminate|reflexivity]|]. apply lacks_right; [auto|]. apply lacks_left.
  cbn [uses map seqs fold_right]. apply lacks_right; [auto|]. apply lacks_left, lacks_use.
Qed.
Lemma lacks_enum d m : flat_and_transparent d -> lacks "p" (c_enum d m).
Proof.
  intros [v [IV [SK [FL T]]]]. unfold c_enum. set (flats := seqs (map _ (filter c_is_flat _))). cbn [seqs fold_right].
  do 3 (apply lacks_right; [cbn; try (apply when_defs; cbn); discriminate|]).
  apply lacks_right; [cbn; discriminate|]. apply lacks_right; [apply uses_defs|]. do 3 (apply lacks_right; [auto|]). apply lacks_left.
  apply lacks_seqs.
  - intros c IC. apply in_map_iff in IC as [w [<- _]]. cbn [defs]. intros [H|[]]. revert H. now apply when_defs.
  - eexists. split; [apply in_map_iff; exists v; split; [reflexivity|apply filter_In; split; auto; unfold c_is_flat; now rewrite FL, SK]|].
    cbv beta. apply lacks_right; [apply when_defs; auto|]. apply lacks_block, lacks_left. now apply lacks_variant_t.
Qed.

(** *** the derives *)
Lemma emit_meta_enum_ok d : Forall (fun v => sv_true (h_skip v) = false -> known_v v) (j_variants d) ->
  (Forall self_contained (emit_meta_enum d) <-> ~ flat_and_transparent d).
Proof.
  intro K. unfold emit_meta_enum. split.
  - intros S B. apply Forall_app in S as [_ S]. apply Forall_app in S as [_ S]. apply Forall_inv_tail, Forall_inv, fn_contained in S.
    revert S. assert (L : lacks "p" (seqs [CLet "span" (uses ["_mode"; "inputs"]); CLet "allowed" CNop; c_enum d GMeta])).
    { cbn [seqs fold_right]. apply lacks_right; [cbn; discriminate|]. apply lacks_right; [cbn; discriminate|]. now apply lacks_left, lacks_enum. }
    apply L. cbn [In]. intuition discriminate.
  - intro B. apply Forall_app. split; [|apply Forall_app; split].
    + repeat constructor; apply fn_contained; cbn [uses map seqs fold_right sc defs]; unfold plus; cbn [In]; sp; auto 8.
    + destruct (j_default d); cbn [option_map opt_fn]; repeat constructor. apply fn_contained. exact I.
    + constructor; [|constructor; [|constructor; [|constructor]]]; apply fn_contained.
      * apply sc_enum_names.
      * cbn [uses map seqs fold_right sc defs]. sp; try (unfold plus; cbn [In]; auto 8; fail).
        apply sc_enum; auto. intros x. unfold enum_needs. intros [H|[H _]]; [|discriminate H]. unfold plus. cbn [In] in *. intuition.
      * cbn [uses map seqs fold_right sc defs]; unfold plus; cbn [In]; sp; auto 8.
Qed.
Lemma emit_attr_enum_ok m d : Forall (fun v => sv_true (h_skip v) = false -> known_v v) (j_variants d) ->
  (Forall self_contained (emit_attr_enum m d) <-> ~ flat_and_transparent d).
Proof.
  intro K. unfold emit_attr_enum. rewrite attr_fns_ok. split.
  - intros S B. revert S. assert (L : lacks "p" (seqs [CLet "allowed" (c_enum_names d); CLet "validate" CNop; CLet "prefix" CNop; c_enum d m])).
    { cbn [seqs fold_right]. do 3 (apply lacks_right; [cbn; discriminate|]). now apply lacks_left, lacks_enum. }
    apply L. unfold plus. cbn [In]. intuition discriminate.
  - intro B. cbn [uses map seqs fold_right sc defs]. sp; auto; try (apply sc_enum_names).
    apply sc_enum; auto. intros x. unfold enum_needs, plus. cbn [In]. intuition.
Qed.

(** *** the theorems *)
Section Main.
Context {env : Env}.
Variable sy : synlib.
Lemma l_emit_meta_struct i d : written_struct i -> derive_meta_struct sy i = Ok d ->
  (Forall self_contained (emit_meta_struct d) <-> (passes_on d -> no_field_and_then (i_fields d))).
Proof. intros W H. eapply emit_meta_struct_ok, known_meta; eauto. Qed.
Lemma l_emit_attr_struct i d m : written_struct i -> derive_attr_struct sy i = Ok d -> m = GParse \/ m = GExtract ->
  (Forall self_contained (emit_attr_struct m d) <-> (passes_on d -> no_field_and_then (i_fields d))).
Proof. intros W H M. eapply emit_attr_struct_ok; [destruct M as [-> | ->]; reflexivity|]. eapply known_attr; eauto. Qed.
Lemma l_emit_meta_enum i d : written_enum i -> derive_meta_enum sy i = Ok d ->
  (Forall self_contained (emit_meta_enum d) <-> ~ flat_and_transparent d).
Proof. intros W H. eapply emit_meta_enum_ok, known_meta_enum; eauto. Qed.
Lemma l_emit_attr_enum i d m : written_enum i -> derive_attr_enum sy i = Ok d -> m = GParse \/ m = GExtract ->
  (Forall self_contained (emit_attr_enum m d) <-> ~ flat_and_transparent d).
Proof. intros W H M. eapply emit_attr_enum_ok, known_attr_enum; eauto. Qed.
End Main.
