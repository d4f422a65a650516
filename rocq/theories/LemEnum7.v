(** Enums that are flattened into a struct. *)
From Verif Require Export LemEnum6.

Section E.
Context {env : Env} {V : Type}.
Notation vdef := (vdef V).
Notation edef := (edef V).

Lemma l_enum_by_keys (e : edef) prefix : proper_enum TMeta e -> no_flattened e -> by_keys prefix (enum_fn e).
Proof.
  intros P NF. assert (X : forall sp l l' v, keyed l' -> part prefix (fn_names (enum_fn e)) (items_of l) = part prefix (fn_names (enum_fn e)) (items_of l') ->
    fst (fn_parse (enum_fn e) (Named sp) prefix false l) = Ok v -> fst (fn_parse (enum_fn e) (Named sp) prefix false l') = Ok v).
  { intros sp l l' x K' E H. cbn [enum_fn fn_names] in E. rewrite (no_flattened_names e NF) in E. fold (variant_items e prefix (items_of l)) (variant_items e prefix (items_of l')) in E.
    apply (l_enum_plain e TMeta prefix false _ l _ x (E_flatten e (Named sp) prefix false l) P NF) in H as [K [y [CH C]]].
    apply (l_enum_plain e TMeta prefix false _ l' _ x (E_flatten e (Named sp) prefix false l') P NF). split; auto. exists y. split; auto.
    rewrite <- E. destruct C as [[seg [i [vs [C1 [C2 [C3 _]]]]]]|C]; auto. left. exists seg, i, vs. repeat split; auto. discriminate. }
  intros sp l l' v K K' E. split; apply X; auto.
Qed.
Lemma v_named_free (v : vdef) tm P P' ksp s : v_shape v <> ShNamed -> v_named v tm P ksp s = v_named v tm P' ksp s.
Proof. intro H. unfold v_named, v_item, v_flag, v_inline. destruct (v_shape v); congruence. Qed.
Lemma written_moved (e : edef) tm P P' seg seg' i vs : (forall v, In v (e_variants e) -> prefix_free v) -> moved P P' seg seg' ->
  variant_written e tm P seg i vs -> variant_written e tm P' seg' i vs.
Proof.
  intros PF [k [k' [ksp [body [K [K' M]]]]]] [k0 [ksp0 [b0 [v [K0 [[N [O [n [IN KE]]]] VV]]]]]]. rewrite K in K0. injection K0 as <- <- <-.
  apply M in KE. exists k', ksp, body, v. split; auto. split; [split; auto; split; auto; eauto|].
  specialize (PF v (nth_error_In _ _ N)). unfold prefix_free in PF. destruct VV as [T A|j f d x T NF IP KD A AR].
  - rewrite T in PF. apply VV_fields; auto. intros tl sc c En. rewrite (v_named_free v tm P' P) by auto. apply A. auto.
  - rewrite T in PF. eapply VV_transparent; eauto. unfold v_fields in NF. rewrite nth_error_map in NF.
    destruct (nth_error (v_raw v) j) as [g|] eqn:NG; [|discriminate]. injection NF as <-. destruct (skip_default_names g) as [_ [SK _]]. rewrite SK in KD.
    eapply PF; [eapply nth_error_In; exact NG|exact KD|exact A].
Qed.
Lemma addressed_moved P P' names seg seg' : moved P P' seg seg' -> addressed P names seg = addressed P' names seg'.
Proof.
  intros [k [k' [ksp [body [K [K' M]]]]]]. unfold addressed. rewrite K, K'. induction names as [|n l IH]; auto. cbn [existsb]. rewrite IH. f_equal.
  specialize (M n). destruct (String.eqb_spec k (P ++ n)), (String.eqb_spec k' (P' ++ n)); tauto.
Qed.
Lemma items_moved (e : edef) P P' its its' : Forall2 (moved P P') its its' ->
  Forall2 (moved P P') (variant_items e P its) (variant_items e P' its').
Proof.
  unfold variant_items, part. induction 1 as [|s s' l l' M F IH]; cbn [filter]; [constructor|].
  rewrite (addressed_moved P P' _ s s' M). destruct (addressed P' (variant_names e) s'); auto.
Qed.
Lemma moved_keyed P P' l l' : Forall2 (moved P P') (items_of l) (items_of l') -> keyed l'.
Proof.
  unfold keyed. induction 1 as [|s s' a b [k [k' [ksp [body [K [K' M]]]]]] F IH]; constructor; eauto.
Qed.
Lemma l_enum_moved (e : edef) sp P P' l l' x : proper_enum TMeta e -> no_flattened e ->
  (forall v, In v (e_variants e) -> prefix_free v) -> Forall2 (moved P P') (items_of l) (items_of l') ->
  fst (fn_parse (enum_fn e) (Named sp) P false l) = Ok x <-> fst (fn_parse (enum_fn e) (Named sp) P' false l') = Ok x.
Proof.
  intros PE NF PF M. assert (X : forall P P' l l', Forall2 (moved P P') (items_of l) (items_of l') ->
     fst (fn_parse (enum_fn e) (Named sp) P false l) = Ok x -> fst (fn_parse (enum_fn e) (Named sp) P' false l') = Ok x).
  { clear -PE NF PF. intros P P' l l' M H.
    apply (l_enum_plain e TMeta P false _ l _ x (E_flatten e (Named sp) P false l) PE NF) in H as [K [y [CH C]]].
    apply (l_enum_plain e TMeta P' false _ l' _ x (E_flatten e (Named sp) P' false l') PE NF). split; [eapply moved_keyed; eauto|].
    exists y. split; auto. pose proof (items_moved e P P' _ _ M) as MI. destruct C as [[seg [i [vs [C1 [C2 [C3 _]]]]]]|[C1 C2]].
    - left. rewrite C1 in MI. inversion MI as [|? seg' ? ? M1 M2]; subst. inversion M2; subst. exists seg', i, vs. split; auto.
      split; [eapply written_moved; eauto|]. split; auto. discriminate.
    - right. rewrite C1 in MI. inversion MI. auto. }
  split; apply X; auto. apply Forall2_flip in M. eapply Forall2_imp; [|exact M]. intros a b Q. now apply moved_sym.
Qed.
Lemma l_enum_embedded (e : edef) tm prefix sp inputs r x n isp j w m :
  enum_run e tm prefix false sp inputs r -> proper_enum tm e -> e_unknown_ok e = false ->
  In n (variant_names e) -> In ((prefix ++ n)%string, isp) (keys_in inputs) ->
  flattened e j w -> In m (all_names w) -> m <> n -> r = Ok x ->
  forall msp, ~ In ((prefix ++ m)%string, msp) (keys_in inputs).
Proof.
  intros H P U IN IK FW IM NE E msp IKM. apply LemEnum5.run_body in H. rewrite H in E.
  apply (enum_text tm e prefix P) in E as [KY [y [_ [[seg [i' [vs [n' [VI [VW [-> [[ksp [body SK]] O]]]]]]]]|[VI _]]]]].
  - assert (n' = n).
    { apply in_keys_pieces in IK as [pc [b [IP K]]]. assert (IV : In (fst pc) (variant_items e prefix (items_of inputs))).
      { apply filter_In. split; [unfold items_of; now apply in_map|]. apply addressed_spec. eexists _, _, _, n. split; eauto. }
      rewrite VI in IV. destruct IV as [E0|[]]. rewrite <- E0 in K. rewrite K in SK. injection SK as SK _ _. apply app_str_inj in SK. auto. }
    subst n'. destruct (O U) as [_ O2]. specialize (O2 eq_refl (flattened_any e j w FW)).
    destruct FW as [NW [FL _]]. apply (flat_names_in w m FL) in IM as [p [ns [q [I1 [I2 ->]]]]].
    apply (O2 p ns q) with (k := (prefix ++ join_path p q)%string) (sp := msp); auto. apply in_flat_map. exists w. split; eauto using nth_error_In.
  - apply in_keys_pieces in IK as [pc [b [IP K]]]. assert (IV : In (fst pc) (variant_items e prefix (items_of inputs))).
    { apply filter_In. split; [unfold items_of; now apply in_map|]. apply addressed_spec. eexists _, _, _, n. split; eauto. }
    rewrite VI in IV. destruct IV.
Qed.
(** at top level, no key of another flattened variant is accepted *)
Lemma l_flat_others (e : edef) tm validate sp inputs x :
  enum_run e tm "" validate sp inputs (Ok x) -> proper_enum tm e -> flat_local e ->
  variant_items e "" (items_of inputs) = [] -> e_unknown_ok e = false -> e_default e = None ->
  exists i v vs, chosen e "" inputs i v /\ chained (e_and_thens e) (i, vs) x /\
    flat_written e tm "" sp inputs i v vs /\
    (v_unknown_ok v = false -> forall k ksp, In (k, ksp) (keys_in inputs) -> ~ foreign e "" i v k).
Proof.
  intros H P FL VI U D. destruct (l_flat_run e tm "" validate sp inputs _ x H P FL VI eq_refl) as [_ [y [CH [[i [v [vs [C [-> W]]]]]|[_ N]]]]].
  - exists i, v, vs. split; auto. split; auto. split; auto. intros UV k ksp IK F.
    pose proof (l_flat_foreign e tm "" sp inputs i v vs k ksp U UV W IK F) as I. destruct F as [_ [_ [m [_ [_ [_ [_ [-> N]]]]]]]].
    apply N. unfold flat_names_of in I. unfold all_names. apply in_flat_map in I as [f [I J]]. apply in_flat_map. exists f. split; auto.
    unfold names_of in J. destruct (is_parsable f); [exact J|destruct J].
  - rewrite D in N. discriminate.
Qed.
End E.
