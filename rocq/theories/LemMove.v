(** Moving an enum with flattened variants to another prefix. *)
From Verif Require Export LemPerm LemOwn LemEnum7 SpecMove.

Section M.
Context {env : Env} {V : Type}.
Notation vdef := (vdef V).
Notation edef := (edef V).

(** a key of the variant's own fields, or one that is not among the advertised ones *)
Definition own_or_other (P : string) (v : vdef) (k : string) : Prop :=
  (exists n f, In f (v_raw v) /\ pitem f = true /\ In n (f_names f) /\ k = (P ++ n)%string) \/ ~ In k (flat_names_of v).
Lemma moved_checked (s : sdef V) c sp P P' l l' vs : is_prefix P -> is_prefix P' -> Forall movable_field (s_raw s) ->
  Forall2 (moved P P') (items_of l) (items_of l') ->
  (c = true -> forall k ksp, In (k, ksp) (keys_in l) -> owner_in (struct_reader s TMeta P c) k = None -> ~ In k (s_names s)) ->
  parses_to (struct_reader s TMeta P c) TMeta (s_default s) sp l (items_of l) vs ->
  parses_to (struct_reader s TMeta P' c) TMeta (s_default s) sp l' (items_of l') vs.
Proof.
  intros IP IP' MF M HC [A [B [L D]]].
  set (R := struct_reader s TMeta P c) in *. set (R' := struct_reader s TMeta P' c).
  assert (OW : forall i, length (filter (owns R i) (items_of l)) = length (filter (owns R' i) (items_of l'))).
  { intro i. clear A B D HC. induction M as [|x y its its' XY M IH]; auto. cbn [filter]. unfold R, R' in *.
    rewrite (owns_moved s TMeta c P P' i x y XY). destruct (owns _ i y); cbn [length]; auto. }
  assert (EX : forall i, existsb (owns R i) (items_of l) = existsb (owns R' i) (items_of l')).
  { intro i. clear A B D OW HC. induction M as [|x y its its' XY M IH]; auto. cbn [existsb]. unfold R, R' in *.
    rewrite (owns_moved s TMeta c P P' i x y XY), IH. reflexivity. }
  split; [|split; [|split]]; auto.
  - apply Forall_forall. intros y I. destruct (Forall2_in_r _ _ _ _ M I) as [x [I' XY]]. rewrite Forall_forall in A.
    destruct (A x I') as [[i [w G]]|[k [ksp [body [H1 [H2 H3]]]]]].
    + left. exists i, w. eapply gives_moved; eauto.
    + right. destruct XY as [k1 [k' [ksp1 [body1 [X1 [X2 X3]]]]]]. rewrite H1 in X1. injection X1 as <- <- <-.
      exists k', ksp, body. split; auto. pose proof H2 as H4. unfold R in H2. rewrite (owner_moved s TMeta c P P' k k' X3) in H2. split; auto.
      cbn [R' R r_check r_allowed struct_reader] in *. intro Q. destruct (andb_prop _ _ Q) as [_ C]. exfalso.
      apply (HC C k ksp); auto. apply in_keys_items. eauto.
  - intro i. now rewrite <- OW.
  - intros i f x N NX. cbn [R' r_fields struct_reader] in N. specialize (D i f x N NX).
    destruct (same_nth _ _ (s_fields_same TMeta s) i f N) as [f0 [N0 _]]. destruct (s_fields_eff TMeta s i f0 N0) as [f' [N' [_ [E2 _]]]].
    assert (f' = f) by congruence. subst f'.
    assert (MV : movable_field f). { rewrite Forall_forall in MF. specialize (MF f0 (nth_error_In _ _ N0)). unfold movable_field in *. now rewrite E2. }
    destruct D as [seg w I G T|w PF FL T|pn obj TM C2 T|w E PF C2 FD T|t E PF C2 FD SD NT|d w E C2 FD SD K DM T].
    + destruct (Forall2_in_l _ _ _ _ M I) as [y [I' XY]]. eapply G_item; eauto. eapply gives_moved; eauto.
    + eapply G_flat; eauto. cbn [R' R r_prefix r_allowed struct_reader] in *.
      eapply (flat_call_moved P P' sp (s_names s) f (flat_in R l i) (flat_in R' l' i)); eauto. rewrite (flat_in_items R), (flat_in_items R'). exact M.
    + discriminate.
    + eapply G_default; rewrite <- ?EX; eauto.
    + eapply G_target; rewrite <- ?EX; eauto.
    + eapply G_missing; rewrite <- ?EX; eauto. unfold movable_field in MV. rewrite K in MV. eapply MV; eauto.
Qed.
Lemma moved_key P P' l l' n ksp : Forall2 (moved P P') (items_of l) (items_of l') ->
  In ((P ++ n)%string, ksp) (keys_in l) -> In ((P' ++ n)%string, ksp) (keys_in l').
Proof.
  intros M I. apply in_keys_items in I as [seg [body [I K]]]. destruct (Forall2_in_l _ _ _ _ M I) as [y [J [k [k' [ks [b [K1 [K2 X]]]]]]]].
  rewrite K in K1. injection K1 as <- <- <-. apply in_keys_items. exists y, body. split; auto. rewrite K2. now rewrite (proj1 (X n) eq_refl).
Qed.
Lemma moved_back P P' l l' : Forall2 (moved P P') (items_of l) (items_of l') -> Forall2 (moved P' P) (items_of l') (items_of l).
Proof. intro M. apply Forall2_flip in M. revert M. apply Forall2_imp. intros x y. apply moved_sym. Qed.
Lemma moved_present (v : vdef) P P' l l' : Forall2 (moved P P') (items_of l) (items_of l') -> all_present v P l -> all_present v P' l'.
Proof.
  intros M A f I R. destruct (A f I R) as [k [ksp [J [n [IN ->]]]]]. exists (P' ++ n)%string, ksp. split; [exact (moved_key P P' l l' n ksp M J)|exists n; auto].
Qed.
Lemma moved_chosen (e : edef) P P' l l' i v : Forall2 (moved P P') (items_of l) (items_of l') -> chosen e P l i v -> chosen e P' l' i v.
Proof.
  intros M [F [A C]]. split; auto. split; [eapply moved_present; eauto|]. destruct C as [C|C]; [now left|right].
  intros j w FW N A'. apply (C j w FW N). eapply moved_present; [apply moved_back; exact M|exact A'].
Qed.
Lemma moved_first (e : edef) P P' l l' i v : Forall2 (moved P P') (items_of l) (items_of l') -> first_chosen e P l i v -> first_chosen e P' l' i v.
Proof.
  intros M [C H]. split; [eapply moved_chosen; eauto|]. intros j w CW. apply H. eapply moved_chosen; [apply moved_back; exact M|exact CW].
Qed.
Lemma moved_written (e : edef) sp P P' l l' i (v : vdef) vs : is_prefix P -> is_prefix P' -> accepted_variant TMeta v ->
  Forall movable_field (v_raw v) -> takes_all v \/ (needs v /\ forall k ksp, In (k, ksp) (keys_in l) -> own_or_other P v k) ->
  Forall2 (moved P P') (items_of l) (items_of l') ->
  flat_written e TMeta P sp l i v vs -> flat_written e TMeta P' sp l' i v vs.
Proof.
  intros IP IP' AV MF TA M [c [CS [H [A W]]]]. exists c. split; auto. split; [|split].
  - assert (RE : forall Q, variant_reader v Q c = struct_reader (variant_struct v) TMeta Q c).
    { intro Q. unfold variant_reader, struct_reader. rewrite (variant_fields v TMeta AV). f_equal. cbn [variant_struct s_unknown_ok].
      destruct c; [|now rewrite andb_false_r]. destruct (v_unknown_ok v) eqn:U; auto. destruct (proj2 (proj1 CS eq_refl)). now left. }
    rewrite RE in *. change (@None (list V)) with (s_default (variant_struct v)) in *.
    apply (moved_checked (variant_struct v) c sp P P' l l' vs); auto.
    intros C k ksp I O IA. destruct (proj1 CS C) as [N NT]. destruct TA as [TA|[_ TA]]; [contradiction|].
    destruct (TA k ksp I) as [X|X]; [|exact (X IA)]. destruct X as [n [f [IF [PF [IN ->]]]]].
    unfold owner_in in O. cbn [struct_reader r_prefix r_fields] in O. rewrite (proj2 (strip_prefix_spec P _ n) eq_refl) in O.
    assert (RA : r_fields (variant_reader v P c) = s_fields TMeta (variant_struct v)) by (symmetry; exact (variant_fields v TMeta AV)).
    rewrite <- RA in O. cbn [variant_reader r_fields] in O. unfold v_fields in O.
    assert (Z : pitem (skip_default f) = true /\ In n (f_names (skip_default f))).
    { apply pitem_spec in PF as PS. destruct (skip_default_names f) as [-> _]. split; auto. rewrite skip_default_parsable; auto. now apply pitem_parsable. }
    exact (proj1 (LemNamed.find_field_none n _ 0) O (skip_default f) (in_map _ _ _ IF) (proj1 Z) (proj2 Z)).
  - intros NN NT. destruct TA as [TA|[TA _]]; contradiction.
  - intros T U1 U2 k ksp I [j [w [m [N [FW [NE [IM [-> NI]]]]]]]].
    apply (W T U1 U2 (P ++ m)%string ksp).
    + eapply moved_key; [apply moved_back; exact M|exact I].
    + exists j, w, m. auto 8.
Qed.
Lemma written_flat_moved (e : edef) tm P P' seg seg' i vs : (forall v, In v (e_variants e) -> v_flatten v = false -> prefix_free v) -> moved P P' seg seg' ->
  variant_written e tm P seg i vs -> variant_written e tm P' seg' i vs.
Proof.
  intros PF [k [k' [ksp [body [K [K' M]]]]]] [k0 [ksp0 [b0 [v [K0 [[N [O [n [IN KE]]]] VV]]]]]]. rewrite K in K0. injection K0 as <- <- <-.
  apply M in KE. exists k', ksp, body, v. split; auto. split; [split; auto; split; auto; eauto|].
  specialize (PF v (nth_error_In _ _ N)). assert (FF : v_flatten v = false) by apply O. specialize (PF FF). unfold prefix_free in PF. destruct VV as [T A|j f d x T NF IP KD A AR].
  - rewrite T in PF. apply VV_fields; auto. intros tl sc c En. rewrite (v_named_free v tm P' P) by auto. apply A. auto.
  - rewrite T in PF. eapply VV_transparent; eauto. unfold v_fields in NF. rewrite nth_error_map in NF.
    destruct (nth_error (v_raw v) j) as [g|] eqn:NG; [|discriminate]. injection NF as <-. destruct (skip_default_names g) as [_ [SK _]]. rewrite SK in KD.
    eapply PF; [eapply nth_error_In; exact NG|exact KD|exact A].
Qed.
Lemma enum_move (e : edef) sp P P' l l' x : proper_enum TMeta e -> flat_local e -> is_prefix P -> is_prefix P' ->
  (forall v, In v (e_variants e) -> v_flatten v = false -> prefix_free v) ->
  (forall v, In v (e_variants e) -> v_flatten v = true -> Forall movable_field (v_raw v) /\
     (takes_all v \/ (needs v /\ forall k ksp, In (k, ksp) (keys_in l) -> own_or_other P v k))) ->
  Forall2 (moved P P') (items_of l) (items_of l') ->
  fst (fn_parse (enum_fn e) (Named sp) P false l) = Ok x -> fst (fn_parse (enum_fn e) (Named sp) P' false l') = Ok x.
Proof.
  intros PE FL IP IP' PF FV M H. cbn [enum_fn fn_parse] in *. unfold to_full_span in *. cbn [named_span] in *.
  pose proof (moved_keyed P P' l l' M) as K'. pose proof (items_moved e P P' _ _ M) as MI.
  pose proof H as H0. apply (enum_text TMeta e P PE) in H as [K [y [CH [[seg [i [vs [n [V1 [V2 [V3 [V4 V5]]]]]]]]|[V1 _]]]]].
  - apply (enum_text TMeta e P' PE). split; auto. exists y. split; auto. left. rewrite V1 in MI. inversion MI as [|? seg' ? ? M1 M2]; subst. inversion M2; subst.
    exists seg', i, vs, n. split; auto. split; [|split; [|split]]; auto.
    + exact (written_flat_moved e TMeta P P' seg seg' i vs PF M1 V2).
    + destruct V4 as [ksp [body K4]]. destruct M1 as [k [k' [ks [b [K1 [K2 X]]]]]]. rewrite K4 in K1. injection K1 as <- <- <-.
      exists ksp, body. rewrite K2. now rewrite (proj1 (X n) eq_refl).
    + intro U. destruct (V5 U) as [_ V6]. split; [discriminate|]. intros _ AF p ns m I1 I2 NE k ksp I ->.
      apply (V6 eq_refl AF p ns m I1 I2 NE (P ++ join_path p m)%string ksp); auto. eapply moved_key; [apply moved_back; exact M|exact I].
  - pose proof (E_flatten e (Named sp) P false l) as R. pose proof (E_flatten e (Named sp) P' false l') as R'.
    cbn [enum_fn fn_parse] in R, R'. unfold to_full_span in R, R'. cbn [named_span] in R, R'.
    apply (l_flat_exact e TMeta P false sp l _ x R PE FL V1) in H0 as [_ [z [CZ C]]].
    rewrite V1 in MI. inversion MI as [E0|].
    apply (l_flat_exact e TMeta P' false sp l' _ x R' PE FL); [congruence|]. split; auto. exists z. split; auto.
    destruct C as [[i [v [ws [C1 [C2 C3]]]]]|[C1 C2]].
    + left. exists i, v, ws. split; [exact (moved_first e P P' l l' i v M C1)|]. split; auto.
      destruct (flattened_in _ _ _ (proj1 (proj1 C1))) as [IV FFV]. destruct (FV v IV FFV) as [MF TA].
      apply (moved_written e sp P P' l l' i v ws IP IP'); auto. destruct PE as [A _]. unfold accepted_enum in A. rewrite Forall_forall in A. auto.
    + right. split; auto. intros i v C. apply (C1 i v). exact (moved_chosen e P' P l' l i v (moved_back _ _ _ _ M) C).
Qed.
Lemma under_own P (v : vdef) l : plain_fields P v -> Forall movable_field (v_raw v) -> under P l ->
  forall k ksp, In (k, ksp) (keys_in l) -> own_or_other P v k.
Proof.
  intros [_ H] MF U k ksp I. destruct (in_dec string_dec k (flat_names_of v)) as [J|J]; [left|now right].
  destruct (U k ksp I) as [n ->]. unfold flat_names_of in J. apply in_flat_map in J as [f [IF J]]. destruct (H f IF) as [PF NP].
  unfold names_of in J. destruct (is_parsable f) eqn:IP; [|destruct J]. rewrite Forall_forall in MF. specialize (MF f IF). unfold movable_field in MF.
  unfold field_key_names in J. unfold pflat, is_flat in PF. rewrite IP in PF.
  destruct (f_kind f) as [d|q u|u|a|r] eqn:K; try contradiction; try discriminate PF.
  assert (P = ""). { destruct (string_dec P ""); auto. destruct (NP n0 _ n J eq_refl). } subst P.
  exists n, f. split; auto. split; auto. unfold pitem, is_flat. rewrite IP, K. reflexivity.
Qed.
Lemma under_moved P P' l l' : Forall2 (moved P P') (items_of l) (items_of l') -> under P l -> under P' l'.
Proof.
  intros M U k ksp I. apply in_keys_items in I as [seg [body [I K]]]. destruct (Forall2_in_r _ _ _ _ M I) as [y [J [k0 [k' [ks [b [K1 [K2 X]]]]]]]].
  rewrite K in K2. injection K2 as <- <- <-. destruct (U k0 ksp) as [n E]; [apply in_keys_items; eauto|]. exists n. now apply X.
Qed.
Lemma l_enum_movable (e : edef) : proper_enum TMeta e -> flat_local e ->
  (forall v, In v (e_variants e) -> v_flatten v = false -> prefix_free v) ->
  (forall v, In v (e_variants e) -> v_flatten v = true -> Forall movable_field (v_raw v) /\ takes_all v) ->
  movable (enum_fn e).
Proof.
  intros PE FL PF FV sp P P' l l' x IP IP' M. apply (enum_move e sp P P' l l' x PE FL IP IP' PF); auto.
  intros v I F. destruct (FV v I F). auto.
Qed.
Lemma l_enum_moved_flat (e : edef) sp P P' l l' x : proper_enum TMeta e -> flat_local e -> is_prefix P -> is_prefix P' ->
  (forall v, In v (e_variants e) -> v_flatten v = false -> prefix_free v) ->
  (forall v, In v (e_variants e) -> v_flatten v = true -> Forall movable_field (v_raw v) /\
     (takes_all v \/ (plain_fields P v /\ plain_fields P' v))) ->
  under P l -> Forall2 (moved P P') (items_of l) (items_of l') ->
  fst (fn_parse (enum_fn e) (Named sp) P false l) = Ok x <-> fst (fn_parse (enum_fn e) (Named sp) P' false l') = Ok x.
Proof.
  intros PE FL IP IP' PF FV U M. split.
  - apply (enum_move e sp P P' l l' x PE FL IP IP' PF); auto. intros v I F. destruct (FV v I F) as [MF [T|[N1 N2]]]; auto.
    split; auto. right. split; [apply N1|]. now apply under_own.
  - apply (enum_move e sp P' P l' l x PE FL IP' IP PF); [|apply moved_back; auto]. intros v I F. destruct (FV v I F) as [MF [T|[N1 N2]]]; auto.
    split; auto. right. split; [apply N1|]. apply under_own; auto. eapply under_moved; eauto.
Qed.
End M.
