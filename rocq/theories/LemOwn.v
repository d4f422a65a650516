(** Enums with flattened variants that take all keys: they depend on their own keys only *)
From Verif Require Import LemEnum3 LemEnum4 LemAdvert.
From Verif Require Export LemPick LemEnum7.

Section O.
Context {env : Env} {V : Type}.
Notation vdef := (vdef V).
Notation edef := (edef V).

Lemma in_keys_items l k ksp : In (k, ksp) (keys_in l) <-> exists seg body, In seg (items_of l) /\ item_key seg = Some (k, ksp, body).
Proof.
  rewrite in_keys_pieces. unfold items_of. split.
  - intros [pc [body [I K]]]. exists (fst pc), body. split; auto. now apply in_map.
  - intros [seg [body [I K]]]. apply in_map_iff in I as [pc [<- I]]. eauto.
Qed.
Lemma part_key prefix names l l' n ksp : part prefix names (items_of l) = part prefix names (items_of l') -> In n names ->
  In ((prefix ++ n)%string, ksp) (keys_in l) -> In ((prefix ++ n)%string, ksp) (keys_in l').
Proof.
  intros E I. rewrite !in_keys_items. intros [seg [body [J K]]]. exists seg, body. split; auto.
  assert (X : In seg (part prefix names (items_of l'))).
  { rewrite <- E. apply filter_In. split; auto. apply addressed_spec. eauto 8. }
  now apply filter_In in X.
Qed.
Lemma all_names_adv (e : edef) (v : vdef) n : In v (e_variants e) -> v_flatten v = true -> In n (all_names v) -> In n (e_names e).
Proof.
  intros IV F I. unfold e_names. apply in_flat_map. exists v. split; auto.
  rewrite F. apply in_or_app. right. unfold all_names in I. apply in_flat_map in I as [f [IF I]].
  destruct (skip_default_names f) as [SN [SK _]].
  apply in_or_app. unfold field_key_names in I. destruct (f_kind f) as [d|[p|] u|u|u|u] eqn:K.
  all: try (left; apply in_flat_map; exists (skip_default f); split; [now apply in_map|]; rewrite SK; exact I).
  all: right; apply in_flat_map; exists (skip_default f); split; [now apply in_map|]; rewrite SK, SN; exact I.
Qed.
Lemma flat_names_all (v : vdef) n : In n (flat_names_of v) -> In n (all_names v).
Proof.
  unfold flat_names_of, all_names. intro I. apply in_flat_map in I as [f [IF I]]. apply in_flat_map. exists f. split; auto.
  unfold names_of in I. destruct (is_parsable f); auto. destruct I.
Qed.
Section Two.
Variables (e : edef) (prefix : string) (l l' : list stream).
Hypothesis (E : part prefix (e_names e) (items_of l) = part prefix (e_names e) (items_of l')).
Lemma own_present (v : vdef) : In v (e_variants e) -> v_flatten v = true ->
  all_present v prefix l -> all_present v prefix l'.
Proof.
  intros I F A f IF R. destruct (A f IF R) as [k [ksp [J [n [IN ->]]]]]. exists (prefix ++ n)%string, ksp. split; [|exists n; auto].
  apply (part_key prefix _ l l' n ksp E); auto. eapply all_names_adv; eauto. unfold all_names. apply in_flat_map. exists f. split; auto.
  destruct R as [P _]. apply pitem_spec in P as [_ [_ [d K]]]. unfold field_key_names. now rewrite K.
Qed.
End Two.
Lemma own_chosen (e : edef) prefix l l' i v : part prefix (e_names e) (items_of l) = part prefix (e_names e) (items_of l') ->
  chosen e prefix l i v -> chosen e prefix l' i v.
Proof.
  intros E [F [A C]]. destruct (flattened_in _ _ _ F) as [IV FV]. split; auto. split; [exact (own_present e prefix l l' E v IV FV A)|].
  destruct C as [C|C]; [now left|right]. intros j w FW N A'. destruct (flattened_in _ _ _ FW) as [IW FFW].
  apply (C j w FW N). exact (own_present e prefix l' l (eq_sym E) w IW FFW A').
Qed.
Lemma own_first (e : edef) prefix l l' i v : part prefix (e_names e) (items_of l) = part prefix (e_names e) (items_of l') ->
  first_chosen e prefix l i v -> first_chosen e prefix l' i v.
Proof.
  intros E [C H]. split; [eapply own_chosen; eauto|]. intros j w CW. apply H. exact (own_chosen e prefix l' l j w (eq_sym E) CW).
Qed.
Lemma own_written (e : edef) prefix sp l l' i (v : vdef) vs : is_prefix prefix -> accepted_variant TMeta v ->
  In v (e_variants e) -> v_flatten v = true -> takes_all v -> Forall (routes prefix) (v_raw v) ->
  keyed l -> keyed l' -> part prefix (e_names e) (items_of l) = part prefix (e_names e) (items_of l') ->
  flat_written e TMeta prefix sp l i v vs -> flat_written e TMeta prefix sp l' i v vs.
Proof.
  intros IP AV IV FV TA RT K K' E [c [CS [P [_ W]]]]. exists c. split; auto.
  assert (CF : c = false) by (destruct c; auto; destruct (proj1 CS eq_refl) as [_ N]; now destruct N). subst c.
  split; [|split; [now intros _ []|]].
  - assert (RE : variant_reader v prefix false = struct_reader (variant_struct v) TMeta prefix false).
    { unfold variant_reader, struct_reader. rewrite (variant_fields v TMeta AV), andb_false_r. reflexivity. }
    rewrite RE in *. change (@None (list V)) with (s_default (variant_struct v)) in *.
    apply (same_parts (variant_struct v) TMeta prefix sp l l' vs); auto.
    revert E. apply part_sub. intros n I. exists n. split; auto. eapply all_names_adv; eauto. now apply flat_names_all.
  - intros T U1 U2 k ksp I [j [w [m [N [FW [NE [IM [-> NI]]]]]]]].
    apply (W T U1 U2 (prefix ++ m)%string ksp).
    + apply (part_key prefix (e_names e) l' l m ksp (eq_sym E)); auto. exact (all_names_adv e w m (nth_error_In _ _ N) FW IM).
    + exists j, w, m. auto 8.
Qed.
Lemma l_enum_own_keys (e : edef) prefix : proper_enum TMeta e -> flat_local e -> is_prefix prefix ->
  (forall v, In v (e_variants e) -> v_flatten v = true -> takes_all v /\ Forall (routes prefix) (v_raw v)) ->
  by_keys prefix (enum_fn e).
Proof.
  intros P FL IP FV.
  assert (X : forall sp l l' x, keyed l' -> part prefix (e_names e) (items_of l) = part prefix (e_names e) (items_of l') ->
    fst (fn_parse (enum_fn e) (Named sp) prefix false l) = Ok x -> fst (fn_parse (enum_fn e) (Named sp) prefix false l') = Ok x).
  { intros sp l l' x K' E H. cbn [enum_fn fn_parse] in *. unfold to_full_span in *. cbn [named_span] in *.
    assert (VI : variant_items e prefix (items_of l) = variant_items e prefix (items_of l')).
    { unfold variant_items. revert E. apply part_sub. intros n I. exists n. split; auto. exact (variant_names_in e n I). }
    pose proof H as H0. apply (enum_text TMeta e prefix P) in H as [K [y [CH [[seg [i [vs [n [V1 [V2 [V3 [V4 V5]]]]]]]]|[V1 _]]]]].
    - apply (enum_text TMeta e prefix P). split; auto. exists y. split; auto. left. exists seg, i, vs, n. rewrite <- VI. repeat split; auto; [discriminate|].
      intros _ AF p ns m I1 I2 NE k ksp I ->. destruct (V5 H) as [_ V6].
      apply (V6 eq_refl AF p ns m I1 I2 NE (prefix ++ join_path p m)%string ksp); auto.
      apply (part_key prefix (e_names e) l' l _ ksp (eq_sym E)); auto. apply in_flat_map in I1 as [w [IW I1]].
      pose proof (flat_names_flat w _ I1) as FW. eapply all_names_adv; eauto. apply (flat_names_in w _ FW). eauto 6.
    - pose proof (E_flatten e (Named sp) prefix false l) as R. pose proof (E_flatten e (Named sp) prefix false l') as R'.
      cbn [enum_fn fn_parse] in R, R'. unfold to_full_span in R, R'. cbn [named_span] in R, R'.
      apply (l_flat_exact e TMeta prefix false sp l _ x R P FL V1) in H0 as [_ [z [CZ C]]].
      apply (l_flat_exact e TMeta prefix false sp l' _ x R' P FL); [congruence|]. split; auto. exists z. split; auto.
      destruct C as [[i [v [ws [C1 [C2 C3]]]]]|[C1 C2]].
      + left. exists i, v, ws. split; [exact (own_first e prefix l l' i v E C1)|]. split; auto.
        destruct (flattened_in _ _ _ (proj1 (proj1 C1))) as [IV FFV]. destruct (FV v IV FFV) as [TA RT].
        eapply own_written; eauto. destruct P as [A _]. unfold accepted_enum in A. rewrite Forall_forall in A. auto.
      + right. split; auto. intros i v C. apply (C1 i v). exact (own_chosen e prefix l' l i v (eq_sym E) C). }
  intros sp l l' v K K' E. split; apply X; auto.
Qed.
End O.
