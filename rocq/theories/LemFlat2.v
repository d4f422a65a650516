(** Moving a flattened struct to another prefix; keys written twice. *)
From Verif Require Export LemFlat.

Section M.
Context {env : Env} {V : Type}.
Lemma strip_moved P P' k k' : (forall n, k = (P ++ n)%string <-> k' = (P' ++ n)%string) -> strip_prefix P k = strip_prefix P' k'.
Proof.
  intro H. destruct (strip_prefix P k) as [n|] eqn:E.
  - apply strip_prefix_spec, H in E. symmetry. now apply strip_prefix_spec.
  - destruct (strip_prefix P' k') as [n|] eqn:E'; auto. apply strip_prefix_spec, H in E'. apply strip_prefix_spec in E'. congruence.
Qed.
Lemma owner_moved (s : sdef V) tm v P P' k k' : (forall n, k = (P ++ n)%string <-> k' = (P' ++ n)%string) ->
  owner_in (struct_reader s tm P v) k = owner_in (struct_reader s tm P' v) k'.
Proof. intro H. unfold owner_in. cbn [r_prefix r_fields struct_reader]. now rewrite (strip_moved P P' k k' H). Qed.
Lemma owns_moved (s : sdef V) tm v P P' i seg seg' : moved P P' seg seg' ->
  owns (struct_reader s tm P v) i seg = owns (struct_reader s tm P' v) i seg'.
Proof. intros [k [k' [ksp [body [H1 [H2 H3]]]]]]. unfold owns. rewrite H1, H2, (owner_moved s tm v P P' k k' H3). reflexivity. Qed.
Lemma gives_moved (s : sdef V) tm v P P' i seg seg' w : moved P P' seg seg' ->
  gives (struct_reader s tm P v) seg i w -> gives (struct_reader s tm P' v) seg' i w.
Proof.
  intros [k [k' [ksp [body [H1 [H2 H3]]]]]] [k1 [ksp1 [body1 [f [G1 [G2 G3]]]]]]. rewrite H1 in G1. injection G1 as <- <- <-.
  rewrite (owner_moved s tm v P P' k k' H3) in G2. exists k', ksp, body, f. auto.
Qed.
Lemma Forall2_in_l {A B} (R : A -> B -> Prop) l l' x : Forall2 R l l' -> In x l -> exists y, In y l' /\ R x y.
Proof. induction 1; simpl; [tauto|]. intros [->|I]; eauto. destruct IHForall2 as [y' [H1 H2]]; eauto. Qed.
Lemma Forall2_in_r {A B} (R : A -> B -> Prop) l l' y : Forall2 R l l' -> In y l' -> exists x, In x l /\ R x y.
Proof. induction 1; simpl; [tauto|]. intros [->|I]; eauto. destruct IHForall2 as [y' [H1 H2]]; eauto. Qed.
Lemma Forall2_imp {A B} (R S : A -> B -> Prop) l l' : (forall x y, R x y -> S x y) -> Forall2 R l l' -> Forall2 S l l'.
Proof. induction 2; auto. Qed.
Lemma moved_deeper P P' q seg seg' : moved P P' seg seg' -> moved (P ++ q) (P' ++ q) seg seg'.
Proof.
  intros [k [k' [ksp [body [H1 [H2 H3]]]]]]. exists k, k', ksp, body. split; auto. split; auto. intro n.
  rewrite !app_str_assoc. apply H3.
Qed.
Lemma map_join P names : is_prefix P -> join_paths P names = map (String.append P) names.
Proof. intro H. unfold join_paths. apply map_ext. intro n. now apply join_path_prefix. Qed.
Lemma flat_call_moved P P' sp allowed (f : field V) l l' w : is_prefix P -> is_prefix P' -> pflat f = true -> movable_field f ->
  Forall2 (moved P P') (items_of l) (items_of l') ->
  fst (flat_call f P sp allowed l) = Ok w -> fst (flat_call f P' sp allowed l') = Ok w.
Proof.
  intros IP IP' PF MF M. unfold movable_field in MF. unfold flat_call. destruct (f_kind f) as [d|[p|] u|u|a|r] eqn:K; try contradiction.
  - unfold pflat, is_flat in PF. rewrite K, andb_false_r in PF. discriminate.
  - destruct MF as [_ MU]. rewrite !join_prefix_like by auto. apply MU; auto using is_prefix_like.
    revert M. apply Forall2_imp. intros x y. apply moved_deeper.
  - rewrite !map_join by auto. apply MF; auto.
Qed.
Lemma moved_parses (s : sdef V) sp P P' l l' vs : is_prefix P -> is_prefix P' -> Forall movable_field (s_raw s) ->
  Forall2 (moved P P') (items_of l) (items_of l') ->
  parses_to (struct_reader s TMeta P false) TMeta (s_default s) sp l (items_of l) vs ->
  parses_to (struct_reader s TMeta P' false) TMeta (s_default s) sp l' (items_of l') vs.
Proof.
  intros IP IP' MF M [A [B [L D]]].
  set (R := struct_reader s TMeta P false) in *. set (R' := struct_reader s TMeta P' false).
  assert (OW : forall i, length (filter (owns R i) (items_of l)) = length (filter (owns R' i) (items_of l'))).
  { intro i. clear A B D. induction M as [|x y its its' XY M IH]; auto. cbn [filter]. unfold R, R' in *.
    rewrite (owns_moved s TMeta false P P' i x y XY). destruct (owns _ i y); cbn [length]; auto. }
  assert (EX : forall i, existsb (owns R i) (items_of l) = existsb (owns R' i) (items_of l')).
  { intro i. clear A B D OW. induction M as [|x y its its' XY M IH]; auto. cbn [existsb]. unfold R, R' in *.
    rewrite (owns_moved s TMeta false P P' i x y XY), IH. reflexivity. }
  split; [|split; [|split]]; auto.
  - apply Forall_forall. intros y I. destruct (Forall2_in_r _ _ _ _ M I) as [x [I' XY]]. rewrite Forall_forall in A.
    destruct (A x I') as [[i [w G]]|[k [ksp [body [H1 [H2 H3]]]]]].
    + left. exists i, w. eapply gives_moved; eauto.
    + right. destruct XY as [k1 [k' [ksp1 [body1 [X1 [X2 X3]]]]]]. rewrite H1 in X1. injection X1 as <- <- <-.
      exists k', ksp, body. split; auto. unfold R in H2. rewrite (owner_moved s TMeta false P P' k k' X3) in H2. split; auto.
      cbn [R' r_check struct_reader]. rewrite andb_false_r. discriminate.
  - intro i. now rewrite <- OW.
  - intros i f x N NX. cbn [R' r_fields struct_reader] in N. specialize (D i f x N NX).
    destruct (same_nth _ _ (s_fields_same TMeta s) i f N) as [f0 [N0 _]]. destruct (s_fields_eff TMeta s i f0 N0) as [f' [N' [_ [E2 _]]]].
    assert (f' = f) by congruence. subst f'.
    assert (MV : movable_field f). { rewrite Forall_forall in MF. specialize (MF f0 (nth_error_In _ _ N0)). unfold movable_field in *. now rewrite E2. }
    destruct D as [seg w I G T|w PF FL T|pn obj TM C2 T|w E PF C2 FD T|t E PF C2 FD SD NT|d w E C2 FD SD K DM T].
    + destruct (Forall2_in_l _ _ _ _ M I) as [y [I' XY]]. eapply G_item; eauto. eapply gives_moved; eauto.
    + eapply G_flat; eauto. cbn [R' R r_prefix r_allowed struct_reader] in *.
      eapply (flat_call_moved P P' sp (s_names s) f (flat_in R l i) (flat_in R' l' i)); eauto. rewrite (flat_in_items R), (flat_in_items R'). exact M.
    + discriminate.
    + eapply G_default; rewrite <- ?EX; eauto.
    + eapply G_target; rewrite <- ?EX; eauto.
    + eapply G_missing; rewrite <- ?EX; eauto. unfold movable_field in MV. rewrite K in MV. eapply MV; eauto.
Qed.
Lemma l_struct_movable (s : sdef V) : named_struct s -> Forall local_field (s_raw s) -> Forall movable_field (s_raw s) ->
  movable (struct_fn s).
Proof.
  intros NS LF MF sp P P' l l' v IP IP' M H. cbn [struct_fn fn_parse] in *. unfold to_full_span in *. cbn [named_span] in *.
  apply struct_text in H; auto. apply struct_text; auto. destruct H as [vs [H C]]. exists vs. split; auto.
  exact (moved_parses s sp P P' l l' vs IP IP' MF M H).
Qed.
Lemma moved_sym P P' seg seg' : moved P P' seg seg' -> moved P' P seg' seg.
Proof. intros [k [k' [ksp [body [H1 [H2 H3]]]]]]. exists k', k, ksp, body. split; auto. split; auto. intro n. symmetry. apply H3. Qed.
Lemma Forall2_flip {A B} (R : A -> B -> Prop) l l' : Forall2 R l l' -> Forall2 (fun y x => R x y) l' l.
Proof. induction 1; auto. Qed.
Lemma l_moved (s : sdef V) sp P P' l l' v : named_struct s -> Forall local_field (s_raw s) -> Forall movable_field (s_raw s) ->
  is_prefix P -> is_prefix P' -> Forall2 (moved P P') (items_of l) (items_of l') ->
  fst (fn_parse (struct_fn s) (Named sp) P false l) = Ok v <-> fst (fn_parse (struct_fn s) (Named sp) P' false l') = Ok v.
Proof.
  intros NS LF MF IP IP' M. split.
  - apply (l_struct_movable s NS LF MF); auto.
  - apply (l_struct_movable s NS LF MF); auto. apply Forall2_flip in M. revert M. apply Forall2_imp. intros x y. apply moved_sym.
Qed.

(** *** keys written twice *)
Lemma part_one_sub prefix n names its : In n names -> length (part prefix [n] its) <= length (part prefix names its).
Proof.
  intro I. unfold part. induction its as [|seg its IH]; auto. cbn [filter].
  destruct (addressed prefix [n] seg) eqn:A.
  - rewrite (addressed_sub prefix prefix [n] names) by (auto; intros m [<-|[]]; eauto). cbn [length]. lia.
  - destruct (addressed prefix names seg); cbn [length]; lia.
Qed.
Lemma l_plain_twice (s : sdef V) tm prefix v sp inputs r i f n ws : parse_run s tm prefix v sp inputs r ->
  named_struct s -> Forall local_field (s_raw s) -> distinct_names s ->
  nth_error (s_raw s) i = Some f -> pitem f = true -> In n (f_names f) ->
  2 <= length (part prefix [n] (items_of inputs)) -> r <> Ok ws.
Proof.
  intros R1 NS LF DN N P I T H. destruct (run_body _ _ _ _ _ _ _ R1) as [m E]; [apply NS|]. subst r. symmetry in E. apply struct_text in E; auto.
  destruct E as [vs [[_ [B _]] _]]. specialize (B i).
  rewrite <- (part_owned s tm prefix v i f) in B by auto. rewrite names_of_item in B by auto.
  pose proof (part_one_sub prefix n (f_names f) (items_of inputs) I). lia.
Qed.
Lemma l_flat_twice (s : sdef V) tm prefix v sp inputs r i f n p u ws : parse_run s tm prefix v sp inputs r ->
  named_struct s -> Forall local_field (s_raw s) -> is_prefix prefix ->
  nth_error (s_raw s) i = Some f -> is_parsable f = true -> f_kind f = KFlatN (Some p) u -> path_like p ->
  looks_at (prefix ++ p ++ "::") u n ->
  2 <= length (part prefix [p ++ "::" ++ n]%string (items_of inputs)) -> r <> Ok ws.
Proof.
  intros R1 NS LF IP N PA K PL LA T H. destruct (run_body _ _ _ _ _ _ _ R1) as [m E]; [apply NS|]. subst r. symmetry in E. apply struct_text in E; auto.
  destruct E as [vs [[_ [_ [L D]]] _]]. cbn [r_fields struct_reader] in L. rewrite s_fields_len in L.
  destruct (nth_error vs i) as [x|] eqn:NX.
  2:{ apply nth_error_None in NX. rewrite L in NX. apply nth_error_None in NX. congruence. }
  assert (N' := s_fields_nth tm s i f N PA). specialize (D i f x N' NX).
  assert (PF : pflat f = true) by (unfold pflat, is_flat; rewrite PA, K; reflexivity).
  destruct D as [seg w I G T'|w _ FL T'|pn obj TM C2 T'|w E PF' C2 FD T'|t E PF' C2 FD SD NT|d w E C2 FD SD K' DM T']; try congruence.
  - pose proof (gives_pitem _ _ _ _ _ G N') as P. unfold pflat, pitem in *. destruct (is_parsable f), (is_flat f); discriminate.
  - unfold flat_call in FL. rewrite K in FL. cbn [r_prefix struct_reader] in FL. rewrite join_prefix_like in FL by auto.
    refine (LA sp _ _ _ FL). rewrite flat_in_items.
    assert (E : part (prefix ++ p ++ "::") [n] (items_of inputs) = part prefix [p ++ "::" ++ n]%string (items_of inputs)); [|now rewrite E].
    unfold part. apply filter_ext. intro seg. unfold addressed. destruct (item_key seg) as [[[k a] b]|]; auto. cbn [existsb]. now rewrite !app_str_assoc.
  - unfold is_parsable in PA. rewrite C2 in PA. discriminate.
Qed.

Lemma l_flat_none_twice (s : sdef V) tm v sp inputs r i f n u ws : parse_run s tm "" v sp inputs r ->
  named_struct s -> Forall local_field (s_raw s) ->
  nth_error (s_raw s) i = Some f -> is_parsable f = true -> f_kind f = KFlatN None u ->
  looks_at "" u n ->
  2 <= length (part "" [n] (items_of inputs)) -> r <> Ok ws.
Proof.
  intros R1 NS LF N PA K LA T H. destruct (run_body _ _ _ _ _ _ _ R1) as [m E]; [apply NS|]. subst r. symmetry in E. apply struct_text in E; auto.
  destruct E as [vs [[_ [_ [L D]]] _]]. cbn [r_fields struct_reader] in L. rewrite s_fields_len in L.
  destruct (nth_error vs i) as [x|] eqn:NX.
  2:{ apply nth_error_None in NX. rewrite L in NX. apply nth_error_None in NX. congruence. }
  assert (N' := s_fields_nth tm s i f N PA). specialize (D i f x N' NX).
  assert (PF : pflat f = true) by (unfold pflat, is_flat; rewrite PA, K; reflexivity).
  destruct D as [seg w I G T'|w _ FL T'|pn obj TM C2 T'|w E PF' C2 FD T'|t E PF' C2 FD SD NT|d w E C2 FD SD K' DM T']; try congruence.
  - pose proof (gives_pitem _ _ _ _ _ G N') as P. unfold pflat, pitem in *. destruct (is_parsable f), (is_flat f); discriminate.
  - unfold flat_call in FL. rewrite K in FL. refine (LA sp _ _ _ FL). now rewrite flat_in_items.
  - unfold is_parsable in PA. rewrite C2 in PA. discriminate.
Qed.

(** on its own part, a child that is parsed alone (unknown keys being reported) gives the same *)
Lemma l_child_alone (c : sdef V) sp l v : named_struct c -> Forall local_field (s_raw c) -> s_is_transparent c = false ->
  (forall seg, In seg (items_of l) -> addressed "" (s_names c) seg = true) ->
  fst (fn_parse (struct_fn c) (Named sp) "" false l) = Ok v <-> fst (d_inline (struct_dict c) (Named sp) l) = Ok v.
Proof.
  intros NS LF NT AD. unfold struct_dict. rewrite NT. cbn [d_inline]. unfold s_inline. assert (SH : s_shape c = ShNamed) by apply NS. rewrite SH.
  cbn [struct_fn fn_parse]. unfold to_full_span. cbn [named_span]. rewrite !struct_text by auto.
  assert (X : forall a b vs, parses_to (struct_reader c TMeta "" a) TMeta (s_default c) sp l (items_of l) vs ->
    parses_to (struct_reader c TMeta "" b) TMeta (s_default c) sp l (items_of l) vs).
  { intros a b vs [A [B [L D]]]. split; [|split; [|split]]; auto.
    2:{ intros i f x N NX. destruct (D i f x N NX) as [seg w I G T'|w P FL T'|pn obj TM C2 T'|w E PF' C2 FD T'|t E PF' C2 FD SD NT0|d w E C2 FD SD K' DM T'];
        [eapply G_item|eapply G_flat|eapply G_container|eapply G_default|eapply G_target|eapply G_missing]; eauto. }
    apply Forall_forall. intros seg I. rewrite Forall_forall in A. destruct (A seg I) as [G|[k [ksp [body [H1 [H2 H3]]]]]]; [now left|].
    right. exists k, ksp, body. split; auto. split; auto. intros _. cbn [r_allowed struct_reader].
    specialize (AD seg I). apply addressed_spec in AD as [k' [ksp' [body' [n [K' [In_ E]]]]]]. rewrite H1 in K'. injection K' as <- <- <-. simpl in E. now subst. }
  split; intros [vs [H C]]; exists vs; split; auto; eapply X; eauto.
Qed.
Lemma l_one_owner (s : sdef V) prefix seg : separate s -> addressed prefix (s_names s) seg = true ->
  exists i f, nth_error (s_raw s) i = Some f /\ addressed prefix (names_of f) seg = true /\
    forall j g, nth_error (s_raw s) j = Some g -> addressed prefix (names_of g) seg = true -> j = i.
Proof.
  intros SE AD. apply addressed_spec in AD as [k [ksp [body [n [K [I E]]]]]]. apply names_in in I as [i [f [N I]]].
  exists i, f. split; auto. split; [apply addressed_spec; exists k, ksp, body, n; auto|].
  intros j g M AD. apply addressed_spec in AD as [k' [ksp' [body' [n' [K' [I' E']]]]]]. rewrite K in K'. injection K' as <- <- <-.
  assert (n' = n). { subst k. revert E'. clear. induction prefix as [|c p IH]; simpl; intro H; [auto|]. injection H as H. auto. }
  subst n'. exact (SE j i g f n M N I' I).
Qed.
End M.
Section A.
Context {env : Env}.
End A.
Section Map.
Context {env : Env}.
Lemma fn_map_ok {A B} (g : A -> B) (u : flat_named A) m p v l w :
  fst (fn_parse (fn_map g u) m p v l) = Ok w <-> exists x, fst (fn_parse u m p v l) = Ok x /\ w = g x.
Proof. unfold fn_map. cbn [fn_parse]. apply pmap_ok. Qed.
Lemma l_by_keys_map {A B} (g : A -> B) (u : flat_named A) P : by_keys P u -> by_keys P (fn_map g u).
Proof.
  intros H sp l l' w K K' E. rewrite !fn_map_ok. cbn [fn_map fn_names] in E.
  split; intros [x [H1 H2]]; exists x; split; auto; [apply (H sp l l' x K K' E)|apply (H sp l l' x K K' E)]; auto.
Qed.
Lemma l_movable_map {A B} (g : A -> B) (u : flat_named A) : movable u -> movable (fn_map g u).
Proof.
  intros H sp P P' l l' w IP IP' M. rewrite !fn_map_ok. intros [x [H1 H2]]. exists x. split; auto. exact (H sp P P' l l' x IP IP' M H1).
Qed.
Lemma l_looks_map {A B} (g : A -> B) (u : flat_named A) P n : looks_at P u n -> looks_at P (fn_map g u) n.
Proof. intros H sp l w T E. apply fn_map_ok in E as [x [E _]]. exact (H sp l x T E). Qed.
Lemma l_struct_looks {V} (s : sdef V) prefix i f n :
  named_struct s -> Forall local_field (s_raw s) -> distinct_names s ->
  nth_error (s_raw s) i = Some f -> pitem f = true -> In n (f_names f) -> looks_at prefix (struct_fn s) n.
Proof.
  intros NS LF DN N P I sp l v T. eapply (l_plain_twice s TMeta prefix false sp l); eauto.
  exact (R_flatten s (Named sp) prefix false l).
Qed.
Lemma l_struct_looks_flat {V} (s : sdef V) prefix i f n p u :
  named_struct s -> Forall local_field (s_raw s) -> is_prefix prefix ->
  nth_error (s_raw s) i = Some f -> is_parsable f = true -> f_kind f = KFlatN (Some p) u -> path_like p ->
  looks_at (prefix ++ p ++ "::") u n -> looks_at prefix (struct_fn s) (p ++ "::" ++ n).
Proof.
  intros NS LF IP N P K PL LA sp l v T. eapply (l_flat_twice s TMeta prefix false sp l _ i f n p u); eauto.
  exact (R_flatten s (Named sp) prefix false l).
Qed.
Lemma l_only_so {V} (s : sdef V) prefix sp l l' v :
  named_struct s -> Forall local_field (s_raw s) -> is_prefix prefix -> Forall (routes prefix) (s_raw s) ->
  keyed l -> keyed l' -> filter (begins prefix) (items_of l) = filter (begins prefix) (items_of l') ->
  fst (fn_parse (struct_fn s) (Named sp) prefix false l) = Ok v <->
  fst (fn_parse (struct_fn s) (Named sp) prefix false l') = Ok v.
Proof.
  intros NS LF IP RT K K' E. apply (l_struct_by_keys s prefix NS LF IP RT sp l l' v K K').
  assert (X : forall names seg, addressed prefix names seg = true -> begins prefix seg = true).
  { intros names seg A. apply addressed_spec in A as [k [ksp [body [n [H [_ ->]]]]]]. unfold begins. rewrite H.
    now rewrite (proj2 (strip_prefix_spec prefix (prefix ++ n) n) eq_refl). }
  unfold part. rewrite <- (filter_filter _ (begins prefix) (items_of l) (X _)), <- (filter_filter _ (begins prefix) (items_of l') (X _)), E. reflexivity.
Qed.
End Map.
