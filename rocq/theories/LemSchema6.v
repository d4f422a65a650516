(** Keys of flattened variants are canonical; final lemmas for PropsSchema.v. *)
From Verif Require Import LemWf LemWfD LemWfE LemSmall LemEnum4 SpecSmall LemAttr LemFlat2 WfMore.
From Verif Require Export LemSchema5.

(** *** total orders *)
Record order {A} (cmp : A -> A -> comparison) : Prop := mkOrder {
  o_eq : forall x y, cmp x y = Eq <-> x = y;
  o_sym : forall x y, cmp y x = CompOpp (cmp x y);
  o_trans : forall x y z, cmp x y = Lt -> cmp y z = Lt -> cmp x z = Lt }.
Lemma order_list {A} (cmp : A -> A -> comparison) : order cmp -> order (cmp_list cmp).
Proof.
  intros [E S T]. constructor; [now apply cmp_list_eq| |].
  - induction x as [|x a IH]; destruct y as [|y b]; cbn [cmp_list]; auto. rewrite (S x y), IH. destruct (cmp x y); reflexivity.
  - induction x as [|x a IH]; destruct y as [|y b]; destruct z as [|z c]; cbn [cmp_list]; auto; try discriminate.
    destruct (cmp x y) eqn:XY; [|destruct (cmp y z) eqn:YZ|]; try discriminate.
    + apply E in XY as ->. destruct (cmp y z); auto. apply IH.
    + apply E in YZ as ->. rewrite XY. auto.
    + rewrite (T _ _ _ XY YZ). auto.
Qed.
Lemma order_str : order str_cmp.
Proof.
  constructor; [apply str_cmp_eq| |].
  - intros x y. unfold str_cmp. apply String.compare_antisym.
  - unfold str_cmp. induction x as [|x a IH]; destruct y as [|y b]; destruct z as [|z c]; cbn [String.compare]; auto; try discriminate.
    unfold Ascii.compare. destruct (N.compare (N_of_ascii x) (N_of_ascii y)) eqn:XY; [|destruct (N.compare (N_of_ascii y) (N_of_ascii z)) eqn:YZ|]; try discriminate.
    + apply N.compare_eq_iff in XY. rewrite XY. destruct (N.compare (N_of_ascii y) (N_of_ascii z)); auto. apply IH.
    + apply N.compare_eq_iff in YZ. rewrite <- YZ, XY. auto.
    + assert (X : N.compare (N_of_ascii x) (N_of_ascii z) = Lt).
      { rewrite N.compare_lt_iff in *. eapply N.lt_trans; eauto. }
      rewrite X. auto.
Qed.

Section Sorted.
Context {A : Type} (cmp : A -> A -> comparison) (O : order cmp).
Inductive srt : list A -> Prop :=
| srt_nil : srt []
| srt_cons x l : (forall y, In y l -> cmp x y = Lt) -> srt l -> srt (x :: l).
Lemma srt_insert x : forall l, srt l -> srt (set_insert cmp x l).
Proof.
  induction 1 as [|y l L S IH]; cbn [set_insert].
  - constructor; [intros ? []|constructor].
  - destruct (cmp x y) eqn:C.
    + now constructor.
    + constructor; [|now constructor]. intros z [<-|I]; auto. eapply o_trans; eauto.
    + constructor; auto. intros z I. apply (set_insert_in cmp (o_eq _ O)) in I as [->|I]; auto.
      rewrite (o_sym _ O x y), C. reflexivity.
Qed.
Lemma srt_set_of l : srt (set_of cmp l).
Proof.
  unfold set_of. assert (X : forall s, srt s -> srt (fold_left (fun s x => set_insert cmp x s) l s)).
  { induction l as [|x l IH]; intros s S; cbn [fold_left]; auto. apply IH, srt_insert, S. }
  apply X. constructor.
Qed.
Lemma irrefl x : cmp x x = Lt -> False.
Proof. intro H. assert (E : cmp x x = Eq) by now apply (o_eq _ O). congruence. Qed.
Lemma srt_ext : forall a, srt a -> forall b, srt b -> (forall x, In x a <-> In x b) -> a = b.
Proof.
  induction 1 as [|x a L S IH]; intros b Sb H.
  - destruct b as [|y b]; auto. exfalso. apply (H y). now left.
  - destruct Sb as [|y b Lb Sb]; [exfalso; apply (H x); now left|].
    assert (x = y) as <-.
    { destruct (proj1 (H x) (or_introl eq_refl)) as [E|I]; auto. destruct (proj2 (H y) (or_introl eq_refl)) as [E|J]; auto.
      exfalso. apply (irrefl x). eapply o_trans; eauto. }
    f_equal. apply IH; auto. intro z. split; intro I.
    + destruct (proj1 (H z) (or_intror I)) as [E|J]; auto. subst. exfalso. eapply irrefl, L, I.
    + destruct (proj2 (H z) (or_intror I)) as [E|J]; auto. subst. exfalso. eapply irrefl, Lb, I.
Qed.
Lemma set_of_ext a b : (forall x, In x a <-> In x b) -> set_of cmp a = set_of cmp b.
Proof. intro H. apply srt_ext; try apply srt_set_of. intro x. rewrite !(set_of_in cmp (o_eq _ O)). apply H. Qed.
End Sorted.

(** *** keys and required fields *)
Lemma req_required f : (req_names f <> [] -> required f) /\ (required f -> req_names f = map fst (g_idents f)).
Proof.
  unfold req_names, required. destruct (g_default f), (g_is_flat f), (g_is_parsable f); cbn; split; intros; try congruence; auto.
  all: destruct H as [? [? ?]]; congruence.
Qed.
Lemma key_sub v w : covered v w -> Forall (fun f => required f -> g_idents f <> []) (h_fields v) ->
  forall x, In x (filter (fun l => match l with [] => false | _ => true end) (map (fun f => set_of str_cmp (req_names f)) (h_fields v))) ->
            In x (filter (fun l => match l with [] => false | _ => true end) (map (fun f => set_of str_cmp (req_names f)) (h_fields w))).
Proof.
  intros C F x I. apply filter_In in I as [I X]. apply in_map_iff in I as [f [<- I]].
  assert (R : required f). { apply (proj1 (req_required f)). intro E. rewrite E in X. discriminate X. }
  destruct (C f I R) as [g [J [Rg S]]]. apply filter_In. split; auto. apply in_map_iff. exists g. split; auto.
  rewrite (proj2 (req_required f) R), (proj2 (req_required g) Rg). apply (set_of_ext str_cmp order_str). intro n. symmetry. apply S.
Qed.
Lemma covered_key v w : covered v w -> covered w v ->
  Forall (fun f => required f -> g_idents f <> []) (h_fields v) -> Forall (fun f => required f -> g_idents f <> []) (h_fields w) ->
  schema_key v = schema_key w.
Proof.
  intros A B F G. unfold schema_key. apply (set_of_ext _ (order_list _ order_str)). intro x. split; apply key_sub; auto.
Qed.

Lemma nodup_flat {A B} (h : A -> list B) : forall l, NoDup (flat_map h l) ->
  forall i j a b x, nth_error l i = Some a -> nth_error l j = Some b -> In x (h a) -> In x (h b) -> i = j.
Proof.
  induction l as [|a0 l IH]; intros N i j a b x I J Xa Xb; [destruct i; discriminate|]. cbn [flat_map] in N.
  assert (D : forall k c, nth_error l k = Some c -> In x (h a0) -> In x (h c) -> False).
  { intros k c K H0 Hc. apply nth_error_In in K. clear - N K H0 Hc. induction (h a0) as [|y m IH]; [destruct H0|].
    cbn [app] in N. inversion N as [|? ? N1 N2]; subst. destruct H0 as [->|H0]; auto. apply N1. apply in_or_app. right. apply in_flat_map. eauto. }
  destruct i as [|i], j as [|j]; cbn [nth_error] in I, J; auto.
  - injection I as ->. exfalso. eauto.
  - injection J as ->. exfalso. eauto.
  - f_equal. apply (IH (nodup_app_r _ _ N) i j a b x); auto.
Qed.

Section F.
Context {env : Env}.
Variable sy : synlib.

Lemma l_c51_struct i d : read_struct sy i = Ok d -> NoDup (field_names_of d).
Proof. intro H. apply struct_ok in H as [fs F]. exact (sf_names _ _ _ _ F). Qed.
Lemma fill_names d : field_names_of (fill_struct d) = field_names_of d.
Proof.
  unfold field_names_of. cbn [fill_struct i_fields]. f_equal. induction (i_fields d) as [|f l IH]; cbn [map flat_map]; auto.
  rewrite IH. f_equal. apply co_same.
Qed.
Lemma l_c51_lowered V (ru : rust V) auto expr post i d :
  derive_meta_struct sy i = Ok d \/ derive_attr_struct sy i = Ok d -> distinct_names (lower_struct ru auto expr post d).
Proof.
  intro H.
  assert (N : NoDup (field_names_of d)).
  { unfold derive_meta_struct, derive_attr_struct in H. destruct (read_struct sy i) as [d0|e|b] eqn:R; cbn [rbind] in H; [|destruct H; discriminate|destruct H; discriminate].
    pose proof (l_c51_struct _ _ R) as N. destruct H as [H|H]; [destruct (gen_struct (fill_struct d0))|destruct (gen_struct d0)]; cbn [rmap] in H; try discriminate H; injection H as <-; auto.
    now rewrite fill_names. }
  unfold field_names_of in N. rewrite flat_map_concat_map, concat_map, map_map, <- flat_map_concat_map in N.
  intros a b f g n A B _ _ F G. cbn [lower_struct s_raw] in A, B.
  rewrite nth_map in A, B. destruct (nth_error (i_fields d) a) as [f0|] eqn:NA; [|discriminate A]. destruct (nth_error (i_fields d) b) as [g0|] eqn:NB; [|discriminate B].
  injection A as <-. injection B as <-. cbn [lower_field f_names] in F, G. exact (nodup_flat _ _ N a b f0 g0 n NA NB F G).
Qed.

Lemma l_c51_enum i d : read_enum sy i = Ok d -> written_enum i ->
  NoDup (variant_names_of d) /\
  (forall a b v w, nth_error (j_variants d) a = Some v -> nth_error (j_variants d) b = Some w ->
     flattened v = true -> flattened w = true -> covered v w -> covered w v -> a = b).
Proof.
  intros H W. pose proof (enum_ok sy i d H) as [R N K FL _ _]. split; [exact N|].
  intros a b v w A B FV FW C1 C2.
  assert (G : forall x, In x (j_variants d) -> flattened x = true -> Forall (fun f => required f -> g_idents f <> []) (h_fields x)).
  { intros x I FX. apply Forall_forall. intros f If [R1 [R2 R3]]. destruct (Forall2_in_r _ _ _ _ R I) as [sv [Isv Rsv]].
    destruct (variant_shape sy sv x Rsv) as [E F]. destruct (Forall2_in_r _ _ _ _ F If) as [sf [Isf HF]]. apply (hf_first _ _ HF).
    - rewrite Forall_forall in FL. specialize (FL x I FX). unfold written_enum in W. rewrite Forall_forall in W. specialize (W sv Isv).
      rewrite E in FL. rewrite FL in W. cbn [fields_fit] in W. rewrite Forall_forall in W. auto.
    - unfold g_is_flat in R2. apply orb_false_iff in R2 as [R2 _]. apply orb_false_iff in R2 as [R2 _]. exact R2. }
  assert (E : schema_key v = schema_key w).
  { apply covered_key; auto; apply G; eauto using nth_error_In. }
  apply nodup_app_r in K. clear - A B FV FW E K.
  (* positions in the filtered list *)
  revert a b A B. induction (j_variants d) as [|x l IH]; intros a b A B; [destruct a; discriminate A|].
  cbn [filter] in K. destruct a as [|a], b as [|b]; cbn [nth_error] in A, B; auto.
  - injection A as ->. rewrite FV in K. cbn [map] in K. inversion K as [|? ? K1 K2]; subst. exfalso. apply K1. rewrite E.
    apply in_map, filter_In. eauto using nth_error_In.
  - injection B as ->. rewrite FW in K. cbn [map] in K. inversion K as [|? ? K1 K2]; subst. exfalso. apply K1. rewrite <- E.
    apply in_map, filter_In. eauto using nth_error_In.
  - f_equal. apply IH; auto. destruct (flattened x); auto. cbn [map] in K. now inversion K.
Qed.

Lemma l_c58_struct V (ru : rust V) auto expr post i d : good_rust ru -> written_struct i ->
  derive_meta_struct sy i = Ok d \/ derive_attr_struct sy i = Ok d ->
  (st_true (i_transparent d) = true -> no_field_and_then (i_fields d)) ->
  let s := lower_struct ru auto expr post d in
  (forall m st, returns (fst (d_item (struct_dict s) m st))) /\
  (forall m l, returns (fst (d_inline (struct_dict s) m l))) /\
  (forall sp, returns (d_flag (struct_dict s) sp)) /\
  (forall n sp st, returns (fst (d_named (struct_dict s) n sp st))) /\
  (forall ts, returns (deluxe_parse2 (struct_dict s) ts)) /\
  (forall conv o, returns (struct_parse_attributes s conv o)) /\
  (forall conv o, returns (fst (struct_extract_attributes s conv o))).
Proof.
  intros G W H N s. assert (A : accepted_struct s) by (eapply l_struct_bridge; eauto).
  destruct (l_struct_never_panics env V s A) as [H1 [H2 [H3 [H4 [_ [_ [_ [H8 [H9 H10]]]]]]]]]. repeat apply conj; auto.
Qed.
Lemma lower_no_and_then V (ru : rust V) auto expr post d :
  (forall v, In v (j_variants d) -> sv_true (h_skip v) = false -> b_true (h_transparent v) = true -> no_field_and_then (h_fields v)) ->
  live_no_and_then (lower_enum ru auto expr post d).
Proof.
  intros H v f I SK T J. cbn [lower_enum e_variants] in I. apply in_map_iff in I as [h [<- I]]. cbn [lower_variant v_transparent v_raw] in T, J.
  pose proof (no_and_then_lower ru (b_true (h_transparent h)) _ (H h I SK T)) as X. rewrite Forall_forall in X. auto.
Qed.
Lemma l_c58_enum V (ru : rust V) auto expr post i d : good_rust ru -> written_enum i ->
  derive_meta_enum sy i = Ok d ->
  (forall v, In v (j_variants d) -> sv_true (h_skip v) = false -> b_true (h_transparent v) = true -> no_field_and_then (h_fields v)) ->
  let e := lower_enum ru auto expr post d in
  (forall m st, returns (fst (d_item (enum_dict e) m st))) /\
  (forall m l, returns (fst (d_inline (enum_dict e) m l))) /\
  (forall sp, returns (d_flag (enum_dict e) sp)) /\
  (forall n sp st, returns (fst (d_named (enum_dict e) n sp st))) /\
  (forall ts, returns (deluxe_parse2 (enum_dict e) ts)).
Proof.
  intros G W H N e. assert (A : accepted_live TMeta e) by (eapply l_enum_live_meta; eauto).
  assert (B : live_no_and_then e) by now apply lower_no_and_then.
  destruct (l_enum_live_never_panics env V e A B) as [H1 [H2 [H3 [H4 [_ [_ [_ H8]]]]]]]. repeat apply conj; auto.
Qed.
Lemma l_c58_enum_attr V (ru : rust V) auto expr post i d : good_rust ru -> written_enum i ->
  derive_attr_enum sy i = Ok d ->
  (forall v, In v (j_variants d) -> sv_true (h_skip v) = false -> b_true (h_transparent v) = true -> no_field_and_then (h_fields v)) ->
  let e := lower_enum ru auto expr post d in
  forall conv o, returns (enum_parse_attributes e conv o) /\ returns (fst (enum_extract_attributes e conv o)).
Proof.
  intros G W H N e. assert (A : forall pn obj, accepted_live (TAttrs pn obj) e) by (intros; eapply l_enum_live_attr; eauto).
  assert (B : live_no_and_then e) by now apply lower_no_and_then. exact (l_enum_attrs_live_never_panic env V e A B).
Qed.

Lemma l_c62_struct i d : read_struct sy i = Ok d -> i_shape d = ShUnnamed ->
  forall a b f g, nth_error (i_fields d) a = Some f -> nth_error (i_fields d) b = Some g ->
    optional_field f -> required g -> b < a.
Proof.
  intros H SH a b f g A B Of Rg. apply struct_ok in H as [fs F]. pose proof (sf_gaps _ _ _ _ F SH) as G.
  destruct (Nat.lt_trichotomy a b) as [L|[L|L]]; auto.
  - exfalso. apply nth_error_split in B as [l1 [l2 [E L1]]]. rewrite E in A. rewrite nth_error_app1 in A by lia.
    apply nth_error_split in A as [m1 [m2 [E2 _]]]. rewrite E2, <- app_assoc in E. cbn [app] in E.
    specialize (G m1 f m2 g l2 E). destruct Of as [O1 [O2 O3]], Rg as [R1 [R2 R3]].
    unfold needs_value, may_be_left_out in G. rewrite O1, O2, R1, R2, R3 in G. cbn in G. specialize (G eq_refl).
    destruct (g_default f); [discriminate G|congruence].
  - exfalso. subst. rewrite A in B. injection B as <-. destruct Of as [_ [_ O]], Rg as [_ [_ R]]. congruence.
Qed.
Lemma l_c62_variant v h : read_variant sy v = Ok h -> sv_shape v = ShUnnamed ->
  forall a b f g, nth_error (h_fields h) a = Some f -> nth_error (h_fields h) b = Some g ->
    optional_field f -> required g -> b < a.
Proof.
  intros H SH a b f g A B Of Rg. apply variant_ok in H as [fs F]. pose proof (vf_gaps _ _ _ _ F SH) as G.
  destruct (Nat.lt_trichotomy a b) as [L|[L|L]]; auto.
  - exfalso. apply nth_error_split in B as [l1 [l2 [E L1]]]. rewrite E in A. rewrite nth_error_app1 in A by lia.
    apply nth_error_split in A as [m1 [m2 [E2 _]]]. rewrite E2, <- app_assoc in E. cbn [app] in E.
    specialize (G m1 f m2 g l2 E). destruct Of as [O1 [O2 O3]], Rg as [R1 [R2 R3]].
    unfold needs_value, may_be_left_out in G. rewrite O1, O2, R1, R2, R3 in G. cbn in G. specialize (G eq_refl).
    destruct (g_default f); [discriminate G|congruence].
  - exfalso. subst. rewrite A in B. injection B as <-. destruct Of as [_ [_ O]], Rg as [_ [_ R]]. congruence.
Qed.
Lemma l_c63 i d : read_enum sy i = Ok d -> written_enum i -> j_default d <> None ->
  forall v, In v (j_variants d) -> flattened v = true -> exists f, In f (h_fields v) /\ required f.
Proof.
  intros H W D v I F. pose proof (ef_default _ _ _ (enum_ok sy i d H) D v I F) as K.
  unfold schema_key in K. set (l := filter _ _) in K.
  destruct l as [|x l'] eqn:E; [now destruct K|]. assert (X : In x l) by (rewrite E; now left). unfold l in X. apply filter_In in X as [X Y].
  apply in_map_iff in X as [f [<- If]]. exists f. split; auto. apply (proj1 (req_required f)). intro Z. rewrite Z in Y. discriminate Y.
Qed.
End F.
