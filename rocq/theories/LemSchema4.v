(** Variants and enums. *)
From Verif Require Import LemWf LemWfD LemWfE LemSmall LemEnum4 SpecSmall LemAttr LemFlat2.
From Verif Require Export LemSchema3.

Section K.
Context {env : Env}.
Variable sy : synlib.

Definition variant_inv (v : src_variant) (fs : list sfield) (st : vst) : Prop :=
  names_inv (Some (fst (sv_ident v))) (x_names st) /\
  (forall t, x_transparent st = FSome t -> transparent_check "variant" fs = None) /\
  (sv_shape v = ShUnnamed -> x_unknown st = FNone).
Ltac kstep := repeat match goal with |- keeps1 _ _ _ (if ?b then _ else _) => destruct b eqn:? end.
Lemma keeps_variant v fs : keeps (variant_inv v fs) (variant_arm v fs).
Proof.
  intros k sp st es. change (keeps1 (variant_inv v fs) st es (variant_arm v fs k sp st es)).
  unfold variant_arm. destruct st as [n fl t sk u].
  destruct (String.eqb k "transparent").
  { apply keeps_slot2. intros x s s' H _ [P1 [P2 P3]]. apply transparent_item_ok in H. repeat split; try apply P1; cbn in *; auto. }
  destruct (String.eqb k "allow_unknown_fields").
  { destruct (sv_shape v) eqn:SH; try (apply keeps_slot; intros x _ [P1 [P2 P3]]; split; [exact P1|split; [exact P2|]]; rewrite SH; discriminate).
    apply keeps_refuse, push_nil2. }
  kstep; try (apply keeps_slot; intros x _ H; exact H).
  - apply keeps_rename. intros y R O H [P1 P2]. split; [|exact P2]. cbn [x_names] in *. apply names_inv_rename; auto.
  - apply keeps_alias. intros y O H [P1 P2]. split; [|exact P2]. cbn [x_names] in *. apply names_inv_alias; auto.
  - apply keeps_refuse, check_unknown_nil2.
Qed.

Record variant_facts (v : src_variant) (fs : list sfield) (h : svariant) : Prop := mkVFacts {
  vf_src : h_src h = v;
  vf_read : Forall2 (fun f g => read_field sy f = Ok g) (sv_fields v) fs;
  vf_fields : h_fields h = map skip_fill fs;
  vf_container : length (filter (fun f => opt_some (g_container f)) (h_fields h)) <= 1;
  vf_gaps : sv_shape v = ShUnnamed -> forall l1 f l2 g l3, h_fields h = l1 ++ f :: l2 ++ g :: l3 ->
            needs_value g = true -> may_be_left_out f = false;
  vf_transparent : h_transparent h <> None -> transparent_check "variant" fs = None;
  vf_unknown : sv_shape v = ShUnnamed -> h_unknown_ok h = None;
  vf_flat_names : b_true (h_flatten h) = true -> h_idents h = [];
  vf_first : b_true (h_flatten h) = false -> h_idents h <> []
}.
Lemma variant_ok v h : read_variant sy v = Ok h -> exists fs, variant_facts v fs h.
Proof.
  unfold read_variant. intro H. apply attrs_inv in H as [paths [bufs [bufs2 H]]]. unfold variant_body in H.
  destruct (read_all (read_field sy) (sv_fields v) []) as [[fs es0]|e|b] eqn:RA; try discriminate H.
  apply mbind_inv in H as [[st es] [l1 [H1 H2]]]. cbn [fst snd] in H2.
  destruct (variant_idents v st) as [ids|e|b] eqn:VI; cbn [rbind] in H2; try discriminate H2.
  destruct (check (variant_checks (sv_shape v) (map skip_fill fs) (variant_only_one st es))) as [u|e|b] eqn:CH; cbn [rmap] in H2; try discriminate H2. injection H2 as <- <-.
  apply check_ok in CH. unfold variant_checks in CH.
  assert (G : container_checks (map skip_fill fs) false (variant_only_one st es) = [] /\
              (sv_shape v = ShUnnamed -> forall l1 f l2 g l3, rev (map skip_fill fs) = l1 ++ f :: l2 ++ g :: l3 -> needs_value f = true -> may_be_left_out g = false)).
  { destruct (sv_shape v); try (split; [exact CH|discriminate]).
    apply default_gaps_inv in CH as [CH [_ G]]. auto. }
  clear CH. destruct G as [CH GAP]. apply container_checks_inv in CH as [E C].
  unfold variant_only_one in E. apply only2 in E as [E F1]. apply only2 in E as [E F2]. subst es.
  destruct (read_items_inv _ _ _ _ _ _ _ _ (keeps_variant v fs) H1 eq_refl) as [-> I].
  assert (I0 : variant_inv v fs vst_init). { split; [apply names_inv_init|]. split; cbn; auto; discriminate. }
  apply I in I0 as [[N1 [N2 [N3 [N4 [N5 N6]]]]] [I2 I3]]. apply read_all_inv in RA as [_ RA].
  rewrite !span_if_none in *.
  assert (FT : b_true (option_map fst (fs_into_option (flat_status (x_flatten st)))) = status_true (flat_status (x_flatten st))).
  { destruct (flat_status (x_flatten st)) as [| |[b sp]]; reflexivity. }
  exists fs. constructor; cbn [h_src h_fields h_transparent h_unknown_ok h_flatten h_idents]; auto.
  - intros SH l2 f l3 g l4 EF NV. apply (GAP SH (rev l4) g (rev l3) f (rev l2)); auto.
    rewrite EF, rev_app_distr. cbn [rev]. rewrite rev_app_distr. cbn [rev]. rewrite <- !app_assoc. reflexivity.
  - destruct (x_transparent st) as [| |t]; cbn; try congruence. eauto.
  - intro SH. now rewrite I3.
  - rewrite FT. intro S. unfold variant_idents in VI. rewrite S, andb_false_r in VI. injection VI as <-.
    destruct (flat_status (x_flatten st)) as [| |[b sp]]; try discriminate S.
    destruct (n_idents (x_names st)) as [|y l] eqn:NI; auto.
    destruct N1 as [[rsp R]|[rsp R]]; try discriminate; rewrite R in *; cbn [fs_into_option] in *;
      repeat match goal with H : _ \/ _ |- _ => destruct H as [H|H] end; discriminate.
  - rewrite FT. intro S. unfold variant_idents in VI. rewrite S in VI. cbn [negb] in VI. rewrite andb_true_r in VI.
    destruct (fs_is_none (n_rename (x_names st))) eqn:RN.
    + destruct (ident_text _); [|discriminate VI]. injection VI as <-. discriminate.
    + injection VI as <-. apply N6. intro X. rewrite X in RN. discriminate RN.
Qed.

(** *** Enums *)
Lemma key_eqb_spec a b : key_eqb a b = true <-> a = b.
Proof. unfold key_eqb. rewrite <- key_cmp_eq. destruct (key_cmp a b); split; congruence. Qed.
Lemma extra_inv c es : extra_container c es = [] -> es = [] /\ fc_lifetime c = None /\ fc_ty c = None.
Proof.
  unfold extra_container. destruct (fc_ty c); [intro H; apply push_nil in H; contradiction|].
  destruct (fc_lifetime c); [intro H; apply push_nil in H; contradiction|]. auto.
Qed.
Definition bare (c : fcontainer) : Prop := fc_lifetime c = None /\ fc_ty c = None.
Lemma tagged_inv : forall vs seen cont keys es keys', tagged_checks vs seen cont keys es = (keys', []) ->
  es = [] /\ keys' = keys ++ map tag_key (filter ordinary vs) /\
  (NoDup (map fst seen) -> NoDup (map fst (seen ++ flat_map h_idents (filter ordinary vs)))) /\
  (cont = true -> forall v c, In v vs -> variant_container v = Some c -> bare c) /\
  (forall l1 v l2 w l3 c, vs = l1 ++ v :: l2 ++ w :: l3 -> variant_container v <> None -> variant_container w = Some c -> bare c).
Proof.
  induction vs as [|v vs IH]; intros seen cont keys es keys'; cbn [tagged_checks].
  - intro H. injection H as <- ->. cbn. rewrite !app_nil_r. split; auto. split; auto. split; auto. split; [intros _ v c []|].
    intros [|? ?] ? ? ? ? ? X; discriminate X.
  - set (q := match variant_container v with Some c => _ | None => _ end).
    assert (Q : snd q = [] -> es = [] /\ (cont = true -> fst q = true) /\ (variant_container v <> None -> fst q = true) /\
                (cont = true -> forall c, variant_container v = Some c -> bare c)).
    { unfold q. destruct (variant_container v) as [c|]; [destruct cont|]; cbn [fst snd]; intro H.
      - apply extra_inv in H as [-> B]. split; auto. split; auto. split; auto. intros _ c0 X. injection X as <-. exact B.
      - split; auto. split; auto. split; auto. discriminate.
      - split; auto. split; auto. split; [congruence|discriminate]. }
    destruct q as [cont1 es1]. cbn [fst snd] in Q. cbn [filter]. fold (ordinary v).
    assert (STEP : forall seen1 keys1 es2, tagged_checks vs seen1 cont1 keys1 es2 = (keys', []) -> (es2 = [] -> es1 = []) ->
       es = [] /\ keys' = keys1 ++ map tag_key (filter ordinary vs) /\ es2 = [] /\
       (NoDup (map fst seen1) -> NoDup (map fst (seen1 ++ flat_map h_idents (filter ordinary vs)))) /\
       (cont = true -> forall v0 c, In v0 (v :: vs) -> variant_container v0 = Some c -> bare c) /\
       (forall l1 v0 l2 w l3 c, v :: vs = l1 ++ v0 :: l2 ++ w :: l3 -> variant_container v0 <> None -> variant_container w = Some c -> bare c)).
    { intros seen1 keys1 es2 H E. apply IH in H as [E2 [K [ND [B1 B2]]]]. destruct (Q (E E2)) as [-> [C1 [C2 C3]]].
      split; auto. split; auto. split; auto. split; auto. split.
      - intros C v0 c [<-|I]; [auto|]. apply B1; auto.
      - intros [|x l1] v0 l2 w l3 c X; cbn [app] in X; injection X as -> X; [|eauto].
        intros N W. apply (B1 (C2 N) w c); auto. rewrite X. apply in_or_app. right. now left. }
    destruct (ordinary v).
    + destruct (dup_names "duplicate variant name for " (h_idents v) seen es1) as [seen1 es2] eqn:D. intro H.
      assert (D2 : es2 = [] -> es1 = [] /\ seen1 = seen ++ h_idents v /\ (NoDup (map fst seen) -> NoDup (map fst seen1))).
      { intros ->. apply dup_names_inv in D as [-> [-> N]]. auto. }
      destruct (STEP _ _ _ H (fun X => proj1 (D2 X))) as [-> [-> [E2 [ND [B1 B2]]]]]. destruct (D2 E2) as [_ [-> N]].
      cbn [map flat_map]. split; auto. split; [now rewrite <- app_assoc|]. split; [intro; rewrite app_assoc; auto|]. auto.
    + intro H. destruct (STEP _ _ _ H (fun X => X)) as [-> [-> [E2 [ND [B1 B2]]]]]. split; auto.
Qed.
Lemma flat_inv : forall vs keys es keys', flat_checks vs keys es = (keys', []) ->
  es = [] /\ keys' = keys ++ map schema_key (filter flattened vs) /\
  (NoDup keys -> NoDup keys') /\
  Forall (fun v => b_true (h_flatten v) = true -> sv_shape (h_src v) = ShNamed) vs.
Proof.
  induction vs as [|v vs IH]; intros keys es keys'; cbn [flat_checks filter].
  - intro H. injection H as <- ->. cbn. rewrite app_nil_r. auto.
  - fold (flattened v). destruct (flattened v) eqn:FT.
    + destruct (sv_shape (h_src v)) eqn:SH; try (intro H; apply IH in H as [H _]; apply push_nil in H; contradiction).
      destruct (existsb (key_eqb (schema_key v)) keys) eqn:EX; intro H; apply IH in H as [E [-> [ND F]]].
      * apply push_nil in E. contradiction.
      * cbn [map]. rewrite <- app_assoc. split; auto. split; auto. split; [|constructor; auto].
        intro N. rewrite <- app_assoc in ND. apply ND.
        apply NoDup_Add with (a := schema_key v) (l := keys); [rewrite <- (app_nil_r keys) at 1; apply Add_app|].
        split; auto. intro I. assert (X : existsb (key_eqb (schema_key v)) keys = true); [|congruence].
        apply existsb_exists. exists (schema_key v). split; auto. now apply key_eqb_spec.
    + intro H. apply IH in H as [E [-> [ND F]]]. split; auto. split; auto. split; auto. constructor; auto. unfold flattened in FT. congruence.
Qed.
Lemma nodup_app_r {A} (a b : list A) : NoDup (a ++ b) -> NoDup b.
Proof. induction a as [|x a IH]; cbn [app]; intro N; auto. inversion N. auto. Qed.
Lemma tag_keys_nodup : forall vs, Forall (fun v => h_idents v <> []) vs -> NoDup (map fst (flat_map h_idents vs)) -> NoDup (map tag_key vs).
Proof.
  induction vs as [|v vs IH]; intros F N; [constructor|]. inversion F as [|? ? F1 F2]; subst. cbn [flat_map map] in *.
  rewrite map_app in N. constructor.
  - intro I. apply in_map_iff in I as [w [E I]]. unfold tag_key in E. injection E as E.
    destruct (h_idents v) as [|x l] eqn:HV; [congruence|].
    assert (X : In (fst x) (map fst (h_idents w))). { apply (set_of_in str_cmp str_cmp_eq). rewrite E. apply (set_of_in str_cmp str_cmp_eq). now left. }
    clear E HV. cbn [map app] in N. apply NoDup_cons_iff in N as [N _]. apply N. apply in_or_app. right.
    apply in_map_iff in X as [y [E Y]]. apply in_map_iff. exists y. split; auto. apply in_flat_map. eauto.
  - apply IH; auto. exact (nodup_app_r _ _ N).
Qed.

Record enum_facts (i : src_enum) (d : senum) : Prop := mkEFacts {
  ef_read : Forall2 (fun v h => read_variant sy v = Ok h) (se_variants i) (j_variants d);
  ef_names : NoDup (map fst (flat_map h_idents (filter ordinary (j_variants d))));
  ef_keys : NoDup (map tag_key (filter ordinary (j_variants d)) ++
                   map schema_key (filter flattened (j_variants d)));
  ef_flat : Forall (fun v => b_true (h_flatten v) = true -> sv_shape (h_src v) = ShNamed) (j_variants d);
  ef_container : forall l1 v l2 w l3 c, j_variants d = l1 ++ v :: l2 ++ w :: l3 ->
                 variant_container v <> None -> variant_container w = Some c -> bare c;
  ef_default : j_default d <> None -> forall v, In v (j_variants d) -> b_true (h_flatten v) = true -> schema_key v <> []
}.
Lemma keeps_enum : keeps (fun _ => True) (enum_arm sy).
Proof.
  intros k sp st es. change (keeps1 (fun _ => True) st es (enum_arm sy k sp st es)).
  unfold enum_arm. destruct st as [d c a p u].
  kstep; try (apply keeps_slot; auto); try (apply keeps_collect; auto).
  apply keeps_refuse, check_unknown_nil2.
Qed.
Lemma enum_ok i d : read_enum sy i = Ok d -> enum_facts i d.
Proof.
  unfold read_enum. intro H. apply attrs_inv in H as [paths [bufs [bufs2 H]]]. unfold enum_body in H.
  apply mbind_inv in H as [[st es] [l1 [H1 H2]]]. cbn [fst snd] in H2.
  destruct (read_all (read_variant sy) (se_variants i) es) as [[vs es0]|e|b] eqn:RA; cbn [rbind] in H2; try discriminate H2.
  cbn [fst snd] in H2.
  destruct (check (enum_checks vs (y_default st) es0)) as [u|e|b] eqn:CH; cbn [rmap] in H2; try discriminate H2. injection H2 as <- <-.
  apply check_ok in CH. unfold enum_checks in CH.
  destruct (tagged_checks vs [] false [] es0) as [keys es1] eqn:TC. destruct (flat_checks vs keys es1) as [keys2 es2] eqn:FC.
  assert (G : es2 = [] /\ (y_default st = FNone \/ y_default st = FParseError \/ existsb (key_eqb []) keys2 = false)).
  { destruct (y_default st); auto. destruct (existsb (key_eqb []) keys2); auto. apply push_nil in CH. contradiction. }
  destruct G as [-> G]. apply flat_inv in FC as [-> [-> [ND FL]]]. apply tagged_inv in TC as [-> [-> [NN [_ B]]]].
  apply read_all_inv in RA as [_ RA]. cbn [app] in *.
  assert (NE : Forall (fun v => h_idents v <> []) (filter ordinary vs)).
  { apply Forall_forall. intros h I. apply filter_In in I as [I T]. destruct (Forall2_in_r _ _ _ _ RA I) as [v [_ R]].
    apply variant_ok in R as [fs R]. apply (vf_first _ _ _ R). unfold ordinary in T. now apply negb_true_iff. }
  constructor; cbn [j_variants j_default]; auto.
  - apply NN. constructor.
  - apply ND. apply tag_keys_nodup; auto. apply NN. constructor.
  - intros D v I FT E. destruct G as [G|[G|G]]; try (rewrite G in D; cbn in D; congruence).
    assert (X : existsb (key_eqb []) (map tag_key (filter ordinary vs) ++ map schema_key (filter flattened vs)) = true); [|congruence].
    apply existsb_exists. exists []. split; [|now apply key_eqb_spec]. apply in_or_app. right.
    apply in_map_iff. exists v. split; auto. apply filter_In. auto.
Qed.
End K.
