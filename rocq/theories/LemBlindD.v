(** No derived parser looks at syn's record of unexpected tokens, if its fields do not. *)
From Verif Require Export LemBlind.

Section D.
Context {env : Env} {V : Type}.
Definition unaware_kind (k : fkind V) : Prop :=
  match k with
  | KItem d => unaware_dict d
  | KFlatN _ u => forall m p v, unaware_m (fn_parse u m p v)
  | KFlatU u => forall m i, unaware_m (fu_parse u m i)
  | KAppend a => forall l, unaware_m (a l)
  | KRest a => forall l, unaware_m (a l)
  end.
Definition unaware_field (f : field V) : Prop := unaware_kind (f_kind f).

Lemma ubm_bad {A} b : unaware_m (fun l => (@Bad A b, l)).
Proof. intros l l' E. auto. Qed.
Lemma ubm_flat_call (f : field V) prefix sp allowed : unaware_field f -> unaware_m (flat_call f prefix sp allowed).
Proof. unfold unaware_field, flat_call. destruct (f_kind f); simpl; auto using ubm_bad. Qed.
Lemma ubm_flat_fields prefix sp allowed (fs : list (field V)) : Forall unaware_field fs -> forall sl es l l',
  fork_inputs l = fork_inputs l' ->
  sameouts (flat_fields prefix sp allowed fs sl es l) (flat_fields prefix sp allowed fs sl es l').
Proof.
  induction 1 as [|f fs Hf Hfs IH]; intros sl es l l' E. { split; auto. }
  destruct sl as [|st sl]. { split; auto. }
  cbn [flat_fields]. destruct (pflat f).
  - assert (E1 : fork_inputs (if negb (existsb pflat fs) then l else fork_inputs l) =
                 fork_inputs (if negb (existsb pflat fs) then l' else fork_inputs l')).
    { destruct (negb _); auto. now rewrite !fork_fork. }
    step1 (ubm_flat_call f prefix sp allowed Hf _ _ E1).
    assert (E2 : fork_inputs (if negb (existsb pflat fs) then s1 else l) =
                 fork_inputs (if negb (existsb pflat fs) then s1' else l')) by (destruct (negb _); auto).
    destruct r; [| |split; auto].
    + step1 (IH sl es _ _ E2). destruct r as [[]| |]; split; auto.
    + step1 (IH sl (push_syn es e) _ _ E2). destruct r as [[]| |]; split; auto.
  - step1 (IH sl es _ _ E). destruct r as [[]| |]; split; auto.
Qed.
Lemma find_field_in k (fs : list (field V)) : forall i j f, find_field k fs i = Some (j, f) -> In f fs.
Proof.
  induction fs as [|g fs IH]; simpl; intros i j f; [discriminate|].
  destruct (pitem g && mem_str k (f_names g)); [intro H; injection H as <- <-; auto|eauto].
Qed.
Lemma ub_item_named (f : field V) n sp : unaware_field f -> unaware (item_named f n sp).
Proof.
  unfold unaware_field, item_named. destruct (f_kind f); simpl; intro H; [apply H|..]; intros s s' E; auto.
Qed.
Lemma uf_named (fs : list (field V)) u allowed prefix v : Forall unaware_field fs ->
  ufunc (named_closure fs u allowed prefix v).
Proof.
  intros H p sp [sl es] s s' E. unfold named_closure.
  destruct (strip_prefix prefix p); [|split; cbn [fst snd]; auto using fork_skip].
  destruct (find_field s0 fs 0) as [[i f]|] eqn:N; [|split; cbn [fst snd]; auto using fork_skip].
  apply find_field_in in N. rewrite Forall_forall in H.
  step1 (ub_fs_named (first_name f) sp (item_named f) (nth i sl FNone) es s s' (ub_item_named f _ _ (H f N)) E).
  destruct r as [[]| |]; split; auto.
Qed.
Lemma ubm_named_post (fs : list (field V)) tm target allowed sp prefix sl es : Forall unaware_field fs ->
  unaware_m (named_post fs tm target allowed sp prefix sl es).
Proof.
  intros H l l' E. unfold named_post. step1 (ubm_flat_fields prefix sp allowed fs H sl es l l' E).
  destruct r as [[]| |]; auto.
Qed.
Lemma ubm_named_body (fs : list (field V)) tm target u allowed sp prefix v : Forall unaware_field fs ->
  unaware_m (named_body fs tm target u allowed sp prefix v).
Proof.
  intros H l l' E. unfold named_body.
  assert (E1 : fork_inputs (if existsb pflat fs then fork_inputs l else l) =
               fork_inputs (if existsb pflat fs then fork_inputs l' else l')).
  { destruct (existsb _ _); auto. now rewrite !fork_fork. }
  step2 (ub_parse_struct _ (uf_named fs u allowed prefix v H) _ _ (init_slots fs, []) E1).
  assert (E2 : fork_inputs (if existsb pflat fs then l else s1) =
               fork_inputs (if existsb pflat fs then l' else s1')) by (destruct (existsb _ _); auto).
  destruct st as [sl es]. destruct r; auto; now apply ubm_named_post.
Qed.
Lemma tuple_fields_in (fs : list (field V)) : forall i j ri f, nth_error (tuple_fields fs i) j = Some (ri, f) -> In f fs.
Proof.
  induction fs as [|g fs IH]; simpl; intros i j ri f N; [destruct j; discriminate|].
  destruct (f_kind g); eauto; (destruct (is_parsable g); [|eauto]); destruct j; simpl in N; eauto;
    injection N as <- <-; auto.
Qed.
Lemma uf_tuple (fs : list (field V)) : Forall unaware_field fs -> utfunc (tuple_closure fs).
Proof.
  intros H i [[sl es] index] l l' E. unfold tuple_closure.
  destruct l as [|s l]. { apply fork_nil in E. subst. split; auto. }
  pose proof E as E0. apply fork_cons_inv in E as [s' [l1 [-> [E F]]]].
  destruct (nth_error (tuple_fields fs 0) i) as [[ri f]|] eqn:N; [|split; auto].
  apply tuple_fields_in in N. rewrite Forall_forall in H. specialize (H f N). unfold unaware_field in H.
  destruct (f_kind f); simpl in H; try (split; auto; fail).
  - step1 (ub_fs_unnamed (fun _ => d_item d Unnamed) es _ _ (ud_item d H Unnamed) E).
    destruct r as [[]| |]; split; auto; now apply fork_cons.
  - step1 (H Unnamed index _ _ E0). destruct r; try (split; auto; fail). split; auto. cbn [snd].
    destruct s1 as [|a s1]. { apply fork_nil in EQ. now subst. }
    apply fork_cons_inv in EQ as [a' [k [-> [G1 G2]]]]. apply fork_cons; auto using fork_skip.
Qed.
Lemma ubm_each_eof : unaware_m (@each_eof env).
Proof.
  intro l. induction l as [|s l IH]; intros l' E; cbn [each_eof]. { apply fork_nil in E. now subst. }
  apply fork_cons_inv in E as [s' [l1 [-> [E F]]]]. cbn [each_eof].
  step1 (ub_eof s s' E). destruct r; [|split; auto; now apply fork_cons|split; auto; now apply fork_cons].
  step1 (IH l1 F). split; auto. now apply fork_cons.
Qed.
Lemma fork_full_span m l l' : fork_inputs l = fork_inputs l' -> to_full_span m l = to_full_span m l'.
Proof. intro E. unfold to_full_span. now rewrite (fork_span _ _ E). Qed.
Lemma unnamed_missing_fork tm vt va m sp l l' (fs : list (field V)) : fork_inputs l = fork_inputs l' ->
  forall sl es i c x, unnamed_missing tm vt va m sp l fs sl es i c x = unnamed_missing tm vt va m sp l' fs sl es i c x.
Proof.
  intro E. induction fs as [|f fs IH]; intros sl es i c x; [reflexivity|]. destruct sl as [|st sl]; [reflexivity|].
  cbn [unnamed_missing]. rewrite (fork_full_span _ _ _ E).
  destruct (wants_error vt f && fs_is_none st); [|now rewrite IH].
  destruct (f_kind f); auto.
  - destruct (d_missing d _ _); auto; now rewrite IH.
  - destruct (parse_empty _ _) as [[st' es']| |]; auto; now rewrite IH.
Qed.
Lemma ubm_unnamed_body (fs : list (field V)) tm target va m sp i : Forall unaware_field fs ->
  unaware_m (unnamed_body fs tm target va m sp i).
Proof.
  intros H l l' E. unfold unnamed_body. destruct (existsb is_parsable fs).
  - step2 (ub_parse_tuple (length (filter is_parsable fs)) _ (uf_tuple fs H) (init_slots fs, [], i) l l' E).
    destruct st as [[sl es] index]. destruct r; cbn [fst snd]; auto; split; auto; unfold unnamed_post;
      now rewrite (unnamed_missing_fork _ _ _ _ _ _ _ _ EQ).
  - step1 (ubm_each_eof l l' E). destruct r; cbn [fst snd]; auto; split; auto; unfold unnamed_post.
    now rewrite (unnamed_missing_fork _ _ _ _ _ _ _ _ EQ).
Qed.

(** *** structs *)
Lemma ubm_and_thens {A} (gs : list (A -> A + synerr)) (p : mparser A) : unaware_m p -> unaware_m (p_and_thens gs p).
Proof. intros H l l' E. unfold p_and_thens. step1 (H l l' E). auto. Qed.
Lemma ub_and_thens {A} (gs : list (A -> A + synerr)) (p : parser A) : unaware p -> unaware (p_and_thens gs p).
Proof. intros H l l' E. unfold p_and_thens. step1 (H l l' E). auto. Qed.
Lemma unaware_skip_default (f : field V) : unaware_field f -> unaware_field (skip_default f).
Proof. unfold unaware_field, skip_default. destruct (f_default f); auto. destruct (f_skip f); auto. Qed.
Lemma unaware_container_default (f : field V) : unaware_field f -> unaware_field (container_default f).
Proof. unfold unaware_field, container_default. destruct (f_default f); auto. destruct (f_container f); auto. Qed.
Lemma unaware_s_fields tm (s : sdef V) : Forall unaware_field (s_raw s) -> Forall unaware_field (s_fields tm s).
Proof.
  intro H. assert (A : Forall unaware_field (s_fields_attr s)).
  { unfold s_fields_attr. destruct (has_target _); auto. apply Forall_map. eapply Forall_impl; [|exact H].
    apply unaware_skip_default. }
  destruct tm; auto. cbn [s_fields]. unfold s_fields_meta. apply Forall_map. eapply Forall_impl; [|exact A].
  apply unaware_container_default.
Qed.
Lemma ubm_s_body (s : sdef V) tm m sp prefix v i : Forall unaware_field (s_raw s) ->
  unaware_m (s_body s tm m sp prefix v i).
Proof.
  intro H. apply ubm_and_thens. destruct (s_shape s).
  - apply ubm_named_body. now apply unaware_s_fields.
  - apply ubm_unnamed_body. now apply unaware_s_fields.
  - destruct tm; (apply ubm_bind; [|intros; apply ubm_ret]); [apply ud_unit|apply ubm_each_eof].
Qed.
Lemma ubm_struct_fn (s : sdef V) m p v : Forall unaware_field (s_raw s) -> unaware_m (fn_parse (struct_fn s) m p v).
Proof. intros H l l' E. cbn [struct_fn fn_parse]. rewrite (fork_full_span _ _ _ E). now apply ubm_s_body. Qed.
Lemma ubm_struct_fu (s : sdef V) m i : Forall unaware_field (s_raw s) -> unaware_m (fu_parse (struct_fu s) m i).
Proof.
  intros H l l' E. unfold struct_fu. destruct (s_shape s); cbn [fu_parse]; try now apply ubm_struct_fn.
  now apply ubm_s_body.
Qed.
Lemma ubm_s_inline (s : sdef V) m : Forall unaware_field (s_raw s) -> unaware_m (s_inline s m).
Proof.
  intro H. unfold s_inline. destruct (s_shape s); [now apply ubm_struct_fn|now apply ubm_struct_fu|].
  intros l l' E. now apply ubm_s_body.
Qed.
Lemma transparent_in (fs : list (field V)) : forall i d, transparent_field fs = Some (i, d) ->
  exists f, In f fs /\ f_kind f = KItem d.
Proof.
  unfold transparent_field. generalize 0. induction fs as [|f fs IH]; intros n i d; [discriminate|].
  destruct (f_kind f) eqn:K.
  2-5: intro H; destruct (IH _ _ _ H) as [g [G1 G2]]; exists g; simpl; auto.
  destruct (is_parsable f).
  - intro H. injection H as <- <-. exists f. simpl. auto.
  - intro H. destruct (IH _ _ _ H) as [g [G1 G2]]. exists g. simpl. auto.
Qed.
Lemma ud_inner_dict (s : sdef V) : Forall unaware_field (s_raw s) -> unaware_dict (snd (s_inner s)).
Proof.
  intro H. unfold s_inner. destruct (transparent_field (s_raw s)) as [[i d]|] eqn:T.
  - apply transparent_in in T as [f [F K]]. rewrite Forall_forall in H. specialize (H f F).
    unfold unaware_field in H. rewrite K in H. exact H.
  - cbn [snd]. split; cbn; intros; intros l l' E; auto.
Qed.
Lemma ub_transparent (s : sdef V) tm (p : parser V) i : unaware p -> unaware (s_transparent_with s tm p i).
Proof. intro H. apply ub_and_thens, ub_bind; auto. intros a l l' E. auto. Qed.
Lemma ubm_transparent (s : sdef V) tm (p : mparser V) i : unaware_m p -> unaware_m (s_transparent_with s tm p i).
Proof. intro H. apply ubm_and_thens, ubm_bind; auto. intros a l l' E. auto. Qed.
Lemma ud_struct (s : sdef V) : Forall unaware_field (s_raw s) -> unaware_dict (struct_dict s).
Proof.
  intro H. unfold struct_dict. pose proof (ud_inner_dict s H) as I. destruct (s_inner s) as [i d]. cbn [snd] in I.
  destruct (s_is_transparent s).
  - apply ud_full; intro; [apply ub_transparent, I|apply ubm_transparent, I].
  - apply ud_full; intro m; [|now apply ubm_s_inline].
    destruct (s_shape s); apply ub_delimited, ub_single, ubm_s_inline; auto.
Qed.

(** *** enums *)
Definition unaware_variant (v : vdef V) : Prop := Forall unaware_field (v_raw v).
Lemma unaware_v_fields (v : vdef V) : unaware_variant v -> Forall unaware_field (v_fields v).
Proof. intro H. apply Forall_map. eapply Forall_impl; [|exact H]. apply unaware_skip_default. Qed.
Lemma ubm_v_inline (v : vdef V) tm prefix sp m : unaware_variant v -> unaware_m (v_inline v tm prefix sp m).
Proof.
  intro H. apply unaware_v_fields in H. unfold v_inline.
  destruct (v_shape v); [now apply ubm_named_body|now apply ubm_unnamed_body|].
  apply ubm_bind; [apply ud_unit|]. intros _. apply ubm_ret.
Qed.
Lemma ub_v_named (v : vdef V) tm prefix sp : unaware_variant v -> unaware (v_named v tm prefix sp).
Proof.
  intro H. apply ub_named_with; intro m; [|now apply ubm_v_inline]. apply ub_delimited, ub_single. now apply ubm_v_inline.
Qed.
Lemma find_variant_in k (vs : list (vdef V)) : forall i j v, find_variant k vs i = Some (j, v) -> In v vs.
Proof.
  induction vs as [|g vs IH]; simpl; intros i j v; [discriminate|].
  destruct (negb (v_flatten g) && _ && _); [intro H; injection H as <- <-; auto|eauto].
Qed.
Lemma ub_v_parse vi (v : vdef V) tm prefix p sp q s s' : unaware_variant v -> fork s = fork s' ->
  sameout2 (v_parse vi v tm prefix p sp q s) (v_parse vi v tm prefix p sp q s').
Proof.
  intros H E. unfold v_parse. destruct (v_transparent v).
  - destruct (transparent_field (v_fields v)) as [[i d]|] eqn:T; [|split; auto].
    apply transparent_in in T as [f [F K]]. apply unaware_v_fields in H. rewrite Forall_forall in H. specialize (H f F).
    unfold unaware_field in H. rewrite K in H. step1 (ud_named d H p sp _ _ E).
    destruct (match r with Ok _ => _ | Err _ => _ | Bad _ => _ end) as [r2 es2].
    destruct r2; split; cbn [fst snd]; auto using fork_skip.
  - step1 (ub_v_named v tm prefix sp H _ _ E). destruct r; split; cbn [fst snd]; auto using fork_skip.
Qed.
Lemma uf_enum (e : edef V) tm prefix : Forall unaware_variant (e_variants e) -> ufunc (enum_closure e tm prefix).
Proof.
  intros H p sp q s s' E. unfold enum_closure.
  destruct (strip_prefix prefix p); [|split; cbn [fst snd]; auto using fork_skip].
  destruct (find_variant s0 (e_variants e) 0) as [[i v]|] eqn:N; [|split; cbn [fst snd]; auto using fork_skip].
  apply find_variant_in in N. rewrite Forall_forall in H. apply ub_v_parse; auto.
Qed.
Lemma uf_check allowed : ufunc (check_closure allowed).
Proof. intros p sp q s s' E. split; cbn [check_closure fst snd]; auto using fork_skip. Qed.
Lemma ub_validate allowed es l l' : fork_inputs l = fork_inputs l' ->
  fst (validate_pass allowed es l) = fst (validate_pass allowed es l') /\
  fork_inputs (snd (validate_pass allowed es l)) = fork_inputs (snd (validate_pass allowed es l')).
Proof. intro E. unfold validate_pass. step2 (ub_parse_struct _ (uf_check allowed) l l' es E). auto. Qed.
Lemma ubm_flat_block (e : edef V) tm prefix sp vi (v : vdef V) paths es : unaware_variant v ->
  unaware_m (flat_block e tm prefix sp vi v paths es).
Proof.
  intros H l l' E. apply unaware_v_fields in H. unfold flat_block. cbv zeta. rewrite E.
  match goal with |- context [match ?x with Ok es1 => _ | Err _ => _ | Bad _ => _ end] => destruct x end; auto.
  match goal with |- context [named_body ?f ?t ?g ?u ?al ?s ?pr ?va l] =>
    step1 (ubm_named_body f t g u al s pr va H l l' E) end.
  destruct r; auto.
Qed.
Lemma map_insert_in {A B} (cmp : A -> A -> comparison) k (v : B) l k' v' :
  In (k', v') (map_insert cmp k v l) -> v' = v \/ In (k', v') l.
Proof.
  induction l as [|[a b] l IH]; simpl.
  - intros [H|[]]. injection H as _ <-. auto.
  - destruct (cmp k a); simpl; intros [H|H]; auto; try (injection H as _ <-; auto).
    destruct (IH H); auto.
Qed.
Lemma flat_matches_in (e : edef V) k i v : In (k, (i, v)) (flat_matches e) -> In v (e_variants e).
Proof.
  unfold flat_matches.
  assert (G : forall (l : list (nat * vdef V)) (m : list (key_t * (nat * vdef V))), (forall i v, In (i, v) l -> In v (e_variants e)) ->
    (forall k i v, In (k, (i, v)) m -> In v (e_variants e)) ->
    forall k i v, In (k, (i, v)) (fold_left (fun m iv => let '(i, v) := iv in
               if v_flatten v && negb (v_skip v)
               then map_insert key_cmp (field_key v) (i, v) m else m) l m) -> In v (e_variants e)).
  { induction l as [|[a b] l IH]; simpl; intros m HL HM; auto. apply IH; [intros; eapply HL; eauto|].
    destruct (v_flatten b && negb (v_skip b)); auto. intros k0 i0 v0 I. apply map_insert_in in I as [I|I]; [|eauto].
    injection I as -> ->. eapply HL; eauto. }
  apply G; [|intros k0 i0 v0 []]. intros i0 v0 I. now apply in_combine_r in I.
Qed.
Lemma pick_flat_in (e : edef V) paths i v : pick_flat e paths = Some (i, v) -> In v (e_variants e).
Proof.
  unfold pick_flat.
  match goal with |- match ?x with _ => _ end = _ -> _ => destruct x as [[k [a b]]|] eqn:F end.
  - intro H. injection H as -> ->. apply find_some in F as [F _]. now apply flat_matches_in in F.
  - match goal with |- match ?x with _ => _ end = _ -> _ => destruct x as [[k [a b]]|] eqn:G end; [|discriminate].
    intro H. injection H as -> ->. apply find_some in G as [G _]. now apply flat_matches_in in G.
Qed.
Lemma fork_skip_all l l' : fork_inputs l = fork_inputs l' -> fork_inputs (skip_all l) = fork_inputs (skip_all l').
Proof.
  revert l'. induction l as [|s l IH]; intros l' E. { apply fork_nil in E. now subst. }
  apply fork_cons_inv in E as [s' [l1 [-> [E F]]]]. cbn [skip_all map]. apply fork_cons; [now apply fork_set|now apply IH].
Qed.
Ltac midtac e st allowed v H E2 :=
  destruct (q_value st) as [| |x];
    [ let PF := fresh in destruct (pick_flat e (q_paths st)) as [[? ?]|] eqn:PF;
      [ apply ubm_flat_block; [|exact E2];
        rewrite Forall_forall in H; apply H; eapply pick_flat_in; eassumption
      | destruct (e_default e); [split; auto|];
        destruct (negb (e_unknown_ok e) && v); [|split; auto];
        match goal with |- context [validate_pass allowed ?es _] =>
          step1 (ub_validate allowed es _ _ E2) end; split; auto ]
    | split; auto
    | destruct (q_key st); [|split; auto];
      destruct (negb (e_unknown_ok e) && v); [|split; auto];
      match goal with |- context [validate_pass allowed ?es _] =>
        step1 (ub_validate allowed es _ _ E2) end; split; auto ].
Lemma ubm_enum_body (e : edef V) tm allowed sp prefix v : Forall unaware_variant (e_variants e) ->
  unaware_m (enum_body e tm allowed sp prefix v).
Proof.
  intros H l l' E. unfold enum_body. cbv zeta.
  set (fk := e_any_flat e || negb (e_unknown_ok e)).
  assert (E1 : fork_inputs (if fk then fork_inputs l else l) = fork_inputs (if fk then fork_inputs l' else l')).
  { destruct fk; auto. now rewrite !fork_fork. }
  step2 (ub_parse_struct _ (uf_enum e tm prefix H) _ _ (mkEst None FNone [] []) E1).
  assert (E2 : fork_inputs (if fk then l else s1) = fork_inputs (if fk then l' else s1')) by (destruct fk; auto).
  destruct r; [| |cbn [fst snd]; auto].
  all: match goal with |- fst (match ?x with (_, _) => _ end) = fst (match ?y with (_, _) => _ end) /\ _ =>
         assert (M : sameouts x y) end.
  { midtac e st allowed v H E2. } 2: { midtac e st allowed v H E2. }
  all: match goal with |- fst (match ?x with (_, _) => _ end) = fst (match ?y with (_, _) => _ end) /\ _ =>
         destruct x as [r1 k1]; destruct y as [r2 k2] end; destruct M as [M1 M2]; cbn [fst snd] in M1, M2; subst r2.
  all: destruct r1 as [[value es1]| |]; cbn [fst snd]; auto.
  all: destruct (run_and_thens _ _ _); cbn [fst snd]; split; auto; now apply fork_skip_all.
Qed.
Lemma fork_to_named m s s' : fork s = fork s' -> to_named m s = to_named m s'.
Proof. intro E. unfold to_named. now rewrite (fork_in_span _ _ E). Qed.
Lemma ubm_enum_fn (e : edef V) m p v : Forall unaware_variant (e_variants e) -> unaware_m (fn_parse (enum_fn e) m p v).
Proof. intros H l l' E. cbn [enum_fn fn_parse]. rewrite (fork_full_span _ _ _ E). now apply ubm_enum_body. Qed.
Lemma ud_enum (e : edef V) : Forall unaware_variant (e_variants e) -> unaware_dict (enum_dict e).
Proof.
  intro H. apply ud_full; intro m; [|now apply ubm_enum_fn].
  intros s s' E. rewrite (fork_to_named _ _ _ E). apply ub_delimited; auto. now apply ub_single, ubm_enum_fn.
Qed.
End D.
