(** Proofs about the variables of the emitted code: derives on structs. *)
From Verif Require Export LemEmit3.

Lemma fits_all sh l fs : fields_fit sh l -> Forall2 shape_facts l fs -> Forall (fits sh) fs /\ (sh = ShUnit -> fs = []).
Proof.
  intros W F. assert (X : sh = ShUnit -> fs = []) by (intros ->; cbn in W; subst l; now inversion F). split; auto.
  destruct sh; cbn [fields_fit] in W; [| |rewrite X by reflexivity; constructor].
  - clear X. induction F as [|f g l fs H F IH]; constructor; inversion W; subst; auto. cbn [fits]. now rewrite (hf_src _ _ H).
  - clear X. induction F as [|f g l fs H F IH]; constructor; inversion W; subst; auto. cbn [fits]. rewrite (hf_src _ _ H).
    destruct (hf_tuple _ _ H H2) as [-> ->]. auto.
Qed.
Lemma plain_spec f : plain_field f = true <-> plainly_read f.
Proof.
  unfold plain_field, plainly_read, g_is_parsable, g_is_flat.
  destruct (g_is_container f), (sv_true (g_skip f)), (flatten_true f), (sv_true (g_append f)), (sv_true (g_rest f)); cbn; intuition congruence.
Qed.
Definition one_read (fs : list sfield) : Prop := exists f, filter g_is_parsable fs = [f] /\ flatten_true f = false /\ sv_true (g_append f) = false.
Lemma one_plain fs : one_read fs -> filter plain_field fs = [] \/ exists f, filter plain_field fs = [f].
Proof.
  intros [f [P _]]. assert (X : filter plain_field fs = filter (fun f => negb (g_is_flat f)) (filter g_is_parsable fs)).
  { clear. induction fs as [|g fs IH]; cbn [filter]; auto. unfold plain_field at 1. destruct (g_is_parsable g); cbn [andb filter]; auto.
    destruct (negb (g_is_flat g)); now rewrite IH. }
  rewrite X, P. cbn [filter]. destruct (negb (g_is_flat f)); eauto.
Qed.
Lemma one_not_flat fs : one_read fs -> find plain_field fs <> None -> forall f, In f fs -> g_is_flat f && g_is_parsable f = false.
Proof.
  intros [g [P _]] FP f IF. destruct (find plain_field fs) as [h|] eqn:FE; [|congruence]. apply find_some in FE as [IH PH].
  unfold plain_field in PH. apply andb_prop in PH as [PP PN].
  assert (X : forall k, In k fs -> g_is_parsable k = true -> k = g).
  { intros k I K. assert (J : In k (filter g_is_parsable fs)) by (apply filter_In; auto). rewrite P in J. now destruct J as [<-|[]]. }
  destruct (g_is_parsable f) eqn:PF; [|now rewrite andb_false_r]. rewrite (X f IF PF), <- (X h IH PP).
  destruct (g_is_flat h); [discriminate PN|reflexivity].
Qed.
Lemma passes_spec d : (st_true (i_transparent d) = true -> one_read (i_fields d)) -> (i_is_transparent d = true <-> passes_on d).
Proof.
  intro O. unfold i_is_transparent, passes_on. change (match i_transparent d with Some t => st_value t | None => false end) with (st_true (i_transparent d)).
  destruct (st_true (i_transparent d)); cbn [andb]; [|split; [discriminate|intros [H _]; exact H]].
  specialize (O eq_refl). split.
  - intro H. split; auto. apply Nat.eqb_eq, find_plain in H. destruct (find plain_field (i_fields d)) as [f|] eqn:FE; [|congruence].
    apply find_some in FE as [I P]. exists f. split; auto. now apply plain_spec.
  - intros [_ [f [I P]]]. apply plain_spec in P. assert (J : In f (filter plain_field (i_fields d))) by (apply filter_In; auto).
    destruct (one_plain _ O) as [X|[g X]]; rewrite X in *; [destruct J|reflexivity].
Qed.

(** *** what is known of an accepted struct *)
Section Accepted.
Context {env : Env}.
Variable sy : synlib.
Definition known (d : sstruct) : Prop :=
  Forall (fits (i_shape d)) (i_fields d) /\ (i_shape d = ShUnit -> i_fields d = []) /\
  (st_true (i_transparent d) = true -> one_read (i_fields d)).
Lemma co_parsable f : g_is_parsable (container_fill f) = g_is_parsable f.
Proof. destruct (co_same f) as [E1 [E2 [E3 [E4 [E5 [E6 [E7 E8]]]]]]]. unfold g_is_parsable, g_is_container. now rewrite E6, E7. Qed.
Lemma read_one i d : read_struct sy i = Ok d -> st_true (i_transparent d) = true -> one_read (i_fields d).
Proof.
  intros H T. apply struct_ok in H as [fs [R SH F _ _ _ X _ _]].
  assert (Y : transparent_check "struct" fs = None) by (apply X; destruct (i_transparent d); discriminate).
  apply transparent_one in Y as [f [P [Q S]]]. rewrite F. destruct (opt_some (i_default d)); [now exists f|].
  exists (skip_fill f). rewrite (filter_map_same skip_fill g_is_parsable g_is_parsable) by apply sk_parsable. rewrite P.
  unfold flatten_true. rewrite sk_flatten, sk_append. auto.
Qed.
Lemma known_attr i d : written_struct i -> derive_attr_struct sy i = Ok d -> known d.
Proof.
  unfold derive_attr_struct. intros W H. destruct (read_struct sy i) as [d0|e|b] eqn:R; try discriminate H. cbn [rbind] in H.
  destruct (gen_struct d0); try discriminate H. injection H as <-. destruct (struct_shape sy i d0 R) as [SH F].
  unfold written_struct in W. rewrite SH in W. destruct (fits_all _ _ _ W F) as [A B]. repeat split; auto. eapply read_one; eauto.
Qed.
Lemma known_meta i d : written_struct i -> derive_meta_struct sy i = Ok d -> known d.
Proof.
  unfold derive_meta_struct. intros W H. destruct (read_struct sy i) as [d0|e|b] eqn:R; try discriminate H. cbn [rbind] in H.
  destruct (gen_struct (fill_struct d0)); try discriminate H. injection H as <-. destruct (fill_shape i d0 (struct_shape sy i d0 R)) as [SH F].
  unfold written_struct in W. rewrite SH in W. destruct (fits_all _ _ _ W F) as [A B]. repeat split; auto.
  cbn [fill_struct i_transparent i_fields]. intro T. destruct (read_one i d0 R T) as [f [P [Q S]]]. exists (container_fill f).
  rewrite (filter_map_same container_fill g_is_parsable g_is_parsable) by apply co_parsable. rewrite P.
  destruct (co_same f) as [E1 [E2 [E3 [E4 [E5 [E6 [E7 E8]]]]]]]. unfold flatten_true. rewrite E3, E4. auto.
Qed.
End Accepted.

Lemma known_one d : known d -> i_is_transparent d = true ->
  find plain_field (i_fields d) <> None /\ (forall f, In f (i_fields d) -> g_is_flat f && g_is_parsable f = false).
Proof.
  intros [_ [_ O]] T. assert (F : find plain_field (i_fields d) <> None).
  { unfold i_is_transparent in T. apply andb_prop in T as [_ T]. now apply Nat.eqb_eq, find_plain in T. }
  split; auto. apply one_not_flat; auto. apply O. unfold i_is_transparent in T. now apply andb_prop in T as [T _].
Qed.
Lemma sc_make_inline (E : string -> Prop) sh x : E x -> (sh <> ShUnit -> E "_mode") -> sc E (c_make_inline sh x).
Proof. intros X M. unfold c_make_inline. destruct sh; cbn [uses map seqs fold_right sc defs]; auto; unfold plus; sp; auto; right; apply M; discriminate. Qed.

Lemma emit_meta_struct_ok d : known d -> (Forall self_contained (emit_meta_struct d) <-> (passes_on d -> no_field_and_then (i_fields d))).
Proof.
  intros K. pose proof K as [FI [UN ON]]. rewrite <- passes_spec by exact ON.
  destruct (i_is_transparent d) eqn:T.
  - destruct (c_struct_t d GMeta (c_make_inline (i_shape d) "input") CNop T) as [extra [Q EX]].
    unfold emit_meta_struct. rewrite Q, T. cbn [cd_parse cd_inline cd_flag orb opt_fn app]. split.
    + intros S _. apply Forall_inv in S. unfold no_field_and_then. apply Forall_forall. intros f IF e IT.
      apply fn_contained in S. revert S. eapply lacks_body; eauto using known_one. cbn [In]. intuition discriminate.
    + intro NA. specialize (NA eq_refl).
      assert (SB : forall l, self_contained (CFn l (s_body d GMeta (c_make_inline (i_shape d) "input") CNop l))).
      { intro l. apply fn_contained. apply sc_body; auto; [now apply known_one|discriminate]. }
      repeat constructor; try apply SB. apply Forall_app. split; [|rewrite app_nil_r].
      * destruct (i_default d); cbn [option_map opt_fn]; repeat constructor. apply fn_contained. exact I.
      * apply Forall_forall. intros c IC. destruct (EX c IC) as [[_ [-> _]]|[l [-> _]]]; [apply fn_contained; exact I|apply SB].
  - split; [discriminate|]. intros _. unfold emit_meta_struct.
    pose proof (fun E => sc_struct_inline d FI UN GMeta (c_make_inline (i_shape d) "input") CNop E T) as SI.
    pose proof (fun E => sc_struct_parse d FI GMeta (c_make_inline (i_shape d) "input") CNop E T) as SPA.
    pose proof (fun E c => sc_struct_flag d FI GMeta (c_make_inline (i_shape d) "input") CNop E c T) as SF.
    assert (X : snd (c_struct d GMeta (c_make_inline (i_shape d) "input") CNop) = []) by (unfold c_struct; now rewrite T).
    destruct (c_struct d GMeta (c_make_inline (i_shape d) "input") CNop) as [c extra] eqn:Q. cbn [fst snd] in *. subst extra.
    rewrite T. cbn [orb].
    assert (MI : forall E : string -> Prop, E "input" -> E "_mode" -> sc E (c_make_inline (i_shape d) "input")) by (intros; apply sc_make_inline; auto).
    apply Forall_app. split; [|apply Forall_app; split; [|apply Forall_app; split; [|cbn [app]]]].
    + constructor; [|constructor; [|constructor]]; apply fn_contained.
      * apply SPA; [cbn; auto|]. intros F B. apply MI; apply B; unfold plus; cbn; auto.
      * destruct (i_shape d) eqn:SH; cbn [c_make_inline uses map seqs fold_right sc defs]; unfold plus; cbn [In]; sp; auto 8.
        apply SI; [|discriminate|intro U; congruence]. intros x. unfold struct_needs. now rewrite SH.
    + destruct (cd_flag c) as [fl|] eqn:FL; cbn [opt_fn]; constructor; [|constructor]. apply fn_contained. apply SF; auto; [cbn; auto|].
      intros F B. apply MI; apply B; unfold plus; cbn; auto.
    + destruct (i_default d); cbn [option_map opt_fn]; repeat constructor. apply fn_contained. exact I.
    + destruct (i_shape d) eqn:SH; cbn [app]; repeat constructor.
      all: try (apply fn_contained; exact I).
      * apply fn_contained. apply sc_field_names.
      * apply fn_contained. cbn [sc defs uses map seqs fold_right]. unfold plus. cbn [In]. sp; auto 8.
        apply SI; [|discriminate|intros; exact I]. intros x. unfold struct_needs. rewrite SH. cbn [In]. intuition.
      * apply fn_contained. cbn [sc defs uses map seqs fold_right]. unfold plus. cbn [In]. sp; auto 8.
      * apply fn_contained. apply SI; [|discriminate|intro U; congruence]. intros x. unfold struct_needs. rewrite SH. cbn [In]. intuition.
Qed.

(** *** attributes *)
Lemma attr_fns_ok ats c :
  Forall self_contained (c_attr_fns ats c) <->
  sc (plus (eq "_mode") (plus (eq "path_name") (plus (eq "span") (fun x => In x ["inputs"; "spans"; "obj"])))) c.
Proof.
  unfold c_attr_fns. split.
  - intro S. apply Forall_inv_tail, Forall_inv, fn_contained in S. cbn [sc defs seqs fold_right] in S.
    destruct S as [_ [_ [_ [_ [S _]]]]]. eapply sc_mono; [|exact S]. unfold plus. cbn [In]. intros x. intuition (subst; auto).
  - intro S. constructor; [|constructor; [|constructor]]; apply fn_contained.
    + destruct ats; cbn [when sc]; cbn; auto.
    + cbn [sc defs seqs fold_right]. unfold plus. cbn [In]. sp; auto 12. eapply sc_mono; [|exact S]. unfold plus. cbn [In]. intros x. intuition (subst; auto 12).
Qed.
Lemma emit_attr_struct_ok m d : in_meta m = false -> known d ->
  (Forall self_contained (emit_attr_struct m d) <-> (passes_on d -> no_field_and_then (i_fields d))).
Proof.
  intros M K. pose proof K as [FI [UN ON]]. rewrite <- passes_spec by exact ON. unfold emit_attr_struct. rewrite attr_fns_ok.
  set (E0 := plus (eq "_mode") _). set (lets := match i_shape d with ShNamed => _ | _ => _ end).
  assert (SL : sc E0 lets) by (unfold lets; destruct (i_shape d); cbn [seqs fold_right sc]; sp; auto; apply sc_field_names).
  cbn [sc]. set (E1 := plus (defs lets) E0).
  assert (X : forall x, In x ["inputs"; "_mode"; "obj"; "path_name"; "span"] -> E1 x).
  { intros x H. right. unfold E0, plus. cbn [In] in *. intuition. }
  destruct (i_is_transparent d) eqn:T.
  - destruct (c_struct_t d m (uses ["inline"; "input"]) (CUse "allowed") T) as [extra [Q EX]]. rewrite Q. cbn [fst cd_inline]. split.
    + intros [_ S] _. unfold no_field_and_then. apply Forall_forall. intros f IF e IT. revert S. eapply lacks_body; eauto using known_one.
      unfold E1, E0, plus, lets. destruct (i_shape d); cbn [seqs fold_right defs In]; intuition discriminate.
    + intro NA. split; auto. apply sc_body; auto using known_one.
      * intros x H. apply X. cbn [In] in *. intuition.
      * intros _. split; apply X; cbn; auto 8.
  - split; [discriminate|]. intros _. split; auto. apply sc_struct_inline; auto.
    + intros x. unfold struct_needs. destruct (i_shape d) eqn:SH; cbn [In].
      * intros [<-|[<-|[<-|[<-|[]]]]]; try (apply X; cbn; auto 8; fail); left; unfold lets; cbn [seqs fold_right defs]; auto 8.
      * intros [<-|[<-|[<-|[]]]]; try (apply X; cbn; auto 8; fail); left; unfold lets; cbn [seqs fold_right defs]; auto 8.
      * intros [<-|[<-|[]]]; apply X; cbn; auto 8.
    + intros _. split; apply X; cbn; auto 8.
    + intros SH F B. cbn [sc]. apply B. left. unfold lets. rewrite SH. cbn [seqs fold_right defs]. auto 8.
Qed.
