(** Transparent structs *)
From Verif Require Export LemAbout LemMore LemTransparent LemEnum.

Section T.
Context {env : Env} {V : Type}.

Lemma inner_is (s : sdef V) j d : transparent_struct s -> inner_field s j d ->
  s_inner s = (j, d) /\ forall tm, transparent_field (s_fields tm s) = Some (j, d).
Proof.
  intros [T [A _]] [f [N [P K]]]. destruct (s_inner_spec s A T) as [F _]. destruct A as [A1 A2]. destruct (A2 T) as [L NA].
  assert (E : s_inner s = (j, d)).
  { destruct (s_inner s) as [i d'] eqn:E. destruct (transparent_index _ _ _ F L) as [g [Ng [Kg [Pg U]]]].
    specialize (U j f N). rewrite P in U. symmetry in U. apply Nat.eqb_eq in U. subst i. congruence. }
  split; auto. intro tm. rewrite (same_transparent _ _ (s_fields_same tm s)), F, E. reflexivity.
Qed.
Lemma post_built (s : sdef V) tm j d x : transparent_struct s -> inner_field s j d ->
  (forall ws, fst (transparent_post (s_fields tm s) tm (s_default s) j x []) = Ok ws <-> built s tm j x ws) /\
  exists ws, fst (transparent_post (s_fields tm s) tm (s_default s) j x []) = Ok ws.
Proof.
  intros TS IF. destruct (inner_is s j d TS IF) as [SI TF]. destruct TS as [T [A TL]]. destruct A as [A1 A2]. destruct (A2 T) as [L NA].
  assert (L2 : length (filter (@is_parsable V) (s_fields tm s)) = 1) by (rewrite (same_count _ _ (s_fields_same tm s)); auto).
  assert (NA2 : Forall no_and_then (s_fields tm s)) by exact (same_no_and_then _ _ (s_fields_same tm s) NA).
  split.
  - intro ws. rewrite (transparent_around (s_fields tm s) tm (s_default s) j d x [] ws (TF tm) L2 NA2).
    2:{ intros t E. rewrite s_fields_len. auto. }
    unfold around, built. rewrite s_fields_len. apply and_iff_compat_l.
    assert (Q : forall i f g v, nth_error (s_raw s) i = Some f -> f_default g = field_default s tm f -> f_transforms g = f_transforms f ->
       f_container g = f_container f -> 
       ((i = j /\ transformed (f_transforms g) x v) \/
    (i <> j /\ exists pn obj, tm = TAttrs pn obj /\ f_container g = true /\ transformed (f_transforms g) obj v) \/
    (i <> j /\ (tm <> TMeta -> f_container g = false) /\ exists w, f_default g = Some w /\ transformed (f_transforms g) w v) \/
    (i <> j /\ (tm <> TMeta -> f_container g = false) /\ f_default g = None /\ exists t, s_default s = Some t /\ nth_error t i = Some v)) <->
       (if Nat.eqb i j then transformed (f_transforms f) x v else filled_in s tm i f v)).
    { intros i f g v N -> -> ->. destruct (Nat.eqb_spec i j) as [->|NE].
      - split; [|auto]. intros [[_ H]|[[H _]|[[H _]|[H _]]]]; congruence.
      - split.
        + intros [[H _]|[[_ [pn [obj [E1 [E2 E3]]]]]|[[_ [C [w [E1 E2]]]]|[_ [C [E1 [t [E2 E3]]]]]]]]; [congruence| | |].
          * eapply FI_container; eauto.
          * eapply FI_default; eauto.
          * eapply FI_struct; eauto.
        + intros [pn obj E1 E2 E3|w C E1 E2|t C E1 E2 E3].
          * right. left. eauto 6.
          * right. right. left. eauto 6.
          * right. right. right. eauto 8. }
    split; intros H i f v N M.
    + destruct (s_fields_eff tm s i f N) as [g [Ng [E1 [E2 [E3 [E4 _]]]]]]. apply (Q i f g v N E1 E3 E4). exact (H i g v Ng M).
    + destruct (same_nth _ _ (s_fields_same tm s) i f N) as [f0 [N0 _]]. destruct (s_fields_eff tm s i f0 N0) as [g [Ng [E1 [E2 [E3 [E4 _]]]]]].
      assert (g = f) by congruence. subst g. apply (Q i f0 f v N0 E1 E3 E4). exact (H i f0 v N0 M).
  - pose proof (s_transparent_post s tm x (conj A1 A2) T) as R. rewrite SI in R. cbn [fst] in R.
    destruct (fst (transparent_post (s_fields tm s) tm (s_default s) j x [])) as [ws|e|b] eqn:E; [eauto| |destruct R].
    exfalso. unfold transparent_post in E. destruct (field_sets _ _ _) as [sl es3]. cbn [fst] in E. unfold post_ret in E.
    destruct (s_default s); [discriminate|]. now apply unwrap_no_err in E.
Qed.
Lemma with_spec {S} (s : sdef V) tm j d (p : pm S V) st : transparent_struct s -> inner_field s j d ->
  snd (s_transparent_with s tm p j st) = snd (p st) /\
  (forall vs, fst (s_transparent_with s tm p j st) = Ok vs <->
     exists x ws, fst (p st) = Ok x /\ built s tm j x ws /\ chained (s_and_thens s) ws vs) /\
  (forall e, fst (p st) = Err e -> fst (s_transparent_with s tm p j st) = Err e) /\
  (s_and_thens s = [] -> forall x, fst (p st) = Ok x -> exists vs, fst (s_transparent_with s tm p j st) = Ok vs).
Proof.
  intros TS IF. unfold s_transparent_with, p_and_thens, pbind. destruct (p st) as [[x|e|b] st1]; cbn [fst snd].
  - destruct (post_built s tm j d x TS IF) as [B [w W]].
    destruct (fst (transparent_post (s_fields tm s) tm (s_default s) j x [])) as [ws|e|b] eqn:E; try discriminate. injection W as ->.
    cbn [fst snd]. split; auto. split; [|split].
    + intro vs. rewrite after_and_thens_ok. split.
      * intros [v [Q C]]. injection Q as <-. exists x, w. split; auto. split; auto. now apply B.
      * intros [x' [ws [Q [C1 C2]]]]. injection Q as <-. exists ws. split; auto. apply B in C1. congruence.
    + intros e Q. discriminate.
    + intros Q x' _. rewrite Q. exists w. reflexivity.
  - split; auto. split; [|split].
    + intro vs. rewrite after_and_thens_err. split; [discriminate|]. intros [x [ws [Q _]]]. discriminate.
    + intros e' Q. injection Q as <-. apply after_and_thens_err.
    + discriminate.
  - split; auto. split; [|split]; try discriminate. intro vs. split; [|intros [x [ws [Q _]]]; discriminate].
    unfold after_and_thens. destruct (s_and_thens s); discriminate.
Qed.
Lemma l_transparent : forall (s : sdef V) d tm r r' j,
  forwarded s d tm r r' -> transparent_struct s -> inner_field s j d ->
  (forall vs, r' = Ok vs <-> exists x ws, r = Ok x /\ built s tm j x ws /\ chained (s_and_thens s) ws vs) /\
  (forall e, r = Err e -> r' = Err e) /\
  (s_and_thens s = [] -> forall x, r = Ok x -> exists vs, r' = Ok vs).
Proof.
  intros s d tm r r' j F TS IF. destruct (inner_is s j d TS IF) as [SI _]. assert (TT : s_is_transparent s = true) by apply TS.
  destruct F; unfold struct_dict, struct_attr_body, transparent_fn, transparent_fu, transparent_append, transparent_rest;
    rewrite ?TT, SI; cbn [fst d_item d_inline d_flag fn_parse fu_parse].
  - apply (with_spec s TMeta j d (d_item d m) st TS IF).
  - apply (with_spec s TMeta j d (d_inline d m) l TS IF).
  - apply (with_spec s TMeta j d (fun st : unit => (d_flag d sp, st)) tt TS IF).
  - match goal with AB : about _ _ _ _ |- _ => destruct (about_eq _ _ _ _ AB) as [-> ->] end.
    apply (with_spec s _ j d (d_inline d (Named (first_span spans))) l TS IF).
  - apply (with_spec s TMeta j d (fn_parse u m prefix validate) l TS IF).
  - destruct (s_shape s) eqn:SH; try congruence; apply (with_spec s TMeta j d (fu_parse u m index) l TS IF).
  - match goal with SH : s_shape s = ShUnnamed |- _ => rewrite SH end. apply (with_spec s TMeta j d (fu_parse u m 0) l TS IF).
  - apply (with_spec s TMeta j d (a paths) l TS IF).
  - apply (with_spec s TMeta j d (a exclude) l TS IF).
Qed.
Lemma l_transparent_tokens : forall (s : sdef V) d j, transparent_struct s -> inner_field s j d ->
  (forall m st, snd (d_item (struct_dict s) m st) = snd (d_item d m st)) /\
  (forall m l, snd (d_inline (struct_dict s) m l) = snd (d_inline d m l)).
Proof.
  intros s d j TS IF. destruct (inner_is s j d TS IF) as [SI _]. assert (TT : s_is_transparent s = true) by apply TS.
  unfold struct_dict. rewrite TT, SI. cbn [d_item d_inline]. split; intros m st.
  - apply (with_spec s TMeta j d (d_item d m) st TS IF).
  - apply (with_spec s TMeta j d (d_inline d m) st TS IF).
Qed.
(** `name = v`, `name(v)`, `name` *)
Lemma delimited_cases {A} (f : parser A) st : exists o : option (stream * (stream -> stream)), forall (B : Type) (g : parser B),
  match o with
  | None => forall v, fst (parse_delimited_with Paren g st) <> Ok v
  | Some (c, _) => forall v, fst (parse_delimited_with Paren g st) = Ok v <-> fst (g c) = Ok v /\ fst (parse_eof (snd (g c))) = Ok tt
  end.
Proof.
  destruct (toks st) as [|[i isp|c j psp|l lsp|dl gts gsp] ts] eqn:E;
    try (exists None; intros B g v; unfold parse_delimited_with, with_group; rewrite E; discriminate).
  destruct (delim_eqb Paren dl) eqn:D.
  - exists (Some (group_content gts gsp (cell st), fun x => x)). intros B g v. unfold parse_delimited_with, with_group, pbind, pret. rewrite E, D.
    destruct (g (group_content gts gsp (cell st))) as [[w|e|b] c]; cbn [fst snd]; [|split; [discriminate|intros [Q _]; discriminate]..].
    destruct (parse_eof c) as [[[]|e|b] c2]; cbn [fst snd]; (split; [try discriminate; auto|intros [Q1 Q2]; congruence]).
  - exists None. intros B g v. unfold parse_delimited_with, with_group. rewrite E, D. discriminate.
Qed.
Lemma l_transparent_named : forall (s : sdef V) d j nm sp st vs, transparent_struct s -> inner_field s j d ->
  (d_named d nm sp = def_named (d_item d) (d_inline d) (d_flag d) nm sp) ->
  fst (d_named (struct_dict s) nm sp st) = Ok vs <->
  exists x ws, fst (d_named d nm sp st) = Ok x /\ built s TMeta j x ws /\ chained (s_and_thens s) ws vs.
Proof.
  intros s d j nm sp st vs TS IF DN. rewrite DN. destruct (inner_is s j d TS IF) as [SI _]. assert (TT : s_is_transparent s = true) by apply TS.
  unfold struct_dict. rewrite TT, SI. cbn [d_named]. unfold def_named, parse_named_with.
  destruct (peek_eq st).
  - unfold pbind. destruct (parse_eq st) as [[[]|e|b] st1]; [|split; [discriminate|intros [x [ws [Q _]]]; discriminate]..].
    apply (with_spec s TMeta j d (d_item d (Named sp)) st1 TS IF).
  - destruct (peek_group Paren st).
    + destruct (delimited_cases (pret tt) st) as [[[c k]|] H].
      * rewrite (H _ (on_single (s_transparent_with s TMeta (d_inline d (Named sp)) j)) vs).
        destruct (with_spec s TMeta j d (d_inline d (Named sp)) [c] TS IF) as [W1 [W2 _]].
        unfold on_single. destruct (s_transparent_with s TMeta (d_inline d (Named sp)) j [c]) as [r l] eqn:E1. cbn [fst snd] in *. rewrite W2.
        pose proof (H _ (on_single (d_inline d (Named sp)))) as HI. unfold on_single in HI. destruct (d_inline d (Named sp) [c]) as [r1 l1]. cbn [fst snd] in *. subst l.
        split.
        -- intros [[x [ws [Q1 [Q2 Q3]]]] PE]. exists x, ws. split; auto. apply HI. auto.
        -- intros [x [ws [Q1 [Q2 Q3]]]]. apply HI in Q1 as [Q1 PE]. split; auto. eauto.
      * split; [intro Q; now apply H in Q|]. intros [x [ws [Q _]]]. now apply H in Q.
    + apply (with_spec s TMeta j d (fun st : unit => (d_flag d sp, st)) tt TS IF).
Qed.
End T.
