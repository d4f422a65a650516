(** Final lemmas for PropsStruct.v. *)
From Verif Require Export LemStructP LemLocalD LemAbout.

Section R.
Context {env : Env} {V : Type}.
Lemma run_body (s : sdef V) tm prefix v sp ins r : parse_run s tm prefix v sp ins r -> s_shape s = ShNamed ->
  exists m, r = fst (s_body s tm m sp prefix v 0 ins).
Proof.
  intros H SH. destruct H as [m v ins NT L|m prefix v ins|m i ins _|obj spans pn sp v ins NT L AB].
  - exists m. rewrite (lenient_flag s v L). unfold struct_dict. rewrite NT. cbn [d_inline]. unfold s_inline. rewrite SH. reflexivity.
  - exists m. reflexivity.
  - exists m. unfold struct_fu. rewrite SH. reflexivity.
  - destruct (about_eq _ _ _ _ AB) as [-> ->]. exists (Named (first_span spans)). rewrite (lenient_flag s v L). unfold struct_attr_body. now rewrite NT.
Qed.

(** *** keys *)
Lemma punct_colons (ts : list token) : (exists i sp r, ts = TIdent i sp :: r) -> punct_rest [colon_c; colon_c] ts = None.
Proof. intros [i [sp [r ->]]]. reflexivity. Qed.
Lemma path_first l pt : path_toks l pt -> exists i sp r, pt = TIdent i sp :: r.
Proof. intros []; eauto. Qed.
Lemma path_segs_toks l pt body : path_toks l pt -> ~ starts_sep body -> path_segs (pt ++ body) = (l, false, body).
Proof.
  intros P N. induction P as [i sp|i sp s1 s2 j2 l ts P IH].
  - cbn [app]. cbn [path_segs]. destruct body as [|t1 body]; auto. destruct t1 as [ | c1 j1 a | | ]; auto. destruct body as [|t2 body]; auto.
    destruct t2 as [ | c2 b2 c | | ]; auto. destruct (Ascii.eqb c1 colon_c && Ascii.eqb c2 colon_c && j1) eqn:E; auto.
    exfalso. apply N. apply andb_true_iff in E as [E ->]. apply andb_true_iff in E as [E1 E2]. apply Ascii.eqb_eq in E1, E2. subst. red. eauto.
  - cbn [app path_segs]. change (Ascii.eqb colon_c colon_c) with true. cbn [andb]. rewrite IH. destruct P; reflexivity.
Qed.
Lemma item_key_path l pt body : path_toks l pt -> ~ starts_sep body ->
  item_key (pt ++ body) = Some (path_text l, path_span l, body).
Proof.
  intros P N. unfold item_key, parse_any_path. cbn [toks root_stream].
  destruct (path_first l pt P) as [i [sp [r E]]]. rewrite punct_colons by (rewrite E; cbn; eauto).
  rewrite (path_segs_toks _ _ _ P N). destruct P as [i' sp'|i' sp' s1 s2 j2 l ts P]; [reflexivity|].
  cbn [path_key p_segs p_span toks set_toks]. unfold path_text, path_span. destruct P as [j jp|j jp s3 s4 j4 l' ts' P']; unfold join_or; auto.
Qed.
Lemma item_for_written prefix (f : field V) seg w : item_for prefix f seg w -> written prefix f seg w.
Proof.
  intros [l [pt [body [-> [P [N [NB [d [K A]]]]]]]]]. exists (path_text l), (path_span l), body. split; [now apply item_key_path|].
  split; auto. unfold item_named. now rewrite K.
Qed.
Lemma hold_items inputs segs : hold inputs segs -> items_of inputs = segs.
Proof.
  intros [segss [F <-]]. induction F as [|s l ins segss H F IH]; auto. cbn [concat]. rewrite <- IH.
  change (s :: ins) with ([s] ++ ins). rewrite items_of_app. f_equal. destruct s as [ts sc c]. rewrite items_of_one. now apply listed_items.
Qed.
Lemma local_stays (f : field V) : local_field f -> stays_field f.
Proof. intros H P n nsp. apply (H P n nsp). Qed.
Lemma local_stays_all (fs : list (field V)) : Forall local_field fs -> Forall stays_field fs.
Proof. intro H. eapply Forall_impl; [|exact H]. apply local_stays. Qed.

(** *** C04 *)
Lemma l_round_trip (s : sdef V) tm prefix v sp inputs segs r (asg : list (nat * V)) vs ws :
  parse_run s tm prefix v sp inputs r ->
  named_struct s -> distinct_names s -> no_flat s -> Forall stays_field (s_raw s) ->
  hold inputs segs ->
  Forall2 (fun seg iw => exists f, nth_error (s_raw s) (fst iw) = Some f /\ pitem f = true /\
             item_for prefix f seg (snd iw)) segs asg ->
  NoDup (map fst asg) ->
  length vs = length (s_raw s) ->
  (forall i f x, nth_error (s_raw s) i = Some f -> nth_error vs i = Some x ->
     (exists w, In (i, w) asg /\ transformed (f_transforms f) w x) \/
     (~ In i (map fst asg) /\ left_out s tm prefix sp i f x)) ->
  chained (s_and_thens s) vs ws ->
  r = Ok ws.
Proof.
  intros RU NS DN NF SF H F ND L A C. destruct (run_body _ _ _ _ _ _ _ RU) as [m ->]; [apply NS|].
  eapply struct_round_trip; eauto. rewrite (hold_items _ _ H). clear -F. induction F as [|seg iw segs asg [f [N [P W]]] F IH]; constructor; auto.
  exists f. split; auto. split; auto. now apply item_for_written.
Qed.
Lemma l_order (s : sdef V) tm prefix v sp inputs inputs' r r' ws :
  parse_run s tm prefix v sp inputs r -> parse_run s tm prefix v sp inputs' r' ->
  named_struct s -> no_flat s -> Forall local_field (s_raw s) ->
  Permutation (items_of inputs) (items_of inputs') ->
  r = Ok ws <-> r' = Ok ws.
Proof.
  intros R1 R2 NS NF LF P. destruct (run_body _ _ _ _ _ _ _ R1) as [m1 ->]; [apply NS|]. destruct (run_body _ _ _ _ _ _ _ R2) as [m2 ->]; [apply NS|].
  rewrite (s_body_named s tm m1), (s_body_named s tm m2) by apply NS. rewrite <- (s_body_named s tm m1), <- (s_body_named s tm m1) by apply NS.
  split; intro H.
  - exact (struct_permutation s tm m1 sp prefix v inputs inputs' ws NS NF LF P H).
  - exact (struct_permutation s tm m1 sp prefix v inputs' inputs ws NS NF LF (Permutation_sym P) H).
Qed.
Lemma l_missing (s : sdef V) tm prefix v sp inputs r i f d :
  parse_run s tm prefix v sp inputs r -> named_struct s -> Forall stays_field (s_raw s) ->
  nth_error (s_raw s) i = Some f -> f_kind f = KItem d -> is_parsable f = true ->
  f_default f = None -> s_default s = None ->
  (forall e0, d_missing d (missing_name_named tm prefix f) sp = Err e0 ->
   (forall k ksp, In (k, ksp) (keys_in inputs) -> ~ named_by prefix f k) ->
   exists e, r = Err e /\ incl (errs_of e0) (errs_of e)).
Proof.
  intros R1 NS SF N K P D SD e0 M NK. destruct (run_body _ _ _ _ _ _ _ R1) as [m1 ->]; [apply NS|].
  eapply missing_reported; eauto.
Qed.

Lemma missing_msg_eq tm prefix (f : field V) : is_prefix prefix ->
  ("missing required field " ++ missing_name_named tm prefix f)%string = missing_msg tm prefix f.
Proof.
  intro P. assert (E : join_path prefix (f_ident f) = (prefix ++ f_ident f)%string).
  { unfold join_path. destruct P as [->|[q ->]]; auto. rewrite ends_with_app. now destruct (is_empty_str (q ++ "::")) eqn:Q; [destruct q; discriminate|]. }
  unfold missing_name_named, missing_msg. rewrite E. destruct tm as [|[p|] obj]; reflexivity.
Qed.
Lemma l_missing_msg (s : sdef V) tm prefix v sp inputs r i f d :
  parse_run s tm prefix v sp inputs r -> named_struct s -> Forall stays_field (s_raw s) -> is_prefix prefix ->
  nth_error (s_raw s) i = Some f -> f_kind f = KItem d -> is_parsable f = true ->
  f_default f = None -> s_default s = None -> no_missing_value d ->
  ~ has_key prefix f inputs ->
  exists e, r = Err e /\ In (mkErr sp (missing_msg tm prefix f)) (errs_of e).
Proof.
  intros R1 NS SF IP N K P D SD NM NK.
  destruct (l_missing s tm prefix v sp inputs r i f d R1 NS SF N K P D SD _ (NM _ _)) as [e [E I]].
  { intros k ksp X Y. apply NK. exists k, ksp. auto. }
  exists e. split; auto. apply I. cbn [errs_of se_hd se_tl]. left. now rewrite missing_msg_eq.
Qed.

(** *** reading is not stopped *)
Lemma sound_eaten (s : sdef V) tm prefix v pc : named_struct s -> Forall stays_field (s_raw s) ->
  no_comma (fst pc) -> ends (snd pc) -> sound_item (struct_reader s tm prefix v) (fst pc) ->
  eaten (eat_named (struct_reader s tm prefix v)) pc.
Proof.
  intros NS SF N E [k [ksp [body [IK S]]]]. split; [eauto|]. intros en [body' [IK' T]].
  rewrite IK in IK'. injection IK' as EK ES <-. unfold eat_named. rewrite <- EK.
  assert (NB : no_comma body) by (eapply key_no_comma; eauto).
  destruct (owner_in (struct_reader s tm prefix v) k) as [[i f]|] eqn:O.
  - rewrite <- ES. destruct (en_at en) as [ts sc c] eqn:EA. cbn [toks] in T. subst ts. destruct (S i f eq_refl) as [[w A]|RJ].
    + destruct (A (snd pc) sc c E) as [A1 A2]. destruct (item_named f (first_name f) ksp (mkStream (body ++ snd pc) sc c)) as [r s1]. cbn [fst snd] in *. subst r. exact A2.
    + destruct (RJ (snd pc) sc c E) as [e A1]. apply owner_named in O as [O1 [O2 _]].
      rewrite Forall_forall in SF. pose proof (SF f (nth_error_In _ _ O1) O2 (first_name f) ksp) as ST.
      destruct (stays_cut _ body (snd pc) sc c ST NB E) as [seg' [A2 [pre A3]]].
      destruct (item_named f (first_name f) ksp (mkStream (body ++ snd pc) sc c)) as [r s1]. cbn [fst snd] in *. subst r.
      unfold skip_item. cbn [toks set_toks]. rewrite A2. apply skip_toks_app; auto. subst body. apply nc_app in NB. apply NB.
  - unfold skip_item. cbn [toks set_toks]. rewrite T. now apply skip_toks_app.
Qed.
Lemma sound_reads (s : sdef V) tm prefix v inputs : named_struct s -> Forall stays_field (s_raw s) ->
  sound_input s tm prefix v inputs ->
  Forall2 reads (all_pieces inputs) (entries (struct_reader s tm prefix v) inputs) /\
  stopped (struct_reader s tm prefix v) inputs = None.
Proof.
  intros NS SF S. unfold entries, stopped. rewrite <- (source_pieces (struct_reader s tm prefix v) inputs).
  apply walks_complete; [now apply struct_eat_stays|]. rewrite source_pieces. unfold sound_input, items_of in S.
  pose proof (all_pieces_shape inputs) as SH. rewrite Forall_map in S. clear -NS SF S SH. induction S as [|pc l H S IH]; constructor; inversion SH; subst; auto.
  apply sound_eaten; tauto.
Qed.
Lemma sound_keys (s : sdef V) tm prefix v inputs : named_struct s -> Forall stays_field (s_raw s) ->
  sound_input s tm prefix v inputs ->
  keys_read (struct_reader s tm prefix v) inputs = keys_in inputs.
Proof. intros NS SF S. apply (keys_read_prefix s tm prefix v inputs NS SF). now apply sound_reads. Qed.

(** *** C07, C08 *)
Lemma l_dup (s : sdef V) tm prefix v sp inputs r i f k1 sp1 k2 sp2 a b c :
  parse_run s tm prefix v sp inputs r -> named_struct s -> distinct_names s -> Forall stays_field (s_raw s) ->
  nth_error (s_raw s) i = Some f -> pitem f = true ->
  named_by prefix f k1 -> named_by prefix f k2 ->
  keys_in inputs = a ++ (k1, sp1) :: b ++ (k2, sp2) :: c ->
  exists e, r = Err e /\
    (sound_input s tm prefix v inputs ->
     In (mkErr sp2 ("duplicate attribute for " ++ tick (first_name f))%string) (errs_of e)).
Proof.
  intros R1 NS DN SF N P N1 N2 E. destruct (run_body _ _ _ _ _ _ _ R1) as [m1 ->]; [apply NS|].
  destruct (dup_fails s tm m1 sp prefix v inputs i f k1 sp1 k2 sp2 a b c NS DN SF N P N1 N2 E) as [e H]. exists e. split; auto.
  intro S. assert (K := sound_keys s tm prefix v inputs NS SF S). rewrite <- K in E.
  destruct (dup_reported s tm m1 sp prefix v inputs i f k1 sp1 k2 sp2 a b c NS DN N P N1 N2 E) as [e' [H' I]]. rewrite H in H'. now injection H' as <-.
Qed.
Lemma l_unknown (s : sdef V) tm sp inputs r k ksp :
  parse_run s tm "" true sp inputs r -> named_struct s -> Forall stays_field (s_raw s) ->
  s_unknown_ok s = false -> In (k, ksp) (keys_in inputs) -> ~ In k (s_names s) ->
  exists e, r = Err e /\
    (sound_input s tm "" true inputs -> exists x, In x (errs_of e) /\ e_span x = ksp /\ unknown_msg k (e_msg x)).
Proof.
  intros R1 NS SF U I NK. destruct (run_body _ _ _ _ _ _ _ R1) as [m1 ->]; [apply NS|].
  destruct (unknown_fails s tm m1 sp inputs k ksp NS SF U I NK) as [e H]. exists e. split; auto. intro S.
  rewrite <- (sound_keys s tm "" true inputs NS SF S) in I.
  destruct (unknown_reported s tm m1 sp inputs k ksp NS U I NK) as [e' [x [H' X]]]. rewrite H in H'. injection H' as <-. eauto.
Qed.
Lemma l_dup_fails (s : sdef V) tm prefix v sp inputs r i f k1 sp1 k2 sp2 a b c :
  parse_run s tm prefix v sp inputs r -> named_struct s -> distinct_names s -> Forall stays_field (s_raw s) ->
  nth_error (s_raw s) i = Some f -> pitem f = true ->
  named_by prefix f k1 -> named_by prefix f k2 ->
  keys_in inputs = a ++ (k1, sp1) :: b ++ (k2, sp2) :: c ->
  exists e, r = Err e.
Proof. intros R1 NS DN SF N P N1 N2 E. destruct (l_dup s tm prefix v sp inputs r i f k1 sp1 k2 sp2 a b c R1 NS DN SF N P N1 N2 E) as [e [H _]]. eauto. Qed.
Lemma l_dup_reported (s : sdef V) tm prefix v sp inputs r i f k1 sp1 k2 sp2 a b c :
  parse_run s tm prefix v sp inputs r -> named_struct s -> distinct_names s -> Forall stays_field (s_raw s) ->
  nth_error (s_raw s) i = Some f -> pitem f = true ->
  named_by prefix f k1 -> named_by prefix f k2 ->
  keys_in inputs = a ++ (k1, sp1) :: b ++ (k2, sp2) :: c ->
  sound_input s tm prefix v inputs ->
  exists e, r = Err e /\ In (mkErr sp2 ("duplicate attribute for `" ++ first_name f ++ "`")) (errs_of e).
Proof.
  intros R1 NS DN SF N P N1 N2 E S. destruct (l_dup s tm prefix v sp inputs r i f k1 sp1 k2 sp2 a b c R1 NS DN SF N P N1 N2 E) as [e [H X]].
  exists e. split; [exact H|exact (X S)].
Qed.
Lemma l_unknown_fails (s : sdef V) tm sp inputs r k ksp :
  parse_run s tm "" true sp inputs r -> named_struct s -> Forall stays_field (s_raw s) ->
  s_unknown_ok s = false -> In (k, ksp) (keys_in inputs) -> ~ In k (fn_names (struct_fn s)) -> exists e, r = Err e.
Proof. intros R1 NS SF U I NK. destruct (l_unknown s tm sp inputs r k ksp R1 NS SF U I NK) as [e [H _]]. eauto. Qed.
Lemma l_unknown_reported (s : sdef V) tm sp inputs r k ksp :
  parse_run s tm "" true sp inputs r -> named_struct s -> Forall stays_field (s_raw s) ->
  s_unknown_ok s = false -> In (k, ksp) (keys_in inputs) -> ~ In k (fn_names (struct_fn s)) -> 
  sound_input s tm "" true inputs ->
  exists e x, r = Err e /\ In x (errs_of e) /\ e_span x = ksp /\ unknown_msg k (e_msg x).
Proof.
  intros R1 NS SF U I NK S. destruct (l_unknown s tm sp inputs r k ksp R1 NS SF U I NK) as [e [H X]].
  destruct (X S) as [x Y]. eauto.
Qed.
Lemma l_known (s : sdef V) tm sp inputs ws :
  parse_run s tm "" true sp inputs (Ok ws) -> named_struct s -> Forall stays_field (s_raw s) ->
  s_unknown_ok s = false -> forall k ksp, In (k, ksp) (keys_in inputs) -> In k (s_names s).
Proof.
  intros R1 NS SF U. destruct (run_body _ _ _ _ _ _ _ R1) as [m1 H]; [apply NS|].
  eapply known_keys; eauto.
Qed.

(** *** C09 *)
Lemma pitem_not_container (f : field V) : pitem f = true -> f_container f = false /\ f_skip f = false.
Proof. intro P. apply pitem_spec in P. tauto. Qed.
Lemma flat_mapi_two {A B C} (g : nat -> A -> list C) (h : nat -> B -> list C) la lb : length la = length lb ->
  (forall j a b, nth_error la j = Some a -> nth_error lb j = Some b -> g j a = h j b) ->
  flat_mapi g 0 la = flat_mapi h 0 lb.
Proof.
  unfold flat_mapi. assert (X : forall i, length la = length lb ->
    (forall j a b, nth_error la j = Some a -> nth_error lb j = Some b -> g (i + j) a = h (i + j) b) ->
    concat (mapi g i la) = concat (mapi h i lb)).
  { revert lb. induction la as [|a la IH]; intros [|b lb] i L H; try discriminate; auto. cbn [mapi concat]. f_equal.
    - specialize (H 0 a b eq_refl eq_refl). now rewrite Nat.add_0_r in H.
    - apply IH; [now injection L|]. intros j x y N M. specialize (H (S j) x y N M). now rewrite Nat.add_succ_r in H. }
  exact (X 0).
Qed.
Lemma missing_name_eff tm prefix (f g : field V) : f_ident g = f_ident f -> missing_name_named tm prefix g = missing_name_named tm prefix f.
Proof. unfold missing_name_named. now intros ->. Qed.
Lemma run_transforms_failing (ts : list (transform V)) : forall v es, exists st, run_transforms ts (FSome v) es = (st, es ++ failing ts v).
Proof.
  assert (N : forall ts es, run_transforms ts (FParseError (A := V)) es = (FParseError, es)).
  { induction ts0 as [|[g|g] ts0 IH]; intro es; cbn [run_transforms fs_map]; auto. }
  induction ts as [|[g|g] ts IH]; intros v es; cbn [run_transforms failing fs_map].
  - exists (FSome v). now rewrite app_nil_r.
  - apply IH.
  - destruct (g v) as [w|e]; [apply IH|]. rewrite N. eexists. reflexivity.
Qed.
Lemma run_transforms_none (ts : list (transform V)) : forall st es, (forall v, st <> FSome v) -> snd (run_transforms ts st es) = es.
Proof.
  induction ts as [|[g|g] ts IH]; intros st es H; cbn [run_transforms]; auto.
  - apply IH. destruct st; cbn [fs_map]; try discriminate. exfalso. eapply H; eauto.
  - destruct st; try (apply IH; discriminate). exfalso. eapply H; eauto.
Qed.
Lemma no_flat_nth (s : sdef V) i f : no_flat s -> nth_error (s_raw s) i = Some f -> pflat f = false.
Proof.
  unfold no_flat. intros NF N. destruct (pflat f) eqn:Q; auto.
  assert (existsb pflat (s_raw s) = true) by (apply existsb_exists; eauto using nth_error_In). congruence.
Qed.
Lemma mine_raw (s : sdef V) tm prefix v i f en l : nth_error (s_raw s) i = Some f ->
  find (mine (struct_reader s tm prefix v) i) l = Some en ->
  pitem f = true /\ nth_error (s_fields tm s) i = Some f.
Proof.
  intros N F. apply find_some in F as [_ M]. unfold mine in M.
  destruct (owner_in (struct_reader s tm prefix v) (en_key en)) as [[j g]|] eqn:O; [|discriminate]. apply Nat.eqb_eq in M. subst j.
  apply owner_named in O as [O1 [O2 _]]. assert (g = f) by congruence. subst g.
  split; auto. apply s_fields_nth; auto. now apply pitem_parsable.
Qed.
(** one field: before the transforms, and the missing-field error *)
Lemma field_exact (s : sdef V) tm prefix v sp inputs l i f g : pflat f = false ->
  nth_error (s_raw s) i = Some f -> nth_error (s_fields tm s) i = Some g ->
  let R := struct_reader s tm prefix v in
  opt_errors (missing_out R tm (s_default s) sp g (before_sets R tm sp inputs l i g)) =
    (match f_container f, field_default s tm f, s_default s, f_kind f with
    | false, None, None, KItem d =>
      if existsb (mine R i) l then []
      else match d_missing d (missing_name_named tm prefix f) sp with
           | Err e => errs_of e
           | _ => []
           end
    | _, _, _, _ => []
    end) /\
  snd (final R tm (s_default s) sp inputs l i g) =
    match untransformed s tm prefix sp R l i f with
    | Some v => failing (f_transforms f) v
    | None => []
    end.
Proof.
  intros NF Nf Ng R.
  destruct (s_fields_eff tm s i f Nf) as [g' [Ng' [E1 [E2 [E3 [E4 [E5 [E6 E7]]]]]]]]. assert (g' = g) by congruence. subst g'.
  assert (PF : pflat g = false) by (now rewrite E6).
  assert (FX : forall en, find (mine R i) l = Some en -> g = f).
  { intros en F. destruct (mine_raw s tm prefix v i f en l Nf F). congruence. }
  assert (CK : f_container f = true -> find (mine R i) l = None).
  { intro C. destruct (find (mine R i) l) as [en|] eqn:F; auto. destruct (mine_raw s tm prefix v i f en l Nf F) as [P _].
    apply pitem_not_container in P as [P _]. congruence. }
  assert (EXF : existsb (mine R i) l = match find (mine R i) l with Some _ => true | None => false end).
  { clear. induction l as [|en l IH]; cbn; auto. destruct (mine R i en); auto. }
  unfold final, after_missing, missing_out, before_sets, after_container, after_flat, flat_out. rewrite PF.
  unfold wants_error, set_field. rewrite E1, E2, E3, E4. rewrite (missing_name_eff tm (r_prefix R) f g E7).
  change (r_prefix R) with prefix. rewrite EXF. unfold untransformed.
  assert (SL : slot_of R l i g = match find (mine R i) l with Some en => match value_at f en with Ok v => FSome v | _ => FParseError end | None => FNone end).
  { unfold slot_of. destruct (find (mine R i) l) as [en|] eqn:F; auto. now rewrite (FX en eq_refl). }
  rewrite SL. clear SL FX EXF E1 E2 E3 E4 E5 E6 E7 PF Ng' Ng.
  assert (TF : forall x, snd (run_transforms (f_transforms f) (FSome x) []) = failing (f_transforms f) x).
  { intro x. destruct (run_transforms_failing (f_transforms f) x []) as [st ->]. reflexivity. }
  assert (TN : snd (run_transforms (f_transforms f) FNone []) = []) by (apply run_transforms_none; discriminate).
  assert (TP : snd (run_transforms (f_transforms f) FParseError []) = []) by (apply run_transforms_none; discriminate).
  assert (FDC : tm = TMeta -> f_container f = true -> field_default s tm f <> None).
  { intros -> C. unfold field_default. rewrite C. destruct (f_default f); [discriminate|]. destruct (f_skip f && _); discriminate. }
  destruct tm as [|pn obj]; destruct (f_container f) eqn:C; cbn [negb andb];
  destruct (find (mine R i) l) as [en|] eqn:F; try (exfalso; specialize (CK eq_refl); congruence);
  try (destruct (value_at f en) as [x|x|x] eqn:VA);
  destruct (field_default s _ f) as [w|] eqn:FD; try (exfalso; apply FDC; auto; fail);
  destruct (s_default s) as [t'|] eqn:SD; cbn [has_target negb andb fs_is_none opt_errors fs_or_else];
  destruct (f_kind f) as [d| | | |]; cbn [opt_errors fs_is_none fs_or_else]; auto;
  try (destruct (d_missing d _ _); cbn [opt_errors fs_or_else]; auto; fail).
Qed.
Lemma unwrap_ret (sl : list (fstatus V)) : returns (unwrap_slots sl) -> exists ws, unwrap_slots sl = Ok ws.
Proof.
  induction sl as [|st sl IH]; cbn [unwrap_slots]; eauto. destruct st; try contradiction. intro G.
  destruct IH as [ws H]; [destruct (unwrap_slots sl); auto|]. rewrite H. cbn. eauto.
Qed.
Lemma l_errors (s : sdef V) tm prefix v sp inputs r :
  parse_run s tm prefix v sp inputs r -> named_struct s -> no_flat s -> Forall stays_field (s_raw s) ->
  sound_input s tm prefix v inputs ->
  let R := struct_reader s tm prefix v in
  exists l, Forall2 reads (all_pieces inputs) l /\
    match entries_errors R [] l ++ absent_errors s tm prefix sp R l ++ transform_errors s tm prefix sp R l with
    | [] => s_and_thens s = [] -> exists ws, r = Ok ws
    | x :: xs => r = Err (mkSyn x xs)
    end.
Proof.
  intros R1 NS NF SF S R. destruct (run_body _ _ _ _ _ _ _ R1) as [m1 ->]; [apply NS|].
  destruct (sound_reads s tm prefix v inputs NS SF S) as [A B]. exists (entries R inputs). split; auto.
  pose proof (struct_exact s tm m1 sp prefix v inputs NS) as X. cbv zeta in X. fold R in X.
  assert (E : struct_errors s tm prefix v sp inputs = entries_errors R [] (entries R inputs) ++ absent_errors s tm prefix sp R (entries R inputs) ++ transform_errors s tm prefix sp R (entries R inputs)).
  { unfold struct_errors. fold R. unfold all_errors. fold R in B. rewrite B. cbn [app]. f_equal.
    assert (Z : flat_mapi (fun i f => opt_errors (flat_out R sp inputs i f)) 0 (r_fields R) = []).
    { apply flat_mapi_nil. intros j f N. unfold flat_out. rewrite (no_flat_in R f); auto; [|eapply nth_error_In; eauto]. cbn [R r_fields struct_reader]. now rewrite flat_fields_same. }
    rewrite Z. cbn [app]. f_equal.
    - apply flat_mapi_two; [apply s_fields_len|]. intros j g f Ng Nf. apply (field_exact s tm prefix v sp inputs (entries R inputs) j f g (no_flat_nth s j f NF Nf) Nf Ng).
    - apply flat_mapi_two; [apply s_fields_len|]. intros j g f Ng Nf. apply (field_exact s tm prefix v sp inputs (entries R inputs) j f g (no_flat_nth s j f NF Nf) Nf Ng). }
  rewrite <- E. rewrite X. destruct (struct_errors s tm prefix v sp inputs) as [|x xs] eqn:SE; auto.
  intro AT. pose proof (proj1 (s_body_good s tm m1 sp prefix v 0 (proj1 NS) inputs)) as G. rewrite X in G. rewrite AT in *. cbn [after_and_thens] in *.
  unfold post_ret in *. destruct (s_default s); eauto.
  now apply unwrap_ret.
Qed.

(** *** C10, C11 *)
Lemma l_values_accepted (s : sdef V) tm prefix v sp inputs ws i f :
  parse_run s tm prefix v sp inputs (Ok ws) -> named_struct s -> distinct_names s -> Forall local_field (s_raw s) ->
  nth_error (s_raw s) i = Some f -> pitem f = true ->
  forall seg k ksp body, In seg (items_of inputs) -> item_key seg = Some (k, ksp, body) -> named_by prefix f k ->
    exists u, accepts (item_named f (first_name f) ksp) body u.
Proof.
  intros R1 NS DN LF N P seg k ksp body I IK NB. destruct (run_body _ _ _ _ _ _ _ R1) as [m1 H]; [apply NS|]. symmetry in H.
  apply struct_text in H as [vs [[IO _] _]]; auto. rewrite Forall_forall in IO. specialize (IO seg I).
  assert (O := named_owner s tm prefix v k i f DN N P NB). destruct IO as [[j [u [k' [ksp' [body' [f' [IK' [O' A]]]]]]]]|[k' [ksp' [body' [IK' [O' _]]]]]].
  - rewrite IK in IK'. injection IK' as <- <- <-. rewrite O in O'. injection O' as <- <-. eauto.
  - rewrite IK in IK'. injection IK' as <- <- <-. congruence.
Qed.
Lemma l_present_or_left_out (s : sdef V) tm prefix v sp inputs ws i f :
  parse_run s tm prefix v sp inputs (Ok ws) -> named_struct s -> distinct_names s -> Forall local_field (s_raw s) ->
  nth_error (s_raw s) i = Some f -> pitem f = true ->
  exists vs x, chained (s_and_thens s) vs ws /\ nth_error vs i = Some x /\
    (has_key prefix f inputs -> exists seg w, In seg (items_of inputs) /\ written prefix f seg w /\ transformed (f_transforms f) w x) /\
    (~ has_key prefix f inputs -> left_out s tm prefix sp i f x).
Proof.
  intros R1 NS DN LF N P. destruct (run_body _ _ _ _ _ _ _ R1) as [m1 H]; [apply NS|]. symmetry in H.
  assert (PF : pflat f = false) by (unfold pflat, pitem in *; destruct (is_parsable f), (is_flat f); auto).
  destruct (field_value s tm m1 sp prefix v inputs ws i f NS DN LF N PF H) as [vs [x [C [X D]]]]. exists vs, x. split; auto. split; auto. split.
  - intros [k [ksp [I NB]]]. destruct D as [[seg [w [D1 [D2 [D3 D4]]]]]|[D1 D2]]; [eauto|]. exfalso. exact (D1 P k ksp I NB).
  - intros NK. destruct D as [[seg [w [D1 [D2 [D3 D4]]]]]|[D1 D2]]; auto. exfalso. apply NK.
    destruct D3 as [k [ksp [body [IK [NB _]]]]]. exists k, ksp. split; auto. unfold keys_in. unfold items_of in D1.
    apply in_map_iff in D1 as [pc [<- D1]]. apply in_flat_map. exists pc. split; auto. rewrite IK. now left.
Qed.
Lemma l_default (s : sdef V) tm prefix v sp inputs ws i f dflt :
  parse_run s tm prefix v sp inputs (Ok ws) -> named_struct s -> distinct_names s -> Forall local_field (s_raw s) ->
  nth_error (s_raw s) i = Some f -> pitem f = true -> f_default f = Some dflt ->
  exists vs x, chained (s_and_thens s) vs ws /\ nth_error vs i = Some x /\
    (has_key prefix f inputs -> exists seg w, In seg (items_of inputs) /\ written prefix f seg w /\ transformed (f_transforms f) w x) /\
    (~ has_key prefix f inputs -> transformed (f_transforms f) dflt x).
Proof.
  intros R1 NS DN LF N P D. destruct (l_present_or_left_out s tm prefix v sp inputs ws i f R1 NS DN LF N P) as [vs [x [C [X [A B]]]]].
  exists vs, x. repeat (split; auto). intro NK. destruct (pitem_not_container f P) as [NC _].
  destruct (B NK) as [pn obj E1 E2 E3|w E1 E2 E3|t E1 E2|d w E1 E2]; try congruence; unfold field_default in *; rewrite D in *; congruence.
Qed.
Lemma l_struct_default (s : sdef V) tm prefix v sp inputs ws i f t :
  parse_run s tm prefix v sp inputs (Ok ws) -> named_struct s -> distinct_names s -> Forall local_field (s_raw s) ->
  nth_error (s_raw s) i = Some f -> pitem f = true -> f_default f = None -> s_default s = Some t ->
  exists vs x, chained (s_and_thens s) vs ws /\ nth_error vs i = Some x /\
    (has_key prefix f inputs -> exists seg w, In seg (items_of inputs) /\ written prefix f seg w /\ transformed (f_transforms f) w x) /\
    (~ has_key prefix f inputs -> nth_error t i = Some x).
Proof.
  intros R1 NS DN LF N P D SD. destruct (l_present_or_left_out s tm prefix v sp inputs ws i f R1 NS DN LF N P) as [vs [x [C [X [A B]]]]].
  exists vs, x. repeat (split; auto). intro NK. destruct (pitem_not_container f P) as [NC NSK].
  assert (FD : field_default s tm f = None) by (unfold field_default; rewrite D, NSK, NC; cbn; destruct tm; auto).
  destruct (B NK) as [pn obj E1 E2 E3|w E1 E2 E3|t' E1 E2 E3 E4|d w E1 E2]; congruence.
Qed.
Lemma l_no_missing (s : sdef V) tm prefix v sp inputs r t :
  parse_run s tm prefix v sp inputs r -> named_struct s -> no_flat s -> Forall stays_field (s_raw s) ->
  sound_input s tm prefix v inputs -> s_default s = Some t ->
  let R := struct_reader s tm prefix v in
  exists l, Forall2 reads (all_pieces inputs) l /\
    match entries_errors R [] l ++ transform_errors s tm prefix sp R l with
    | [] => s_and_thens s = [] -> exists ws, r = Ok ws
    | x :: xs => r = Err (mkSyn x xs)
    end.
Proof.
  intros R1 NS NF SF S SD R. destruct (l_errors s tm prefix v sp inputs r R1 NS NF SF S) as [l [A B]]. exists l. split; auto.
  assert (Z : absent_errors s tm prefix sp R l = []).
  { unfold absent_errors. apply flat_mapi_nil. intros j f N. rewrite SD. destruct (f_container f), (field_default s tm f); auto. }
  fold R in B. rewrite Z in B. exact B.
Qed.
(** *** C12 *)
Lemma l_split (s : sdef V) tm prefix v sp inputs inputs' r r' ws :
  parse_run s tm prefix v sp inputs r -> parse_run s tm prefix v sp inputs' r' ->
  named_struct s -> Forall local_field (s_raw s) -> Forall textual_field (s_raw s) ->
  items_of inputs = items_of inputs' ->
  r = Ok ws <-> r' = Ok ws.
Proof.
  intros R1 R2 NS LF TF E. destruct (run_body _ _ _ _ _ _ _ R1) as [m1 ->]; [apply NS|]. destruct (run_body _ _ _ _ _ _ _ R2) as [m2 ->]; [apply NS|].
  rewrite (s_body_named s tm m1), (s_body_named s tm m2) by apply NS. rewrite <- (s_body_named s tm m1), <- (s_body_named s tm m1) by apply NS.
  apply struct_textual; auto.
Qed.
End R.
