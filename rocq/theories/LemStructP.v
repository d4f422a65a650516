(** Properties of named structs. *)
From Verif Require Export LemStruct.
From Coq Require Export Permutation.

Section P.
Context {env : Env} {V : Type}.

(** *** fields of s_raw and s_fields *)
Lemma same_nth (fs gs : list (field V)) : Forall2 same_field fs gs -> forall i g, nth_error gs i = Some g ->
  exists f, nth_error fs i = Some f /\ same_field f g.
Proof.
  induction 1; intros [|i] g N; simpl in *; try discriminate; eauto. injection N as <-. eauto.
Qed.
Lemma same_pitem (f g : field V) : same_field f g -> pitem g = pitem f /\ pflat g = pflat f /\ item_named g = item_named f.
Proof. intros [K [P _]]. unfold pitem, pflat, is_flat, item_named. now rewrite K, P. Qed.
Lemma skip_default_parsable (f : field V) : is_parsable f = true -> skip_default f = f.
Proof.
  unfold is_parsable, skip_default. destruct (f_default f); auto. destruct (f_skip f); auto.
  now rewrite andb_false_r.
Qed.
Lemma container_default_parsable (f : field V) : is_parsable f = true -> container_default f = f.
Proof. unfold is_parsable, container_default. destruct (f_default f); auto. destruct (f_container f); auto. discriminate. Qed.
Lemma nth_map {A B} (g : A -> B) l i : nth_error (map g l) i = option_map g (nth_error l i).
Proof. revert i. induction l; intros [|i]; simpl; auto. Qed.
Lemma s_fields_nth tm (s : sdef V) i f : nth_error (s_raw s) i = Some f -> is_parsable f = true ->
  nth_error (s_fields tm s) i = Some f.
Proof.
  intros N P.
  assert (A : nth_error (s_fields_attr s) i = Some f).
  { unfold s_fields_attr. destruct (has_target (s_default s)); auto. rewrite nth_map, N. cbn [option_map].
    now rewrite skip_default_parsable. }
  destruct tm; simpl; auto. unfold s_fields_meta. rewrite nth_map, A. cbn [option_map].
  now rewrite container_default_parsable.
Qed.
Lemma s_fields_len tm (s : sdef V) : length (s_fields tm s) = length (s_raw s).
Proof. symmetry. induction (s_fields_same tm s); simpl; auto. Qed.
Lemma s_fields_parsable tm (s : sdef V) i g : nth_error (s_fields tm s) i = Some g -> is_parsable g = true ->
  nth_error (s_raw s) i = Some g.
Proof.
  intros N P. destruct (same_nth _ _ (s_fields_same tm s) i g N) as [f [Nf [_ [Pf _]]]].
  rewrite P in Pf. symmetry in Pf. rewrite (s_fields_nth tm s i f Nf Pf) in N. congruence.
Qed.
Lemma pitem_parsable (f : field V) : pitem f = true -> is_parsable f = true.
Proof. unfold pitem. now destruct (is_parsable f). Qed.
Lemma pflat_parsable (f : field V) : pflat f = true -> is_parsable f = true.
Proof. unfold pflat. now destruct (is_parsable f). Qed.

Lemma struct_returns (s : sdef V) tm prefix v sp : named_struct s ->
  let R := struct_reader s tm prefix v in
  fields_return (r_fields R) /\ flats_return R sp /\ missing_return R tm (s_default s) sp /\
  target_ok R (s_default s).
Proof.
  intros [[G _] [SH T]] R. rewrite SH in G.
  pose proof (same_good _ _ _ (s_fields_same tm s) G) as G2.
  assert (GF : forall f, In f (s_fields tm s) -> good_field ShNamed f) by (now apply Forall_forall).
  repeat split.
  - apply Forall_forall. intros f I P n nsp. specialize (GF f I (pitem_parsable f P)).
    apply pitem_spec in P as [_ [_ [d K]]]. unfold good_kind in GF. unfold item_named. rewrite K in *. apply GF.
  - intros f l I P. specialize (GF f I (pflat_parsable f P)). apply pflat_spec in P as [_ [_ K]].
    unfold good_kind in GF. unfold flat_call. destruct (f_kind f) eqn:FK.
    + now destruct (K d).
    + apply GF.
    + destruct GF.
    + apply GF.
    + apply GF.
  - intros f d I K W. assert (P : is_parsable f = true).
    { pose proof (s_fields_ok tm s) as FO. rewrite Forall_forall in FO. specialize (FO f I).
      unfold wants_error in W. apply andb_true_iff in W as [W W3]. apply andb_true_iff in W as [W1 W2].
      destruct (is_parsable f) eqn:Q; auto. specialize (FO Q). unfold fields_ok in FO.
      destruct (f_default f); [discriminate|]. destruct (s_default s); [discriminate|].
      destruct (f_container f); [discriminate|]. destruct tm; intuition congruence. }
    specialize (GF f I P). unfold good_kind in GF. rewrite K in GF. apply GF.
  - intros t E. cbn. rewrite s_fields_len. auto.
Qed.
Lemma s_body_named (s : sdef V) tm m sp prefix v inputs : s_shape s = ShNamed ->
  fst (s_body s tm m sp prefix v 0 inputs) =
  after_and_thens (s_and_thens s)
    (fst (named_body (s_fields tm s) tm (s_default s) (s_unknown_ok s) (s_names s) sp prefix v inputs)).
Proof. intro SH. unfold s_body. rewrite SH. unfold p_and_thens. now destruct (named_body _ _ _ _ _ _ _ _ _). Qed.
Lemma stays_fields tm (s : sdef V) : Forall stays_field (s_raw s) -> Forall stays_field (s_fields tm s).
Proof.
  intro H. pose proof (s_fields_same tm s) as S. revert S H. generalize (s_fields tm s). generalize (s_raw s).
  induction 1; intro H1; constructor; inversion H1; subst; auto.
  destruct (same_pitem _ _ H) as [E1 [_ E2]]. unfold stays_field. rewrite E1, E2. auto.
Qed.
Lemma local_fields tm (s : sdef V) : Forall local_field (s_raw s) -> Forall local_field (s_fields tm s).
Proof.
  intro H. pose proof (s_fields_same tm s) as S. revert S H. generalize (s_fields tm s). generalize (s_raw s).
  induction 1; intro H1; constructor; inversion H1; subst; auto.
  destruct (same_pitem _ _ H) as [E1 [_ E2]]. unfold local_field. rewrite E1, E2. auto.
Qed.
Lemma flat_fields_same tm (s : sdef V) : existsb pflat (s_fields tm s) = existsb pflat (s_raw s).
Proof.
  pose proof (s_fields_same tm s) as S. revert S. generalize (s_fields tm s). generalize (s_raw s).
  induction 1; simpl; auto. destruct (same_pitem _ _ H) as [_ [-> _]]. now rewrite IHS.
Qed.

(** *** and_then *)
Lemma run_and_thens_none {A} (gs : list (A -> A + synerr)) es : run_and_thens gs None es = (None, es).
Proof. induction gs; simpl; auto. Qed.
Lemma run_and_thens_chain {A} (gs : list (A -> A + synerr)) : forall v,
  (exists w, chained gs v w /\ run_and_thens gs (Some v) [] = (Some w, [])) \/
  ((forall w, ~ chained gs v w) /\ exists e, run_and_thens gs (Some v) [] = (None, errs_of e)).
Proof.
  induction gs as [|g gs IH]; intro v; simpl.
  - left. exists v. split; [constructor|auto].
  - destruct (g v) as [u|e] eqn:G.
    + destruct (IH u) as [[w [C E]]|[C E]].
      * left. exists w. split; [econstructor; eauto|auto].
      * right. split; auto. intros w H. inversion H; subst. assert (X : u = u0) by congruence. rewrite <- X in *.
        eapply C; eauto.
    + right. split; [intros w H; inversion H; congruence|]. exists e. rewrite run_and_thens_none.
      unfold push_syn. reflexivity.
Qed.
Lemma after_and_thens_ok {A} (gs : list (A -> A + synerr)) r w :
  after_and_thens gs r = Ok w <-> exists v, r = Ok v /\ chained gs v w.
Proof.
  unfold after_and_thens. destruct gs as [|g gs].
  - split; [intros ->; exists w; split; [auto|constructor]|]. intros [v [-> H]]. inversion H. auto.
  - destruct r as [v|e|b]; cbn [rbind]; [|split; [discriminate|intros [v [? _]]; discriminate]..].
    destruct (run_and_thens_chain (g :: gs) v) as [[u [C E]]|[C [e E]]]; rewrite E; cbn.
    + split.
      * injection 1 as <-. eauto.
      * intros [v' [Q C']]. injection Q as <-. f_equal.
        clear E. revert C'. clear - C. induction C; intro C'; inversion C'; subst; auto.
        assert (X : u = u0) by congruence. rewrite <- X in *. auto.
    + split; [discriminate|]. intros [v' [Q C']]. injection Q as <-. now destruct (C w).
Qed.
Lemma after_and_thens_err {A} (gs : list (A -> A + synerr)) e : after_and_thens gs (Err e) = @Err A e.
Proof. destruct gs; reflexivity. Qed.

(** *** success *)
Lemma struct_text_if (s : sdef V) tm m sp prefix v inputs vs ws : named_struct s ->
  Forall stays_field (s_raw s) ->
  parses_to (struct_reader s tm prefix v) tm (s_default s) sp inputs (items_of inputs) vs ->
  chained (s_and_thens s) vs ws ->
  fst (s_body s tm m sp prefix v 0 inputs) = Ok ws.
Proof.
  intros NS SF P C. destruct (struct_returns s tm prefix v sp NS) as [A [B [D E]]].
  rewrite s_body_named by apply NS. apply after_and_thens_ok. exists vs. split; auto.
  eapply (named_text_gen (struct_reader s tm prefix v)); eauto. apply stays_fields. auto.
Qed.
Lemma struct_text (s : sdef V) tm m sp prefix v inputs ws : named_struct s ->
  Forall local_field (s_raw s) ->
  fst (s_body s tm m sp prefix v 0 inputs) = Ok ws <->
  exists vs, parses_to (struct_reader s tm prefix v) tm (s_default s) sp inputs (items_of inputs) vs /\
             chained (s_and_thens s) vs ws.
Proof.
  intros NS LF. destruct (struct_returns s tm prefix v sp NS) as [A [B [D E]]].
  rewrite s_body_named by apply NS. rewrite after_and_thens_ok.
  pose proof (fun vs => named_text (struct_reader s tm prefix v) (s_unknown_ok s) v tm (s_default s) sp inputs vs A B D eq_refl E (local_fields tm s LF)) as X.
  cbn [r_fields r_allowed r_prefix struct_reader] in X.
  split; intros [vs [H C]]; exists vs; split; auto; now apply X.
Qed.

(** *** the error list *)
Lemma flat_out_ins (R : reader V) sp ins ins' i (f : field V) : (pflat f = true -> ins = ins') ->
  flat_out R sp ins i f = flat_out R sp ins' i f.
Proof. intro H. unfold flat_out. destruct (pflat f); auto. now rewrite H. Qed.
Lemma all_errors_ins (R : reader V) tm target sp ins ins' l stop :
  (existsb pflat (r_fields R) = true -> ins = ins') ->
  all_errors R tm target sp ins l stop = all_errors R tm target sp ins' l stop /\
  mapi (fun i f => fst (final R tm target sp ins l i f)) 0 (r_fields R) =
  mapi (fun i f => fst (final R tm target sp ins' l i f)) 0 (r_fields R).
Proof.
  intro H.
  assert (FO : forall i f, nth_error (r_fields R) i = Some f -> flat_out R sp ins i f = flat_out R sp ins' i f).
  { intros i f N. apply flat_out_ins. intro P. apply H. apply existsb_exists. eauto using nth_error_In. }
  assert (BS : forall i f, nth_error (r_fields R) i = Some f ->
     before_sets R tm sp ins l i f = before_sets R tm sp ins' l i f).
  { intros i f N. unfold before_sets, after_flat. now rewrite (FO i f N). }
  assert (FI : forall i f, nth_error (r_fields R) i = Some f ->
     final R tm target sp ins l i f = final R tm target sp ins' l i f).
  { intros i f N. unfold final. now rewrite (BS i f N). }
  split.
  - unfold all_errors, flat_mapi. f_equal. f_equal.
    rewrite (mapi_ext (fun i f => opt_errors (flat_out R sp ins i f)) (fun i f => opt_errors (flat_out R sp ins' i f)))
      by (intros j a N; cbn [Nat.add]; now rewrite FO).
    rewrite (mapi_ext (fun i f => opt_errors (missing_out R tm target sp f (before_sets R tm sp ins l i f)))
                      (fun i f => opt_errors (missing_out R tm target sp f (before_sets R tm sp ins' l i f))))
      by (intros j a N; cbn [Nat.add]; now rewrite BS).
    rewrite (mapi_ext (fun i f => snd (final R tm target sp ins l i f)) (fun i f => snd (final R tm target sp ins' l i f)))
      by (intros j a N; cbn [Nat.add]; now rewrite FI).
    reflexivity.
  - apply mapi_ext. intros j a N. cbn [Nat.add]. now rewrite FI.
Qed.

Lemma struct_exact (s : sdef V) tm m sp prefix v inputs : named_struct s ->
  let R := struct_reader s tm prefix v in
  fst (s_body s tm m sp prefix v 0 inputs) =
  match struct_errors s tm prefix v sp inputs with
  | [] => after_and_thens (s_and_thens s)
            (post_ret (s_default s) (mapi (fun i f => fst (final R tm (s_default s) sp inputs (entries R inputs) i f)) 0 (s_fields tm s)))
  | e :: es => Err (mkSyn e es)
  end.
Proof.
  intros NS R. destruct (struct_returns s tm prefix v sp NS) as [A [B [D E]]]. fold R in A, B, D, E.
  rewrite s_body_named by apply NS.
  pose proof (named_body_exact R (s_unknown_ok s) v tm (s_default s) sp inputs A B D eq_refl) as X. cbv zeta in X.
  unfold struct_errors. fold R. unfold entries, stopped, source.
  destruct (walks (eat_named R) (if existsb pflat (r_fields R) then fork_inputs inputs else inputs)) as [[l stop] src1].
  cbn [fst snd] in *.
  destruct (all_errors_ins R tm (s_default s) sp (if existsb pflat (r_fields R) then inputs else src1) inputs l stop) as [Y1 Y2].
  { now intros ->. }
  rewrite Y1, Y2 in X. cbn [r_fields r_allowed r_prefix struct_reader R] in X, Y1, Y2 |- *.
  change (mkReader (s_fields tm s) prefix (negb (s_unknown_ok s) && v) (s_names s)) with R in *.
  rewrite X. destruct (all_errors R tm (s_default s) sp inputs l stop); auto. apply after_and_thens_err.
Qed.
Lemma struct_err_in (s : sdef V) tm m sp prefix v inputs x : named_struct s ->
  In x (struct_errors s tm prefix v sp inputs) ->
  exists e, fst (s_body s tm m sp prefix v 0 inputs) = Err e /\ incl (struct_errors s tm prefix v sp inputs) (errs_of e).
Proof.
  intros NS I. pose proof (struct_exact s tm m sp prefix v inputs NS) as X. cbv zeta in X.
  destruct (struct_errors s tm prefix v sp inputs) as [|e es]; [destruct I|].
  rewrite X. exists (mkSyn e es). split; auto. apply incl_refl.
Qed.
Lemma struct_ok_errors (s : sdef V) tm m sp prefix v inputs ws : named_struct s ->
  fst (s_body s tm m sp prefix v 0 inputs) = Ok ws -> struct_errors s tm prefix v sp inputs = [].
Proof.
  intros NS H. pose proof (struct_exact s tm m sp prefix v inputs NS) as X. cbv zeta in X.
  destruct (struct_errors s tm prefix v sp inputs) as [|e es]; auto. congruence.
Qed.
Lemma struct_not_ok (s : sdef V) tm m sp prefix v inputs : named_struct s ->
  (forall ws, fst (s_body s tm m sp prefix v 0 inputs) <> Ok ws) ->
  exists e, fst (s_body s tm m sp prefix v 0 inputs) = Err e.
Proof.
  intros NS H. pose proof (s_body_good s tm m sp prefix v 0 (proj1 NS) inputs) as [W _].
  destruct (fst (s_body s tm m sp prefix v 0 inputs)) as [w|e|b]; [now destruct (H w)|eauto|destruct W].
Qed.

(** *** keys *)
Lemma owner_named (s : sdef V) tm prefix v k i f :
  owner_in (struct_reader s tm prefix v) k = Some (i, f) ->
  nth_error (s_raw s) i = Some f /\ pitem f = true /\ named_by prefix f k.
Proof.
  unfold owner_in. cbn [r_prefix r_fields struct_reader].
  destruct (strip_prefix prefix k) as [n|] eqn:SP; [|discriminate]. intro H.
  apply find_field_spec in H. rewrite Nat.sub_0_r in H. destruct H as [_ [N [P [I _]]]].
  apply strip_prefix_spec in SP. split; [|split; auto; exists n; auto].
  apply (s_fields_parsable tm); auto using pitem_parsable.
Qed.
Lemma named_owner (s : sdef V) tm prefix v k i f : distinct_names s ->
  nth_error (s_raw s) i = Some f -> pitem f = true -> named_by prefix f k ->
  owner_in (struct_reader s tm prefix v) k = Some (i, f).
Proof.
  intros D N P [n [I E]]. unfold owner_in. cbn [r_prefix r_fields struct_reader].
  rewrite (proj2 (strip_prefix_spec prefix k n) E).
  destruct (find_field n (s_fields tm s) 0) as [[j g]|] eqn:F.
  - apply find_field_spec in F. rewrite Nat.sub_0_r in F. destruct F as [_ [N2 [P2 [I2 _]]]].
    apply (s_fields_parsable tm) in N2; auto using pitem_parsable.
    assert (i = j) by (eapply D; eauto). subst j. congruence.
  - exfalso. apply (proj1 (find_field_none n (s_fields tm s) 0) F f); auto.
    eapply nth_error_In. apply s_fields_nth; eauto using pitem_parsable.
Qed.
Lemma struct_eat_stays (s : sdef V) tm prefix v : named_struct s -> Forall stays_field (s_raw s) ->
  eat_stays (eat_named (struct_reader s tm prefix v)).
Proof.
  intros NS SF. apply eat_named_stays; [|apply stays_fields; auto].
  apply (struct_returns s tm prefix v SCall NS).
Qed.
Lemma source_pieces (R : reader V) inputs : all_pieces (source R inputs) = all_pieces inputs.
Proof. unfold source. destruct (existsb pflat (r_fields R)); auto using fork_pieces. Qed.
Lemma keys_read_prefix (s : sdef V) tm prefix v inputs : named_struct s -> Forall stays_field (s_raw s) ->
  let R := struct_reader s tm prefix v in
  (exists more, keys_in inputs = keys_read R inputs ++ more) /\
  (stopped R inputs = None -> keys_read R inputs = keys_in inputs /\
     Forall (fun seg => item_key seg <> None) (items_of inputs)).
Proof.
  intros NS SF R. pose proof (walks_items _ (struct_eat_stays s tm prefix v NS SF) (source R inputs)) as [p1 [p2 [P [F D]]]].
  fold R in P, F, D. rewrite source_pieces in P. unfold keys_read, entries, stopped, keys_in.
  destruct (reads_keys _ _ F []) as [K _]. rewrite K, P, flat_map_app. split; [eauto|].
  intro ST. rewrite (D ST), app_nil_r. split; auto. unfold items_of. rewrite P, (D ST), app_nil_r.
  apply Forall_forall. intros seg I. apply in_map_iff in I as [pc [<- I]].
  destruct (Forall2_in_l _ _ _ _ F I) as [en [_ [body [Q _]]]]. congruence.
Qed.
Lemma key_read_in (s : sdef V) tm prefix v inputs k sp : named_struct s -> Forall stays_field (s_raw s) ->
  In (k, sp) (keys_read (struct_reader s tm prefix v) inputs) -> In (k, sp) (keys_in inputs).
Proof.
  intros NS SF I. destruct (keys_read_prefix s tm prefix v inputs NS SF) as [[more E] _].
  rewrite E. apply in_or_app. auto.
Qed.

(** *** C06 *)
Lemma in_flat_mapi {A B} (g : nat -> A -> list B) l : forall i j a x, nth_error l j = Some a -> In x (g (i + j) a) ->
  In x (flat_mapi g i l).
Proof.
  unfold flat_mapi. induction l as [|b l IH]; intros i [|j] a x N I; simpl in N; try discriminate; cbn [mapi concat]; apply in_or_app.
  - injection N as <-. rewrite Nat.add_0_r in I. auto.
  - right. apply (IH (S i) j a x N). now rewrite Nat.add_succ_r in I.
Qed.
Lemma missing_reported (s : sdef V) tm m sp prefix v inputs i f d e0 :
  named_struct s -> Forall stays_field (s_raw s) ->
  nth_error (s_raw s) i = Some f -> f_kind f = KItem d -> is_parsable f = true ->
  f_default f = None -> s_default s = None ->
  d_missing d (missing_name_named tm prefix f) sp = Err e0 ->
  (forall k ksp, In (k, ksp) (keys_in inputs) -> ~ named_by prefix f k) ->
  exists e, fst (s_body s tm m sp prefix v 0 inputs) = Err e /\ incl (errs_of e0) (errs_of e).
Proof.
  intros NS SF N K P FD SD DM NK. set (R := struct_reader s tm prefix v).
  assert (FC : f_container f = false) by (unfold is_parsable in P; destruct (f_container f); [discriminate|auto]).
  assert (PF : pflat f = false) by (unfold pflat, is_flat; rewrite K; apply andb_false_r).
  assert (FN : find (mine R i) (entries R inputs) = None).
  { destruct (find (mine R i) (entries R inputs)) as [en|] eqn:FI; auto. exfalso.
    apply find_some in FI as [I M].
    assert (O : owner_in R (en_key en) = Some (i, f)).
    { apply mine_owner; auto. apply s_fields_nth; auto. }
    apply owner_named in O as [_ [_ NB]]. apply (NK (en_key en) (en_span en)); auto.
    apply (key_read_in s tm prefix v inputs); auto. unfold keys_read. apply in_map_iff. exists en. auto. }
  assert (BS : before_sets R tm sp inputs (entries R inputs) i f = FNone).
  { unfold before_sets, after_flat, flat_out. rewrite PF. unfold slot_of. rewrite FN.
    unfold after_container. destruct tm; auto. now rewrite FC. }
  assert (IN : incl (errs_of e0) (struct_errors s tm prefix v sp inputs)).
  { intros x X. unfold struct_errors, all_errors. fold R. apply in_or_app. right. apply in_or_app. right.
    apply in_or_app. right. apply in_or_app. left.
    apply (in_flat_mapi _ _ 0 i f x); [apply s_fields_nth; auto|]. cbn [Nat.add]. rewrite BS.
    unfold missing_out. rewrite K, SD. unfold wants_error. rewrite FC, FD. cbn [negb andb has_target fs_is_none].
    unfold R. cbn [r_prefix struct_reader]. rewrite DM. exact X. }
  assert (I0 : In (se_hd e0) (struct_errors s tm prefix v sp inputs)) by (apply IN; now left).
  destruct (struct_err_in s tm m sp prefix v inputs _ NS I0) as [e [E1 E2]]. exists e. split; auto.
  intros x X. auto.
Qed.

(** *** C07 and C08: errors of keys *)
Lemma entries_errors_in (R : reader V) l : forall b l1 en l2 x, l = l1 ++ en :: l2 ->
  In x (entry_errors R (b ++ l1) en) -> In x (entries_errors R b l).
Proof.
  induction l as [|a l IH]; intros b [|c l1] en l2 x E I; try discriminate; cbn [entries_errors]; apply in_or_app.
  - injection E as <- <-. rewrite app_nil_r in I. auto.
  - injection E as <- E. right. apply (IH (b ++ [a]) l1 en l2); auto. now rewrite <- app_assoc.
Qed.
Lemma key_error (s : sdef V) tm m sp prefix v inputs l1 en l2 x : named_struct s ->
  entries (struct_reader s tm prefix v) inputs = l1 ++ en :: l2 ->
  In x (entry_errors (struct_reader s tm prefix v) l1 en) ->
  exists e, fst (s_body s tm m sp prefix v 0 inputs) = Err e /\ In x (errs_of e).
Proof.
  intros NS E I. assert (IN : In x (struct_errors s tm prefix v sp inputs)).
  { unfold struct_errors, all_errors. apply in_or_app. left. eapply entries_errors_in; eauto. }
  destruct (struct_err_in s tm m sp prefix v inputs _ NS IN) as [e [E1 E2]]. exists e. auto.
Qed.
Lemma map_split {A B} (g : A -> B) l : forall a x b, map g l = a ++ x :: b ->
  exists l1 y l2, l = l1 ++ y :: l2 /\ map g l1 = a /\ g y = x /\ map g l2 = b.
Proof.
  induction l as [|z l IH]; intros [|c a] x b E; try discriminate; cbn [map app] in E.
  - injection E as E1 E2. exists [], z, l. auto.
  - injection E as E1 E2. destruct (IH _ _ _ E2) as [l1 [y [l2 [-> [H1 [H2 H3]]]]]].
    exists (z :: l1), y, l2. cbn [map app]. rewrite E1, H1. auto.
Qed.
Lemma dup_reported (s : sdef V) tm m sp prefix v inputs i f k1 sp1 k2 sp2 a b c :
  named_struct s -> distinct_names s -> nth_error (s_raw s) i = Some f -> pitem f = true ->
  named_by prefix f k1 -> named_by prefix f k2 ->
  keys_read (struct_reader s tm prefix v) inputs = a ++ (k1, sp1) :: b ++ (k2, sp2) :: c ->
  exists e, fst (s_body s tm m sp prefix v 0 inputs) = Err e /\
            In (mkErr sp2 ("duplicate attribute for " ++ tick (first_name f))%string) (errs_of e).
Proof.
  intros NS DN N P N1 N2 E. set (R := struct_reader s tm prefix v) in *.
  replace (a ++ (k1, sp1) :: b ++ (k2, sp2) :: c) with ((a ++ (k1, sp1) :: b) ++ (k2, sp2) :: c) in E
    by (rewrite <- app_assoc; reflexivity).
  apply map_split in E as [l1 [en2 [l2 [E [E1 [E2 _]]]]]].
  apply map_split in E1 as [l3 [en1 [l4 [E3 [_ [E4 _]]]]]].
  injection E2 as E2a E2b. injection E4 as E4a E4b.
  pose proof (named_owner s tm prefix v k1 i f DN N P N1) as O1.
  pose proof (named_owner s tm prefix v k2 i f DN N P N2) as O2. fold R in O1, O2.
  eapply key_error; [auto|exact E|]. fold R. unfold entry_errors. rewrite E2a, O2.
  assert (X : existsb (mine R i) l1 = true).
  { apply existsb_exists. exists en1. split; [rewrite E3; apply in_or_app; right; left; auto|].
    unfold mine. rewrite E4a, O1. apply Nat.eqb_refl. }
  rewrite X, E2b. apply in_or_app. left. left. reflexivity.
Qed.
Lemma ok_not_stopped (s : sdef V) tm m sp prefix v inputs ws : named_struct s ->
  fst (s_body s tm m sp prefix v 0 inputs) = Ok ws -> stopped (struct_reader s tm prefix v) inputs = None.
Proof.
  intros NS H. apply struct_ok_errors in H; auto. unfold struct_errors, all_errors in H.
  apply app_eq_nil in H as [_ H]. apply app_eq_nil in H as [H _].
  destruct (stopped (struct_reader s tm prefix v) inputs); auto. now apply errs_of_ne in H.
Qed.
Lemma dup_fails (s : sdef V) tm m sp prefix v inputs i f k1 sp1 k2 sp2 a b c :
  named_struct s -> distinct_names s -> Forall stays_field (s_raw s) ->
  nth_error (s_raw s) i = Some f -> pitem f = true ->
  named_by prefix f k1 -> named_by prefix f k2 ->
  keys_in inputs = a ++ (k1, sp1) :: b ++ (k2, sp2) :: c ->
  exists e, fst (s_body s tm m sp prefix v 0 inputs) = Err e.
Proof.
  intros NS DN SF N P N1 N2 E. apply struct_not_ok; auto. intros ws H.
  pose proof (ok_not_stopped _ _ _ _ _ _ _ _ NS H) as ST.
  destruct (keys_read_prefix s tm prefix v inputs NS SF) as [_ KR]. specialize (KR ST). destruct KR as [KR _].
  rewrite <- KR in E.
  destruct (dup_reported s tm m sp prefix v inputs i f k1 sp1 k2 sp2 a b c NS DN N P N1 N2 E) as [e [E1 _]]. congruence.
Qed.
Lemma unknown_error_msg k sp fields : exists x, errs_of (unknown_error k sp fields) = [x] /\ e_span x = sp /\ unknown_msg k (e_msg x).
Proof.
  unfold unknown_error. destruct (closest k fields) as [[n c]|]; eexists; (split; [reflexivity|]);
    split; auto; [right; exists c; reflexivity|left; reflexivity].
Qed.
Lemma in_fields_names (fs : list (field V)) f n : In f fs -> is_parsable f = true -> In n (field_key_names f) ->
  In n (fields_names fs).
Proof. intros I P J. unfold fields_names. apply in_flat_map. exists f. now rewrite P. Qed.
Lemma owner_advertised (s : sdef V) tm v k i f : owner_in (struct_reader s tm "" v) k = Some (i, f) -> In k (s_names s).
Proof.
  intro O. apply owner_named in O as [N [P [n [I ->]]]]. cbn. eapply in_fields_names; eauto using nth_error_In, pitem_parsable.
  apply pitem_spec in P as [_ [_ [d K]]]. unfold field_key_names. now rewrite K.
Qed.
Lemma unknown_reported (s : sdef V) tm m sp inputs k ksp : named_struct s ->
  s_unknown_ok s = false -> In (k, ksp) (keys_read (struct_reader s tm "" true) inputs) -> ~ In k (s_names s) ->
  exists e x, fst (s_body s tm m sp "" true 0 inputs) = Err e /\ In x (errs_of e) /\ e_span x = ksp /\ unknown_msg k (e_msg x).
Proof.
  intros NS U I NK. apply in_split in I as [a [b E]]. apply map_split in E as [l1 [en [l2 [E [_ [E2 _]]]]]].
  injection E2 as E2 E3. destruct (unknown_error_msg k ksp (s_names s)) as [x [X1 [X2 X3]]].
  destruct (key_error s tm m sp "" true inputs l1 en l2 x NS E) as [e [H1 H2]].
  { unfold entry_errors. destruct (owner_in (struct_reader s tm "" true) (en_key en)) as [[i f]|] eqn:O.
    - apply owner_advertised in O. rewrite E2 in O. now destruct NK.
    - cbn [r_check r_allowed struct_reader]. rewrite U, E2, E3. cbn [negb andb].
      rewrite (proj2 (mem_str_false _ _) NK). cbn [negb]. rewrite X1. now left. }
  exists e, x. auto.
Qed.
Lemma unknown_fails (s : sdef V) tm m sp inputs k ksp : named_struct s -> Forall stays_field (s_raw s) ->
  s_unknown_ok s = false -> In (k, ksp) (keys_in inputs) -> ~ In k (s_names s) ->
  exists e, fst (s_body s tm m sp "" true 0 inputs) = Err e.
Proof.
  intros NS SF U I NK. apply struct_not_ok; auto. intros ws H.
  pose proof (ok_not_stopped _ _ _ _ _ _ _ _ NS H) as ST.
  destruct (keys_read_prefix s tm "" true inputs NS SF) as [_ KR]. specialize (KR ST). destruct KR as [KR _].
  rewrite <- KR in I. destruct (unknown_reported s tm m sp inputs k ksp NS U I NK) as [e [x [E _]]]. congruence.
Qed.
Lemma known_keys (s : sdef V) tm m sp inputs ws : named_struct s -> Forall stays_field (s_raw s) ->
  s_unknown_ok s = false -> fst (s_body s tm m sp "" true 0 inputs) = Ok ws ->
  forall k ksp, In (k, ksp) (keys_in inputs) -> In k (s_names s).
Proof.
  intros NS SF U H k ksp I. destruct (in_dec string_dec k (s_names s)); auto.
  destruct (unknown_fails s tm m sp inputs k ksp NS SF U I n) as [e E]. congruence.
Qed.

(** *** listed text *)
Lemma listed_items segs ts : listed segs ts -> items ts = segs.
Proof.
  unfold items. induction 1 as [|seg NE N|seg t N C|seg segs t ts N C NE L IH].
  - reflexivity.
  - pose proof (pieces_app seg [] N ends_nil) as P. rewrite app_nil_r in P. rewrite P by auto. reflexivity.
  - rewrite pieces_app; auto.
    + apply ends_cons. now apply comma_true.
    + destruct seg; discriminate.
  - rewrite pieces_app; auto.
    + cbn. now rewrite IH.
    + apply ends_cons. now apply comma_true.
    + destruct seg; discriminate.
Qed.
Lemma items_of_one ts sc c : items_of [mkStream ts sc c] = items ts.
Proof. unfold items_of, all_pieces. cbn. now rewrite app_nil_r. Qed.
Lemma items_of_app a b : items_of (a ++ b) = items_of a ++ items_of b.
Proof. unfold items_of, all_pieces. now rewrite flat_map_app, map_app. Qed.
Lemma items_of_fork l : items_of (fork_inputs l) = items_of l.
Proof. unfold items_of. now rewrite fork_pieces. Qed.

(** *** spellings *)
Lemma punct_rest_eq j sp ts : punct_rest [eq_c] (TPunct eq_c j sp :: ts) = Some ts.
Proof. cbn [punct_rest]. now rewrite Ascii.eqb_refl. Qed.
Lemma peek_eq_ends tl sc c : ends tl -> peek_eq (mkStream tl sc c) = false /\ peek_group Paren (mkStream tl sc c) = false.
Proof.
  intro E. unfold peek_eq, peek_punct, peek_group. cbn [toks]. destruct tl as [|t r]; [auto|].
  apply ends_cons in E. destruct t; try discriminate. cbn in E. split; auto. cbn [punct_rest].
  apply Ascii.eqb_eq in E. subst c0. reflexivity.
Qed.
Lemma spelled_accepts {A} (d : dict A) sp body v n : standard d -> spelled d sp body v ->
  accepts (d_named d n sp) body v.
Proof.
  intros ST H tl sc c E. rewrite ST. unfold def_named, parse_named_with. destruct H as [j esp payload v A0|payload gsp v A0|v A0].
  - unfold peek_eq, peek_punct. cbn [toks app]. rewrite punct_rest_eq. unfold pbind, parse_eq, parse_punct. cbn [toks].
    rewrite punct_rest_eq. unfold set_toks. cbn [scope cell]. apply A0. exact E.
  - unfold peek_eq, peek_punct, peek_group. cbn [toks app punct_rest delim_eqb].
    unfold parse_delimited_with, with_group. cbn [toks delim_eqb cell scope].
    unfold pbind, on_single, group_content. destruct (A0 c) as [rest [-> R]]. cbn [fst snd hd].
    destruct R as [R|[t [C R]]]; unfold parse_eof; rewrite R.
    + unfold pret. rewrite R. auto.
    + apply comma_true in C. rewrite C. cbn [set_toks toks]. unfold pret. auto.
  - cbn [app]. destruct (peek_eq_ends tl sc c E) as [-> ->]. cbn [fst snd toks]. auto.
Qed.

(** *** written items *)
Lemma written_gives (s : sdef V) tm prefix v i f seg w : distinct_names s ->
  nth_error (s_raw s) i = Some f -> pitem f = true ->
  written prefix f seg w <-> gives (struct_reader s tm prefix v) seg i w.
Proof.
  intros D N P. split.
  - intros [k [ksp [body [K [NB A]]]]]. exists k, ksp, body, f. split; [auto|split; auto].
    apply named_owner; auto.
  - intros [k [ksp [body [g [K [O A]]]]]]. pose proof (owner_named _ _ _ _ _ _ _ O) as [N2 [_ NB]].
    assert (g = f) by congruence. subst g. exists k, ksp, body. split; [auto|split; auto].
Qed.
Lemma owns_keys (s : sdef V) tm prefix v i f inputs : distinct_names s ->
  nth_error (s_raw s) i = Some f -> pitem f = true ->
  existsb (owns (struct_reader s tm prefix v) i) (items_of inputs) = true <->
  exists k ksp, In (k, ksp) (keys_in inputs) /\ named_by prefix f k.
Proof.
  intros D N P. rewrite existsb_exists. unfold keys_in, items_of. split.
  - intros [seg [I O]]. apply in_map_iff in I as [pc [<- I]]. unfold owns in O.
    destruct (item_key (fst pc)) as [[[k ksp] body]|] eqn:K; [|discriminate].
    destruct (owner_in (struct_reader s tm prefix v) k) as [[j g]|] eqn:OW; [|discriminate].
    apply Nat.eqb_eq in O. subst j. apply owner_named in OW as [N2 [_ NB]]. assert (g = f) by congruence. subst g.
    exists k, ksp. split; auto. apply in_flat_map. exists pc. rewrite K. split; auto. now left.
  - intros [k [ksp [I NB]]]. apply in_flat_map in I as [pc [I J]].
    destruct (item_key (fst pc)) as [[[k' ksp'] body]|] eqn:K; [|destruct J].
    destruct J as [J|[]]. injection J as -> ->. exists (fst pc). split; [now apply in_map|].
    unfold owns. rewrite K. rewrite (named_owner s tm prefix v k i f D N P NB). apply Nat.eqb_refl.
Qed.
Lemma not_owned (s : sdef V) tm prefix v i f its : nth_error (s_raw s) i = Some f -> pitem f = false ->
  existsb (owns (struct_reader s tm prefix v) i) its = false.
Proof.
  intros N P. destruct (existsb (owns (struct_reader s tm prefix v) i) its) eqn:E; auto.
  apply existsb_exists in E as [seg [_ O]]. unfold owns in O.
  destruct (item_key seg) as [[[k ksp] body]|]; [|discriminate].
  destruct (owner_in (struct_reader s tm prefix v) k) as [[j g]|] eqn:OW; [|discriminate].
  apply Nat.eqb_eq in O. subst j. apply owner_named in OW as [N2 [P2 _]]. congruence.
Qed.

(** a field as the generated code sees it *)
Lemma s_fields_eff tm (s : sdef V) i f : nth_error (s_raw s) i = Some f ->
  exists g, nth_error (s_fields tm s) i = Some g /\ f_default g = field_default s tm f /\
    f_kind g = f_kind f /\ f_transforms g = f_transforms f /\ f_container g = f_container f /\
    pitem g = pitem f /\ pflat g = pflat f /\ f_ident g = f_ident f.
Proof.
  intro N.
  assert (A : exists g, nth_error (s_fields_attr s) i = Some g /\
     f_default g = match f_default f with Some v => Some v | None => if f_skip f && negb (has_target (s_default s)) then Some (f_auto f) else None end /\
     f_kind g = f_kind f /\ f_transforms g = f_transforms f /\ f_container g = f_container f /\ f_skip g = f_skip f /\
     f_auto g = f_auto f /\ f_ident g = f_ident f).
  { unfold s_fields_attr. destruct (has_target (s_default s)).
    - exists f. rewrite andb_false_r. destruct (f_default f); repeat split; auto.
    - rewrite nth_map, N. cbn [option_map]. exists (skip_default f). split; auto. unfold skip_default.
      destruct (f_default f) eqn:FD; [repeat split; auto|]. destruct (f_skip f) eqn:FS; cbn; repeat split; auto. }
  destruct A as [g [A1 [A2 [A3 [A4 [A5 [A6 [A7 A8]]]]]]]].
  assert (PI : pitem g = pitem f /\ pflat g = pflat f).
  { unfold pitem, pflat, is_parsable, is_flat. now rewrite A3, A5, A6. }
  unfold field_default. destruct tm.
  - exists (container_default g). cbn [s_fields]. unfold s_fields_meta. rewrite nth_map, A1. split; auto.
    unfold container_default. rewrite A2. destruct (f_default f) eqn:FD.
    + repeat split; try tauto; now rewrite A2.
    + destruct (f_skip f && negb (has_target (s_default s))).
      * repeat split; try tauto; now rewrite A2.
      * rewrite A5. destruct (f_container f) eqn:FC.
        -- cbn. unfold pitem, pflat, is_parsable, is_flat. cbn. rewrite ?A3, ?A5, ?A6, ?A7, ?FC. repeat split; auto.
        -- repeat split; try tauto; now rewrite A2.
  - exists g. cbn [s_fields]. repeat split; try tauto; rewrite ?A2; destruct (f_default f); auto.
Qed.
Lemma missing_name_ident (tm : tmode V) prefix (f g : field V) : f_ident g = f_ident f ->
  missing_name_named tm prefix g = missing_name_named tm prefix f.
Proof. unfold missing_name_named. now intros ->. Qed.

(** *** C04 *)
Lemma struct_round_trip (s : sdef V) tm m sp prefix v inputs (asg : list (nat * V)) vs ws :
  named_struct s -> distinct_names s -> no_flat s -> Forall stays_field (s_raw s) ->
  Forall2 (fun seg iw => exists f, nth_error (s_raw s) (fst iw) = Some f /\ pitem f = true /\
             written prefix f seg (snd iw)) (items_of inputs) asg ->
  NoDup (map fst asg) ->
  length vs = length (s_raw s) ->
  (forall i f x, nth_error (s_raw s) i = Some f -> nth_error vs i = Some x ->
     (exists w, In (i, w) asg /\ transformed (f_transforms f) w x) \/
     (~ In i (map fst asg) /\ left_out s tm prefix sp i f x)) ->
  chained (s_and_thens s) vs ws ->
  fst (s_body s tm m sp prefix v 0 inputs) = Ok ws.
Proof.
  intros NS DN NF SF A ND L H C. set (R := struct_reader s tm prefix v).
  apply (struct_text_if s tm m sp prefix v inputs vs ws NS SF); auto. fold R.
  assert (GV : Forall2 (fun seg iw => gives R seg (fst iw) (snd iw)) (items_of inputs) asg).
  { eapply Forall2_and_in; [exact A|]. intros seg iw _ _ [f [N [P W]]]. unfold R. eapply written_gives; eauto. }
  assert (OG : Forall2 (fun seg iw => forall i, owns R i seg = Nat.eqb i (fst iw)) (items_of inputs) asg).
  { eapply Forall2_and_in; [exact GV|]. intros seg iw _ _ [k [ksp [body [f [K [O _]]]]]] i.
    unfold owns. now rewrite K, O. }
  assert (CNT : forall i, length (filter (owns R i) (items_of inputs)) = length (filter (Nat.eqb i) (map fst asg)) /\
                          existsb (owns R i) (items_of inputs) = existsb (Nat.eqb i) (map fst asg)).
  { intro i. clear - OG. induction OG; cbn [map filter existsb]; auto. rewrite (H i).
    destruct IHOG as [I1 I2]. rewrite I2. destruct (Nat.eqb i (fst y)); cbn [length]; auto. }
  repeat split.
  - apply Forall_forall. intros seg I. destruct (Forall2_in_l _ _ _ _ GV I) as [iw [_ G]]. left. eauto.
  - intro i. destruct (CNT i) as [-> _]. clear - ND. induction ND; cbn [filter]; auto.
    destruct (Nat.eqb i x) eqn:E; auto. apply Nat.eqb_eq in E. subst x. cbn [length].
    assert (X : filter (Nat.eqb i) l = []).
    { destruct (filter (Nat.eqb i) l) as [|y q] eqn:F; auto.
      assert (Q : In y (filter (Nat.eqb i) l)) by (rewrite F; now left). apply filter_In in Q as [Q1 Q2].
      apply Nat.eqb_eq in Q2. subst y. contradiction. }
    rewrite X. auto.
  - unfold R. cbn [r_fields struct_reader]. now rewrite s_fields_len.
  - intros i g x Ng Nx. cbn [R r_fields struct_reader] in Ng.
    destruct (nth_error (s_raw s) i) as [f|] eqn:Nf.
    2:{ apply nth_error_None in Nf. rewrite <- (s_fields_len tm s) in Nf. apply nth_error_None in Nf. congruence. }
    destruct (s_fields_eff tm s i f Nf) as [g' [Ng' [E1 [E2 [E3 [E4 [E5 [E6 E7]]]]]]]].
    assert (g' = g) by congruence. subst g'.
    destruct (H i f x Nf Nx) as [[w [IW T]]|[NI LO]].
    + destruct (Forall2_in_r _ _ _ _ GV IW) as [seg [IS GI]]. eapply G_item; eauto. now rewrite E3.
    + assert (EX : existsb (owns R i) (items_of inputs) = false).
      { destruct (CNT i) as [_ ->]. destruct (existsb (Nat.eqb i) (map fst asg)) eqn:Q; auto.
        apply existsb_exists in Q as [y [Q1 Q2]]. apply Nat.eqb_eq in Q2. subst y. contradiction. }
      assert (PF : pflat g = false).
      { rewrite E6. unfold no_flat in NF. destruct (pflat f) eqn:Q; auto.
        assert (existsb pflat (s_raw s) = true) by (apply existsb_exists; eauto using nth_error_In). congruence. }
      destruct LO as [pn obj T FC TR|w FC FD TR|t FC FD SD NT|d w FC FD SD K DM TR].
      * apply (G_container _ _ _ _ _ _ _ _ _ pn obj); rewrite ?E3, ?E4; auto.
      * apply (G_default _ _ _ _ _ _ _ _ _ w); rewrite ?E1, ?E3, ?E4; auto.
      * apply (G_target _ _ _ _ _ _ _ _ _ t); rewrite ?E1, ?E4; auto.
      * apply (G_missing _ _ _ _ _ _ _ _ _ d w); rewrite ?E1, ?E2, ?E3, ?E4; auto.
        cbn [R r_prefix struct_reader]. erewrite missing_name_ident; eauto.
Qed.

(** *** C10, C11 *)
Lemma field_value (s : sdef V) tm m sp prefix v inputs ws i f :
  named_struct s -> distinct_names s -> Forall local_field (s_raw s) ->
  nth_error (s_raw s) i = Some f -> pflat f = false ->
  fst (s_body s tm m sp prefix v 0 inputs) = Ok ws ->
  exists vs x, chained (s_and_thens s) vs ws /\ nth_error vs i = Some x /\
    ((exists seg w, In seg (items_of inputs) /\ pitem f = true /\ written prefix f seg w /\ transformed (f_transforms f) w x) \/
     (pitem f = true -> forall k ksp, In (k, ksp) (keys_in inputs) -> ~ named_by prefix f k) /\ left_out s tm prefix sp i f x).
Proof.
  intros NS DN LF N PF H. apply struct_text in H; auto. destruct H as [vs [[_ [_ [L H]]] C]].
  cbn [r_fields struct_reader] in L. rewrite s_fields_len in L.
  destruct (nth_error vs i) as [x|] eqn:NX.
  2:{ apply nth_error_None in NX. rewrite L in NX. apply nth_error_None in NX. congruence. }
  destruct (s_fields_eff tm s i f N) as [g [Ng [E1 [E2 [E3 [E4 [E5 [E6 E7]]]]]]]].
  exists vs, x. split; auto. split; auto. specialize (H i g x Ng NX).
  assert (NO : existsb (owns (struct_reader s tm prefix v) i) (items_of inputs) = false ->
     pitem f = true -> forall k ksp, In (k, ksp) (keys_in inputs) -> ~ named_by prefix f k).
  { intros X P k ksp I NB.
    assert (Y : existsb (owns (struct_reader s tm prefix v) i) (items_of inputs) = true) by (eapply owns_keys; eauto).
    congruence. }
  assert (NP : pitem f = false -> pitem f = true -> forall k ksp, In (k, ksp) (keys_in inputs) -> ~ named_by prefix f k) by congruence.
  destruct H as [seg w I G T|w P FC T|pn obj TM FC T|w EX _ FC FD T|t EX _ FC FD SD NT|d w EX FC FD SD K DM T].
  - left. pose proof (gives_pitem _ _ _ _ _ G Ng) as P. rewrite E5 in P. exists seg, w. rewrite E3 in T.
    repeat split; auto. eapply written_gives; eauto.
  - congruence.
  - right. split.
    + apply NP. destruct (pitem f) eqn:Q; auto. apply pitem_spec in Q as [Q _]. congruence.
    + rewrite E3 in T. rewrite E4 in FC. eapply LO_container; eauto.
  - right. split; [exact (NO EX)|]. rewrite E3 in T. rewrite E4 in FC. rewrite E1 in FD. eapply LO_default; eauto.
  - right. split; [exact (NO EX)|]. rewrite E4 in FC. rewrite E1 in FD. eapply LO_struct; eauto.
  - right. split; [exact (NO EX)|]. rewrite E3 in T. rewrite E4 in FC. rewrite E1 in FD. rewrite E2 in K.
    cbn [r_prefix struct_reader] in DM. rewrite (missing_name_ident tm prefix f g E7) in DM.
    eapply LO_missing; eauto.
Qed.

(** *** C05, C12 *)
Lemma parses_to_perm (R : reader V) tm target sp inputs inputs' its its' vs :
  (forall i f, nth_error (r_fields R) i = Some f -> pflat f = true ->
     forall w, fst (flat_call f (r_prefix R) sp (r_allowed R) (flat_in R inputs i)) = Ok w ->
               fst (flat_call f (r_prefix R) sp (r_allowed R) (flat_in R inputs' i)) = Ok w) ->
  Permutation its its' ->
  parses_to R tm target sp inputs its vs -> parses_to R tm target sp inputs' its' vs.
Proof.
  intros FE P [A [B [L D]]].
  assert (OW : forall i, existsb (owns R i) its = existsb (owns R i) its').
  { intro i. clear - P. induction P; simpl; auto; try congruence.
    destruct (owns R i x), (owns R i y); auto. }
  assert (CN : forall i, length (filter (owns R i) its) = length (filter (owns R i) its')).
  { intro i. clear - P. induction P; simpl; auto; try congruence.
    - destruct (owns R i x); simpl; auto.
    - destruct (owns R i x), (owns R i y); simpl; auto. }
  repeat split; auto.
  - apply Forall_forall. intros x I. rewrite Forall_forall in A. apply A. eapply Permutation_in; [|exact I]. now symmetry.
  - intro i. now rewrite <- CN.
  - intros i f x N M. specialize (D i f x N M). destruct D.
    + eapply G_item; eauto. eapply Permutation_in; eauto.
    + eapply G_flat; eauto.
    + eapply G_container; eauto.
    + eapply G_default; rewrite <- ?OW; eauto.
    + eapply G_target; rewrite <- ?OW; eauto.
    + eapply G_missing; rewrite <- ?OW; eauto.
Qed.
Lemma struct_permutation (s : sdef V) tm m sp prefix v inputs inputs' ws :
  named_struct s -> no_flat s -> Forall local_field (s_raw s) ->
  Permutation (items_of inputs) (items_of inputs') ->
  fst (s_body s tm m sp prefix v 0 inputs) = Ok ws ->
  fst (s_body s tm m sp prefix v 0 inputs') = Ok ws.
Proof.
  intros NS NF LF P H. apply struct_text in H; auto. apply struct_text; auto.
  destruct H as [vs [H C]]. exists vs. split; auto. eapply parses_to_perm; [|exact P|exact H].
  intros i f N PF. exfalso. unfold no_flat in NF. rewrite <- (flat_fields_same tm s) in NF.
  assert (existsb pflat (s_fields tm s) = true) by (apply existsb_exists; eauto using nth_error_In). congruence.
Qed.
Lemma textual_fields tm (s : sdef V) : Forall textual_field (s_raw s) -> Forall textual_field (s_fields tm s).
Proof.
  intro H. rewrite Forall_forall in *. intros g I P.
  apply In_nth_error in I as [i N]. pose proof (s_fields_parsable tm s i g N (pflat_parsable g P)) as N2.
  apply H; eauto using nth_error_In.
Qed.
Lemma struct_textual (s : sdef V) tm m sp prefix v :
  named_struct s -> Forall local_field (s_raw s) -> Forall textual_field (s_raw s) ->
  textual (s_body s tm m sp prefix v 0).
Proof.
  intros NS LF TF.
  assert (X : forall l l' w, items_of l = items_of l' ->
     fst (s_body s tm m sp prefix v 0 l) = Ok w -> fst (s_body s tm m sp prefix v 0 l') = Ok w).
  { intros l l' w E H. apply struct_text in H; auto. apply struct_text; auto.
    destruct H as [vs [H C]]. exists vs. split; auto. eapply parses_to_perm; [| |exact H].
    - intros i f N PF x FC. apply (textual_fields tm) in TF. rewrite Forall_forall in TF.
      eapply (TF f (nth_error_In _ _ N) PF); [|exact FC]. unfold flat_in.
      destruct (existsb pflat _); rewrite ?items_of_fork; auto.
    - rewrite E. apply Permutation_refl. }
  intros l l' E w. split; apply X; auto.
Qed.
End P.
