(** Missing fields of tuple structs *)
From Verif Require Export LemMore2 LemTStruct LemSplit.

Section M.
Context {env : Env} {V : Type}.
Local Notation field := (field V).

Lemma pieces_after pre t r : no_comma pre -> is_comma t = true ->
  length (pieces (pre ++ t :: r)) = S (length (pieces r)).
Proof.
  intros N C. induction pre as [|x pre IH]; cbn [app pieces].
  - now rewrite C.
  - apply nc_cons in N as [N1 N2]. rewrite N1. specialize (IH N2). destruct (pieces (pre ++ t :: r)) as [|[a b] l]; cbn in *; lia.
Qed.
Lemma pieces_one ts : ts <> [] -> 1 <= length (pieces ts).
Proof. intro H. destruct (pieces ts) eqn:E; cbn; [|lia]. apply pieces_nil in E. contradiction. Qed.
Lemma comma_inv s s2 : parse_comma s = (Ok tt, s2) -> exists t, toks s = t :: toks s2 /\ is_comma t = true.
Proof.
  intro H. destruct (toks s) as [|t r] eqn:E.
  - unfold parse_comma, parse_punct in H. rewrite E in H. cbn in H. discriminate.
  - destruct (is_comma t) eqn:C.
    + rewrite (parse_comma_cons s t r E C) in H. injection H as <-. exists t. auto.
    + destruct (parse_comma_not s t r E C) as [e H']. congruence.
Qed.

Lemma in_firstn {A} (n : nat) : forall (l : list A) x, In x (firstn n l) -> In x l.
Proof. induction n as [|n IH]; intros [|a l] x H; cbn in *; try contradiction. destruct H; auto. Qed.
Section L.
Variable fs : list field.
Hypothesis PL : plain fs.
Lemma tf_before : forall i j c ri f, nth_error (tuple_fields fs j) c = Some (ri, f) ->
  c < length (filter is_parsable (firstn i fs)) -> ri < j + i.
Proof.
  unfold plain in PL. induction PL as [|f l H P IH]; intros i j c ri g N L.
  - rewrite firstn_nil in L. cbn in L. lia.
  - destruct i as [|i]; [cbn in L; lia|]. cbn [firstn filter] in L. destruct (is_parsable f) eqn:IP.
    + destruct (H eq_refl) as [d [K _]]. cbn [tuple_fields] in N. rewrite K, IP in N. destruct c as [|c]; cbn in N.
      * injection N as <- _. lia.
      * cbn in L. specialize (IH P i (S j) c ri g N). lia.
    + rewrite tf_skip in N by auto. specialize (IH P i (S j) c ri g N L). lia.
Qed.
Lemma closure_step c sl es idx s rest r sl1 es1 idx1 ins1 :
  tuple_closure fs c (sl, es, idx) (s :: rest) = (r, (sl1, es1, idx1), ins1) ->
  (forall b, r <> Bad b) ->
  exists ri f st s1 pre, nth_error (tuple_fields fs 0) c = Some (ri, f) /\ r = Ok tt /\ sl1 = upd_nth ri st sl /\ idx1 = idx /\
    ins1 = s1 :: rest /\ toks s = pre ++ toks s1 /\ no_comma pre.
Proof.
  unfold tuple_closure. rewrite (plain_flat fs PL). intros H NB.
  destruct (nth_error (tuple_fields fs 0) c) as [[ri f]|] eqn:N; [|injection H as <- <- <- <- <-; now destruct (NB Panic)].
  assert (K : exists d, f_kind f = KItem d /\ fine d).
  { clear -N PL. assert (G : forall l j, plain l -> nth_error (tuple_fields l j) c = Some (ri, f) -> exists d, f_kind f = KItem d /\ fine d).
    { clear. intros l j P. revert j c. induction P as [|g l H P IH]; intros j c N; [destruct c; discriminate|].
      destruct (is_parsable g) eqn:IP.
      - destruct (H eq_refl) as [d [K F]]. cbn [tuple_fields] in N. rewrite K, IP in N. destruct c as [|c]; cbn in N; [injection N as _ <-; eauto|eauto].
      - rewrite tf_skip in N by auto. eauto. }
    eapply G; eauto. }
  destruct K as [d [K F]]. rewrite K in H. unfold fs_parse_unnamed in H.
  destruct (fi_item d F Unnamed) as [ST _]. destruct (ST s) as [pre [E1 E2]].
  destruct (d_item d Unnamed s) as [[v|e|b] s1]; cbn [snd] in *; injection H as <- <- <- <- <-.
  - exists ri, f, (FSome v), s1, pre. repeat (split; auto).
  - destruct (stays_skip s1) as [pre2 [E3 E4]]. cbn [snd] in E3. exists ri, f, FParseError, (skip_item s1), (pre ++ pre2).
    repeat (split; auto). + rewrite E1. rewrite E3 at 1. now rewrite app_assoc. + apply nc_app; auto.
  - now destruct (NB b).
Qed.
Lemma upd_other {A} (l : list A) : forall i j x, i <> j -> nth_error (upd_nth i x l) j = nth_error l j.
Proof. induction l as [|a l IH]; intros [|i] [|j] x H; cbn; auto; try lia. Qed.
Lemma upd_len {A} (l : list A) : forall i x, length (upd_nth i x l) = length l.
Proof. induction l as [|a l IH]; intros [|i] x; cbn; auto. Qed.
Lemma loop_slots n k i : (forall c ri f, nth_error (tuple_fields fs 0) c = Some (ri, f) -> c < k -> ri <> i) ->
  forall fuel c sl es idx ins r sl1 es1 idx1 ins1,
  tuple_loop n (tuple_closure fs) fuel c (sl, es, idx) ins = (r, (sl1, es1, idx1), ins1) ->
  (forall b, r <> Bad b) -> c + length (all_pieces ins) <= k ->
  nth_error sl1 i = nth_error sl i /\ length sl1 = length sl /\ idx1 = idx.
Proof.
  intro K. induction fuel as [|fu IH]; intros c sl es idx ins r sl1 es1 idx1 ins1 H NB L; cbn [tuple_loop] in H.
  { injection H as <- <- <- <- <-. now destruct (NB Diverge). }
  destruct ins as [|s rest]; [injection H as <- <- <- <- <-; auto|].
  unfold all_pieces in L. cbn [flat_map] in L. rewrite app_length in L. fold (all_pieces rest) in L.
  destruct (is_empty s) eqn:EM.
  - destruct (tuple_loop n (tuple_closure fs) fu c (sl, es, idx) rest) as [[r0 [[a b] q]] rest1] eqn:T. injection H as <- <- <- <- <-.
    eapply IH; [exact T|exact NB|lia].
  - destruct (Nat.leb n c); [injection H as <- <- <- <- <-; auto|].
    assert (NE : toks s <> []) by (destruct s as [[|] ? ?]; cbn in *; discriminate). pose proof (pieces_one _ NE) as P1.
    destruct (tuple_closure fs c (sl, es, idx) (s :: rest)) as [[r0 [[sl0 es0] idx0]] ins0] eqn:CL.
    assert (NB0 : forall b, r0 <> Bad b) by (intros b E; subst r0; injection H as <- _ _ _ _; now destruct (NB b)).
    destruct (closure_step _ _ _ _ _ _ _ _ _ _ _ CL NB0) as [ri [f [st [s1 [pre [N [-> [-> [-> [-> [E1 E2]]]]]]]]]]].
    assert (KI : ri <> i) by (eapply K; [exact N|lia]).
    assert (ST : forall c' st' ins' es', c' = S c -> length (all_pieces ins') + 1 <= length (pieces (toks s)) + length (all_pieces rest) ->
      forall r, (forall b, r <> Bad b) -> forall sl1 es1 idx1 ins1, tuple_loop n (tuple_closure fs) fu c' (upd_nth ri st' sl, es', idx) ins' = (r, (sl1, es1, idx1), ins1) ->
      nth_error sl1 i = nth_error sl i /\ length sl1 = length sl /\ idx1 = idx).
    { intros c' st' ins' es' -> LL r' NB' a b q z T. destruct (IH _ _ _ _ _ _ _ _ _ _ T NB' ltac:(lia)) as [Q1 [Q2 Q3]].
      rewrite upd_other in Q1 by auto. rewrite upd_len in Q2. auto. }
    destruct (negb (is_empty s1) && Nat.ltb (S c) n) eqn:B.
    + destruct (parse_comma s1) as [[[]|e|b] s2] eqn:PC.
      * destruct (comma_inv _ _ PC) as [t [E3 E4]]. eapply ST; [| |exact NB|exact H]; auto.
        unfold all_pieces. cbn [flat_map]. rewrite app_length. fold (all_pieces rest). rewrite E1, E3, (pieces_after pre t (toks s2) E2 E4). lia.
      * injection H as <- <- <- <- <-. rewrite upd_other, upd_len by auto. auto.
      * injection H as <- <- <- <- <-. now destruct (NB b).
    + assert (EM1 : is_empty s1 = true \/ Nat.ltb (S c) n = false).
      { clear -B. destruct (is_empty s1); cbn [negb andb] in B; auto. }
      destruct EM1 as [EM1|LN].
      * eapply ST; [| |exact NB|exact H]; auto. unfold all_pieces. cbn [flat_map]. rewrite app_length. fold (all_pieces rest).
        assert (toks s1 = []) as -> by (destruct s1 as [[|] ? ?]; cbn in *; auto; discriminate). cbn. lia.
      * (* the last field: no further call *)
        apply Nat.ltb_ge in LN.
        assert (G : forall fu c' st' ins' r, n <= c' -> (forall b, r <> Bad b) -> forall st1 ins1,
          tuple_loop n (tuple_closure fs) fu c' st' ins' = (r, st1, ins1) -> st1 = st').
        { clear. induction fu as [|fu IH]; intros c' st' ins' r LC NB st1 ins1 H; cbn [tuple_loop] in H; [injection H as <- _ _; now destruct (NB Diverge)|].
          destruct ins' as [|s rest]; [now injection H|]. destruct (is_empty s).
          - destruct (tuple_loop n (tuple_closure fs) fu c' st' rest) as [[r0 st0] rest1] eqn:T. injection H as <- <- _. eapply IH; eauto.
          - apply Nat.leb_le in LC. rewrite LC in H. now injection H. }
        apply G in H; [|lia|exact NB]. injection H as -> -> ->. rewrite upd_other, upd_len by auto. auto.
Qed.
End L.

Lemma um_reports tm vt variant m sp ins : forall fs sl es index cur ex,
  Forall (fun f : field => wants_error vt f = true -> exists d, f_kind f = KItem d) fs -> length sl = length fs ->
  (forall b, unnamed_missing tm vt variant m sp ins fs sl es index cur ex <> Bad b) ->
  exists sl2 es2, unnamed_missing tm vt variant m sp ins fs sl es index cur ex = Ok (sl2, es2) /\
    (forall x, In x es -> In x es2) /\
    forall i f d, nth_error fs i = Some f -> nth_error sl i = Some FNone -> wants_error vt f = true -> f_kind f = KItem d ->
      no_missing_value d -> Forall (fun g : field => f_container g = true \/ (is_parsable g = true /\ exists d, f_kind g = KItem d)) (firstn i fs) ->
      In (mkErr (to_full_span m ins) ("missing required field " ++ missing_name_unnamed tm (index + (cur + length (filter is_parsable (firstn i fs))) + ex))) es2.
Proof.
  induction fs as [|f fs IH]; intros sl es index cur ex G L NB.
  { exists sl, es. cbn [unnamed_missing]. split; auto. split; auto. intros [|i] f d N; discriminate. }
  destruct sl as [|st sl]; [discriminate|]. injection L as L. inversion G as [|? ? GF G']; subst. cbn [unnamed_missing] in *.
  set (cur' := if f_container f then cur else if is_flatten f then cur else S cur) in *.
  set (ex' := if f_container f then ex else match f_kind f with KFlatU u => ex + fu_count0 u | _ => ex end) in *.
  assert (ST : forall st' es' index', index' = index ->
    (forall b, match unnamed_missing tm vt variant m sp ins fs sl es' index' cur' ex' with
     | Ok (sl2, es2) => Ok (st' :: sl2, es2) | Err e => Err e | Bad b => Bad b end <> Bad b) ->
    (forall x, In x es -> In x es') ->
    (forall d, st = FNone -> wants_error vt f = true -> f_kind f = KItem d -> no_missing_value d ->
       In (mkErr (to_full_span m ins) ("missing required field " ++ missing_name_unnamed tm (index + cur + ex))) es') ->
    exists sl2 es2, match unnamed_missing tm vt variant m sp ins fs sl es' index' cur' ex' with
     | Ok (sl2, es2) => Ok (st' :: sl2, es2) | Err e => Err e | Bad b => Bad b end = Ok (sl2, es2) /\
    (forall x, In x es -> In x es2) /\
    forall i g d, nth_error (f :: fs) i = Some g -> nth_error (st :: sl) i = Some FNone -> wants_error vt g = true -> f_kind g = KItem d ->
      no_missing_value d -> Forall (fun g : field => f_container g = true \/ (is_parsable g = true /\ exists d, f_kind g = KItem d)) (firstn i (f :: fs)) ->
      In (mkErr (to_full_span m ins) ("missing required field " ++ missing_name_unnamed tm (index + (cur + length (filter is_parsable (firstn i (f :: fs)))) + ex))) es2).
  { intros st' es' index' -> NB' SUB ME.
    assert (NB2 : forall b, unnamed_missing tm vt variant m sp ins fs sl es' index cur' ex' <> Bad b).
    { intros b E. rewrite E in NB'. now apply (NB' b). }
    destruct (IH sl es' index cur' ex' G' L NB2) as [sl2 [es2 [E [S2 R2]]]]. rewrite E. exists (st' :: sl2), es2. split; auto. split; auto.
    intros [|i] g d N1 N2 W K NM FA; cbn [nth_error] in N1, N2.
    - injection N1 as <-. injection N2 as ->. cbn [firstn filter length]. rewrite Nat.add_0_r. apply S2. eapply ME; eauto.
    - cbn [firstn] in FA. inversion FA as [|? ? FA1 FA2]; subst. specialize (R2 i g d N1 N2 W K NM FA2).
      assert (EQ : index + (cur' + length (filter is_parsable (firstn i fs))) + ex' = index + (cur + length (filter is_parsable (firstn (S i) (f :: fs)))) + ex).
      { cbn [firstn filter]. subst cur' ex'. destruct FA1 as [C|[P [d' K']]].
        - assert (is_parsable f = false) as -> by (unfold is_parsable; rewrite C; reflexivity). rewrite C. reflexivity.
        - assert (C : f_container f = false) by (unfold is_parsable in P; destruct (f_container f); auto). rewrite P, C, K'. cbn [length].
          assert (is_flatten f = false) as -> by (unfold is_flatten; rewrite K'; reflexivity). lia. }
      rewrite EQ in R2. exact R2. }
  destruct (wants_error vt f && fs_is_none st) eqn:W.
  - apply andb_true_iff in W as [W1 W2]. destruct (GF W1) as [d K]. rewrite K in *.
    destruct (d_missing d (missing_name_unnamed tm (index + cur + ex)) (to_full_span m ins)) as [w|e|b] eqn:D.
    + apply ST; auto. intros d' _ _ K' NM. assert (d' = d) by congruence. subst d'. rewrite NM in D. discriminate.
    + apply ST; auto; [intros x I; unfold push_syn; apply in_or_app; auto|]. intros d' _ _ K' NM. assert (d' = d) by congruence. subst d'. rewrite NM in D.
      injection D as <-. unfold push_syn. apply in_or_app. right. left. reflexivity.
    + now destruct (NB b).
  - apply ST; auto. intros d E W1. rewrite E, W1 in W. discriminate.
Qed.
Lemma sets_keep : forall (fs : list field) sl es x, In x es -> In x (snd (field_sets fs sl es)).
Proof.
  induction fs as [|f fs IH]; intros sl es x I; cbn [field_sets]; auto. destruct sl as [|st sl]; auto.
  assert (SF : set_field f st es = (fst (set_field f st []), es ++ snd (set_field f st []))) by apply run_transforms_es.
  rewrite SF. specialize (IH sl (es ++ snd (set_field f st [])) x (in_or_app _ _ _ (or_introl I))).
  destruct (field_sets fs sl (es ++ snd (set_field f st []))). exact IH.
Qed.
Lemma containers_nth tm : forall (fs : list field) sl i f, nth_error fs i = Some f -> f_container f = false ->
  nth_error (set_containers tm fs sl) i = nth_error sl i.
Proof.
  destruct tm as [|pn obj]; [now destruct fs|]. induction fs as [|g fs IH]; intros sl [|i] f N C; try discriminate; destruct sl as [|st sl]; auto; cbn in *.
  - injection N as ->. now rewrite C.
  - eapply IH; eauto.
Qed.
Lemma containers_len tm : forall (fs : list field) sl, length (set_containers tm fs sl) = length sl.
Proof. destruct tm; [now destruct fs|]. induction fs as [|g fs IH]; intros [|st sl]; cbn; auto. Qed.
Lemma check_in x es : In x es -> exists e, check es = Err e /\ In x (errs_of e).
Proof. destruct es as [|y es]; [intros []|]. intro I. exists (mkSyn y es). split; auto. Qed.
Lemma body_reports fs tm variant m sp index l i f d : plain fs ->
  Forall (fun f : field => wants_error false f = true -> exists d, f_kind f = KItem d) fs ->
  returns (fst (unnamed_body fs tm None variant m sp index l)) ->
  nth_error fs i = Some f -> is_parsable f = true -> f_default f = None -> f_kind f = KItem d -> no_missing_value d ->
  Forall (fun g : field => f_skip g = false) (firstn i fs) ->
  length (items_of l) <= length (filter is_parsable (firstn i fs)) ->
  exists e sp', fst (unnamed_body fs tm None variant m sp index l) = Err e /\
    In (mkErr sp' ("missing required field " ++ missing_name_unnamed tm (index + length (filter is_parsable (firstn i fs))))) (errs_of e).
Proof.
  intros PL WE RT N P FD K NM NS LE. unfold unnamed_body in *.
  assert (EX : existsb is_parsable fs = true) by (apply existsb_exists; exists f; split; auto; eapply nth_error_In; eauto).
  rewrite EX in *. unfold parse_tuple_struct in *.
  destruct (tuple_loop (length (filter is_parsable fs)) (tuple_closure fs) (S (length (filter is_parsable fs) + length l)) 0 (init_slots fs, [], index) l)
    as [[r [[sl es] idx]] ins1] eqn:T.
  assert (NB : forall b, r <> Bad b) by (intros b E; subst r; destruct RT).
  destruct (loop_slots fs PL (length (filter is_parsable fs)) (length (filter is_parsable (firstn i fs))) i) with (1 := fun c ri g Q1 Q2 => Nat.lt_neq _ _ (tf_before fs PL i 0 c ri g Q1 Q2)) (2 := T) as [Q1 [Q2 ->]]; auto.
  { unfold items_of in LE. rewrite map_length in LE. cbn. exact LE. }
  set (es1 := push_result es r) in *.
  assert (C : f_container f = false) by (unfold is_parsable in P; destruct (f_container f); auto).
  assert (SN : nth_error (set_containers tm fs sl) i = Some FNone).
  { rewrite (containers_nth tm fs sl i f N C), Q1. unfold init_slots. erewrite map_nth_error; eauto. }
  assert (SL : length (set_containers tm fs sl) = length fs) by (rewrite containers_len, Q2; unfold init_slots; apply map_length).
  assert (W : wants_error false f = true) by (unfold wants_error; rewrite C, FD; reflexivity).
  assert (FA : Forall (fun g : field => f_container g = true \/ (is_parsable g = true /\ exists d, f_kind g = KItem d)) (firstn i fs)).
  { apply Forall_forall. intros g I. rewrite Forall_forall in NS. specialize (NS g I).
    destruct (f_container g) eqn:CG; auto. right.
    assert (PG : is_parsable g = true) by (unfold is_parsable; rewrite CG, NS; reflexivity). split; auto.
    unfold plain in PL. rewrite Forall_forall in PL. destruct (PL g (in_firstn i fs g I) PG) as [d' [K' _]]. eauto. }
  assert (MAIN : returns (unnamed_post fs tm None variant m sp ins1 sl es1 index) ->
    exists e sp', unnamed_post fs tm None variant m sp ins1 sl es1 index = Err e /\
    In (mkErr sp' ("missing required field " ++ missing_name_unnamed tm (index + length (filter is_parsable (firstn i fs))))) (errs_of e)).
  { clear RT. intro RT. unfold unnamed_post in *. cbn [has_target] in *.
    destruct (um_reports tm false variant m sp ins1 fs (set_containers tm fs sl) es1 index 0 0 WE SL) as [sl2 [es2 [E [_ R]]]].
    { intros b E. rewrite E in RT. destruct RT. }
    specialize (R i f d N SN W K NM FA). rewrite Nat.add_0_l, Nat.add_0_r in R. rewrite E. cbn [rbind]. unfold post_finish.
    pose proof (sets_keep fs sl2 es2 _ R) as I. destruct (field_sets fs sl2 es2) as [sl3 es3]. cbn [snd] in I.
    destruct (check_in _ _ I) as [e [CE IE]]. rewrite CE. cbn [rbind]. exists e, (to_full_span m ins1). auto. }
  destruct r as [x|e|b]; [exact (MAIN RT)|exact (MAIN RT)|now destruct (NB b)].
Qed.
Lemma firstn_same (P : field -> field -> Prop) n : forall fs gs, Forall2 P fs gs -> Forall2 P (firstn n fs) (firstn n gs).
Proof. induction n as [|n IH]; intros fs gs H; cbn; [constructor|]. destruct H; constructor; auto. Qed.
Lemma s_fields_skip tm (s : sdef V) : Forall2 (fun f g : field => f_skip g = f_skip f) (s_raw s) (s_fields tm s).
Proof.
  assert (A : Forall2 (fun f g : field => f_skip g = f_skip f) (s_raw s) (s_fields_attr s)).
  { unfold s_fields_attr. destruct (has_target (s_default s)); induction (s_raw s) as [|a l IH]; constructor; auto.
    unfold skip_default. destruct (f_skip a) eqn:S, (f_default a); cbn; auto. }
  destruct tm; cbn [s_fields]; auto. unfold s_fields_meta.
  induction A as [|f g fs gs H A IH]; cbn; constructor; auto. rewrite <- H. unfold container_default. destruct (f_container g), (f_default g); auto.
Qed.
Lemma same_plain1 (fs gs : list field) : Forall2 same_field fs gs -> plain fs -> plain gs.
Proof.
  induction 1 as [|f g fs gs [E1 [E2 E3]] H IH]; intro P; [constructor|]. inversion P as [|? ? P1 P2]; subst. constructor; [|now apply IH].
  rewrite E1, E2. exact P1.
Qed.
Lemma l_missing_position : forall (s : sdef V) tm index p inputs i f d,
  run_from s tm index p -> tuple_struct s -> fine_items s -> s_default s = None ->
  nth_error (s_raw s) i = Some f -> is_parsable f = true -> f_default f = None -> f_kind f = KItem d -> no_missing_value d ->
  Forall (fun g => f_skip g = false) (firstn i (s_raw s)) ->
  length (items_of inputs) <= items_before s i ->
  exists e sp, fst (p inputs) = Err e /\ In (mkErr sp (missing_item_msg tm (index + items_before s i))) (errs_of e).
Proof.
  intros s tm index p inputs i f d R [AS [SH [NF LT]]] FI SD N P FD K NM NS LE.
  assert (PL : plain (s_raw s)).
  { unfold plain. apply Forall_forall. intros g I PG. unfold fine_items in FI. rewrite Forall_forall in FI. specialize (FI g I).
    assert (GF := proj1 AS). rewrite Forall_forall in GF. specialize (GF g I PG). rewrite SH in GF.
    assert (PF : pflat g = false).
    { unfold no_flat in NF. destruct (pflat g) eqn:E; auto. rewrite <- NF. symmetry. apply existsb_exists. eauto. }
    unfold pflat in PF. rewrite PG in PF. unfold is_flat in PF. destruct (f_kind g) as [d'| | | |]; try discriminate; try contradiction. eauto. }
  assert (BODY : exists m sp prefix v, forall l, p l = s_body s tm m sp prefix v index l).
  { destruct R as [m NT|m index|obj spans pn sp NT AB].
    - unfold struct_dict. rewrite NT. cbn [d_inline]. unfold s_inline. rewrite SH. unfold struct_fu. rewrite SH. cbn [fu_parse]. repeat eexists.
    - unfold struct_fu. rewrite SH. cbn [fu_parse]. repeat eexists.
    - destruct (about_eq _ _ _ _ AB) as [-> ->]. unfold struct_attr_body. rewrite NT. repeat eexists. }
  destruct BODY as [m [sp [prefix [v B]]]]. rewrite B.
  destruct (s_fields_eff tm s i f N) as [g [Ng [Dg [Kg [_ [Cg _]]]]]].
  pose proof (s_fields_same tm s) as SF.
  assert (PG : is_parsable g = true).
  { assert (X : forall j fs gs a b, Forall2 (@same_field V) fs gs -> nth_error fs j = Some a -> nth_error gs j = Some b -> is_parsable b = is_parsable a).
    { clear. intros j fs gs a b H. revert j. induction H as [|f g fs gs [_ [E _]] H IH]; intros [|j] N1 N2; try discriminate; cbn in *; [congruence|eauto]. }
    rewrite (X i _ _ f g SF N Ng). exact P. }
  assert (FG : f_default g = None).
  { rewrite Dg. unfold field_default. rewrite FD. unfold is_parsable in P. destruct (f_container f), (f_skip f); try discriminate. cbn. now destruct tm. }
  assert (CNT : length (filter is_parsable (firstn i (s_fields tm s))) = items_before s i).
  { unfold items_before. apply (same_count (V := V)). now apply firstn_same. }
  assert (WE : Forall (fun f : field => wants_error false f = true -> exists d, f_kind f = KItem d) (s_fields tm s)).
  { apply Forall_forall. intros h I W. apply In_nth_error in I as [j Nj].
    assert (X : exists f, nth_error (s_raw s) j = Some f).
    { destruct (nth_error (s_raw s) j) eqn:E; eauto. apply nth_error_None in E. rewrite <- (s_fields_len tm s) in E. apply nth_error_None in E. congruence. }
    destruct X as [f' NR]. destruct (s_fields_eff tm s j f' NR) as [g' [N' [FD' [K' [_ [C' _]]]]]]. assert (g' = h) by congruence. subst g'.
    assert (PF : is_parsable f' = true).
    { unfold wants_error in W. apply andb_true_iff in W as [W W3]. apply andb_true_iff in W as [W1 W2]. rewrite FD' in W2. rewrite C' in W1.
      unfold is_parsable. rewrite W1. cbn. destruct (f_skip f') eqn:FS; auto. unfold field_default in W2. destruct (f_default f'); [discriminate|]. rewrite FS, SD in W2. discriminate. }
    unfold plain in PL. rewrite Forall_forall in PL. destruct (PL f' (nth_error_In _ _ NR) PF) as [d' [KD _]]. exists d'. congruence. }
  assert (NS2 : Forall (fun g : field => f_skip g = false) (firstn i (s_fields tm s))).
  { pose proof (firstn_same _ i _ _ (s_fields_skip tm s)) as Y. revert NS. clear -Y. induction Y as [|a b fs gs H Y IH]; intro NS; constructor; inversion NS; subst; auto. congruence. }
  assert (WB : returns (fst (unnamed_body (s_fields tm s) tm None false m sp index inputs))).
  { apply (unnamed_body_good (s_fields tm s) tm None false m sp index).
    - rewrite <- SH. exact (same_good _ _ _ SF (proj1 AS)).
    - rewrite <- SD. apply s_fields_ok. }
  unfold s_body. rewrite SH, SD.
  destruct (body_reports (s_fields tm s) tm false m sp index inputs i g d (same_plain1 _ _ SF PL) WE WB Ng PG FG ltac:(congruence) NM NS2 ltac:(lia)) as [e [sp' [E1 E2]]].
  rewrite CNT in E2. exists e, sp'. split.
  - unfold p_and_thens. destruct (unnamed_body (s_fields tm s) tm None false m sp index inputs) as [r l]. cbn [fst] in E1. subst r. cbn [fst]. apply after_and_thens_err.
  - assert (missing_item_msg tm (index + items_before s i) = ("missing required field " ++ missing_name_unnamed tm (index + items_before s i))%string) as ->; auto.
    unfold missing_item_msg, missing_name_unnamed. destruct tm as [|[pn|] obj]; auto.
Qed.
End M.
