(** The number of a missing item of a tuple struct with flattened fields. *)
From Verif Require Import LemAppend LemTuple LemItems LemSplit LemTStruct LemWfD LemMore3.
From Verif Require Export LemBlock4.

Section S.
Context {env : Env} {V : Type}.
Local Notation field := (field V).
Lemma sizes_cons (f : field) l : sizes (f :: l) = size f + sizes l.
Proof. reflexivity. Qed.
(** the flattened fields that are tried without items *)
Definition tried_ (fs : list field) (sl : list (fstatus V)) : list field :=
  map fst (filter (fun p => match f_kind (fst p) with KFlatU _ => true | _ => false end && wants_error false (fst p) && fs_is_none (snd p)) (combine fs sl)).
Definition kinds (f : field) : Prop := (exists d, f_kind f = KItem d) \/ (exists u, f_kind f = KFlatU u /\ by_items u).

Lemma um_numbers tm variant m sp ins : forall fs sl es index cur ex,
  Forall (fun f : field => wants_error false f = true -> kinds f) fs -> length sl = length fs ->
  (forall b, unnamed_missing tm false variant m sp ins fs sl es index cur ex <> Bad b) ->
  exists sl2 es2, unnamed_missing tm false variant m sp ins fs sl es index cur ex = Ok (sl2, es2) /\
    (forall x, In x es -> In x es2) /\
    forall i f d, nth_error fs i = Some f -> nth_error sl i = Some FNone -> wants_error false f = true -> f_kind f = KItem d ->
      no_missing_value d ->
      In (mkErr (to_full_span m ins) ("missing required field " ++
        missing_name_unnamed tm (index + cur + ex + sizes (filter not_container (firstn i fs)) + sizes (tried_ (firstn i fs) (firstn i sl))))) es2.
Proof.
  induction fs as [|f fs IH]; intros sl es index cur ex G L NB.
  { exists sl, es. cbn [unnamed_missing]. split; auto. split; auto. intros [|i] f d N; discriminate. }
  destruct sl as [|st sl]; [discriminate|]. injection L as L. inversion G as [|? ? GF G']; subst. cbn [unnamed_missing] in *.
  set (cur' := if f_container f then cur else if is_flatten f then cur else S cur) in *.
  set (ex' := if f_container f then ex else match f_kind f with KFlatU u => ex + fu_count0 u | _ => ex end) in *.
  assert (CE : cur' + ex' = cur + ex + sizes (filter not_container [f])).
  { subst cur' ex'. cbn [filter]. unfold not_container, is_flatten. destruct (f_container f); cbn [negb]; [cbn; lia|]. rewrite sizes_cons. unfold size, fu_count0. destruct (f_kind f); cbn; lia. }
  assert (ST : forall st' es' index', index' = index + sizes (tried_ [f] [st]) ->
    (forall b, match unnamed_missing tm false variant m sp ins fs sl es' index' cur' ex' with
     | Ok (sl2, es2) => Ok (st' :: sl2, es2) | Err e => Err e | Bad b => Bad b end <> Bad b) ->
    (forall x, In x es -> In x es') ->
    (forall d, st = FNone -> wants_error false f = true -> f_kind f = KItem d -> no_missing_value d ->
       In (mkErr (to_full_span m ins) ("missing required field " ++ missing_name_unnamed tm (index + cur + ex))) es') ->
    exists sl2 es2, match unnamed_missing tm false variant m sp ins fs sl es' index' cur' ex' with
     | Ok (sl2, es2) => Ok (st' :: sl2, es2) | Err e => Err e | Bad b => Bad b end = Ok (sl2, es2) /\
    (forall x, In x es -> In x es2) /\
    forall i g d, nth_error (f :: fs) i = Some g -> nth_error (st :: sl) i = Some FNone -> wants_error false g = true -> f_kind g = KItem d ->
      no_missing_value d ->
      In (mkErr (to_full_span m ins) ("missing required field " ++
        missing_name_unnamed tm (index + cur + ex + sizes (filter not_container (firstn i (f :: fs))) + sizes (tried_ (firstn i (f :: fs)) (firstn i (st :: sl)))))) es2).
  { intros st' es' index' EI NB' SUB ME.
    assert (NB2 : forall b, unnamed_missing tm false variant m sp ins fs sl es' index' cur' ex' <> Bad b).
    { intros b E. rewrite E in NB'. now apply (NB' b). }
    destruct (IH sl es' index' cur' ex' G' L NB2) as [sl2 [es2 [E [S2 R2]]]]. rewrite E. exists (st' :: sl2), es2. split; auto. split; auto.
    intros [|i] g d N1 N2 W K NM; cbn [nth_error] in N1, N2.
    - injection N1 as <-. injection N2 as ->. cbn [firstn filter]. change (tried_ [] []) with (@nil field). change (sizes []) with 0. rewrite !Nat.add_0_r. apply S2. eapply ME; eauto.
    - specialize (R2 i g d N1 N2 W K NM).
      match goal with R : In (mkErr _ ("missing required field " ++ missing_name_unnamed tm ?a)) _ |- In (mkErr _ ("missing required field " ++ missing_name_unnamed tm ?b)) _ => replace b with a; [exact R|] end.
      subst index'. cbn [firstn].
      assert (E1 : sizes (filter not_container (f :: firstn i fs)) = sizes (filter not_container [f]) + sizes (filter not_container (firstn i fs))).
      { cbn [filter]. destruct (not_container f); auto. rewrite !sizes_cons. change (sizes []) with 0. lia. }
      assert (E2 : sizes (tried_ (f :: firstn i fs) (st :: firstn i sl)) = sizes (tried_ [f] [st]) + sizes (tried_ (firstn i fs) (firstn i sl))).
      { unfold tried_. cbn [combine filter]. destruct (_ && _ && _); auto. cbn [map]. rewrite !sizes_cons. change (sizes []) with 0. lia. }
      rewrite E1, E2. lia. }
  assert (NF : match f_kind f with KFlatU _ => true | _ => false end && wants_error false f && fs_is_none st = false -> index = index + sizes (tried_ [f] [st])).
  { intro X. unfold tried_. cbn [combine filter fst snd]. rewrite X. cbn. lia. }
  destruct (wants_error false f && fs_is_none st) eqn:W.
  - apply andb_true_iff in W as [W1 W2]. destruct (GF W1) as [[d K]|[u [K BI]]]; rewrite K in *.
    + specialize (NF eq_refl). destruct (d_missing d (missing_name_unnamed tm (index + cur + ex)) (to_full_span m ins)) as [w|e|b] eqn:D.
      * apply ST; auto. intros d' _ _ K' NM. assert (d' = d) by congruence. subst d'. rewrite NM in D. discriminate.
      * apply ST; auto; [intros x I; unfold push_syn; apply in_or_app; auto|]. intros d' _ _ K' NM. assert (d' = d) by congruence. subst d'. rewrite NM in D.
        injection D as <-. unfold push_syn. apply in_or_app. right. left. reflexivity.
      * now destruct (NB b).
    + assert (IX : index + fu_count0 u = index + sizes (tried_ [f] [st])).
      { unfold tried_. cbn [combine filter fst snd]. rewrite K, W1, W2. cbn [andb map fst]. rewrite sizes_cons. unfold size. rewrite K. unfold fu_count0. cbn. lia. }
      unfold parse_empty, parse2 in *. pose proof (proj2 (proj2 BI) index SCall) as Q. unfold root_stream in *.
      destruct (fu_parse u Unnamed index [mkStream [] SCall None]) as [[w|e|b] l1]; cbn [snd] in Q; subst l1; cbn [hd cell toks] in *.
      * apply ST; auto. intros d' E. congruence.
      * apply ST; auto; [intros x I; unfold push_syn; apply in_or_app; auto|]. intros d' E. congruence.
      * now destruct (NB b).
  - apply ST; auto.
    + apply NF. rewrite <- andb_assoc, W. apply andb_false_r.
    + intros d E W1. rewrite E, W1 in W. discriminate.
Qed.

Section B.
Variable fs : list field.
Hypothesis SL : slotted fs.
Local Notation L := (tuple_fields fs 0).
Lemma b_index : forall ws c st, c + length ws <= length L ->
  snd (upds (bupd fs) c ws st) = snd st + (if existsb pflat fs then sizes (map snd (firstn (length ws) (skipn c L))) else 0).
Proof.
  induction ws as [|w ws IH]; intros c st LE; cbn [upds length] in *.
  - cbn. destruct (existsb pflat fs); lia.
  - rewrite IH by lia. unfold bupd. destruct (nth_error L c) as [[ri f]|] eqn:E.
    2: { apply nth_error_None in E. lia. }
    cbn [snd]. unfold bbump. rewrite (skipn_nth _ _ _ E). cbn [firstn map snd]. rewrite sizes_cons.
    destruct (existsb pflat fs); [|lia].
    assert (SZ : match f_kind f with KFlatU u => fu_count0 u | _ => 1 end = size f).
    { destruct (b_slot fs SL _ _ _ E) as [[d [K _]]|[u [K _]]]; unfold size, fu_count0; now rewrite K. }
    rewrite SZ. lia.
Qed.
End B.
Lemma got_place (fs : list field) : slotted fs -> forall k ws, length ws <= length (filter is_parsable fs) ->
  got fs (place fs ws) = map snd (firstn (length ws) (tuple_fields fs k)).
Proof.
  induction 1 as [|f fs H P IH]; intros k ws LE.
  - destruct ws; [reflexivity|cbn in LE; lia].
  - cbn [place filter] in *. destruct (is_parsable f) eqn:PF.
    + rewrite (tf_take2 f fs k PF (H eq_refl)). destruct ws as [|w ws].
      * specialize (IH (S k) [] ltac:(cbn; lia)). unfold got in *. cbn [combine filter snd has_some map length firstn] in *. exact IH.
      * cbn [length firstn map snd] in *. rewrite <- (IH (S k) ws) by lia. reflexivity.
    + rewrite (tf_skip f fs k PF). rewrite <- (IH (S k) ws LE). reflexivity.
Qed.
Lemma lch_len more (l : list (nat * field)) segs (ws : list V) : lch more l segs ws -> length ws <= length l.
Proof. induction 1; cbn; lia. Qed.
Lemma pflat_flattened (fs : list field) : slotted fs -> existsb pflat fs = existsb flattened fs.
Proof.
  induction 1 as [|f fs H P IH]; auto. cbn [existsb]. rewrite IH. f_equal. unfold pflat, flattened, is_flat.
  destruct (is_parsable f); auto. cbn. destruct (H eq_refl) as [[d [K _]]|[u [K _]]]; now rewrite K.
Qed.

Lemma body_number fs tm variant m sp index ts sc c segs os i f d : slotted fs ->
  Forall (fun f : field => wants_error false f = true -> kinds f) fs ->
  returns (fst (unnamed_body fs tm None variant m sp index [mkStream ts sc c])) ->
  listed segs ts -> ~ In [] segs -> spread false fs segs os ->
  nth_error fs i = Some f -> nth_error os i = Some None -> is_parsable f = true -> f_default f = None -> f_kind f = KItem d -> no_missing_value d ->
  exists e sp', fst (unnamed_body fs tm None variant m sp index [mkStream ts sc c]) = Err e /\
    In (mkErr sp' ("missing required field " ++ missing_name_unnamed tm
      (index + (if existsb flattened fs then sizes (got fs os) else 0) + sizes (filter not_container (firstn i fs)) +
       sizes (tried_ (firstn i fs) (firstn i (set_containers tm fs (map o2s os))))))) (errs_of e).
Proof.
  intros SL WE RT LS NI SP N NO P FD K NM. unfold unnamed_body in *.
  assert (EX : existsb is_parsable fs = true) by (apply existsb_exists; exists f; split; auto; eapply nth_error_In; eauto).
  rewrite EX in *. destruct (listed_whole segs ts LS NI) as [tl B].
  apply (spread_lch _ fs segs _ SL 0) in SP as [ws [CH ->]]. pose proof (lch_len _ _ _ _ CH) as LW.
  apply (b_chain fs SL false 0 segs ws (Nat.le_0_l _)) in CH.
  destruct (loop_backward (length (filter is_parsable fs)) (tuple_closure fs) (bT fs) (bupd fs) bclean binv (b_inv fs) (b_cl fs) (b_bw fs SL) false 0 segs ws CH
     (S (length (filter is_parsable fs) + 1)) (init_slots fs, [], index) ts tl sc c I (or_intror eq_refl) B eq_refl ltac:(lia) ltac:(lia)) as [s' [E [U Z]]].
  unfold parse_tuple_struct in *. cbn [length] in *. rewrite E in *.
  pose proof (b_index fs SL ws 0 (init_slots fs, [], index) ltac:(cbn; lia)) as IX.
  destruct (b_upds fs ws 0 (init_slots fs, [], index)) as [i' EU2]. rewrite EU2 in *. cbn [fst snd push_result] in *. rewrite b_place in * by auto.
  rewrite (tf_len fs SL) in LW. cbn [skipn] in IX. rewrite <- (got_place fs SL 0 ws LW), (pflat_flattened fs SL) in IX. subst i'.
  assert (C : f_container f = false) by (unfold is_parsable in P; destruct (f_container f); auto).
  set (sl := map o2s (place fs ws)) in *.
  assert (SN : nth_error (set_containers tm fs sl) i = Some FNone).
  { rewrite (containers_nth tm fs sl i f N C). unfold sl. erewrite map_nth_error by eauto. reflexivity. }
  assert (SLN : length (set_containers tm fs sl) = length fs) by (rewrite containers_len; unfold sl; rewrite map_length; apply place_len).
  assert (W : wants_error false f = true) by (unfold wants_error; rewrite C, FD; reflexivity).
  unfold unnamed_post in *. cbn [has_target] in *.
  destruct (um_numbers tm variant m sp [s'] fs (set_containers tm fs sl) [] (index + (if existsb flattened fs then sizes (got fs (place fs ws)) else 0)) 0 0 WE SLN) as [sl2 [es2 [E2 [_ R]]]].
  { intros b X. rewrite X in RT. destruct RT. }
  specialize (R i f d N SN W K NM). rewrite !Nat.add_0_r in R. rewrite E2. cbn [rbind]. unfold post_finish.
  pose proof (sets_keep fs sl2 es2 _ R) as I2. destruct (field_sets fs sl2 es2) as [sl3 es3]. cbn [snd] in I2.
  destruct (check_in _ _ I2) as [e [CE IE]]. rewrite CE. cbn [rbind]. exists e, (to_full_span m [s']). auto.
Qed.

(** *** the struct's own fields and those of its parser *)
Lemma sizes_eq (P : field -> field -> Prop) (p q : field -> bool) : forall fs gs,
  (forall f g, P f g -> size g = size f /\ q g = p f) -> Forall2 P fs gs -> sizes (filter q gs) = sizes (filter p fs).
Proof.
  intros fs gs H. induction 1 as [|f g fs gs X Y IH]; auto. destruct (H f g X) as [E1 E2]. cbn [filter]. rewrite E2.
  destruct (p f); auto. rewrite !sizes_cons, IH, E1. reflexivity.
Qed.
Definition eff_of (s : sdef V) (tm : tmode V) (f g : field) : Prop :=
  f_default g = field_default s tm f /\ f_kind g = f_kind f /\ f_container g = f_container f /\ is_parsable g = is_parsable f.
Lemma eff_all (s : sdef V) tm : Forall2 (eff_of s tm) (s_raw s) (s_fields tm s).
Proof.
  assert (L := s_fields_len tm s). assert (E := s_fields_eff tm s). revert L E. unfold eff_of. generalize (field_default s tm) as fd. intro fd. generalize (s_fields tm s) (s_raw s). clear.
  intros gs fs. revert gs. induction fs as [|f fs IH]; intros [|g gs] L E; try discriminate; constructor.
  - destruct (E 0 f eq_refl) as [g' [N [D [K [_ [C [P1 [P2 P3]]]]]]]]. cbn in N. injection N as <-. repeat split; auto.
    unfold pitem, pflat, is_parsable, is_flat in *. rewrite K in *. destruct (f_kind f); cbn in *; rewrite ?andb_true_r, ?andb_false_r in *; congruence.
  - apply IH; [now injection L|]. intros i f' N. exact (E (S i) f' N).
Qed.
Lemma got_eff (s : sdef V) tm : forall fs gs os, Forall2 (eff_of s tm) fs gs -> sizes (got gs os) = sizes (got fs os).
Proof.
  intros fs gs os H. revert os. induction H as [|f g fs gs [_ [K _]] H IH]; intros [|o os]; auto. unfold got in *. cbn [combine filter snd].
  destruct (has_some o); cbn [map fst]; rewrite ?sizes_cons, ?IH; auto. f_equal. unfold size. now rewrite K.
Qed.
Lemma flattened_eff (s : sdef V) tm fs gs : Forall2 (eff_of s tm) fs gs -> existsb flattened gs = existsb flattened fs.
Proof. induction 1 as [|f g fs gs [_ [K [_ P]]] H IH]; auto. cbn [existsb]. rewrite IH. unfold flattened. now rewrite K, P. Qed.
Lemma tried_eff (s : sdef V) tm : s_default s = None -> forall fs gs os i, Forall2 (eff_of s tm) fs gs ->
  sizes (tried_ (firstn i gs) (firstn i (set_containers tm gs (map o2s os)))) = sizes (got_none (firstn i fs) (firstn i os)).
Proof.
  intros SD fs gs os i H. revert os i. induction H as [|f g fs gs [D [K [C P]]] H IH]; intros os i.
  { rewrite !firstn_nil. reflexivity. }
  destruct i as [|i]; [reflexivity|]. destruct os as [|o os].
  { destruct tm; reflexivity. }
  assert (E : exists st, set_containers tm (g :: gs) (map o2s (o :: os)) = st :: set_containers tm gs (map o2s os) /\ (f_container f = false -> st = o2s o)).
  { destruct tm as [|pn obj]; cbn [set_containers map]; [destruct gs; eexists; split; eauto|]. rewrite C. destruct (f_container f); eexists; split; eauto; discriminate. }
  destruct E as [st [-> ES]]. cbn [firstn]. specialize (IH os i). unfold tried_, got_none in *. cbn [combine filter fst snd]. rewrite K.
  assert (Q : match f_kind f with KFlatU _ => true | _ => false end && wants_error false g && fs_is_none st
    = flattened f && negb (has_some (f_default f)) && negb (has_some o)).
  { unfold wants_error, flattened. rewrite D, C. destruct (f_container f) eqn:FC; [unfold is_parsable; rewrite FC; cbn; now rewrite andb_false_r|]. rewrite (ES eq_refl).
    unfold is_parsable. rewrite FC. cbn [negb andb]. unfold field_default. rewrite SD, FC.
    destruct (f_kind f), (f_skip f), (f_default f), o, tm; reflexivity. }
  rewrite Q. assert (ZE : size g = size f) by (unfold size; now rewrite K).
  destruct (flattened f && negb (has_some (f_default f)) && negb (has_some o)); cbn [map fst]; rewrite ?sizes_cons, IH, ?ZE; reflexivity.
Qed.
Lemma l_missing_number : forall (s : sdef V) tm index p st segs os i f d,
  run_from s tm index p -> any_tuple_struct s -> fine_items s -> flat_items_ok s -> s_default s = None ->
  listed segs (toks st) -> ~ In [] segs -> spread false (s_raw s) segs os ->
  nth_error (s_raw s) i = Some f -> nth_error os i = Some None ->
  is_parsable f = true -> f_default f = None -> f_kind f = KItem d -> no_missing_value d ->
  exists e sp, fst (p [st]) = Err e /\ In (mkErr sp (missing_item_msg tm (index + said_number (s_raw s) os i))) (errs_of e).
Proof.
  intros s tm index p st segs os i f d R TS FI BI SD LS NI SP N NO P FD K NM. pose proof TS as [AS [SH LT]].
  pose proof (raw_slotted s TS FI BI) as RS. pose proof (eff_all s tm) as EA.
  assert (BODY : exists m sp prefix v, forall l, p l = s_body s tm m sp prefix v index l).
  { destruct R as [m NT|m index|obj spans pn sp NT AB].
    - unfold struct_dict. rewrite NT. cbn [d_inline]. unfold s_inline. rewrite SH. unfold struct_fu. rewrite SH. cbn [fu_parse]. repeat eexists.
    - unfold struct_fu. rewrite SH. cbn [fu_parse]. repeat eexists.
    - destruct (about_eq _ _ _ _ AB) as [-> ->]. unfold struct_attr_body. rewrite NT. repeat eexists. }
  destruct BODY as [m [sp [prefix [v B]]]]. rewrite B.
  destruct (s_fields_eff tm s i f N) as [g [Ng [Dg [Kg [_ [Cg _]]]]]].
  assert (E2 : Forall2 (fun f g : field => is_parsable g = is_parsable f /\ f_kind g = f_kind f) (s_raw s) (s_fields tm s)).
  { clear -EA. induction EA as [|a b l l' [_ [K1 [_ P1]]] H IH]; constructor; auto. }
  assert (PG : is_parsable g = true).
  { assert (X : forall j fs gs a b, Forall2 (eff_of s tm) fs gs -> nth_error fs j = Some a -> nth_error gs j = Some b -> is_parsable b = is_parsable a).
    { clear. intros j fs gs a b H. revert j. induction H as [|f g fs gs [_ [_ [_ E]]] H IH]; intros [|j] N1 N2; try discriminate; cbn in *; [congruence|eauto]. }
    rewrite (X i _ _ f g EA N Ng). exact P. }
  assert (FG : f_default g = None).
  { rewrite Dg. unfold field_default. rewrite FD. unfold is_parsable in P. destruct (f_container f), (f_skip f); try discriminate. cbn. now destruct tm. }
  assert (SLT := proj1 (same_slotted _ _ E2) RS).
  assert (WE : Forall (fun f : field => wants_error false f = true -> kinds f) (s_fields tm s)).
  { clear -EA RS SD. induction EA as [|a b l l' [D1 [K1 [C1 P1]]] H IH]; constructor; inversion RS as [|? ? R1 R2]; subst; auto. intro W.
    assert (PF : is_parsable a = true).
    { unfold wants_error in W. apply andb_true_iff in W as [W W3]. apply andb_true_iff in W as [W1 W2]. rewrite D1 in W2. rewrite C1 in W1.
      unfold is_parsable. rewrite W1. cbn. destruct (f_skip a) eqn:FS; auto. unfold field_default in W2. destruct (f_default a); [discriminate|]. rewrite FS, SD in W2. discriminate. }
    destruct (R1 PF) as [[d [KD _]]|[u [KU BU]]]; [left; exists d; congruence|right; exists u; split; auto; congruence]. }
  destruct st as [ts sc c]. cbn [toks] in LS.
  assert (WB : returns (fst (unnamed_body (s_fields tm s) tm None false m sp index [mkStream ts sc c]))).
  { apply (unnamed_body_good (s_fields tm s) tm None false m sp index).
    - rewrite <- SH. exact (same_good _ _ _ (s_fields_same tm s) (proj1 AS)).
    - rewrite <- SD. apply s_fields_ok. }
  apply (proj2 (same_slotted _ _ E2)) in SP.
  destruct (body_number (s_fields tm s) tm false m sp index ts sc c segs os i g d SLT WE WB LS NI SP Ng NO PG FG ltac:(congruence) NM) as [e [sp' [F1 F2]]].
  rewrite (tried_eff s tm SD _ _ os i EA), (flattened_eff s tm _ _ EA), (got_eff s tm _ _ os EA) in F2.
  rewrite (sizes_eq (eff_of s tm) not_container not_container (firstn i (s_raw s)) (firstn i (s_fields tm s))) in F2.
  2: { intros a b [_ [K1 [C1 _]]]. unfold size, not_container. now rewrite K1, C1. }
  2: { now apply firstn_same. }
  unfold s_body. rewrite SH, SD. exists e, sp'. split.
  - unfold p_and_thens. destruct (unnamed_body (s_fields tm s) tm None false m sp index [mkStream ts sc c]) as [r l]. cbn [fst] in F1. subst r. cbn [fst]. apply after_and_thens_err.
  - unfold said_number. rewrite !Nat.add_assoc.
    match goal with |- In (mkErr _ ?a) _ => match type of F2 with In (mkErr _ ?b) _ => replace a with b; [exact F2|] end end.
    unfold missing_item_msg, missing_name_unnamed. destruct tm as [|[pn|] obj]; auto.
Qed.
End S.
