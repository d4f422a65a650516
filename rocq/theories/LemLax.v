(** Proofs for PropsLax.v: making a required field optional *)
From Verif Require Import LemWf LemWfD LemWfE LemNamed LemSchema2 LemEnum2 LemEnum5 LemRun LemStructP LemPerm LemOwn LemAdvert.
From Verif Require Export SpecLax LemAllow2.
Local Open Scope string_scope.
Local Open Scope list_scope.

Section L.
Context {env : Env} {V : Type}.
Notation edef := (edef V).
Notation vdef := (vdef V).
Notation sdef := (sdef V).
Notation slots := (list (fstatus V)).

Section F.
Variables (f : field V) (d : V) (b : list (field V)).
Hypothesis RF : must_give f.
Notation f' := (defaulting f d).
Lemma lax_parts : f_skip f = false /\ f_container f = false /\ pflat f = false /\ pflat f' = false /\
  exists t, f_kind f = KItem t /\ forall n sp, exists e, d_missing t n sp = Err e.
Proof.
  destruct RF as [P [D M]]. pose proof P as P0. apply pitem_spec in P as [_ [_ [t K]]]. unfold pitem, is_parsable in P0.
  destruct (f_skip f) eqn:S; [destruct (f_container f); discriminate|]. destruct (f_container f) eqn:C; [discriminate|].
  assert (PF : pflat f = false) by (unfold pflat, is_flat; rewrite K; apply andb_false_r).
  split; auto. split; auto. split; [exact PF|]. split; [exact PF|]. exists t. split; auto.
Qed.
Lemma lax_find k : forall a i, match find_field k (a ++ f :: b) i with
  | Some (j, g) => exists g', find_field k (a ++ f' :: b) i = Some (j, g') /\ first_name g' = first_name g /\ item_named g' = item_named g
  | None => find_field k (a ++ f' :: b) i = None
  end.
Proof.
  induction a as [|g a IH]; intro i; cbn [app find_field].
  - change (pitem f' && mem_str k (f_names f')) with (pitem f && mem_str k (f_names f)). destruct (pitem f && mem_str k (f_names f)); [eauto|].
    destruct (find_field k b (S i)) as [[j g]|]; eauto.
  - destruct (pitem g && mem_str k (f_names g)); [eauto|apply IH].
Qed.
Lemma lax_closure a u al prefix v k sp q s :
  named_closure (a ++ f' :: b) u al prefix v k sp q s = named_closure (a ++ f :: b) u al prefix v k sp q s.
Proof.
  destruct q as [sl es]. unfold named_closure. destruct (strip_prefix prefix k) as [n|]; [|reflexivity].
  pose proof (lax_find n a 0) as F. destruct (find_field n (a ++ f :: b) 0) as [[j g]|]; [destruct F as [g' [-> [-> ->]]]|rewrite F]; reflexivity.
Qed.
Lemma lax_any a : existsb pflat (a ++ f' :: b) = existsb pflat (a ++ f :: b).
Proof. rewrite !existsb_app. cbn [existsb]. destruct lax_parts as [_ [_ [-> [-> _]]]]. reflexivity. Qed.
Lemma lax_flat prefix sp al : forall a (sl : slots) es ins,
  flat_fields prefix sp al (a ++ f' :: b) sl es ins = flat_fields prefix sp al (a ++ f :: b) sl es ins.
Proof.
  destruct lax_parts as [_ [_ [P1 [P2 _]]]].
  induction a as [|g a IH]; intros sl es ins; cbn [app flat_fields].
  - destruct sl; auto.
  - destruct sl as [|st sl]; auto. rewrite lax_any. destruct (pflat g); [|now rewrite IH].
    destruct (flat_call _ _ _ _ _) as [[v|e|z] ins1]; auto; now rewrite IH.
Qed.
Lemma lax_containers tm : forall a (sl : slots), set_containers tm (a ++ f' :: b) sl = set_containers tm (a ++ f :: b) sl.
Proof.
  destruct tm as [|p obj]; [destruct a; auto|]. induction a as [|g a IH]; intros [|st sl]; cbn [app set_containers]; auto. now rewrite IH.
Qed.
Lemma lax_missing tm prefix sp : forall a (sl : slots) es sl2, named_missing tm false prefix sp (a ++ f :: b) sl es = Ok (sl2, []) ->
  named_missing tm false prefix sp (a ++ f' :: b) sl es = Ok (sl2, []) /\ nth_error sl2 (length a) <> Some FNone.
Proof.
  destruct lax_parts as [_ [C [_ [_ [t [K M]]]]]]. destruct RF as [_ [D _]].
  induction a as [|g a IH]; intros sl es sl2; cbn [app named_missing length nth_error].
  - destruct sl as [|st sl]; [intro H; injection H as <- <-; split; [reflexivity|discriminate]|]. cbn [f_kind defaulting]. rewrite K.
    change (wants_error false f') with (negb (f_container f) && false && negb false). unfold wants_error. rewrite C, D. cbn [negb andb].
    destruct st as [| |v]; cbn [fs_is_none].
    + destruct (M (missing_name_named tm prefix f) sp) as [e ->]. destruct (named_missing tm false prefix sp b sl (push_syn es e)) as [[sl1 es1]|x|x] eqn:E; try discriminate.
      intro H. injection H as _ ->. exfalso. apply named_missing_grow in E. apply grows_nil in E; [|reflexivity]. apply push_syn_nil in E. contradiction.
    + intro H. split; [exact H|]. destruct (named_missing tm false prefix sp b sl es) as [[sl1 es1]|x|x]; try discriminate. injection H as <- _. discriminate.
    + intro H. split; [exact H|]. destruct (named_missing tm false prefix sp b sl es) as [[sl1 es1]|x|x]; try discriminate. injection H as <- _. discriminate.
  - destruct sl as [|st sl]; [intro H; injection H as <- <-; split; [reflexivity|discriminate]|].
    assert (N : forall st' es0, match named_missing tm false prefix sp (a ++ f :: b) sl es0 with Ok (sl2, es2) => Ok (st' :: sl2, es2) | Err e => Err e | Bad z => Bad z end = Ok (sl2, []) ->
      match named_missing tm false prefix sp (a ++ f' :: b) sl es0 with Ok (sl2, es2) => Ok (st' :: sl2, es2) | Err e => Err e | Bad z => Bad z end = Ok (sl2, []) /\
      match sl2 with [] => None | _ :: l => nth_error l (length a) end <> Some FNone).
    { intros st' es0. destruct (named_missing tm false prefix sp (a ++ f :: b) sl es0) as [[sl1 es1]|x|x] eqn:E; try discriminate. intro H. injection H as <- ->.
      apply IH in E as [-> E]. auto. }
    destruct (f_kind g); try apply N. destruct (wants_error false g && fs_is_none st); [|apply N].
    destruct (d_missing _ _ _); [apply N|apply N|discriminate].
Qed.
Lemma lax_sets : forall a (sl : slots) es, nth_error sl (length a) <> Some FNone -> field_sets (a ++ f' :: b) sl es = field_sets (a ++ f :: b) sl es.
Proof.
  destruct RF as [_ [D _]]. induction a as [|g a IH]; intros [|st sl] es H; cbn [app field_sets]; auto.
  - unfold set_field. cbn [f_default f_transforms defaulting]. rewrite D. destruct st; auto. now destruct H.
  - cbn [length nth_error] in H. destruct (set_field g st es) as [st1 es1]. now rewrite IH.
Qed.
Lemma lax_body a tm u al sp prefix v :
  below (named_body (a ++ f :: b) tm None u al sp prefix v) (named_body (a ++ f' :: b) tm None u al sp prefix v).
Proof.
  intros ins vs ins'. unfold named_body. rewrite lax_any. set (src := if existsb pflat (a ++ f :: b) then fork_inputs ins else ins).
  assert (I : init_slots (a ++ f' :: b) = init_slots (a ++ f :: b)) by (unfold init_slots; rewrite !map_app; reflexivity). rewrite I.
  pose proof (struct_agree (fun q : slots * errors => True) (named_closure (a ++ f :: b) u al prefix v) (named_closure (a ++ f' :: b) u al prefix v)
    (fun _ _ _ _ _ _ _ _ _ => Logic.I) (fun k sp q s r q' s' H _ _ => eq_trans (lax_closure a u al prefix v k sp q s) H) src (init_slots (a ++ f :: b), [])) as A.
  destruct (parse_struct (named_closure (a ++ f :: b) u al prefix v) (init_slots (a ++ f :: b), []) src) as [[r [sl1 es1]] src1]. cbn [fst snd] in A.
  assert (P : forall es i, named_post (a ++ f :: b) tm None al sp prefix sl1 es i = (Ok vs, ins') -> named_post (a ++ f' :: b) tm None al sp prefix sl1 es i = (Ok vs, ins')).
  { intros es i. unfold named_post. rewrite lax_flat. destruct (flat_fields prefix sp al (a ++ f :: b) sl1 es i) as [[[sl2 es2]|x|x] ins1]; try discriminate.
    rewrite lax_containers. cbn [has_target]. destruct (named_missing tm false prefix sp (a ++ f :: b) (set_containers tm (a ++ f :: b) sl2) es2) as [[sl3 es3]|x|x] eqn:M; try discriminate.
    cbn [rbind]. intro H. assert (es3 = []) as ->.
    { unfold post_finish in H. pose proof (field_sets_grow (a ++ f :: b) sl3 es3) as G. destruct (field_sets (a ++ f :: b) sl3 es3) as [sl4 es4]. cbn [snd] in G.
      destruct es4; [|discriminate]. eapply grows_nil; eauto. }
    apply lax_missing in M as [-> N]. cbn [rbind]. unfold post_finish in *. now rewrite lax_sets. }
  destruct r as [x|x|x]; [| |discriminate]; rewrite A; auto; exact Logic.I.
Qed.
End F.

Lemma lax_same (f : field V) d : must_give f -> skip_default f = f /\ skip_default (defaulting f d) = defaulting f d /\ container_default f = f /\ container_default (defaulting f d) = defaulting f d.
Proof.
  intro RF. destruct (lax_parts f d RF) as [S [C _]]. unfold skip_default, container_default. cbn [f_default defaulting]. destruct (f_default f); rewrite ?S, ?C; auto.
Qed.
Lemma l_lax (s s' : sdef) f d tm prefix v sp inputs ws r' :
  parse_run s tm prefix v sp inputs (Ok ws) -> parse_run s' tm prefix v sp inputs r' ->
  relaxed s f d s' -> r' = Ok ws.
Proof.
  intros R1 R2 [[a [b [E1 E2]]] RF SH SH' D D' U T]. destruct (LemRun.run_body _ _ _ _ _ _ _ R1) as [m1 X]; [exact SH|]. destruct (LemRun.run_body _ _ _ _ _ _ _ R2) as [m2 ->]; [exact SH'|].
  unfold s_body, p_and_thens in *. rewrite SH, SH', D, D', U, T in *. symmetry in X.
  destruct (lax_same f d RF) as [S1 [S2 [S3 S4]]].
  set (q := fun g : field V => match tm with TMeta => container_default (skip_default g) | TAttrs _ _ => skip_default g end).
  assert (FE : forall z : sdef, s_default z = None -> s_fields tm z = map q (s_raw z)).
  { intros z Z. unfold s_fields, s_fields_meta, s_fields_attr, q. rewrite Z. cbn [has_target]. destruct tm; rewrite ?map_map; auto. }
  assert (Q1 : q f = f) by (unfold q; destruct tm; now rewrite S1, ?S3).
  assert (Q2 : q (defaulting f d) = defaulting f d) by (unfold q; destruct tm; now rewrite S2, ?S4).
  rewrite (FE s D) in X. rewrite (FE s' D'). rewrite E1, map_app in X. rewrite E2, map_app. cbn [map] in *. rewrite Q1 in X. rewrite Q2.
  assert (NM : s_names s' = s_names s).
  { unfold s_names, fields_names. rewrite E1, E2, !flat_map_app. reflexivity. }
  rewrite NM. pose proof (lax_body f d (map q b) RF (map q a) tm (s_unknown_ok s) (s_names s) sp prefix v inputs) as B.
  destruct (named_body (map q a ++ f :: map q b) tm None (s_unknown_ok s) (s_names s) sp prefix v inputs) as [[x|x|x] ins1];
    [rewrite (B _ _ eq_refl); exact X| |]; exfalso; unfold after_and_thens in X; destruct (s_and_thens s); discriminate X.
Qed.
Lemma lax_variant (v : vdef) f d fa fb : v_raw v = fa ++ f :: fb -> v_shape v = ShNamed -> v_flatten v = false -> v_transparent v = false -> must_give f ->
  replaces v (v_with_raw v (fa ++ defaulting f d :: fb)).
Proof.
  intros R SH VF VT RF. constructor; auto; [rewrite VT; discriminate|]. intros tm prefix sp.
  destruct (lax_same f d RF) as [S1 [S2 _]]. set (u := v_with_raw v (fa ++ defaulting f d :: fb)).
  assert (F1 : v_fields v = map skip_default fa ++ f :: map skip_default fb) by (unfold v_fields; rewrite R, map_app; cbn [map]; now rewrite S1).
  assert (F2 : v_fields u = map skip_default fa ++ defaulting f d :: map skip_default fb) by (unfold v_fields, u; cbn [v_raw v_with_raw]; rewrite map_app; cbn [map]; now rewrite S2).
  assert (AL : v_allowed u = v_allowed v).
  { unfold v_allowed, fields_names. rewrite F1, F2, !flat_map_app. reflexivity. }
  assert (AA : v_accepts_all u = v_accepts_all v).
  { unfold v_accepts_all, fields_accepts_all. rewrite F1, F2, !existsb_app. reflexivity. }
  assert (IB : forall m, below (v_inline v tm prefix sp m) (v_inline u tm prefix sp m)).
  { intro m. unfold v_inline. change (v_shape u) with (v_shape v). change (v_unknown_ok u) with (v_unknown_ok v). rewrite SH, AL, AA, F1, F2. now apply lax_body. }
  unfold v_named. apply below_spellings.
  - intro m. unfold v_item. change (v_shape u) with (v_shape v). rewrite SH. apply below_delimited, below_single, IB.
  - exact IB.
  - intros _ x. unfold v_flag. change (v_shape u) with (v_shape v). rewrite SH. apply below_empty, below_single, IB.
Qed.
Lemma l_lax_enum (e e' : edef) f d tm prefix v sp inputs x r' :
  enum_run e tm prefix v sp inputs (Ok x) -> enum_run e' tm prefix v sp inputs r' ->
  relaxed_in e f d e' -> r' = Ok x.
Proof.
  intros R1 R2 [[a [w [b [fa [fb [V1 [V2 [V3 [V4 [V5 V6]]]]]]]]]] RF D T U]. rewrite (LemEnum5.run_body _ _ _ _ _ _ _ R2). apply LemEnum5.run_body in R1.
  pose proof (lax_variant w f d fa fb V3 V4 V5 V6 RF) as RE.
  rewrite (names_allowing e e' a b w _ V1 RE V2). pose proof (enum_below e e' a b w _ V1 RE V2 D T U tm (e_names e) sp prefix v inputs) as B.
  destruct (enum_body e tm (e_names e) sp prefix v inputs) as [r ins1]. cbn [fst] in R1. subst r. now rewrite (B _ _ eq_refl).
Qed.

(** *** Inputs that give the field *)
Section G.
Variables (f : field V) (d : V) (a b : list (field V)) (prefix : string) (c : bool) (al : list string) (inputs : list stream).
Hypothesis RF : must_give f.
Notation f' := (defaulting f d).
Let R := mkReader (a ++ f :: b) prefix c al.
Let R' := mkReader (a ++ f' :: b) prefix c al.
Hypothesis GV : existsb (owns R (length a)) (items_of inputs) = true.
Lemma lax_owner k : match owner_in R k with
  | Some (j, g) => exists g', owner_in R' k = Some (j, g') /\ first_name g' = first_name g /\ item_named g' = item_named g
  | None => owner_in R' k = None
  end.
Proof. unfold owner_in. cbn [R R' r_prefix r_fields]. destruct (strip_prefix prefix k) as [n|]; [apply lax_find|reflexivity]. Qed.
Lemma lax_owns i seg : owns R' i seg = owns R i seg.
Proof.
  unfold owns. destruct (item_key seg) as [[[k ksp] body]|]; auto. pose proof (lax_owner k) as O.
  destruct (owner_in R k) as [[j g]|]; [destruct O as [g' [-> _]]|rewrite O]; reflexivity.
Qed.
Lemma lax_gives seg i w : gives R' seg i w -> gives R seg i w.
Proof.
  intros [k [ksp [body [g [K [O A]]]]]]. pose proof (lax_owner k) as W. destruct (owner_in R k) as [[j h]|] eqn:E; [|congruence].
  destruct W as [g' [W [W1 W2]]]. rewrite O in W. injection W as -> <-. exists k, ksp, body, h. split; auto. split; auto. now rewrite <- W1, <- W2.
Qed.
Lemma lax_item_ok seg : item_ok R' seg -> item_ok R seg.
Proof.
  intros [[i [w G]]|[k [ksp [body [K [O C]]]]]]; [left; exists i, w; now apply lax_gives|right].
  pose proof (lax_owner k) as W. exists k, ksp, body. split; auto. split; auto. destruct (owner_in R k) as [[j h]|]; auto. destruct W as [g' [W _]]. congruence.
Qed.
Lemma lax_exists i l : existsb (owns R' i) l = existsb (owns R i) l.
Proof. induction l as [|s l IH]; auto. cbn [existsb]. now rewrite lax_owns, IH. Qed.
Lemma lax_later : forall l n, existsb pflat (skipn n (l ++ f' :: b)) = existsb pflat (skipn n (l ++ f :: b)).
Proof.
  induction l as [|g l IH]; intros [|n]; cbn [app skipn existsb]; auto. specialize (IH 0). cbn [skipn] in IH. now rewrite IH.
Qed.
Lemma lax_flat_in i : flat_in R' inputs i = flat_in R inputs i.
Proof. unfold flat_in. cbn [R R' r_fields]. now rewrite lax_later. Qed.
Lemma lax_nth : forall l i g, nth_error (l ++ f :: b) i = Some g -> (i = length l /\ g = f /\ nth_error (l ++ f' :: b) i = Some f') \/ nth_error (l ++ f' :: b) i = Some g.
Proof.
  induction l as [|h l IH]; intros [|i] g; cbn [app nth_error length]; auto.
  - intro H. injection H as <-. auto.
  - intro H. destruct (IH _ _ H) as [[-> X]|X]; auto.
Qed.
Lemma lax_gets tm target sp i g v : field_gets R' tm target sp inputs (items_of inputs) i g v -> field_gets R tm target sp inputs (items_of inputs) i g v.
Proof.
  intros [seg w I G T|w PF FL T|pn obj TM C2 T|w E PF C2 FD T|t E PF C2 FD SD NT|t w E C2 FD SD K DM T].
  - eapply G_item; [exact I|apply lax_gives; eauto|exact T].
  - eapply G_flat; eauto. rewrite lax_flat_in in FL. exact FL.
  - eapply G_container; eauto.
  - eapply G_default; eauto. now rewrite <- lax_exists.
  - eapply G_target; eauto. now rewrite <- lax_exists.
  - eapply G_missing; eauto. now rewrite <- lax_exists.
Qed.
Lemma lax_gets_f tm target sp v : field_gets R' tm target sp inputs (items_of inputs) (length a) f' v -> field_gets R tm target sp inputs (items_of inputs) (length a) f v.
Proof.
  destruct (lax_parts f d RF) as [_ [C [_ [P2 _]]]].
  intros [seg w I G T|w PF FL T|pn obj TM C2 T|w E PF C2 FD T|t E PF C2 FD SD NT|t w E C2 FD SD K DM T].
  - eapply G_item; [exact I|apply lax_gives; eauto|exact T].
  - congruence.
  - cbn [f_container defaulting] in C2. congruence.
  - rewrite lax_exists in E. congruence.
  - rewrite lax_exists in E. congruence.
  - rewrite lax_exists in E. congruence.
Qed.
Lemma lax_parses tm target sp vs : parses_to R' tm target sp inputs (items_of inputs) vs -> parses_to R tm target sp inputs (items_of inputs) vs.
Proof.
  intros [A [B [L D]]]. split; [|split; [|split]].
  - rewrite Forall_forall in *. intros s I. apply lax_item_ok; auto.
  - intro i. rewrite <- (filter_ext_in (owns R' i) (owns R i)); auto. intros s I. apply lax_owns.
  - rewrite L. cbn [R R' r_fields]. rewrite !app_length. reflexivity.
  - intros i g y N NY. cbn [R r_fields] in N. apply lax_nth in N as [[-> [-> N]]|N]; [apply lax_gets_f|apply lax_gets]; eapply D; eauto.
Qed.
End G.
Lemma l_lax_given (s s' : sdef) f d tm prefix v sp inputs r r' ws :
  parse_run s tm prefix v sp inputs r -> parse_run s' tm prefix v sp inputs r' ->
  named_struct s -> named_struct s' -> Forall local_field (s_raw s) ->
  relaxed s f d s' -> gives_field s prefix f inputs -> r' = Ok ws <-> r = Ok ws.
Proof.
  intros R1 R2 NS NS' LF RX [k [ksp [n [I [KE [IN UN]]]]]]. split; [|intros ->; eapply l_lax; eauto].
  destruct RX as [[a [b [E1 E2]]] RF SH SH' D D' U T].
  assert (LF' : Forall local_field (s_raw s')).
  { rewrite E1 in LF. rewrite E2. apply Forall_app in LF as [L1 L2]. inversion L2; subst. apply Forall_app. split; [auto|constructor; auto]. }
  destruct (LemRun.run_body _ _ _ _ _ _ _ R1) as [m1 ->]; [apply NS|]. destruct (LemRun.run_body _ _ _ _ _ _ _ R2) as [m2 ->]; [apply NS'|].
  rewrite (struct_text s' tm m2) by auto. rewrite (struct_text s tm m1) by auto.
  destruct (lax_same f d RF) as [S1 [S2 [S3 S4]]].
  set (q := fun g : field V => match tm with TMeta => container_default (skip_default g) | TAttrs _ _ => skip_default g end).
  assert (FE : forall z : sdef, s_default z = None -> s_fields tm z = map q (s_raw z)).
  { intros z Z. unfold s_fields, s_fields_meta, s_fields_attr, q. rewrite Z. cbn [has_target]. destruct tm; rewrite ?map_map; auto. }
  assert (Q1 : q f = f) by (unfold q; destruct tm; now rewrite S1, ?S3).
  assert (Q2 : q (defaulting f d) = defaulting f d) by (unfold q; destruct tm; now rewrite S2, ?S4).
  assert (QN : forall g, f_names (q g) = f_names g).
  { intro g. unfold q, skip_default, container_default. destruct tm; destruct (f_default g) eqn:FG; rewrite ?FG; auto; destruct (f_skip g); auto; cbn; rewrite ?FG; auto; destruct (f_container g); auto. }
  assert (NM : s_names s' = s_names s).
  { unfold s_names, fields_names. rewrite E1, E2, !flat_map_app. reflexivity. }
  unfold struct_reader. rewrite (FE s D), (FE s' D'), D, D', T, U, NM, E1, E2, !map_app. cbn [map]. rewrite Q1, Q2.
  intros [vs [P C]]. exists vs. split; [|exact C]. revert P. apply lax_parses; auto.
  apply existsb_exists. apply in_keys_items in I as [seg [body [I K]]]. exists seg. split; auto. unfold owns. rewrite K. unfold owner_in. cbn [r_prefix r_fields].
  replace (strip_prefix prefix k) with (Some n) by (symmetry; now apply strip_prefix_spec).
  destruct (find_field n (map q a ++ f :: map q b) 0) as [[j g]|] eqn:F.
  - apply LemNamed.find_field_spec in F as [_ [N [_ [J _]]]]. rewrite Nat.sub_0_r in N. apply Nat.eqb_eq.
    assert (NR : nth_error (map q (s_raw s)) j = Some g) by (rewrite E1, map_app; cbn [map]; now rewrite Q1).
    rewrite nth_error_map in NR. destruct (nth_error (s_raw s) j) as [h|] eqn:NH; [|discriminate]. injection NR as <-. rewrite QN in J. rewrite map_length.
    symmetry. apply (UN j (length a) h NH J). rewrite E1, nth_error_app2, Nat.sub_diag by lia. reflexivity.
  - exfalso. apply (proj1 (LemNamed.find_field_none n _ 0) F f); auto; [apply in_app_iff; right; now left|apply RF].
Qed.
End L.
