(** The code generated for enums: what is read, and the result. *)
From Verif Require Export LemTransparent LemWfE LemAppend LemLocalD.

Section E.
Context {env : Env} {V : Type}.
Notation vdef := (vdef V).
Notation edef := (edef V).

(** *** The parser of one variant *)
Definition vp (v : vdef) (tm : tmode V) (prefix k : string) (sp : span) : parser (list V) :=
  if v_transparent v then
    match transparent_field (v_fields v) with
    | None => fun s => (Bad Panic, s)
    | Some (i, d) => pbind (d_named d k sp) (fun x s => (fst (transparent_post (v_fields v) tm None i x []), s))
    end
  else v_named v tm prefix sp.

Record good_variant (tm : tmode V) (v : vdef) : Prop := mkGV {
  gv_accepted : accepted_variant tm v;
  gv_map : v_transparent v = true -> Forall no_and_then (v_raw v);
  gv_unaware : unaware_variant v;
  gv_fine : v_transparent v = true -> forall f, In f (v_raw v) -> fine_type (f_kind f)
}.
Lemma proper_good tm (e : edef) v : proper_enum tm e -> In v (e_variants e) -> good_variant tm v.
Proof.
  intros [A [NT [_ [U F]]]] I. unfold accepted_enum in A. rewrite Forall_forall in A. split; auto.
  - intro T. apply Forall_forall. intros f J. eapply NT; eauto.
  - apply Forall_forall. intros f J. unfold unaware_field. specialize (U v f I J). destruct (f_kind f); exact U.
  - intros T f J. eauto.
Qed.
Lemma gv_inner tm v : good_variant tm v -> v_transparent v = true ->
  exists i d f, transparent_field (v_fields v) = Some (i, d) /\ length (filter (@is_parsable V) (v_fields v)) = 1 /\
    Forall no_and_then (v_fields v) /\ Forall (fields_ok tm None) (v_fields v) /\
    nth_error (v_fields v) i = Some f /\ is_parsable f = true /\ f_kind f = KItem d /\ fine d /\
    forall j g, nth_error (v_fields v) j = Some g -> is_parsable g = Nat.eqb j i.
Proof.
  intros [A NT U FT] T. destruct A as [A1 [A2 [A3 A4]]]. destruct (A4 T) as [A5 A6]. specialize (NT T).
  pose proof (v_fields_same v) as S. pose proof (same_transparent _ _ S) as ST.
  destruct (transparent_field (v_fields v)) as [[i d]|] eqn:F.
  2: { exfalso. eapply (tgo_exists (v_raw v) 0); [|symmetry; exact ST]. lia. }
  assert (L : length (filter (@is_parsable V) (v_fields v)) = 1) by (rewrite (same_count _ _ S); auto).
  destruct (transparent_index _ _ _ F L) as [f [N [K [P Q]]]].
  exists i, d, f. split; auto. split; auto. split; [exact (same_no_and_then _ _ S NT)|]. split; [exact (v_fields_ok tm v A2)|].
  split; auto. split; auto. split; auto. split; auto.
  destruct (same_nth _ _ S i f N) as [g [NG [KG _]]]. specialize (FT T g (nth_error_In _ _ NG)).
  unfold fine_type in FT. rewrite <- KG, K in FT. exact FT.
Qed.
Lemma unwrap_no_err (sl : list (fstatus V)) e : unwrap_slots sl <> Err e.
Proof.
  induction sl as [|[| |w] sl IH]; cbn [unwrap_slots]; try discriminate. destruct (unwrap_slots sl); cbn; congruence.
Qed.
Lemma post_some tm v i d f x es : good_variant tm v -> transparent_field (v_fields v) = Some (i, d) ->
  length (filter (@is_parsable V) (v_fields v)) = 1 -> nth_error (v_fields v) i = Some f ->
  Forall no_and_then (v_fields v) -> Forall (fields_ok tm None) (v_fields v) ->
  exists vs, transparent_post (v_fields v) tm None i x es = (Ok vs, es) /\ around (v_fields v) tm None i x vs.
Proof.
  intros G T L N NA FO. destruct (transparent_post_good (v_fields v) tm None i d x es T L NA FO) as [P1 P2].
  destruct (transparent_post (v_fields v) tm None i x es) as [r es2] eqn:E. cbn [fst snd] in *. subst es2.
  assert (R : forall e, r <> Err e).
  { intros e ->. apply (f_equal fst) in E. cbn [fst] in E. unfold transparent_post in E.
    destruct (field_sets _ _ _) as [sl es3]. cbn [fst post_ret] in E.
    now apply unwrap_no_err in E. }
  destruct r as [vs|e|b]; [|now destruct (R e)|destruct P1].
  exists vs. split; auto. apply (transparent_around (v_fields v) tm None i d x es vs); auto; [discriminate|now rewrite E].
Qed.
Lemma vp_good tm v prefix k sp : good_variant tm v -> well_behaved (vp v tm prefix k sp).
Proof.
  intro G. unfold vp. destruct (v_transparent v) eqn:T; [|apply v_named_good; apply G].
  destruct (gv_inner tm v G T) as [i [d [f [F [L [NA [FO [N [P [K [FD U]]]]]]]]]]]. rewrite F.
  apply wb_bind; [apply FD|]. intros x s.
  destruct (post_some tm v i d f x [] G F L N NA FO) as [vs [E _]]. rewrite E. split; simpl; auto with adv.
Qed.
Lemma vp_local tm v prefix k sp : good_variant tm v -> local (vp v tm prefix k sp).
Proof.
  intro G. unfold vp. destruct (v_transparent v) eqn:T.
  - destruct (gv_inner tm v G T) as [i [d [f [F [L [NA [FO [N [P [K [FD U]]]]]]]]]]]. rewrite F.
    apply lc_then; [apply fine_local; auto|]. intro x.
    destruct (post_some tm v i d f x [] G F L N NA FO) as [vs [E _]]. rewrite E. exact Logic.I.
  - assert (WI : forall m, well_behaved_m (v_inline v tm prefix sp m)) by (intro; apply v_inline_good; apply G).
    assert (UI : forall m, unaware_m (v_inline v tm prefix sp m)) by (intro; apply ubm_v_inline; apply G).
    unfold v_named. apply lc_named_with; auto.
    + intro m. apply lc_delimited; [apply ub_single|apply wb_single]; auto.
    + intros _. unfold v_flag. destruct (v_shape v); auto using returns_empty, wb_single; [|simpl; auto].
      destruct (allows_empty None (v_fields v)); auto using returns_empty, wb_single. simpl. auto.
Qed.
Lemma v_parse_vp tm vi v prefix p sp q s : good_variant tm v ->
  v_parse vi v tm prefix p sp q s =
  match vp v tm prefix p sp s with
  | (Ok l, s1) => (Ok tt, mkEst (q_key q) (if v_transparent v && fs_is_some (q_value q) then q_value q else FSome (vi, l))
                            (q_paths q) (q_errors q), s1)
  | (Err e, s1) => (Ok tt, mkEst (q_key q) (value_failed (q_value q)) (q_paths q) (push_syn (q_errors q) e), skip_item s1)
  | (Bad b, s1) => (Bad b, q, s1)
  end.
Proof.
  intro G. unfold v_parse, vp. destruct (v_transparent v) eqn:T; [|reflexivity].
  destruct (gv_inner tm v G T) as [i [d [f [F [L [NA [FO [N [P [K [FD U]]]]]]]]]]]. rewrite F. unfold pbind.
  destruct (d_named d p sp s) as [[x|e|b] s1]; [|reflexivity..].
  destruct (post_some tm v i d f x [] G F L N NA FO) as [vs [E1 A1]].
  destruct (post_some tm v i d f x (q_errors q) G F L N NA FO) as [vs2 [E2 A2]].
  rewrite E1, E2. cbn [fst]. 
  assert (vs = vs2) as ->; [|reflexivity].
  apply (transparent_around (v_fields v) tm None i d x [] vs2) in A2; auto; [|discriminate]. rewrite E1 in A2. now injection A2.
Qed.
(** what [vp] accepts *)
Lemma vp_accepts tm v prefix k sp body vs : good_variant tm v -> no_comma body ->
  accepts (vp v tm prefix k sp) body vs <-> variant_value v tm prefix k sp body vs.
Proof.
  intros G NC. unfold vp. destruct (v_transparent v) eqn:T.
  2: { split; [intro H; apply VV_fields; auto|]. intros [? H|? ? ? ? H]; [auto|congruence]. }
  destruct (gv_inner tm v G T) as [i [d [f [F [L [NA [FO [N [P [K [FD U]]]]]]]]]]]. rewrite F. split.
  - intro H. pose proof (proj2 (ld_named d (fine_local d FD) k sp) body NC) as [[x [rest Q]]|Q].
    + assert (AX : accepts (d_named d k sp) body x).
      { intros tl sc c E. destruct (Q tl sc c E) as [Q1 Q2]. split; auto. destruct (H tl sc c E) as [_ H2].
        unfold pbind in H2. destruct (d_named d k sp (mkStream (body ++ tl) sc c)) as [r s1]. cbn [fst snd] in Q1, Q2. subst r. exact H2. }
      apply (VV_transparent v tm prefix k sp body vs i f d x); auto.
      destruct (H [] SCall None ends_nil) as [H1 _]. destruct (AX [] SCall None ends_nil) as [A1 _].
      unfold pbind in H1. destruct (d_named d k sp (mkStream (body ++ []) SCall None)) as [r s1]. cbn [fst] in A1. subst r. cbn [fst] in H1.
      apply (transparent_around (v_fields v) tm None i d x [] vs); auto. discriminate.
    + destruct (Q [] SCall None ends_nil) as [e Q1]. destruct (H [] SCall None ends_nil) as [H1 _].
      unfold pbind in H1. destruct (d_named d k sp (mkStream (body ++ []) SCall None)) as [r s1]. cbn [fst] in Q1. subst r. discriminate H1.
  - intros [?|j g d' x _ N' P' K' A AR]; [congruence|].
    assert (j = i). { specialize (U j g N'). rewrite P' in U. symmetry in U. now apply Nat.eqb_eq in U. }
    subst j. rewrite N in N'. injection N' as <-. rewrite K in K'. injection K' as <-.
    intros tl sc c E. destruct (A tl sc c E) as [A1 A2]. unfold pbind.
    destruct (d_named d k sp (mkStream (body ++ tl) sc c)) as [r s1]. cbn [fst snd] in *. subst r. cbn [fst snd]. split; auto.
    apply (transparent_around (v_fields v) tm None i d x [] vs); auto. discriminate.
Qed.
Lemma vp_rejects tm v prefix k sp body : good_variant tm v ->
  variant_rejects v tm prefix k sp body -> rejects (vp v tm prefix k sp) body.
Proof.
  intros G. unfold variant_rejects, vp. destruct (v_transparent v) eqn:T; auto.
  destruct (gv_inner tm v G T) as [i [d [f [F [L [NA [FO [N [P [K [FD U]]]]]]]]]]]. rewrite F.
  intros [j [g [d' [N' [P' [K' R]]]]]].
  assert (j = i). { specialize (U j g N'). rewrite P' in U. symmetry in U. now apply Nat.eqb_eq in U. }
  subst j. rewrite N in N'. injection N' as <-. rewrite K in K'. injection K' as <-.
  intros tl sc c E. destruct (R tl sc c E) as [e H]. unfold pbind. exists e.
  destruct (d_named d k sp (mkStream (body ++ tl) sc c)) as [r s1]. cbn [fst] in H. subst r. reflexivity.
Qed.

(** *** The walk *)
Section W.
Variable tm : tmode V.
Variable e : edef.
Variable prefix : string.
Variable G : forall v, In v (e_variants e) -> good_variant tm v.

Definition hit (k : string) : option (string * (nat * vdef)) :=
  match strip_prefix prefix k with
  | None => None
  | Some n => match find_variant n (e_variants e) 0 with Some iv => Some (n, iv) | None => None end
  end.
Definition is_hit (en : entry) : bool := match hit (en_key en) with Some _ => true | None => false end.
Definition eat_enum (en : entry) : stream :=
  match hit (en_key en) with
  | None => skip_item (en_at en)
  | Some (_, (i, v)) =>
    match vp v tm prefix (en_key en) (en_span en) (en_at en) with
    | (Ok _, s1) => s1
    | (_, s1) => skip_item s1
    end
  end.
Definition value_of (en : entry) : res (evalue V) :=
  match hit (en_key en) with
  | None => Ok (0, [])
  | Some (_, (i, v)) => rmap (fun l => (i, l)) (fst (vp v tm prefix (en_key en) (en_span en) (en_at en)))
  end.
Definition upd_enum (en : entry) (q : est) : est :=
  match strip_prefix prefix (en_key en) with
  | None => q
  | Some n =>
    let paths := if e_any_flat e then pm_insert n (en_span en) (q_paths q) else q_paths q in
    match find_variant n (e_variants e) 0 with
    | None => mkEst (q_key q) (q_value q) paths (q_errors q)
    | Some (i, v) =>
      let es := match q_key q with
                | Some k0 => only_one_variant (en_span en) prefix k0 n (q_errors q)
                | None => q_errors q
                end in
      let key := match q_key q with Some k0 => Some k0 | None => Some n end in
      match fst (vp v tm prefix (en_key en) (en_span en) (en_at en)) with
      | Ok l => mkEst key (if v_transparent v && fs_is_some (q_value q) then q_value q else FSome (i, l)) paths es
      | Err x => mkEst key (value_failed (q_value q)) paths (push_syn es x)
      | Bad _ => q
      end
    end
  end.
Lemma hit_in k n i v : hit k = Some (n, (i, v)) -> In v (e_variants e).
Proof.
  unfold hit. destruct (strip_prefix prefix k); [|discriminate].
  destruct (find_variant s (e_variants e) 0) as [[j w]|] eqn:F; [|discriminate]. intro H. injection H as <- <- <-.
  eapply LemWfE.find_variant_in; eauto.
Qed.
Lemma enum_walk p sp q s : enum_closure e tm prefix p sp q s =
  (Ok tt, upd_enum (mkEntry p sp s) q, eat_enum (mkEntry p sp s)).
Proof.
  unfold enum_closure, upd_enum, eat_enum, hit. cbn [en_key en_span en_at].
  destruct (strip_prefix prefix p) as [n|] eqn:SP; [|reflexivity].
  destruct (find_variant n (e_variants e) 0) as [[i v]|] eqn:F; [|reflexivity].
  apply LemWfE.find_variant_in in F. cbv zeta. rewrite (v_parse_vp tm i v) by auto.
  pose proof (vp_good tm v prefix p sp (G v F) s) as [W _].
  destruct (vp v tm prefix p sp s) as [[l|x|b] s1]; cbn [fst] in *; [reflexivity..|destruct W].
Qed.
Lemma eat_enum_adv en : advances (en_at en) (eat_enum en).
Proof.
  unfold eat_enum. destruct (hit (en_key en)) as [[n [i v]]|] eqn:H; [|apply adv_skip].
  apply hit_in in H. pose proof (vp_good tm v prefix (en_key en) (en_span en) (G v H) (en_at en)) as [_ W].
  destruct (vp v tm prefix (en_key en) (en_span en) (en_at en)) as [[l|x|b] s1]; cbn [snd] in W; eauto using adv_skip with adv.
Qed.
Lemma eat_enum_stays : eat_stays eat_enum.
Proof.
  intro en. unfold eat_enum.
  assert (K : forall s, exists pre, toks s = pre ++ toks (skip_item s) /\ no_comma pre) by apply stays_skip.
  destruct (hit (en_key en)) as [[n [i v]]|] eqn:H; [|apply K]. apply hit_in in H.
  destruct (vp_local tm v prefix (en_key en) (en_span en) (G v H)) as [ST _]. destruct (ST (en_at en)) as [p1 [E1 N1]].
  destruct (vp v tm prefix (en_key en) (en_span en) (en_at en)) as [[l|x|b] s1]; cbn [snd] in *; eauto;
    destruct (K s1) as [p2 [E2 N2]]; exists (p1 ++ p2); (split; [rewrite E1, E2; now rewrite <- app_assoc|apply nc_app; auto]).
Qed.

(** *** The state *)
Definition hit_errors (k0 : string) (en : entry) : errors :=
  match hit (en_key en) with
  | None => []
  | Some (n, (i, v)) => only_one_variant (en_span en) prefix k0 n []
      ++ match value_of en with Err x => errs_of x | _ => [] end
  end.
Definition init : est (V := V) := mkEst None FNone [] [].
Lemma value_of_returns en : returns (value_of en).
Proof.
  unfold value_of. destruct (hit (en_key en)) as [[n [i v]]|] eqn:H; [|exact Logic.I]. apply hit_in in H.
  pose proof (vp_good tm v prefix (en_key en) (en_span en) (G v H) (en_at en)) as [W _].
  destruct (fst (vp _ _ _ _ _ _)); exact W.
Qed.
Lemma only_one_app sp k0 n es : only_one_variant sp prefix k0 n es = es ++ only_one_variant sp prefix k0 n [].
Proof. reflexivity. Qed.
Lemma fold_later l : forall q k0, q_key q = Some k0 ->
  let q' := fold_entries upd_enum l q in
  q_key q' = Some k0 /\ q_errors q' = q_errors q ++ flat_map (hit_errors k0) l /\
  (q_value q <> FNone -> q_value q' <> FNone) /\ (existsb is_hit l = false -> q_value q' = q_value q).
Proof.
  induction l as [|en l IH]; intros q k0 K; cbv zeta.
  { cbn. rewrite app_nil_r. auto. }
  cbn [fold_entries fold_left flat_map existsb]. fold (fold_entries upd_enum l (upd_enum en q)).
  assert (S : q_key (upd_enum en q) = Some k0 /\ q_errors (upd_enum en q) = q_errors q ++ hit_errors k0 en /\
     (q_value q <> FNone -> q_value (upd_enum en q) <> FNone) /\ (is_hit en = false -> q_value (upd_enum en q) = q_value q)).
  { pose proof (value_of_returns en) as VR. unfold upd_enum, hit_errors, is_hit, value_of, hit in *.
    destruct (strip_prefix prefix (en_key en)) as [n|]; [|rewrite app_nil_r; auto].
    cbv zeta. destruct (find_variant n (e_variants e) 0) as [[i v]|]; [|cbn; rewrite app_nil_r; auto].
    rewrite K. destruct (fst (vp v tm prefix (en_key en) (en_span en) (en_at en))) as [x|x|b]; cbn [rmap returns] in *.
    - cbn [q_key q_errors q_value]. split; auto. split; [rewrite app_nil_r; apply only_one_app|].
      split; [|discriminate]. intros Z. destruct (v_transparent v && fs_is_some (q_value q)); auto. discriminate.
    - cbn [q_key q_errors q_value]. split; auto. split; [|split; [|discriminate]].
      + unfold push_syn. rewrite only_one_app, <- app_assoc. reflexivity.
      + intros Z. unfold value_failed. destruct (q_value q); simpl; congruence.
    - destruct VR. }
  destruct S as [S1 [S2 [S3 S4]]]. destruct (IH _ _ S1) as [I1 [I2 [I3 I4]]]. split; auto. split; [|split; auto].
  - rewrite I2, S2, <- app_assoc. reflexivity.
  - intro H. apply orb_false_iff in H as [H1 H2]. rewrite I4, S4; auto.
Qed.
Definition first_errors (en : entry) : errors := match value_of en with Err x => errs_of x | _ => [] end.
Lemma fold_none l : forall q, existsb is_hit l = false ->
  q_key (fold_entries upd_enum l q) = q_key q /\ q_errors (fold_entries upd_enum l q) = q_errors q /\
  q_value (fold_entries upd_enum l q) = q_value q.
Proof.
  induction l as [|en l IH]; intros q H; [auto|]. cbn [existsb] in H. apply orb_false_iff in H as [H1 H2].
  cbn [fold_entries fold_left]. fold (fold_entries upd_enum l (upd_enum en q)). destruct (IH (upd_enum en q) H2) as [-> [-> ->]].
  unfold is_hit, hit in H1. unfold upd_enum. destruct (strip_prefix prefix (en_key en)); auto. cbv zeta.
  destruct (find_variant s (e_variants e) 0); [discriminate|auto].
Qed.
Lemma split_hit l : existsb is_hit l = true -> exists a en b, l = a ++ en :: b /\ existsb is_hit a = false /\ is_hit en = true.
Proof.
  induction l as [|x l IH]; [discriminate|]. cbn [existsb]. destruct (is_hit x) eqn:H.
  - intros _. exists [], x, l. auto.
  - intro Q. destruct (IH Q) as [a [en [b [-> [A B]]]]]. exists (x :: a), en, b. cbn [existsb app]. rewrite H. auto.
Qed.
Lemma hit_strip k n iv : hit k = Some (n, iv) -> strip_prefix prefix k = Some n.
Proof.
  unfold hit. destruct (strip_prefix prefix k); [|discriminate]. destruct (find_variant s (e_variants e) 0); [|discriminate]. congruence.
Qed.
Lemma fold_hit a en b n i v : existsb is_hit a = false -> hit (en_key en) = Some (n, (i, v)) ->
  let q := fold_entries upd_enum (a ++ en :: b) init in
  q_key q = Some n /\ q_errors q = first_errors en ++ flat_map (hit_errors n) b /\ q_value q <> FNone /\
  (existsb is_hit b = false -> forall y, value_of en = Ok y -> q_value q = FSome y).
Proof.
  intros HA H. cbv zeta. unfold fold_entries. rewrite fold_left_app. cbn [fold_left].
  fold (fold_entries upd_enum a init). destruct (fold_none a init HA) as [K [E W]]. set (q0 := fold_entries upd_enum a init) in *.
  fold (fold_entries upd_enum b (upd_enum en q0)).
  assert (S : q_key (upd_enum en q0) = Some n /\ q_errors (upd_enum en q0) = first_errors en /\
     q_value (upd_enum en q0) <> FNone /\ (forall y, value_of en = Ok y -> q_value (upd_enum en q0) = FSome y)).
  { pose proof (value_of_returns en) as VR. pose proof (hit_strip _ _ _ H) as SP. unfold upd_enum, first_errors, value_of, hit in *.
    rewrite SP in *. cbv zeta. destruct (find_variant n (e_variants e) 0) as [[i' v']|]; [|discriminate].
    injection H as -> ->. rewrite K, W, E. cbn [init q_key q_errors q_value].
    destruct (fst (vp v tm prefix (en_key en) (en_span en) (en_at en))) as [x|x|bb]; cbn [rmap returns] in *.
    - cbn [q_key q_errors q_value fs_is_some]. rewrite andb_false_r. repeat split; auto; [discriminate|]. intros y Q. injection Q as <-. auto.
    - cbn [q_key q_errors q_value]. repeat split; auto; discriminate.
    - destruct VR. }
  destruct S as [S1 [S2 [S3 S4]]]. destruct (fold_later b _ _ S1) as [I1 [I2 [I3 I4]]]. split; auto. split; [now rewrite I2, S2|].
  split; auto. intros HB y Q. rewrite I4; auto.
Qed.
End W.
End E.
