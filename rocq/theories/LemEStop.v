(** Proofs for PropsEStop.v. *)
From Verif Require Export SpecEStop.
From Verif Require Import LemEnum5 LemEnum6 LemStop LemLocal LemLocalD.
Local Open Scope string_scope.
Local Open Scope list_scope.

Section E.
Context {env : Env} {V : Type}.
Notation vdef := (vdef V).
Notation edef := (edef V).
Notation found := (@found V).

(** *** One variant *)
Lemma vp_keeps tm (v : vdef) prefix k sp : good_variant tm v -> keeps (vp v tm prefix k sp).
Proof.
  intro G. unfold vp. destruct (v_transparent v) eqn:T.
  - destruct (gv_inner tm v G T) as [i [d [f [F [L [NA [FO [N [P [K [FD U]]]]]]]]]]]. rewrite F.
    apply kp_bind; [now apply fine_keeps_named|]. intros x s. reflexivity.
  - unfold v_named. apply kp_named_with. intro m. apply kp_delimited.
Qed.
Lemma vp_result tm (v : vdef) prefix en : good_variant tm v ->
  match fst (vp v tm prefix (en_key en) (en_span en) (en_at en)) with
  | Ok vs => variant_result v tm prefix en (inl vs)
  | Err x => variant_result v tm prefix en (inr x)
  | Bad _ => False
  end.
Proof.
  intro G. pose proof (vp_good tm v prefix (en_key en) (en_span en) G (en_at en)) as [W _].
  unfold vp in *. destruct (v_transparent v) eqn:T.
  - destruct (gv_inner tm v G T) as [i [d [f [F [L [NA [FO [N [P [K [FD U]]]]]]]]]]]. rewrite F in *. unfold pbind in *.
    destruct (d_named d (en_key en) (en_span en) (en_at en)) as [[x|x|b] s1] eqn:D; cbn [fst] in *.
    + destruct (post_some tm v i d f x [] G F L N NA FO) as [vs [E A]]. rewrite E. cbn [fst].
      apply (VR_inner v tm prefix en i f d x vs); auto. now rewrite D.
    + apply (VR_inner_err v tm prefix en i f d x); auto. now rewrite D.
    + exact W.
  - destruct (fst (v_named v tm prefix (en_span en) (en_at en))) eqn:R; [now apply VR_fields|now apply VR_fields_err|exact W].
Qed.
Lemma vp_leaves tm (v : vdef) prefix k ksp body rest : good_variant tm v ->
  variant_leaves v tm prefix k ksp body rest -> leaves (vp v tm prefix k ksp) body rest.
Proof.
  intro G. unfold variant_leaves, vp. destruct (v_transparent v) eqn:T; [|tauto].
  destruct (gv_inner tm v G T) as [i [d [f [F [L [NA [FO [N [P [K [FD U]]]]]]]]]]]. rewrite F.
  intros [j [g [d' [N' [P' [K' [x H]]]]]]].
  assert (j = i). { specialize (U j g N'). rewrite P' in U. symmetry in U. now apply Nat.eqb_eq in U. }
  subst j. rewrite N in N'. injection N' as <-. rewrite K in K'. injection K' as <-.
  destruct (post_some tm v i d f x [] G F L N NA FO) as [vs [E A]]. exists vs. intros tl sc c EN.
  destruct (H tl sc c EN) as [H1 H2]. unfold pbind.
  destruct (d_named d k ksp (mkStream (body ++ tl) sc c)) as [r s1]. cbn [fst snd] in *. subst r. rewrite E. auto.
Qed.
Lemma variant_cases tm (v : vdef) prefix k ksp body : good_variant tm v -> no_comma body ->
  (exists vs, variant_value v tm prefix k ksp body vs) \/ variant_rejects v tm prefix k ksp body \/
  (exists t rest, variant_leaves v tm prefix k ksp body (t :: rest)).
Proof.
  intros G NB. destruct (v_transparent v) eqn:T.
  - destruct (gv_inner tm v G T) as [i [d [f [F [L [NA [FO [N [P [K [FD U]]]]]]]]]]].
    destruct (proj2 (ld_named d (fine_local d FD) k ksp) body NB) as [[x [[|t rest] Q]]|Q].
    + left. destruct (post_some tm v i d f x [] G F L N NA FO) as [vs [E A]]. exists vs.
      apply (VV_transparent v tm prefix k ksp body vs i f d x); auto.
    + right. right. exists t, rest. unfold variant_leaves. rewrite T. exists i, f, d. repeat split; auto. exists x. exact Q.
    + right. left. unfold variant_rejects. rewrite T. exists i, f, d. auto.
  - pose proof (vp_local tm v prefix k ksp G) as LC. unfold vp in LC. rewrite T in LC.
    destruct (proj2 LC body NB) as [[x [[|t rest] Q]]|Q].
    + left. exists x. apply VV_fields; auto.
    + right. right. exists t, rest. unfold variant_leaves. rewrite T. exists x. exact Q.
    + right. left. unfold variant_rejects. now rewrite T.
Qed.

Section W.
Variable tm : tmode V.
Variable e : edef.
Variable prefix : string.
Variable P : proper_enum tm e.
Notation eat := (eat_enum tm e prefix).
Let G := G tm e P.

(** *** Every input has a reading *)
Lemma variant_at_hit k : (exists n i v, hit e prefix k = Some (n, (i, v)) /\ k = (prefix ++ n)%string /\ variant_at e prefix k i v /\
    forall j w, variant_at e prefix k j w -> j = i /\ w = v) \/
  (hit e prefix k = None /\ forall i v, ~ variant_at e prefix k i v).
Proof.
  destruct (hit e prefix k) as [[n [i v]]|] eqn:H.
  - left. exists n, i, v. split; auto. destruct (hit_variant e prefix _ _ _ _ H) as [E VA]. split; auto. split; auto.
    intros j w VB. destruct (variant_hit tm e prefix P _ _ _ VB) as [m HB]. rewrite H in HB. injection HB as _ <- <-. auto.
  - right. split; auto. intros i v VA. destruct (variant_hit tm e prefix P _ _ _ VA) as [m HB]. congruence.
Qed.
Lemma variant_in k i v : variant_at e prefix k i v -> In v (e_variants e).
Proof. intros [N _]. eapply nth_error_In; eauto. Qed.
Definition stops_at (sc : span) (pc : list token * list token) : Prop :=
  (exists x, no_key sc (fst pc ++ snd pc) x) \/
  (exists k ksp body i v t rest, item_key (fst pc) = Some (k, ksp, body) /\ variant_at e prefix k i v /\
     variant_leaves v tm prefix k ksp body (t :: rest)).
Lemma sound_or_not_enum sc pc : no_comma (fst pc) -> ends (snd pc) ->
  sound_variant e tm prefix (fst pc) \/ stops_at sc pc.
Proof.
  intros NC E. destruct (key_or_not (fst pc) (snd pc) sc E) as [[[[k ksp] body] IK]|NK]; [|right; left; auto].
  destruct (variant_at_hit k) as [(n & i & v & _ & _ & VA & U)|[_ N]].
  2:{ left. exists k, ksp, body. split; auto. intros i v VA. destruct (N i v VA). }
  destruct (variant_cases tm v prefix k ksp body (G v (variant_in _ _ _ VA)) (key_no_comma _ _ _ _ IK NC)) as [A|[A|(t & rest & A)]].
  - left. exists k, ksp, body. split; auto. intros j w VB. destruct (U j w VB) as [-> ->]. auto.
  - left. exists k, ksp, body. split; auto. intros j w VB. destruct (U j w VB) as [-> ->]. auto.
  - right. right. exists k, ksp, body, i, v, t, rest. auto.
Qed.
Lemma first_not_enum sc l : Forall (fun pc => no_comma (fst pc) /\ ends (snd pc)) l ->
  Forall (sound_variant e tm prefix) (map fst l) \/
  exists ps1 pc ps2, l = ps1 ++ pc :: ps2 /\ Forall (sound_variant e tm prefix) (map fst ps1) /\ stops_at sc pc.
Proof.
  intros SH. induction l as [|pc l IH]; [left; constructor|]. inversion SH as [|? ? [H1 H2] H3]; subst.
  destruct (sound_or_not_enum sc pc H1 H2) as [S|D].
  - destruct (IH H3) as [A|(ps1 & pc' & ps2 & -> & A & B)].
    + left. cbn [map]. now constructor.
    + right. exists (pc :: ps1), pc', ps2. split; auto. split; auto. cbn [map]. now constructor.
  - right. exists [], pc, l. split; auto. split; [constructor|]. exact D.
Qed.
Lemma enum_reading_ex inputs : exists pcs stop, enum_reading e tm prefix inputs pcs stop.
Proof.
  assert (X : forall ins2 ins1, Forall (sound_variant e tm prefix) (map fst (all_pieces ins1)) ->
    exists pcs stop, enum_reading e tm prefix (ins1 ++ ins2) pcs stop).
  { induction ins2 as [|s0 ins2 IH]; intros ins1 S.
    - rewrite app_nil_r. eexists _, _. apply ER_all. exact S.
    - pose proof (all_pieces_shape [s0]) as SH. cbn [all_pieces flat_map] in SH. rewrite app_nil_r in SH.
      destruct (first_not_enum (scope s0) (pieces (toks s0)) SH) as [A|(ps1 & [seg tl] & ps2 & E & A & B)].
      + replace (ins1 ++ s0 :: ins2) with ((ins1 ++ [s0]) ++ ins2) by (rewrite <- app_assoc; reflexivity).
        apply IH. unfold all_pieces. rewrite flat_map_app, map_app. apply Forall_app. split; auto. cbn [flat_map]. rewrite app_nil_r. exact A.
      + unfold stops_at in B. cbn [fst snd] in B. destruct B as [[x B]|(k & ksp & body & i & v & t & rest & B1 & B2 & B3)]; eexists _, _.
        * eapply ER_no_key; eauto. rewrite map_app. apply Forall_app. auto.
        * eapply ER_left_over; eauto. rewrite map_app. apply Forall_app. auto. }
  exact (X inputs [] (Forall_nil _)).
Qed.

(** *** What is read *)
Lemma eat_enum_keeps : eat_keeps eat.
Proof.
  intro en. unfold eat_enum. destruct (hit e prefix (en_key en)) as [[n [i v]]|] eqn:H; [|reflexivity].
  pose proof (vp_keeps tm v prefix (en_key en) (en_span en) (G v (hit_in e prefix _ _ _ _ H)) (en_at en)) as K.
  destruct (vp v tm prefix (en_key en) (en_span en) (en_at en)) as [[l|x|b] s1]; cbn [snd] in K; auto.
Qed.
Lemma esource_split ins1 s ins2 : exists ins1' s' ins2',
  esource e (ins1 ++ s :: ins2) = ins1' ++ s' :: ins2' /\ toks s' = toks s /\ scope s' = scope s /\ all_pieces ins1' = all_pieces ins1.
Proof.
  unfold esource. destruct (_ || _).
  - exists (fork_inputs ins1), (fork s), (fork_inputs ins2). split; [unfold fork_inputs; now rewrite map_app|]. split; [reflexivity|]. split; [reflexivity|]. apply fork_pieces.
  - exists ins1, s, ins2. auto.
Qed.
Lemma left_over_ending_enum seg tl k ksp body i v t rest sc : no_comma seg -> ends tl ->
  item_key seg = Some (k, ksp, body) -> variant_at e prefix k i v ->
  variant_leaves v tm prefix k ksp body (t :: rest) ->
  ending eat sc (seg, tl) true (mkErr (tok_open_span t) "expected `,`").
Proof.
  intros NC EN IK VA LV. cbn [ending fst]. split; [eauto|]. intros en R. pose proof R as [body' [IK' T]]. cbn [fst snd] in IK', T.
  rewrite IK in IK'. injection IK' as EK ES <-. apply (vp_leaves tm v prefix k ksp body _ (G v (variant_in _ _ _ VA))) in LV as LQ.
  destruct LQ as [vs LQ]. destruct (variant_at_hit k) as [(n & i' & v' & H & _ & _ & U)|[_ N]]; [|destruct (N _ _ VA)].
  destruct (U _ _ VA) as [<- <-]. unfold eat_enum. rewrite <- EK, H. rewrite <- ES.
  destruct (en_at en) as [ts sc' c'] eqn:EA. cbn [toks] in T. subst ts. destruct (LQ tl sc' c' EN) as [L1 L2].
  assert (CT : is_comma t = false).
  { destruct (vp_local tm v prefix k ksp (G v (variant_in _ _ _ VA))) as [ST _]. pose proof (key_no_comma _ _ _ _ IK NC) as NB.
    destruct (stays_cut _ body tl sc' c' ST NB EN) as [seg' [A3 [pre A4]]]. rewrite L2 in A3. apply app_inv_tail in A3. subst seg'.
    subst body. apply nc_app in NB as [_ NB]. now apply nc_cons in NB. }
  destruct (vp v tm prefix k ksp (mkStream (body ++ tl) sc' c')) as [r s1]. cbn [fst snd] in *. subst r.
  cbn [app] in L2. split; [|rewrite L2; discriminate].
  unfold parse_comma, parse_punct, in_span. rewrite L2. cbn [punct_rest].
  destruct t; try reflexivity. cbn [is_comma] in CT. rewrite Ascii.eqb_sym, CT. reflexivity.
Qed.
Lemma sound_all_enum l : Forall (fun pc => no_comma (fst pc) /\ ends (snd pc)) l ->
  Forall (sound_variant e tm prefix) (map fst l) -> Forall (eaten eat) l.
Proof.
  intros SH S. rewrite Forall_forall in *. intros pc I. destruct (SH pc I) as [A B]. apply sound_eaten_enum; auto. apply S.
  apply in_map. exact I.
Qed.
Lemma enum_reading_reads inputs pcs stop : enum_reading e tm prefix inputs pcs stop ->
  Forall2 reads pcs (eread tm e prefix inputs) /\ match estop tm e prefix inputs with Some x => errs_of x | None => [] end = stop.
Proof.
  intro H. destruct H as [S|ins1 s0 ins2 ps1 seg tl ps2 x E PS S NK|ins1 s0 ins2 ps1 seg tl ps2 k ksp body i v t rest E PS S IK VA LV].
  - destruct (all_eaten tm e prefix P inputs) as [A B]; [|rewrite A; auto]. apply sound_all_enum; auto. apply all_pieces_shape.
  - unfold eread, estop. subst inputs. destruct (esource_split ins1 s0 ins2) as (ins1' & s' & ins2' & -> & TS & SC & AP).
    destruct (walks_ending eat (eat_enum_stays tm e prefix G) eat_enum_keeps
               ins1' s' ins2' ps1 (seg, tl) ps2 false x) as [A B].
    + now rewrite TS.
    + rewrite AP. apply sound_all_enum; auto. apply Forall_app. split; [apply all_pieces_shape|].
      pose proof (all_pieces_shape [s0]) as SH. cbn [all_pieces flat_map] in SH. rewrite app_nil_r, PS in SH. now apply Forall_app in SH as [SH _].
    + rewrite SC. exact NK.
    + rewrite AP, app_nil_r in A. rewrite B. split; auto.
  - unfold eread, estop. subst inputs. destruct (esource_split ins1 s0 ins2) as (ins1' & s' & ins2' & -> & TS & SC & AP).
    pose proof (all_pieces_shape [s0]) as SH. cbn [all_pieces flat_map] in SH. rewrite app_nil_r, PS in SH. apply Forall_app in SH as [SH1 SH2].
    inversion SH2 as [|? ? [H1 H2] _]; subst. cbn [fst snd] in H1, H2.
    destruct (walks_ending eat (eat_enum_stays tm e prefix G) eat_enum_keeps
               ins1' s' ins2' ps1 (seg, tl) ps2 true (mkErr (tok_open_span t) "expected `,`")) as [A B].
    + now rewrite TS.
    + rewrite AP. apply sound_all_enum; auto. apply Forall_app. split; [apply all_pieces_shape|auto].
    + eapply left_over_ending_enum; eauto.
    + rewrite AP in A. rewrite B. split; auto.
Qed.
Lemma eread_place inputs : in_place inputs (eread tm e prefix inputs).
Proof.
  unfold eread. pose proof (walks_place eat (eat_enum_stays tm e prefix G) eat_enum_keeps) as W. unfold esource.
  destruct (_ || _); [apply in_place_fork|]; apply W.
Qed.

(** *** What the items give *)
Definition vstep (st : fstatus (evalue V)) (x : found) : fstatus (evalue V) :=
  match fd_result x with
  | inl vs => if fd_transparent x && fs_is_some st then st else FSome (fd_index x, vs)
  | inr _ => value_failed st
  end.
Definition later_errors (k0 : string) (ns : list found) : errors :=
  flat_map (fun y => two_variants prefix k0 (fd_name y) (fd_span y) :: own_errors y) ns.
Lemma only_one_eq sp k0 n es : is_prefix prefix ->
  only_one_variant sp prefix k0 n es = es ++ [two_variants prefix k0 n sp].
Proof.
  intro IP. unfold only_one_variant, push, two_variants. rewrite !LemFlat.join_path_prefix by auto. unfold tick.
  do 3 f_equal. rewrite !app_str_assoc. reflexivity.
Qed.
Lemma finds_state l : is_prefix prefix -> forall q, exists ns, finds e tm prefix l ns /\
  let q' := fold_entries (upd_enum tm e prefix) l q in
  q_value q' = fold_left vstep ns (q_value q) /\
  q_key q' = match q_key q with Some k => Some k | None => option_map fd_name (hd_error ns) end /\
  q_errors q' = q_errors q ++ match q_key q with Some k => later_errors k ns | None => found_errors prefix ns end.
Proof.
  intro IP. induction l as [|en l IH]; intro q; cbv zeta.
  { exists []. split; [constructor|]. cbn. destruct (q_key q); rewrite app_nil_r; auto. }
  cbn [fold_entries fold_left]. fold (fold_entries (upd_enum tm e prefix) l (upd_enum tm e prefix en q)).
  destruct (IH (upd_enum tm e prefix en q)) as [ns [F [A [B C]]]]. rewrite A, B, C. clear A B C IH.
  destruct (variant_at_hit (en_key en)) as [(n & i & v & H & EK & VA & U)|[H N]].
  - pose proof (vp_result tm v prefix en (G v (variant_in _ _ _ VA))) as VR.
    pose proof (hit_strip _ _ _ _ _ H) as SP. unfold hit in H. rewrite SP in H.
    unfold upd_enum. rewrite SP. destruct (find_variant n (e_variants e) 0) as [[i' v']|]; [|discriminate].
    injection H as -> ->. cbv zeta.
    destruct (fst (vp v tm prefix (en_key en) (en_span en) (en_at en))) as [vs|x|b]; [| |destruct VR]; eexists; (split; [eapply Fi_variant; eauto|]);
      cbn [fold_left hd_error option_map]; unfold vstep at 2; cbn [q_value q_key q_errors fd_result fd_name fd_transparent fd_index];
      (split; [reflexivity|]); destruct (q_key q) as [k0|]; (split; [reflexivity|]);
      cbn [later_errors flat_map found_errors own_errors fd_result fd_name fd_span]; unfold push_syn; rewrite ?only_one_eq by auto; rewrite ?app_nil_r, ?app_nil_l;
      unfold later_errors; cbn [flat_map own_errors fd_result fd_name fd_span]; rewrite <- ?app_assoc; reflexivity.
  - exists ns. split; [now apply Fi_other|]. unfold hit in H. unfold upd_enum.
    destruct (strip_prefix prefix (en_key en)) as [n|]; auto. cbv zeta. destruct (find_variant n (e_variants e) 0); [discriminate|]. auto.
Qed.
End W.
Lemma found_values_app (a b : list found) : found_values (a ++ b) = found_values a ++ found_values b.
Proof. apply flat_map_app. Qed.
Lemma value_used (ns : list found) : fold_left vstep ns FNone =
  match ns with [] => FNone | _ => match used_value ns with Some y => FSome y | None => FParseError end end.
Proof.
  induction ns as [|x ns IH] using rev_ind; [reflexivity|]. rewrite fold_left_app. cbn [fold_left]. rewrite IH.
  replace (match ns ++ [x] with [] => FNone | _ => match used_value (ns ++ [x]) with Some y => FSome y | None => FParseError end end)
    with (match used_value (ns ++ [x]) with Some y => FSome y | None => FParseError end) by (destruct ns; reflexivity).
  assert (NIL : used_value ns = None <-> found_values ns = []).
  { unfold used_value. destruct (rev (found_values (filter _ ns))) as [|y l] eqn:R.
    - destruct (found_values ns); cbn; split; congruence.
    - split; [discriminate|]. intro Z. exfalso. apply (f_equal (@rev _)) in R. rewrite rev_involutive in R.
      assert (I : In y (found_values (filter (fun x => negb (fd_transparent x)) ns))) by (rewrite R; apply in_rev; rewrite rev_involutive; now left).
      unfold found_values in I. apply in_flat_map in I as [z [I J]]. apply filter_In in I as [I _].
      assert (I2 : In y (found_values ns)) by (apply in_flat_map; eauto). rewrite Z in I2. destruct I2. }
  assert (ST : fs_is_some match ns with [] => FNone | _ => match used_value ns with Some y => FSome y | None => FParseError end end =
    match found_values ns with [] => false | _ => true end).
  { destruct ns as [|x0 ns0]; [reflexivity|]. destruct (used_value (x0 :: ns0)) as [y|]; destruct (found_values (x0 :: ns0)) eqn:Z; auto.
    - destruct NIL as [_ NIL]. discriminate (NIL eq_refl).
    - destruct NIL as [NIL _]. discriminate (NIL eq_refl). }
  unfold vstep.
  change (used_value (ns ++ [x])) with (match rev (found_values (filter (fun x => negb (fd_transparent x)) (ns ++ [x]))) with
    | y :: _ => Some y | [] => hd_error (found_values (ns ++ [x])) end).
  rewrite filter_app, !found_values_app, rev_app_distr. cbn [filter].
  destruct (fd_result x) as [vs|y] eqn:R.
  - rewrite ST. destruct (fd_transparent x) eqn:T; cbn [negb andb].
    + cbn [found_values flat_map rev app]. rewrite R, app_nil_r. fold (found_values ns).
      fold (found_values (filter (fun x => negb (fd_transparent x)) ns)).
      destruct (found_values ns) as [|z l] eqn:Z.
      * replace (found_values (filter (fun x0 => negb (fd_transparent x0)) ns)) with (@nil (evalue V)); [reflexivity|].
        symmetry. unfold found_values. apply flat_map_nil. intros a I. apply filter_In in I as [I _]. unfold found_values in Z. rewrite flat_map_nil in Z. auto.
      * destruct ns as [|x0 ns0]; [discriminate Z|]. unfold used_value. rewrite Z.
        destruct (rev (found_values (filter _ (x0 :: ns0)))); reflexivity.
    + cbn [found_values flat_map rev app]. rewrite R. reflexivity.
  - replace (found_values (if negb (fd_transparent x) then [x] else [])) with (@nil (evalue V)).
    2:{ destruct (negb _); cbn; rewrite ?R; reflexivity. }
    cbn [rev app]. cbn [found_values flat_map]. rewrite R, app_nil_r. fold (found_values ns).
    fold (used_value ns). destruct ns as [|x0 ns0]; [reflexivity|]. destruct (used_value (x0 :: ns0)); reflexivity.
Qed.

(** *** Keys that are no variant *)
Lemma keys_until_keyed ps ens its : Forall2 reads ps ens ->
  keys_until (map fst ps ++ its) = map (fun en => (en_key en, en_span en)) ens ++ keys_until its.
Proof.
  induction 1 as [|pc en ps ens [b [K _]] F IH]; [reflexivity|]. cbn [map app keys_until]. rewrite K, IH. reflexivity.
Qed.
Lemma keyed_or_not l : keyed l \/ exists ins1 s ins2 ps1 pc ps2 x, l = ins1 ++ s :: ins2 /\ pieces (toks s) = ps1 ++ pc :: ps2 /\
  Forall (fun pc => exists x, item_key (fst pc) = Some x) (all_pieces ins1 ++ ps1) /\ item_key (fst pc) = None /\
  no_key (scope s) (fst pc ++ snd pc) x.
Proof.
  assert (Y : forall (l : list (list token * list token)), Forall (fun pc => no_comma (fst pc) /\ ends (snd pc)) l -> forall sc,
    Forall (fun pc => exists x, item_key (fst pc) = Some x) l \/
    exists ps1 pc ps2 x, l = ps1 ++ pc :: ps2 /\ Forall (fun pc => exists x, item_key (fst pc) = Some x) ps1 /\
      item_key (fst pc) = None /\ no_key sc (fst pc ++ snd pc) x).
  { clear l. induction 1 as [|pc l [N E] F IH]; intro sc; [left; constructor|].
    destruct (item_key (fst pc)) as [y|] eqn:K.
    - destruct (IH sc) as [A|(ps1 & pc' & ps2 & x & -> & A & B)]; [left; constructor; eauto|].
      right. exists (pc :: ps1), pc', ps2, x. split; auto. split; auto. constructor; eauto.
    - right. destruct (key_or_not (fst pc) (snd pc) sc E) as [[y Q]|[x Q]]; [congruence|]. exists [], pc, l, x. repeat split; auto. }
  assert (X : forall ins2 ins1, Forall (fun pc => exists x, item_key (fst pc) = Some x) (all_pieces ins1) ->
    keyed (ins1 ++ ins2) \/ exists a s b ps1 pc ps2 x, ins1 ++ ins2 = a ++ s :: b /\ pieces (toks s) = ps1 ++ pc :: ps2 /\
      Forall (fun pc => exists x, item_key (fst pc) = Some x) (all_pieces a ++ ps1) /\ item_key (fst pc) = None /\
      no_key (scope s) (fst pc ++ snd pc) x).
  { induction ins2 as [|s0 ins2 IH]; intros ins1 S.
    - left. rewrite app_nil_r. now apply keyed_pieces.
    - pose proof (all_pieces_shape [s0]) as SH. cbn [all_pieces flat_map] in SH. rewrite app_nil_r in SH.
      destruct (Y _ SH (scope s0)) as [A|(ps1 & pc & ps2 & x & E & A & B & C)].
      + replace (ins1 ++ s0 :: ins2) with ((ins1 ++ [s0]) ++ ins2) by (rewrite <- app_assoc; reflexivity).
        apply IH. unfold all_pieces. rewrite flat_map_app. apply Forall_app. split; auto. cbn [flat_map]. rewrite app_nil_r. exact A.
      + right. exists ins1, s0, ins2, ps1, pc, ps2, x. repeat split; auto. apply Forall_app. auto. }
  exact (X l [] (Forall_nil _)).
Qed.
Lemma keys_until_walk l : map (fun en => (en_key en, en_span en)) (fst (fst (walks eat_skip l))) = keys_until (items_of l).
Proof.
  destruct (keyed_or_not l) as [K|(ins1 & s & ins2 & ps1 & pc & ps2 & x & -> & PS & F & N & NK)].
  - destruct (keyed_read l K) as [F _]. unfold items_of. rewrite <- (app_nil_r (map fst _)).
    rewrite (keys_until_keyed _ _ [] F). now rewrite app_nil_r.
  - destruct (walks_ending eat_skip eat_skip_stays (fun en => eq_refl) ins1 s ins2 ps1 pc ps2 false x PS) as [A _].
    + pose proof (all_pieces_shape ins1) as S1. pose proof (all_pieces_shape [s]) as S2. cbn [all_pieces flat_map] in S2. rewrite app_nil_r, PS in S2.
      apply Forall_app in S2 as [S2 _]. pose proof (proj2 (Forall_app _ _ _) (conj S1 S2)) as SH.
      rewrite Forall_forall in *. intros p I. destruct (SH p I). apply eat_skip_eaten; auto.
    + exact NK.
    + rewrite app_nil_r in A. unfold items_of, all_pieces. rewrite flat_map_app. cbn [flat_map]. rewrite PS. rewrite <- app_assoc. cbn [app].
      rewrite app_assoc, map_app. fold (all_pieces ins1). rewrite (keys_until_keyed _ _ _ A). cbn [map keys_until]. rewrite N. now rewrite app_nil_r.
Qed.
Lemma not_variants_pass (e : edef) validate es inputs tm prefix : no_flattened e ->
  (if negb (e_unknown_ok e) && validate then fst (validate_pass (e_names e) es (erest tm e prefix inputs)) else es) =
  es ++ not_variants e validate inputs.
Proof.
  intro NF. unfold not_variants. destruct (negb (e_unknown_ok e) && validate) eqn:C; [|now rewrite app_nil_r].
  apply andb_true_iff in C as [C _]. apply negb_true_iff in C. rewrite erest_inputs by auto. rewrite validate_exact. f_equal.
  rewrite <- keys_until_walk. rewrite (no_flattened_names e NF). induction (fst (fst (walks eat_skip inputs))) as [|en l IH]; [reflexivity|].
  cbn [map flat_map fst snd]. rewrite IH. f_equal. unfold check_unknown. destruct (in_dec string_dec (en_key en) (variant_names e)) as [I|N].
  - apply mem_str_In in I. now rewrite I.
  - apply mem_str_false in N. rewrite N. reflexivity.
Qed.

(** *** The result *)
Lemma chain_run {A} (gs : list (A -> A + synerr)) : forall v es,
  (exists w, chained gs v w /\ run_and_thens gs (Some v) es = (Some w, es)) \/
  (exists x, chain_fails gs v x /\ run_and_thens gs (Some v) es = (None, es ++ errs_of x)).
Proof.
  induction gs as [|g gs IH]; intros v es; cbn [run_and_thens].
  - left. exists v. split; [constructor|reflexivity].
  - destruct (g v) as [u|x] eqn:G.
    + destruct (IH u es) as [[w [C E]]|[x [C E]]]; rewrite E; [left; exists w; split; [econstructor; eauto|reflexivity]|right; exists x; split; [eapply CF_later; eauto|reflexivity]].
    + right. exists x. split; [now constructor|]. apply run_and_thens_none.
Qed.
Lemma finish_concluded (gs : list (evalue V -> evalue V + synerr)) value es : (fs_into_option value = None -> es <> []) ->
  concluded gs (fs_into_option value) es (LemEnum2.finish gs value es).
Proof.
  intro N. unfold LemEnum2.finish. destruct (fs_into_option value) as [y|].
  - destruct (chain_run gs y es) as [[w [C ->]]|[x [C ->]]].
    + destruct es as [|x es]; cbn; [now constructor|]. eapply Co_errors; eauto.
    + destruct (es ++ errs_of x) as [|z zs] eqn:Z; [apply app_eq_nil in Z as [_ Z]; discriminate Z|]. cbn. eapply Co_fails; eauto.
  - rewrite run_and_thens_none. specialize (N eq_refl). destruct es as [|x es]; [congruence|]. cbn. constructor.
Qed.
Lemma own_ne (ns : list found) prefix : ns <> [] -> used_value ns = None -> found_errors prefix ns <> [].
Proof.
  intros NE U. destruct ns as [|x ns]; [congruence|]. cbn [found_errors]. intro Z. apply app_eq_nil in Z as [Z _].
  unfold own_errors in Z. destruct (fd_result x) as [vs|y] eqn:R; [|discriminate Z].
  unfold used_value in U. destruct (rev _); [|discriminate U]. cbn in U. rewrite R in U. discriminate U.
Qed.
Lemma l_enum_any (e : edef) tm prefix validate sp inputs r pcs stop :
  enum_run e tm prefix validate sp inputs r -> proper_enum tm e -> no_flattened e -> is_prefix prefix ->
  (forall v, In v (e_variants e) -> v_skip v = false -> v_names v <> []) ->
  enum_reading e tm prefix inputs pcs stop ->
  exists l ns, Forall2 reads pcs l /\ in_place inputs l /\ finds e tm prefix l ns /\
    concluded (e_and_thens e) (enum_value e ns) (enum_errors e prefix validate sp inputs ns stop) r.
Proof.
  intros H P NF IP NN RD. apply LemEnum5.run_body in H as ->. pose proof (G tm e P) as GG. rewrite (body_exact tm e prefix GG).
  destruct (enum_reading_reads tm e prefix P inputs pcs stop RD) as [FR ST].
  exists (eread tm e prefix inputs). destruct (finds_state tm e prefix P (eread tm e prefix inputs) IP init) as [ns [FI [QV [QK QE]]]].
  exists ns. split; auto. split; [now apply eread_place|]. split; auto. cbn [init q_value q_key q_errors app] in QV, QK, QE. rewrite value_used in QV.
  fold (estate tm e prefix inputs) in QV, QK, QE.
  assert (ES : eerrors tm e prefix inputs = found_errors prefix ns ++ stop).
  { unfold eerrors. rewrite QE, <- ST. destruct (estop tm e prefix inputs) as [x|]; [reflexivity|]. cbn. now rewrite app_nil_r. }
  unfold middle. rewrite ES, QV, QK. unfold enum_errors, enum_value. destruct ns as [|x ns].
  - rewrite (no_flat_matches e (no_flattened_any e NF)). destruct (e_default e) as [y|].
    + cbn [rbind fst snd]. rewrite app_nil_r. apply (finish_concluded _ (FSome y)). discriminate.
    + cbn [rbind fst snd]. rewrite not_variants_pass by auto. rewrite no_variant_err by auto. rewrite <- !app_assoc.
      apply (finish_concluded _ FNone). intros _ Z. apply app_eq_nil in Z as [_ Z]. apply app_eq_nil in Z as [_ Z]. apply app_eq_nil in Z as [_ Z]. discriminate Z.
  - destruct (used_value (x :: ns)) as [y|] eqn:U.
    + cbn [hd_error option_map]. rewrite (no_flattened_any e NF). cbn [andb rbind fst snd]. rewrite not_variants_pass by auto.
      rewrite <- app_assoc. apply (finish_concluded _ (FSome y)). discriminate.
    + cbn [rbind fst snd]. rewrite app_nil_r. apply (finish_concluded _ FParseError). intros _ Z. apply app_eq_nil in Z as [Z _].
      revert Z. apply own_ne; auto. discriminate.
Qed.
Lemma l_enum_reading (e : edef) tm prefix inputs : proper_enum tm e ->
  exists pcs stop, enum_reading e tm prefix inputs pcs stop.
Proof. intro P. now apply enum_reading_ex. Qed.
End E.
