(** Enums: reported errors, and runs of enums with flattened variants. *)
From Verif Require Export LemEnum5 LemRun.

Section E.
Context {env : Env} {V : Type}.
Notation vdef := (vdef V).
Notation edef := (edef V).

Lemma sound_eaten_enum tm (e : edef) prefix pc : proper_enum tm e -> no_comma (fst pc) -> ends (snd pc) ->
  (exists k ksp body, item_key (fst pc) = Some (k, ksp, body) /\
    forall i v, variant_at e prefix k i v ->
      (exists vs, variant_value v tm prefix k ksp body vs) \/ variant_rejects v tm prefix k ksp body) ->
  eaten (eat_enum tm e prefix) pc.
Proof.
  intros P N E [k [ksp [body [IK S]]]]. split; [eauto|]. intros en R. pose proof R as [body' [IK' T]].
  rewrite IK in IK'. injection IK' as EK ES <-. pose proof (key_no_comma _ _ _ _ IK N) as NB.
  destruct (is_hit e prefix en) eqn:HE; [|eapply eat_miss; eauto].
  unfold eat_enum. unfold is_hit in HE. destruct (hit e prefix (en_key en)) as [[n [i v]]|] eqn:HI; [|discriminate].
  pose proof (hit_variant e prefix _ _ _ _ HI) as [_ VA]. rewrite <- EK in VA.
  pose proof (G tm e P v (hit_in e prefix _ _ _ _ HI)) as GV. rewrite <- EK, <- ES.
  destruct (en_at en) as [ts sc c] eqn:EA. cbn [toks] in T. subst ts.
  destruct (S i v VA) as [[vs A]|RJ].
  - apply vp_accepts in A; auto. destruct (A (snd pc) sc c E) as [A1 A2].
    destruct (vp v tm prefix k ksp (mkStream (body ++ snd pc) sc c)) as [r s1]. cbn [fst snd] in *. subst r. exact A2.
  - apply vp_rejects in RJ; auto. destruct (RJ (snd pc) sc c E) as [x A1].
    pose proof (vp_local tm v prefix k ksp GV) as [ST _].
    destruct (stays_cut _ body (snd pc) sc c ST NB E) as [seg' [A2 [pre A3]]].
    destruct (vp v tm prefix k ksp (mkStream (body ++ snd pc) sc c)) as [r s1]. cbn [fst snd] in *. subst r.
    unfold skip_item. cbn [toks set_toks]. rewrite A2. apply skip_toks_app; auto. subst body. apply nc_app in NB. apply NB.
Qed.
Lemma sound_enum_reads tm (e : edef) prefix inputs : proper_enum tm e -> sound_enum e tm prefix inputs ->
  estop tm e prefix inputs = None /\ Forall2 reads (all_pieces inputs) (eread tm e prefix inputs).
Proof.
  intros P S. apply all_eaten; auto. unfold sound_enum, items_of in S. rewrite Forall_map in S. rewrite Forall_forall in *.
  intros pc I. pose proof (all_pieces_shape inputs) as SH. rewrite Forall_forall in SH. destruct (SH pc I). apply sound_eaten_enum; auto.
Qed.
Lemma reads_keys_map ps ens : Forall2 reads ps ens ->
  map (fun en => (en_key en, en_span en)) ens = flat_map (fun pc => match item_key (fst pc) with Some (k, sp, _) => [(k, sp)] | None => [] end) ps.
Proof. induction 1 as [|pc en ps ens [b [K _]] F IH]; cbn [map flat_map]; auto. rewrite K, IH. reflexivity. Qed.
Lemma map_split {A B} (g : A -> B) l : forall a x b, map g l = a ++ x :: b -> exists a' y b', l = a' ++ y :: b' /\ map g a' = a /\ g y = x /\ map g b' = b.
Proof.
  induction l as [|z l IH]; intros a x b H; [destruct a; discriminate|]. destruct a as [|w a]; cbn [app map] in H.
  - injection H as <- <-. exists [], z, l. auto.
  - injection H as <- H. destruct (IH _ _ _ H) as [a' [y [b' [-> [E1 [E2 E3]]]]]]. exists (z :: a'), y, b'. cbn [map app]. rewrite E1. auto.
Qed.
Lemma variant_name_hit tm (e : edef) prefix n : proper_enum tm e -> In n (variant_names e) ->
  exists i v, hit e prefix (prefix ++ n) = Some (n, (i, v)).
Proof.
  intros P I. apply in_variant_names in I as [v [I [O J]]]. apply In_nth_error in I as [i N].
  assert (VA : variant_at e prefix (prefix ++ n) i v) by (split; auto; split; auto; eauto).
  destruct (variant_hit tm e prefix P _ _ _ VA) as [m H]. pose proof (hit_variant e prefix _ _ _ _ H) as [E _].
  apply app_str_inj in E. subst m. eauto.
Qed.
Lemma l_enum_two_reported (e : edef) tm prefix validate sp inputs r n1 sp1 n2 sp2 a b c :
  enum_run e tm prefix validate sp inputs r -> proper_enum tm e -> is_prefix prefix ->
  In n1 (variant_names e) -> In n2 (variant_names e) ->
  (forall k ksp n, In (k, ksp) a -> In n (variant_names e) -> k <> (prefix ++ n)%string) ->
  keys_in inputs = a ++ ((prefix ++ n1)%string, sp1) :: b ++ ((prefix ++ n2)%string, sp2) :: c ->
  sound_enum e tm prefix inputs ->
  exists x, r = Err x /\ In (two_variants prefix n1 n2 sp2) (errs_of x).
Proof.
  intros H P IP I1 I2 NA KS SE. apply LemEnum5.run_body in H. destruct (sound_enum_reads tm e prefix inputs P SE) as [ST FR].
  pose proof (reads_keys_map _ _ FR) as KM. fold (keys_in inputs) in KM. rewrite KS in KM.
  apply map_split in KM as [l1 [en1 [l2 [E1 [A1 [K1 R1]]]]]]. apply map_split in R1 as [l3 [en2 [l4 [-> [A2 [K2 _]]]]]].
  injection K1 as K1 S1. injection K2 as K2 S2.
  assert (HA : existsb (is_hit e prefix) l1 = false).
  { destruct (existsb (is_hit e prefix) l1) eqn:X; auto. apply existsb_exists in X as [en [J X]]. unfold is_hit in X.
    destruct (hit e prefix (en_key en)) as [[m [i v]]|] eqn:HI; [|discriminate]. apply hit_variant in HI as [KE [N [O [m' [IM KM]]]]].
    exfalso. apply (NA (en_key en) (en_span en) m').
    - rewrite <- A1. apply in_map_iff. exists en. auto.
    - apply in_variant_names. exists v. eauto using nth_error_In.
    - exact KM. }
  destruct (variant_name_hit tm e prefix n1 P I1) as [i1 [v1 H1]]. destruct (variant_name_hit tm e prefix n2 P I2) as [i2 [v2 H2]].
  rewrite <- K1 in H1. rewrite <- K2 in H2.
  pose proof (G tm e P) as GG.
  destruct (fold_hit tm e prefix GG l1 en1 (l3 ++ en2 :: l4) n1 i1 v1 HA H1) as [_ [QE _]]. rewrite <- E1 in QE.
  assert (IE : In (two_variants prefix n1 n2 sp2) (eerrors tm e prefix inputs)).
  { unfold eerrors, estate. rewrite ST. cbn [stop_res push_result]. rewrite QE. apply in_or_app. right. apply in_flat_map. exists en2.
    split; [apply in_or_app; right; now left|]. unfold hit_errors. rewrite H2. apply in_or_app. left. unfold only_one_variant, push, two_variants.
    rewrite !LemFlat.join_path_prefix by auto. rewrite S2. unfold tick. left. f_equal. rewrite !app_str_assoc. reflexivity. }
  destruct P as [AC [NT P']]. destruct (body_errors tm e prefix GG (e_names e) sp validate inputs) as [x [EX IX]]; auto.
  { intro Z. rewrite Z in IE. destruct IE. }
  exists x. rewrite H. split; auto.
Qed.

Lemma no_variant_err (e : edef) prefix sp : is_prefix prefix -> no_flattened e -> (forall v, In v (e_variants e) -> v_skip v = false -> v_names v <> []) ->
  forall es, variant_required sp prefix (all_messages e) es = es ++ [no_variant e prefix sp].
Proof.
  intros IP NF NN es. unfold variant_required, push, no_variant, all_messages. rewrite map_map.
  rewrite (map_ext_in _ (fun v => match v_names v with [] => "" | n :: _ => (prefix ++ "`" ++ n ++ "`")%string end)); [reflexivity|].
  intros v I. apply filter_In in I as [I K]. apply negb_true_iff in K. unfold variant_message. rewrite (NF v I).
  specialize (NN v I K). destruct (v_names v) as [|n l]; [congruence|]. unfold variant_msg. cbn [map]. cbn [join_strs]. now rewrite LemFlat.join_path_prefix by auto.
Qed.
Lemma finish_has (gs : list (evalue V -> evalue V + synerr)) (value : fstatus (evalue V)) es y : In y es -> exists x, LemEnum2.finish gs value es = Err x /\ In y (errs_of x).
Proof. intro I. destruct (LemEnum2.finish_err gs value es) as [x [E J]]; [intros ->; destruct I|]. exists x. auto. Qed.
Lemma l_enum_none (e : edef) tm prefix validate sp inputs r :
  enum_run e tm prefix validate sp inputs r -> proper_enum tm e -> no_flattened e -> is_prefix prefix ->
  (forall v, In v (e_variants e) -> v_skip v = false -> v_names v <> []) ->
  e_default e = None -> variant_items e prefix (items_of inputs) = [] ->
  exists x, r = Err x /\ In (no_variant e prefix sp) (errs_of x).
Proof.
  intros H P NF IP NN D VI. apply LemEnum5.run_body in H as ->. rewrite (body_exact tm e prefix (G tm e P)).
  pose proof (no_hits tm e prefix P inputs VI) as HX. destruct (fold_none tm e prefix (eread tm e prefix inputs) (@init V) HX) as [_ [_ QV]].
  unfold middle. cbv zeta. unfold estate. rewrite QV. cbn [init q_value]. rewrite (no_flat_matches e (no_flattened_any e NF)), D.
  cbn [rbind fst snd]. rewrite no_variant_err by auto. apply finish_has. apply in_or_app. right. now left.
Qed.

(** *** C22 *)
Lemma state_paths_keyed tm (e : edef) prefix inputs : proper_enum tm e -> e_any_flat e = true ->
  Forall2 reads (all_pieces inputs) (eread tm e prefix inputs) -> paths_for prefix inputs (q_paths (estate tm e prefix inputs)).
Proof.
  intros P AF FR k. rewrite (state_paths tm e prefix P inputs AF k). split.
  - intros [en [I K]]. exists (en_span en). apply (read_keys _ _ FR). exists en. auto.
  - intros [ksp I]. apply (read_keys _ _ FR) in I as [en [I [K _]]]. eauto.
Qed.
Lemma flattened_any (e : edef) i v : flattened e i v -> e_any_flat e = true.
Proof. intros [N [F S]]. unfold e_any_flat. apply existsb_exists. exists v. rewrite F, S. split; eauto using nth_error_In. Qed.
Lemma chosen_none (e : edef) prefix inputs : (forall i v, flattened e i v -> ~ all_present v prefix inputs) <-> forall i v, ~ chosen e prefix inputs i v.
Proof.
  split.
  - intros H i v [F [A _]]. now apply (H i v).
  - intros H. assert (X : forall i v, flattened e i v -> needs v -> ~ all_present v prefix inputs).
    { intros i v F N A. apply (H i v). split; auto. }
    intros i v F A. apply (H i v). split; auto. 
Qed.
Lemma l_flat_run (e : edef) tm prefix validate sp inputs r x :
  enum_run e tm prefix validate sp inputs r -> proper_enum tm e -> flat_local e ->
  variant_items e prefix (items_of inputs) = [] ->
  r = Ok x -> keyed inputs /\ exists y, chained (e_and_thens e) y x /\
   ((exists i v vs, chosen e prefix inputs i v /\ y = (i, vs) /\ flat_written e tm prefix sp inputs i v vs) \/
    ((forall i v, ~ chosen e prefix inputs i v) /\ e_default e = Some y)).
Proof.
  intros H P FL VI. apply LemEnum5.run_body in H as ->. rewrite (enum_text tm e prefix P). intros [KY [y [CH C]]]. split; auto. exists y. split; auto.
  destruct C as [[seg [i [vs [n [VI' _]]]]]|[_ C]]; [congruence|].
  destruct (keyed_no_hits tm e prefix P inputs KY VI) as [ST FR].
  assert (FN : flat_named_ok e) by (intros w I F; apply (FL w I F)).
  destruct (pick_flat e (q_paths (estate tm e prefix inputs))) as [[i v]|] eqn:PK.
  - left. destruct (e_any_flat e) eqn:AF; [|rewrite no_flat_matches in PK; auto; discriminate].
    pose proof (state_paths_keyed tm e prefix inputs P AF FR) as PF.
    pose proof (pick_some e prefix inputs _ i v FN PF PK) as CH1. destruct (flattened_in e i v (proj1 CH1)) as [IV FV].
    destruct (FL v IV FV) as [LF FNV]. pose proof P as [AC _]. unfold accepted_enum in AC. rewrite Forall_forall in AC.
    apply (flat_text e tm prefix sp i v _ inputs y (AC v IV) FV LF FNV PF KY) in C as [vs [-> FW]]. exists i, v, vs. auto.
  - right. split; auto. apply chosen_none. intros j w FW. destruct (e_any_flat e) eqn:AF; [|rewrite (flattened_any e j w FW) in AF; discriminate].
    pose proof (state_paths_keyed tm e prefix inputs P AF FR) as PF. exact (pick_none e prefix inputs _ FN PF PK j w FW).
Qed.
Lemma l_flat_accepts (e : edef) tm prefix validate sp inputs r i v vs x :
  enum_run e tm prefix validate sp inputs r -> proper_enum tm e -> flat_local e ->
  variant_items e prefix (items_of inputs) = [] ->
  chosen e prefix inputs i v -> (forall j w, chosen e prefix inputs j w -> j = i) ->
  keyed inputs -> flat_written e tm prefix sp inputs i v vs -> chained (e_and_thens e) (i, vs) x -> r = Ok x.
Proof.
  intros H P FL VI CN UN KY FW CH. apply LemEnum5.run_body in H as ->. apply (enum_text tm e prefix P). split; auto. exists (i, vs). split; auto. right. split; auto.
  destruct (keyed_no_hits tm e prefix P inputs KY VI) as [ST FR].
  assert (FN : flat_named_ok e) by (intros w I F; apply (FL w I F)).
  pose proof (flattened_any e i v (proj1 CN)) as AF. pose proof (state_paths_keyed tm e prefix inputs P AF FR) as PF.
  destruct (pick_flat e (q_paths (estate tm e prefix inputs))) as [[j w]|] eqn:PK.
  - pose proof (pick_some e prefix inputs _ j w FN PF PK) as CW. pose proof (UN j w CW) as ->.
    assert (w = v) by (destruct CW as [[N1 _] _], CN as [[N2 _] _]; congruence). subst w.
    destruct (flattened_in e i v (proj1 CN)) as [IV FV].
    destruct (FL v IV FV) as [LF FNV]. pose proof P as [AC _]. unfold accepted_enum in AC. rewrite Forall_forall in AC.
    apply (flat_text e tm prefix sp i v _ inputs (i, vs) (AC v IV) FV LF FNV PF KY). eauto.
  - destruct (pick_none e prefix inputs _ FN PF PK i v (proj1 CN)). apply CN.
Qed.
Lemma l_flat_default (e : edef) tm prefix validate sp inputs r x y :
  enum_run e tm prefix validate sp inputs r -> proper_enum tm e -> flat_local e ->
  variant_items e prefix (items_of inputs) = [] -> (forall i v, ~ chosen e prefix inputs i v) ->
  keyed inputs -> e_default e = Some y -> chained (e_and_thens e) y x -> r = Ok x.
Proof.
  intros H P FL VI CN KY D CH. apply LemEnum5.run_body in H as ->. apply (enum_text tm e prefix P). split; auto. exists y. split; auto. right. split; auto.
  destruct (keyed_no_hits tm e prefix P inputs KY VI) as [ST FR].
  assert (FN : flat_named_ok e) by (intros w I F; apply (FL w I F)).
  destruct (pick_flat e (q_paths (estate tm e prefix inputs))) as [[j w]|] eqn:PK; auto.
  destruct (e_any_flat e) eqn:AF; [|rewrite no_flat_matches in PK; auto; discriminate].
  pose proof (state_paths_keyed tm e prefix inputs P AF FR) as PF. now destruct (CN j w (pick_some e prefix inputs _ j w FN PF PK)).
Qed.
(** keys of other flattened variants *)
Lemma l_flat_foreign (e : edef) tm prefix sp inputs i v vs k ksp :
  e_unknown_ok e = false -> v_unknown_ok v = false -> flat_written e tm prefix sp inputs i v vs ->
  In (k, ksp) (keys_in inputs) -> foreign e prefix i v k -> In k (flat_names_of v).
Proof.
  intros U1 U2 [c [CS [P [P1 P2]]]] I F. destruct (takes_all_dec v) as [T|T]; [now destruct (P2 T U1 U2 k ksp I)|].
  destruct c.
  - destruct P as [IO _]. apply in_keys_pieces in I as [pc [body [I K]]].
    assert (J : In (fst pc) (items_of inputs)) by (now apply in_map). rewrite Forall_forall in IO. destruct (IO _ J) as [[j [w [k' [ksp' [b' [f [K' [O _]]]]]]]]|[k' [ksp' [b' [K' [_ IA]]]]]].
    + rewrite K in K'. injection K' as <- <- <-. exfalso. destruct F as [j' [w' [m [_ [_ [_ [_ [-> NI]]]]]]]].
      unfold owner_in in O. cbn [r_prefix r_fields variant_reader] in O. rewrite (proj2 (strip_prefix_spec prefix _ m) eq_refl) in O.
      apply LemNamed.find_field_spec in O as [_ [O2 [O3 [O4 _]]]]. apply NI. rewrite Nat.sub_0_r in O2. unfold v_fields in O2. rewrite nth_error_map in O2.
      destruct (nth_error (v_raw v) j) as [g|] eqn:NG; [|discriminate]. injection O2 as <-. apply in_flat_map. exists g. split; [eauto using nth_error_In|].
      destruct (skip_default_names g) as [SN [SK _]]. apply pitem_spec in O3 as [_ [_ [d KD]]]. rewrite SK in KD. rewrite SN in O4.
      unfold field_key_names. rewrite KD. exact O4.
    + rewrite K in K'. injection K' as <- <- <-. now apply IA.
  - apply (P1) with (ksp := ksp); auto. intro N. destruct CS as [_ CS]. discriminate CS. auto.
Qed.
End E.
