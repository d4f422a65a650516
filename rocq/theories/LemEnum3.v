(** Enums: which inputs are accepted. *)
From Verif Require Export LemEnum2.

Section E.
Context {env : Env} {V : Type}.
Notation vdef := (vdef V).
Notation edef := (edef V).

Lemma find_variant_spec n (vs : list vdef) : forall j i v, find_variant n vs j = Some (i, v) ->
  j <= i /\ nth_error vs (i - j) = Some v /\ ordinary v /\ In n (v_names v).
Proof.
  induction vs as [|w vs IH]; intros j i v H; cbn [find_variant] in H; [discriminate|].
  destruct (negb (v_flatten w) && negb (v_skip w) && mem_str n (v_names w)) eqn:C.
  - injection H as <- <-. apply andb_true_iff in C as [C M]. apply andb_true_iff in C as [C1 C2].
    rewrite Nat.sub_diag. split; [lia|]. split; auto. split; [|now apply mem_str_In].
    split; now apply negb_true_iff.
  - apply IH in H. destruct H as [L [N O]]. split; [lia|]. split; auto. replace (i - j) with (S (i - S j)) by lia. exact N.
Qed.
Lemma find_variant_none n (vs : list vdef) : forall j, find_variant n vs j = None ->
  forall v, In v vs -> ordinary v -> ~ In n (v_names v).
Proof.
  induction vs as [|w vs IH]; intros j H v I; [destruct I|]. cbn [find_variant] in H.
  destruct (negb (v_flatten w) && negb (v_skip w) && mem_str n (v_names w)) eqn:C; [discriminate|].
  destruct I as [->|I]; [|eauto]. intros [O1 O2]. rewrite O1, O2 in C. cbn in C. now apply mem_str_false.
Qed.
Lemma in_variant_names (e : edef) n : In n (variant_names e) <-> exists v, In v (e_variants e) /\ ordinary v /\ In n (v_names v).
Proof.
  unfold variant_names, ordinary. rewrite in_flat_map. split; intros [v H]; exists v.
  - destruct H as [I H]. destruct (v_flatten v), (v_skip v); try destruct H; auto.
  - destruct H as [I [[-> ->] H]]. auto.
Qed.
Section B.
Variable tm : tmode V.
Variable e : edef.
Variable prefix : string.
Variable PE : proper_enum tm e.
Notation is_hit := (is_hit e prefix).
Notation hit := (hit e prefix).
Notation upd := (upd_enum tm e prefix).
Notation eat := (eat_enum tm e prefix).
Notation eread := (eread tm e prefix).
Notation estop := (estop tm e prefix).
Notation estate := (estate tm e prefix).
Notation value_of := (value_of tm e prefix).

Lemma G : forall v, In v (e_variants e) -> good_variant tm v.
Proof. intros v I. eapply proper_good; eauto. Qed.
Lemma hit_variant k n i v : hit k = Some (n, (i, v)) -> k = (prefix ++ n)%string /\ variant_at e prefix k i v.
Proof.
  intro H. pose proof (hit_strip _ _ _ _ _ H) as SP. apply strip_prefix_spec in SP. split; auto.
  unfold LemEnum.hit in H. rewrite (proj2 (strip_prefix_spec prefix k n) SP) in H.
  destruct (find_variant n (e_variants e) 0) as [[j w]|] eqn:F; [|discriminate]. injection H as -> ->.
  apply find_variant_spec in F. rewrite Nat.sub_0_r in F. destruct F as [_ [N [O I]]]. split; auto. split; auto. eauto.
Qed.
Lemma app_str_inj p a b : (p ++ a = p ++ b)%string -> a = b.
Proof. induction p; simpl; auto. intro H. injection H. auto. Qed.
Lemma variant_hit k i v : variant_at e prefix k i v -> exists n, hit k = Some (n, (i, v)).
Proof.
  intros [N [O [n [I K]]]]. exists n. unfold LemEnum.hit. rewrite (proj2 (strip_prefix_spec prefix k n) K).
  destruct (find_variant n (e_variants e) 0) as [[j w]|] eqn:F.
  - apply find_variant_spec in F. rewrite Nat.sub_0_r in F. destruct F as [_ [N' [O' I']]].
    destruct PE as [_ [_ [D _]]]. assert (i = j) by (eapply (D i j v w n); eauto). subst j. congruence.
  - exfalso. eapply find_variant_none; eauto using nth_error_In.
Qed.
Lemma hit_addressed pc en : reads pc en -> is_hit en = addressed prefix (variant_names e) (fst pc).
Proof.
  intros [b [K _]]. unfold LemEnum.is_hit. destruct (hit (en_key en)) as [[n [i v]]|] eqn:H.
  - apply hit_variant in H as [E [N [O [n' [I' E']]]]]. symmetry. apply addressed_spec.
    exists (en_key en), (en_span en), b, n'. split; auto. split; auto. apply in_variant_names. exists v. split; eauto using nth_error_In.
  - symmetry. destruct (addressed prefix (variant_names e) (fst pc)) eqn:A; auto.
    apply addressed_spec in A as [k [ksp [b' [n [K' [I E]]]]]]. rewrite K in K'. injection K' as <- <- <-.
    apply in_variant_names in I as [v [I [O J]]]. apply In_nth_error in I as [i I].
    destruct (variant_hit (en_key en) i v) as [m HM]; [|congruence]. split; auto. split; auto. eauto.
Qed.

(** *** One variant *)
Lemma value_text pc en n i v vs : no_comma (fst pc) -> ends (snd pc) -> reads pc en -> hit (en_key en) = Some (n, (i, v)) ->
  (value_of en = Ok (i, vs) /\ toks (eat en) = snd pc) <-> variant_written e tm prefix (fst pc) i vs.
Proof.
  intros NC EN [b [K T]] H. pose proof (key_no_comma _ _ _ _ K NC) as NB.
  pose proof (hit_in e prefix _ _ _ _ H) as IV. pose proof (G v IV) as GV.
  unfold LemEnum.value_of, eat_enum. rewrite H. apply stream_eta in T as TE. split.
  - intros [VO EA]. exists (en_key en), (en_span en), b, v. split; auto. split; [eapply hit_variant; eauto|].
    apply vp_accepts; auto. destruct (vp v tm prefix (en_key en) (en_span en) (en_at en)) as [[l|x|bb] s1] eqn:X; cbn [fst rmap] in VO; try discriminate.
    injection VO as ->. eapply local_accepts_at; [apply vp_local; auto|auto|exact EN| |]; rewrite <- TE, X; auto.
  - intros [k [ksp [b' [w [K' [VA VV]]]]]]. rewrite K in K'. injection K' as <- <- <-.
    destruct (variant_hit _ _ _ VA) as [n' H']. rewrite H in H'. injection H' as <- <-.
    apply vp_accepts in VV; auto. destruct (VV (snd pc) (scope (en_at en)) (cell (en_at en)) EN) as [V1 V2]. rewrite <- TE in V1, V2.
    destruct (vp v tm prefix (en_key en) (en_span en) (en_at en)) as [r s1]. cbn [fst snd] in V1, V2. subst r. cbn. auto.
Qed.
Lemma eread_items inputs : estop inputs = None -> Forall2 (read_eaten eat) (all_pieces inputs) (eread inputs).
Proof.
  intro S. rewrite <- (esource_pieces e inputs). apply walks_eaten; auto. apply eat_enum_stays. exact G.
Qed.
Lemma read_keyed inputs ens : Forall2 (read_eaten eat) (all_pieces inputs) ens -> keyed inputs.
Proof.
  intro F. apply keyed_pieces. apply Forall_forall. intros pc I. destruct (Forall2_in_l _ _ _ _ F I) as [en [_ [[b [K _]] _]]]. eauto.
Qed.
Lemma eaten_reads ps ens : Forall2 (read_eaten eat) ps ens -> Forall2 reads ps ens.
Proof. induction 1; constructor; auto. apply H. Qed.
Lemma hits_items ps ens : Forall2 reads ps ens ->
  length (filter is_hit ens) = length (variant_items e prefix (map fst ps)) /\
  existsb is_hit ens = existsb (addressed prefix (variant_names e)) (map fst ps).
Proof.
  intro F. assert (M : map is_hit ens = map (addressed prefix (variant_names e)) (map fst ps)).
  { induction F as [|pc en ps ens R F IH]; cbn [map]; auto. rewrite IH. f_equal. now apply hit_addressed. }
  unfold variant_items, part. destruct (existsb_map_eq _ _ _ _ M). auto.
Qed.
Lemma no_variant_items its : variant_items e prefix its = [] <-> existsb (addressed prefix (variant_names e)) its = false.
Proof.
  unfold variant_items, part. induction its as [|s its IH]; cbn [filter existsb]; [tauto|].
  destruct (addressed prefix (variant_names e) s); [split; discriminate|exact IH].
Qed.
Lemma read_part inputs : exists ps1 ps2, all_pieces inputs = ps1 ++ ps2 /\ Forall2 reads ps1 (eread inputs) /\ (estop inputs = None -> ps2 = []).
Proof. rewrite <- (esource_pieces e inputs). apply walks_items. apply eat_enum_stays. exact G. Qed.
Lemma no_hits inputs : variant_items e prefix (items_of inputs) = [] -> existsb is_hit (eread inputs) = false.
Proof.
  intro H. apply no_variant_items in H. destruct (read_part inputs) as [p1 [p2 [E [F _]]]].
  destruct (hits_items _ _ F) as [_ ->]. unfold items_of in H. rewrite E, map_app, existsb_app in H. now apply orb_false_iff in H.
Qed.
Lemma eat_miss pc en : no_comma (fst pc) -> ends (snd pc) -> reads pc en -> is_hit en = false -> toks (eat en) = snd pc.
Proof.
  intros N E [b [K T]] H. unfold eat_enum. unfold LemEnum.is_hit in H. destruct (hit (en_key en)); [discriminate|].
  unfold skip_item. cbn [toks set_toks]. rewrite T. apply skip_toks_app; auto. eapply key_no_comma; eauto.
Qed.
Lemma all_eaten inputs : Forall (eaten eat) (all_pieces inputs) -> estop inputs = None /\ Forall2 reads (all_pieces inputs) (eread inputs).
Proof.
  rewrite <- (esource_pieces e inputs). intro F. destruct (walks_complete eat (eat_enum_stays tm e prefix G) _ F). auto.
Qed.
Lemma keyed_no_hits inputs : keyed inputs -> variant_items e prefix (items_of inputs) = [] ->
  estop inputs = None /\ Forall2 reads (all_pieces inputs) (eread inputs).
Proof.
  intros K H. apply all_eaten. apply keyed_pieces in K. pose proof (all_pieces_shape inputs) as S. apply no_variant_items in H.
  rewrite Forall_forall in *. intros pc I. destruct (S pc I) as [NC EN]. split; [apply (K pc I)|].
  intros en R. apply eat_miss; auto. rewrite (hit_addressed pc) by auto.
  destruct (addressed prefix (variant_names e) (fst pc)) eqn:A; auto.
  assert (X : existsb (addressed prefix (variant_names e)) (items_of inputs) = true); [|congruence].
  apply existsb_exists. exists (fst pc). split; auto. unfold items_of. apply in_map. auto.
Qed.
(** the keys seen *)
Lemma state_paths inputs : e_any_flat e = true -> forall k,
  In k (pm_keys (q_paths (estate inputs))) <-> exists en, In en (eread inputs) /\ en_key en = (prefix ++ k)%string.
Proof.
  intros AF k. unfold LemEnum2.estate.
  assert (H : forall l q, In k (pm_keys (q_paths (fold_entries upd l q))) <->
     In k (pm_keys (q_paths q)) \/ exists en, In en l /\ en_key en = (prefix ++ k)%string).
  { induction l as [|en l IH]; intro q; cbn [fold_entries fold_left].
    - split; auto. intros [?|[en [[] _]]]; auto.
    - fold (fold_entries upd l (upd en q)). rewrite IH.
      assert (U : In k (pm_keys (q_paths (upd en q))) <-> In k (pm_keys (q_paths q)) \/ en_key en = (prefix ++ k)%string).
      { unfold upd_enum. rewrite AF. destruct (strip_prefix prefix (en_key en)) as [n|] eqn:SP.
        - apply strip_prefix_spec in SP. cbv zeta.
          assert (P : In k (pm_keys (pm_insert n (en_span en) (q_paths q))) <-> In k (pm_keys (q_paths q)) \/ en_key en = (prefix ++ k)%string).
          { rewrite pm_insert_keys. rewrite SP. split.
            - intros [->|?]; auto.
            - intros [?|?]; auto. left. symmetry. now apply (app_str_inj prefix). }
          destruct (find_variant n (e_variants e) 0) as [[i v]|] eqn:F; [|exact P].
          apply LemWfE.find_variant_in in F.
          pose proof (vp_good tm v prefix (en_key en) (en_span en) (G v F) (en_at en)) as [W _].
          destruct (fst (vp v tm prefix (en_key en) (en_span en) (en_at en))); [exact P|exact P|destruct W].
        - split; auto. intros [?|E]; auto. apply strip_prefix_spec in E. congruence. }
      rewrite U. split.
      + intros [[?|?]|[en' [? ?]]]; auto; right; eauto with datatypes.
      + intros [?|[en' [[<-|?] ?]]]; auto. right. eauto. }
  rewrite H. split; auto. intros [[]|?]; auto.
Qed.
Lemma no_flat_matches : e_any_flat e = false -> forall paths, pick_flat e paths = None.
Proof.
  intros H paths. assert (M : flat_matches e = []).
  { unfold flat_matches. unfold e_any_flat in H.
    assert (Q : forall (l : list (nat * vdef)) (m : list (key_t * (nat * vdef))), (forall iv, In iv l -> In (snd iv) (e_variants e)) ->
      fold_left (fun m iv => let '(i, v) := iv in
               if v_flatten v && negb (v_skip v)
               then map_insert key_cmp (field_key v) (i, v) m else m) l m = m).
    { induction l as [|[i v] l IH]; intros m HL; cbn [fold_left]; auto.
      assert (X : v_flatten v && negb (v_skip v) = false).
      { destruct (v_flatten v && negb (v_skip v)) eqn:Y; auto.
        assert (Z : existsb (fun v => v_flatten v && negb (v_skip v)) (e_variants e) = true); [|congruence].
        apply existsb_exists. exists v. split; auto. apply (HL (i, v)). now left. }
      rewrite X. apply IH. intros iv I. apply HL. now right. }
    apply Q. intros [i v] I. apply in_combine_r in I. exact I. }
  unfold pick_flat. now rewrite M.
Qed.

(** *** Which inputs are accepted *)
(** keys next to that of an ordinary variant *)
Definition others_ok (allowed : list string) (validate : bool) (n : string) (inputs : list stream) : Prop :=
  e_unknown_ok e = false ->
  (validate = true -> forall k sp, In (k, sp) (keys_in inputs) -> In k allowed) /\
  (validate = false -> e_any_flat e = true -> forall p ns m, In (p, ns) (flat_map flat_names (e_variants e)) -> In m ns ->
     join_path p m <> n -> forall k sp, In (k, sp) (keys_in inputs) -> k <> (prefix ++ join_path p m)%string).
Lemma eerrors_nil inputs : eerrors tm e prefix inputs = [] <-> q_errors (estate inputs) = [] /\ estop inputs = None.
Proof.
  unfold eerrors. destruct (estop inputs) as [x|]; cbn [stop_res push_result].
  - split; [intro H; now apply push_syn_ne in H|intros [_ ?]; discriminate].
  - tauto.
Qed.
Lemma state_hit inputs : existsb is_hit (eread inputs) = true ->
  exists a en b n i v, eread inputs = a ++ en :: b /\ existsb is_hit a = false /\ hit (en_key en) = Some (n, (i, v)) /\
    q_key (estate inputs) = Some n /\
    q_errors (estate inputs) = first_errors tm e prefix en ++ flat_map (hit_errors tm e prefix n) b /\
    q_value (estate inputs) <> FNone /\
    (existsb is_hit b = false -> forall y, value_of en = Ok y -> q_value (estate inputs) = FSome y).
Proof.
  intro H. destruct (split_hit _ _ _ H) as [a [en [b [E [HA HE]]]]]. unfold LemEnum.is_hit in HE.
  destruct (hit (en_key en)) as [[n [i v]]|] eqn:HI; [|discriminate].
  destruct (fold_hit tm e prefix G a en b n i v HA HI) as [Q1 [Q2 [Q3 Q4]]].
  exists a, en, b, n, i, v. unfold LemEnum2.estate. rewrite E. auto 10.
Qed.
Lemma hit_errors_nil n b : flat_map (hit_errors tm e prefix n) b = [] <-> existsb is_hit b = false.
Proof.
  rewrite flat_map_nil. split.
  - intro H. destruct (existsb is_hit b) eqn:X; auto. apply existsb_exists in X as [en [I X]]. specialize (H en I).
    unfold LemEnum.is_hit in X. unfold hit_errors in H. destruct (hit (en_key en)) as [[m [i v]]|]; [|discriminate].
    apply app_eq_nil in H as [H _]. now apply push_ne in H.
  - intros H en I. unfold hit_errors. destruct (hit (en_key en)) as [[m [i v]]|] eqn:X; auto.
    assert (Z : existsb is_hit b = true); [|congruence]. apply existsb_exists. exists en. split; auto. unfold LemEnum.is_hit. now rewrite X.
Qed.
Lemma first_nil en : first_errors tm e prefix en = [] <-> exists y, value_of en = Ok y.
Proof.
  unfold first_errors. pose proof (value_of_returns tm e prefix G en) as R.
  destruct (value_of en) as [y|x|b]; cbn [returns] in R; [|split; [discriminate|intros [y ?]; discriminate]|destruct R].
  split; eauto.
Qed.
Lemma filter_split {A} (p : A -> bool) a x b : existsb p a = false -> p x = true -> existsb p b = false -> filter p (a ++ x :: b) = [x].
Proof.
  intros HA HX HB. assert (N : forall l, existsb p l = false -> filter p l = []).
  { induction l as [|y l IH]; auto. cbn [existsb filter]. destruct (p y); [discriminate|auto]. }
  rewrite filter_app. cbn [filter]. rewrite HX, (N a), (N b); auto.
Qed.
Lemma erest_inputs inputs : e_any_flat e = true \/ e_unknown_ok e = false -> erest tm e prefix inputs = inputs.
Proof. intros [H|H]; unfold erest; rewrite H; auto. now rewrite orb_true_r. Qed.
Lemma others_spec allowed validate inputs n : keyed inputs -> Forall2 reads (all_pieces inputs) (eread inputs) ->
  (let es1 := if e_any_flat e && negb (e_unknown_ok e) && negb validate
              then disallow_paths (pm_remove n (q_paths (estate inputs))) (flat_map flat_names (e_variants e)) n []
              else [] in
   (if negb (e_unknown_ok e) && validate then fst (validate_pass allowed es1 (erest tm e prefix inputs)) else es1) = []) <->
  others_ok allowed validate n inputs.
Proof.
  intros K F. cbv zeta. unfold others_ok. destruct (e_unknown_ok e) eqn:U; cbn [negb andb].
  { rewrite andb_false_r. cbn [andb]. split; [discriminate|auto]. }
  rewrite andb_true_r. rewrite erest_inputs by auto. destruct validate; cbn [negb andb].
  - rewrite andb_false_r. rewrite validate_nil by auto. split.
    + intros [_ H] _. split; auto. discriminate.
    + intro H. destruct (H eq_refl) as [H1 _]. split; [reflexivity|exact (H1 eq_refl)].
  - rewrite andb_true_r. destruct (e_any_flat e) eqn:AF; [|split; auto; split; discriminate].
    rewrite disallow_nil. split.
    + intros [_ H] _. split; [discriminate|]. intros _ _ p ns m I J N k sp IK ->. apply (H p ns m I J).
      apply pm_remove_keys. split; auto. apply (state_paths inputs AF). apply (read_keys _ _ F) in IK as [en [? [? ?]]]. eauto.
    + intro H. destruct (H eq_refl) as [_ H2]. split; auto. intros p ns m I J IK. apply pm_remove_keys in IK as [N IK].
      apply (state_paths inputs AF) in IK as [en [IE KE]]. apply (H2 eq_refl eq_refl p ns m I J N (en_key en) (en_span en)); auto.
      apply (read_keys _ _ F). eauto.
Qed.

Theorem enum_text allowed sp validate inputs x :
  fst (enum_body e tm allowed sp prefix validate inputs) = Ok x <->
  keyed inputs /\ exists y, chained (e_and_thens e) y x /\
   ((exists seg i vs n, variant_items e prefix (items_of inputs) = [seg] /\ variant_written e tm prefix seg i vs /\ y = (i, vs) /\
       (exists ksp body, item_key seg = Some ((prefix ++ n)%string, ksp, body)) /\ others_ok allowed validate n inputs) \/
    (variant_items e prefix (items_of inputs) = [] /\
     match pick_flat e (q_paths (estate inputs)) with
     | Some (vi, v) => fst (flat_block e tm prefix sp vi v (q_paths (estate inputs)) [] inputs) = Ok (FSome y, [])
     | None => e_default e = Some y
     end)).
Proof.
  rewrite (body_exact tm e prefix G). pose proof (all_pieces_shape inputs) as SH. rewrite Forall_forall in SH. split.
  - intro H. pose proof (middle_grows tm e prefix allowed sp validate inputs) as MG.
    destruct (middle tm e prefix allowed sp validate inputs) as [[value es]|?|?] eqn:M; try discriminate H. cbn [rbind fst snd] in H, MG.
    apply finish_ok in H as [y [-> [-> CH]]]. apply grows_nil in MG; auto. apply eerrors_nil in MG as [QE ST].
    pose proof (eread_items inputs ST) as F. pose proof (eaten_reads _ _ F) as FR.
    split; [eapply read_keyed; eauto|]. exists y. split; auto.
    assert (KY : keyed inputs) by (eapply read_keyed; eauto).
    assert (EN : eerrors tm e prefix inputs = []) by (apply eerrors_nil; auto).
    unfold middle in M. cbv zeta in M. rewrite EN in M.
    destruct (existsb is_hit (eread inputs)) eqn:HX.
    + left. destruct (state_hit inputs HX) as [a [en [b [n [i [v [E [HA [HI [QK [Q1 [Q2 Q3]]]]]]]]]]]].
      rewrite QE in Q1. symmetry in Q1. apply app_eq_nil in Q1 as [Z1 Z2]. apply hit_errors_nil in Z2. apply first_nil in Z1 as [y' VY].
      specialize (Q3 Z2 _ VY). rewrite Q3, QK in M. injection M as <- M.
      assert (HE : is_hit en = true) by (unfold LemEnum.is_hit; now rewrite HI).
      assert (HF : filter is_hit (eread inputs) = [en]) by (rewrite E; now apply filter_split).
      destruct (hits_items _ _ FR) as [HL _]. rewrite HF in HL. cbn [length] in HL. fold (items_of inputs) in HL.
      assert (IE : In en (eread inputs)) by (rewrite E; apply in_or_app; right; now left).
      destruct (Forall2_in_r _ _ _ _ F IE) as [pc [IP [RP EP]]]. destruct (SH pc IP) as [NC EC].
      assert (IV : In (fst pc) (variant_items e prefix (items_of inputs))).
      { apply filter_In. split; [unfold items_of; now apply in_map|]. now rewrite <- (hit_addressed pc en RP). }
      assert (VI : variant_items e prefix (items_of inputs) = [fst pc]) by (apply single; auto; rewrite <- HL; auto).
      assert (exists vs, y' = (i, vs)) as [vs ->].
      { unfold LemEnum.value_of in VY. rewrite HI in VY. destruct (fst (vp _ _ _ _ _ _)); try discriminate. injection VY as <-. eauto. }
      exists (fst pc), i, vs, n. split; auto. split; [eapply value_text; eauto|]. split; auto. split.
      { destruct RP as [bd [K _]]. apply hit_variant in HI as [KE _]. rewrite <- KE. eauto. }
      apply others_spec; auto.
    + right. destruct (hits_items _ _ FR) as [_ HL]. fold (items_of inputs) in HL. rewrite HX in HL. symmetry in HL.
      apply no_variant_items in HL. split; auto.
      destruct (fold_none tm e prefix (eread inputs) (@init V) HX) as [_ [_ QV]]. unfold LemEnum2.estate in *. rewrite QV in M. cbn [init q_value] in M.
      destruct (pick_flat e (q_paths (fold_entries upd (eread inputs) init))) as [[vi v]|] eqn:PF.
      * rewrite erest_inputs in M; auto. left. destruct (e_any_flat e) eqn:AF; auto. rewrite no_flat_matches in PF; auto. discriminate.
      * destruct (e_default e); [now injection M as <-|]. discriminate.
  - intros [KY [y [CH C]]].
    assert (MM : middle tm e prefix allowed sp validate inputs = Ok (FSome y, [])).
    2: { rewrite MM. cbn [rbind fst snd]. apply finish_ok. eauto. }
    destruct C as [[seg [i [vs [n [VI [VW [-> [[ksp [body SK]] OK]]]]]]]]|[VI C]].
    + assert (EA : Forall (eaten eat) (all_pieces inputs)).
      { apply Forall_forall. intros pc IP. apply keyed_pieces in KY. rewrite Forall_forall in KY. split; auto.
        destruct (SH pc IP) as [NC EC]. intros en R. destruct (is_hit en) eqn:HE; [|apply eat_miss; auto].
        assert (IV : In (fst pc) (variant_items e prefix (items_of inputs))).
        { apply filter_In. split; [unfold items_of; now apply in_map|]. now rewrite <- (hit_addressed pc en R). }
        rewrite VI in IV. destruct IV as [->|[]].
        unfold LemEnum.is_hit in HE. destruct (hit (en_key en)) as [[m [j v]]|] eqn:HI; [|discriminate].
        assert (j = i).
        { pose proof VW as [k' [ksp' [b' [w [K' [VA _]]]]]]. destruct R as [b [K _]]. rewrite K in K'. injection K' as <- <- <-.
          destruct (variant_hit _ _ _ VA) as [m' HM]. rewrite HI in HM. now injection HM. }
        subst j. eapply value_text; eauto. }
      destruct (all_eaten inputs EA) as [ST FR].
      destruct (hits_items _ _ FR) as [HL HE]. fold (items_of inputs) in HL, HE. rewrite VI in HL.
      assert (HX : existsb is_hit (eread inputs) = true).
      { rewrite HE. destruct (existsb (addressed prefix (variant_names e)) (items_of inputs)) eqn:X; auto. apply no_variant_items in X. congruence. }
      destruct (state_hit inputs HX) as [a [en [b [n' [j [v [E [HA [HI [QK [Q1 [Q2 Q3]]]]]]]]]]]].
      assert (HEN : is_hit en = true) by (unfold LemEnum.is_hit; now rewrite HI).
      assert (HB : existsb is_hit b = false).
      { rewrite E, filter_app in HL. cbn [filter] in HL. rewrite HEN, app_length in HL. cbn [length] in HL.
        destruct (existsb is_hit b) eqn:X; auto. apply existsb_exists in X as [z [IZ PZ]].
        assert (IN : In z (filter is_hit b)) by (apply filter_In; auto). destruct (filter is_hit b); [destruct IN|cbn in HL; lia]. }
      assert (IE : In en (eread inputs)) by (rewrite E; apply in_or_app; right; now left).
      destruct (Forall2_in_r _ _ _ _ FR IE) as [pc [IP RP]]. destruct (SH pc IP) as [NC EC].
      assert (IV : In (fst pc) (variant_items e prefix (items_of inputs))).
      { apply filter_In. split; [unfold items_of; now apply in_map|]. now rewrite <- (hit_addressed pc en RP). }
      rewrite VI in IV. destruct IV as [->|[]].
      assert (j = i /\ n' = n).
      { pose proof VW as [k' [ksp' [b' [w [K' [VA _]]]]]]. destruct RP as [bb [K _]]. rewrite K in K'. injection K' as <- <- <-.
        destruct (variant_hit _ _ _ VA) as [m' HM]. rewrite HI in HM. split; [now injection HM|].
        rewrite K in SK. injection SK as SK _ _. apply hit_variant in HI as [KE _]. rewrite KE in SK. now apply (app_str_inj prefix). }
      destruct H as [-> ->].
      pose proof (proj2 (value_text pc en n i v vs NC EC RP HI) VW) as [VO _].
      specialize (Q3 HB _ VO).
      assert (QE : q_errors (estate inputs) = []).
      { rewrite Q1. apply hit_errors_nil with (n := n) in HB. rewrite HB, app_nil_r. apply first_nil. eauto. }
      assert (EN : eerrors tm e prefix inputs = []) by (apply eerrors_nil; auto).
      unfold middle. cbv zeta. rewrite Q3, QK, EN. f_equal. f_equal. apply (others_spec allowed validate inputs n); auto.
    + destruct (keyed_no_hits inputs KY VI) as [ST FR]. pose proof (no_hits inputs VI) as HX.
      destruct (fold_none tm e prefix (eread inputs) (@init V) HX) as [_ [QE QV]].
      assert (EN : eerrors tm e prefix inputs = []) by (apply eerrors_nil; auto).
      unfold middle. cbv zeta. rewrite EN. unfold LemEnum2.estate in *. rewrite QV. cbn [init q_value].
      destruct (pick_flat e (q_paths (fold_entries upd (eread inputs) init))) as [[vi v]|] eqn:PF.
      * rewrite erest_inputs; auto. left. destruct (e_any_flat e) eqn:AF; auto. rewrite no_flat_matches in PF; auto. discriminate.
      * rewrite C. reflexivity.
Qed.
End B.
End E.
