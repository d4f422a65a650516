(** From the source of an enum to the values it parses: the enum *)
From Verif Require Import LemWf LemWfD LemSmall LemStruct LemStructP LemNamed LemRun LemSchema LemSchema5 LemSchema6 LemOpts4 LemOpts5 LemOpts6 LemOpts7 LemTStruct LemSplit LemEnum2 LemEnum5 LemVariant.
From Verif Require Import LemEnum4 LemEnum6 LemEnum7 LemPick.
From Verif Require Export SpecVSource LemSource3.

Lemma filter_single {A} (p : A -> bool) (l : list A) x :
  filter p l = [x] <-> exists a b, l = a ++ x :: b /\ p x = true /\ forall y, In y (a ++ b) -> p y = false.
Proof.
  split.
  - induction l as [|z l IH]; cbn [filter]; [discriminate|]. destruct (p z) eqn:Z.
    + injection 1 as -> E. exists [], l. split; auto. split; auto. cbn. intros y I. destruct (p y) eqn:Y; auto.
      assert (J : In y (filter p l)) by now apply filter_In. rewrite E in J. destruct J.
    + intro H. destruct (IH H) as [a [b [-> [P N]]]]. exists (z :: a), b. split; auto. split; auto. intros y [<-|I]; auto.
  - intros [a [b [-> [P N]]]]. rewrite filter_app. cbn [filter]. rewrite P.
    assert (E : forall c, (forall y, In y c -> p y = false) -> filter p c = []).
    { induction c as [|y c IH]; intro H; auto. cbn. rewrite (H y) by now left. apply IH. intros; apply H; now right. }
    rewrite !E; auto; intros y I; apply N; apply in_or_app; auto.
Qed.

Section E.
Context {env : Env} {V : Type}.
Variable ru : rust V.
Variable sy : synlib.
Hypothesis SY : good_syn_lib sy.
Variables (auto : evalue V) (expr : list token -> evalue V) (post : list token -> evalue V -> evalue V + synerr).
Variables (i : src_enum) (osss : list (list (list fopt))) (vos : list (list vopt)) (eo : list eopt).
Hypothesis EO : enum_options sy i osss vos eo.

(** the schema of variant number [n] *)
Definition schema_v (v : src_variant) (oss : list (list fopt)) (vo : list vopt) : svariant :=
  meaning_v v (map (fun p => meaning_f (fst p) (snd p)) (combine (sv_fields v) oss)) vo.
Definition proper_v (v : src_variant) (oss : list (list fopt)) (vo : list vopt) : Prop :=
  length (sv_fields v) = length oss /\ Forall2 consistent_f (sv_fields v) oss /\
  consistent_v v (map (fun p => meaning_f (fst p) (snd p)) (combine (sv_fields v) oss)) vo.
Lemma variants_unique vs : forall l1 l2 hs, 
  Forall2 (fun v oss => Forall2 (fun f os => has_options (spells_f sy) (sf_attrs f) os) (sv_fields v) oss) vs l1 ->
  Forall2 (fun v vo => has_options spells_v (sv_attrs v) vo) vs l2 -> Forall2 (variant_means sy) vs hs ->
  (forall n h, nth_error hs n = Some h <-> exists v oss vo, nth_error vs n = Some v /\ nth_error l1 n = Some oss /\ nth_error l2 n = Some vo /\ h = schema_v v oss vo) /\
  (forall n v oss vo, nth_error vs n = Some v -> nth_error l1 n = Some oss -> nth_error l2 n = Some vo -> proper_v v oss vo).
Proof.
  induction vs as [|v vs IH]; intros l1 l2 hs H1 H2 H3; inversion H1 as [|a oss l l1' F1 G1]; subst; inversion H2 as [|a vo l l2' F2 G2]; subst; inversion H3 as [|a h l hs' F3 G3]; subst.
  - split; [|intros [|n] ? ? ? A; discriminate A]. intros [|n] h; (split; [discriminate|intros [? [? [? [A _]]]]; discriminate A]).
  - destruct (IH l1' l2' hs' G1 G2 G3) as [I1 I2]. destruct F3 as [gs [vo2 [M [O [C [_ ->]]]]]].
    assert (vo2 = vo) as -> by (eapply has_options_fun; eauto; intros; eapply spells_v_fun; eauto).
    destruct (fields_unique sy _ _ _ F1 M) as [-> FC].
    split.
    + intros [|n] h; cbn [nth_error]; [|apply I1]. split.
      * injection 1 as <-. exists v, oss, vo. auto.
      * intros [v' [oss' [vo' [A [B [D ->]]]]]]. injection A as <-. injection B as <-. injection D as <-. reflexivity.
    + intros [|n] v' oss' vo' A B D; cbn [nth_error] in *; [|eapply I2; eauto]. injection A as <-. injection B as <-. injection D as <-.
      split; [|auto]. clear -F1. induction F1; cbn; auto.
Qed.

Variables (tm : tmode V) (d : senum).
Hypothesis WR : written_enum i.
Hypothesis GR : good_rust ru.
Hypothesis DE : derived_enum sy tm i d.
Let e := lower_enum ru auto expr post d.
Lemma derived_read_e : read_enum sy i = Ok d.
Proof.
  unfold derived_enum, derive_meta_enum, derive_attr_enum in DE. destruct tm; destruct (read_enum sy i) as [d0|x|b]; cbn [rbind] in DE; try discriminate DE.
  - destruct (gen_variants (j_variants d0)); cbn [rbind] in DE; try discriminate DE. destruct (check (meta_container_check d0)); cbn [rmap] in DE; try discriminate DE. exact DE.
  - destruct (gen_variants (j_variants d0)); cbn [rmap] in DE; try discriminate DE. exact DE.
Qed.
Lemma schema_e : exists hs, consistent_e hs eo /\ d = meaning_e hs eo /\
  (forall n h, nth_error hs n = Some h <-> exists v oss vo, nth_error (se_variants i) n = Some v /\ nth_error osss n = Some oss /\ nth_error vos n = Some vo /\ h = schema_v v oss vo) /\
  (forall n v oss vo, nth_error (se_variants i) n = Some v -> nth_error osss n = Some oss -> nth_error vos n = Some vo -> proper_v v oss vo).
Proof.
  pose proof derived_read_e as R. apply (l_enum_ok sy SY i d WR) in R as [hs [os [F [O [C ->]]]]]. destruct EO as [E1 [E2 E3]].
  assert (os = eo) as -> by (eapply has_options_fun; eauto; intros; eapply spells_e_fun; eauto).
  destruct (variants_unique (se_variants i) osss vos hs E1 E2 F) as [A B]. exists hs. auto.
Qed.
Hypothesis PV : forall n oss vo, nth_error osss n = Some oss -> nth_error vos n = Some vo ->
  Forall plain oss /\ (transparent_v vo = true -> forall os e, In os oss -> ~ In (OAndThen e) os).
Hypothesis TV : forall n v oss vo, nth_error (se_variants i) n = Some v -> nth_error osss n = Some oss -> nth_error vos n = Some vo -> typed_variant ru v oss vo.
Lemma low_variant n w : nth_error (e_variants e) n = Some w <-> exists v oss vo, nth_error (se_variants i) n = Some v /\ nth_error osss n = Some oss /\ nth_error vos n = Some vo /\
  w = lower_variant ru (schema_v v oss vo).
Proof.
  destruct schema_e as [hs [_ [-> [S _]]]]. cbn [e lower_enum e_variants meaning_e j_variants]. rewrite nth_error_map. split.
  - destruct (nth_error hs n) as [h|] eqn:N; [|discriminate]. injection 1 as <-. apply S in N as [v [oss [vo [A [B [C ->]]]]]]. eauto 8.
  - intros [v [oss [vo [A [B [C ->]]]]]]. assert (N : nth_error hs n = Some (schema_v v oss vo)) by (apply S; eauto 8). now rewrite N.
Qed.
Lemma nth_three n v : nth_error (se_variants i) n = Some v -> exists oss vo, nth_error osss n = Some oss /\ nth_error vos n = Some vo.
Proof.
  destruct EO as [E1 [E2 _]]. intro N. assert (X : forall B (R : src_variant -> B -> Prop) l l', Forall2 R l l' -> nth_error l n = Some v -> exists b, nth_error l' n = Some b).
  { clear. intros B R l l' F. revert n. induction F; intros [|n] A; cbn in *; try discriminate; eauto. }
  destruct (X _ _ _ _ E1 N) as [oss A], (X _ _ _ _ E2 N) as [vo B]. eauto.
Qed.
Lemma no_rest : no_transparent_rest d.
Proof.
  destruct schema_e as [hs [_ [-> [S _]]]]. cbn [meaning_e j_variants]. intros h f I _ J. apply In_nth_error in I as [n N]. apply S in N as [v [oss [vo [A [B [C ->]]]]]].
  destruct (PV n oss vo B C) as [P _]. cbn [schema_v meaning_v h_fields] in J. rewrite map_map in J. apply in_map_iff in J as [[g os] [<- J]]. cbn [fst snd].
  assert (PO : plain os) by (apply in_combine_r in J; rewrite Forall_forall in P; auto). destruct (plain_flat _ PO) as [_ [_ R]].
  rewrite filled_re. destruct (g_skip (meaning_f g os)) as [[[|] ?]|]; try exact R. destruct (g_default (meaning_f g os)); exact R.
Qed.
Lemma acc_e : accepted_enum tm e.
Proof.
  pose proof no_rest as NR. pose proof DE as D. unfold derived_enum in D. destruct tm as [|pn obj]; [eapply l_enum_bridge_meta|eapply l_enum_bridge_attr]; eauto.
Qed.
Lemma ordinary_low n v oss vo : nth_error (se_variants i) n = Some v -> nth_error osss n = Some oss -> nth_error vos n = Some vo ->
  SpecEnum.ordinary (lower_variant ru (schema_v v oss vo)) <-> is_flattened_v vo = false /\ skipped_v vo = false.
Proof.
  intros A B C. destruct schema_e as [_ [_ [_ [_ PR]]]]. destruct (PR n v oss vo A B C) as [LEN [_ CV]]. unfold SpecEnum.ordinary. unfold schema_v.
  rewrite (w_flatten ru v oss vo LEN CV), (w_skip ru v oss vo LEN CV). tauto.
Qed.
(** a flattened variant has no name *)
Lemma flat_nameless n v oss vo : nth_error (se_variants i) n = Some v -> nth_error osss n = Some oss -> nth_error vos n = Some vo ->
  is_flattened_v vo = true -> names_v v vo = [].
Proof.
  intros A B C F. destruct schema_e as [_ [_ [_ [_ PR]]]]. destruct (PR n v oss vo A B C) as [_ [_ CV]].
  destruct CV as [_ [_ [_ [[NB1 NB2] _]]]]. unfold names_v. rewrite F. unfold is_flattened_v in F.
  assert (NE : somes (v_flattens vo) <> []) by (intro E; rewrite E in F; discriminate F).
  destruct NB1 as [E|E1]; [now elim NE|]. destruct NB2 as [E|E2]; [now elim NE|]. now rewrite E1, E2.
Qed.
Lemma distinct_e : distinct_variants e.
Proof.
  intros a b x y k NA NB _ _ IX IY. pose proof flat_nameless as FNL. destruct schema_e as [hs [C [-> [S PR]]]]. cbn [e lower_enum e_variants meaning_e j_variants] in NA, NB. rewrite nth_error_map in NA, NB.
  destruct (nth_error hs a) as [h|] eqn:HA; [|discriminate NA]. injection NA as <-. destruct (nth_error hs b) as [g|] eqn:HB; [|discriminate NB]. injection NB as <-.
  destruct C as [_ [ND _]].
  assert (FI : flat_map h_idents (filter SpecSchema.ordinary hs) = flat_map h_idents hs).
  { assert (X : forall h, In h hs -> SpecSchema.ordinary h = false -> h_idents h = []).
    { intros q I O. apply In_nth_error in I as [n N]. apply S in N as [v [oss [vo [A [B [D ->]]]]]]. destruct (PR n v oss vo A B D) as [LEN [_ CV]].
      unfold SpecSchema.ordinary in O. pose proof (w_flatten ru v oss vo LEN CV) as W. cbn [lower_variant v_flatten] in W. unfold schema_v in O. rewrite W in O.
      apply negb_false_iff in O. cbn [schema_v meaning_v h_idents]. now apply (FNL n v oss vo). }
    clear -X. induction hs as [|q l IH]; auto. cbn [filter]. assert (Y : flat_map h_idents (filter SpecSchema.ordinary l) = flat_map h_idents l) by (apply IH; intros; apply X; [now right|auto]).
    destruct (SpecSchema.ordinary q) eqn:O; cbn [flat_map]; rewrite Y; auto. now rewrite (X q (or_introl eq_refl) O). }
  rewrite FI in ND. rewrite flat_map_concat_map, concat_map, map_map, <- flat_map_concat_map in ND. exact (nodup_flat _ _ ND a b h g k HA HB IX IY).
Qed.
Lemma proper_e : proper_enum tm e.
Proof.
  split; [exact acc_e|]. split; [|split; [exact distinct_e|split]].
  - intros w f I T J. apply In_nth_error in I as [n N]. apply low_variant in N as [v [oss [vo [A [B [C ->]]]]]]. destruct schema_e as [_ [_ [_ [_ PR]]]]. destruct (PR n v oss vo A B C) as [LEN [FC CV]].
    destruct (PV n oss vo B C) as [P NT]. unfold schema_v in T. rewrite (w_transparent ru v oss vo LEN CV) in T. specialize (NT T).
    apply In_nth_error in J as [m M]. apply (nth_raw ru v oss vo LEN CV) in M as [g [os [M1 [M2 ->]]]].
    assert (NA : forall x, ~ In (OAndThen x) os) by (intro; apply NT; eapply nth_error_In; eauto).
    unfold no_and_then. assert (TE : f_transforms (lower_field ru (transparent_v vo) (filled (meaning_f g os))) = map (lower_transform ru) (transforms os)).
    { cbn [lower_field f_transforms]. rewrite filled_re. destruct (g_skip (meaning_f g os)) as [[[|] ?]|]; auto. destruct (g_default (meaning_f g os)); auto. }
    rewrite TE. intros t J. apply in_map_iff in J as [q [<- J]]. unfold transforms in J. apply in_flat_map in J as [o [O J]].
    destruct o; cbn in J; try contradiction; destruct J as [<-|[]]; [exact Logic.I|]. exfalso. eapply NA; eauto.
  - intros w f I J. apply In_nth_error in I as [n N]. apply low_variant in N as [v [oss [vo [A [B [C ->]]]]]]. destruct schema_e as [_ [_ [_ [_ PR]]]]. destruct (PR n v oss vo A B C) as [LEN [FC CV]].
    destruct (PV n oss vo B C) as [P _]. assert (K : exists dd, f_kind f = KItem dd).
    { apply In_nth_error in J as [m M]. apply (nth_raw ru v oss vo LEN CV) in M as [g [os [M1 [M2 ->]]]]. rewrite kind_low; eauto. apply nth_error_In in M2. rewrite Forall_forall in P. auto. }
    destruct K as [dd K]. unfold unaware_type. rewrite K. apply (raw_fine ru v oss vo LEN FC CV P (TV n v oss vo A B C) f dd J K).
  - intros w f I _ J. apply In_nth_error in I as [n N]. apply low_variant in N as [v [oss [vo [A [B [C ->]]]]]]. destruct schema_e as [_ [_ [_ [_ PR]]]]. destruct (PR n v oss vo A B C) as [LEN [FC CV]].
    destruct (PV n oss vo B C) as [P _]. unfold fine_type. destruct (f_kind f) eqn:K; auto. apply (raw_fine ru v oss vo LEN FC CV P (TV n v oss vo A B C) f _ J K).
Qed.
Lemma at_calls k n w : variant_at e "" k n w <-> exists v oss vo, nth_error (se_variants i) n = Some v /\ nth_error osss n = Some oss /\ nth_error vos n = Some vo /\
  w = lower_variant ru (schema_v v oss vo) /\ calls v vo k.
Proof.
  unfold variant_at, calls. split.
  - intros [N [O [m [I E]]]]. apply low_variant in N as [v [oss [vo [A [B [C ->]]]]]]. exists v, oss, vo. cbn in E. subst k. repeat split; auto. apply (ordinary_low n v oss vo A B C), O.
  - intros [v [oss [vo [A [B [C [-> [S I]]]]]]]]. split; [apply low_variant; eauto 8|]. split; [apply (ordinary_low n v oss vo A B C); split; auto; destruct (is_flattened_v vo) eqn:F; auto; rewrite (flat_nameless n v oss vo A B C F) in I; destruct I|]. exists k. split; auto.
Qed.
Lemma in_names k : In k (variant_names e) <-> exists n w, variant_at e "" k n w.
Proof.
  unfold variant_names. rewrite in_flat_map. split.
  - intros [w [I J]]. apply In_nth_error in I as [n N]. exists n, w. split; auto. destruct (v_flatten w) eqn:F, (v_skip w) eqn:S; cbn in J; try destruct J. split; [split; auto|]. exists k. split; auto.
  - intros [n [w [N [[F S] [m [I E]]]]]]. cbn in E. subst m. exists w. split; [eapply nth_error_In; eauto|]. now rewrite F, S.
Qed.
Lemma addressed_ok seg : addressed "" (variant_names e) seg = true <-> exists n, for_variant i vos n seg.
Proof.
  unfold addressed, for_variant. destruct (item_key seg) as [[[k ksp] body]|] eqn:K.
  - rewrite existsb_exists. split.
    + intros [m [I E]]. apply String.eqb_eq in E. cbn in E. subst m. apply in_names in I as [n [w A]]. apply at_calls in A as [v [oss [vo [A [B [C [_ D]]]]]]]. exists n, v, vo, k, ksp, body. auto.
    + intros [n [v [vo [k' [ksp' [body' [A [B [Q C]]]]]]]]]. injection Q as <- <- <-. exists k. split; [|apply String.eqb_refl]. apply in_names.
      destruct (nth_three n v A) as [oss [vo2 [D E]]]. assert (vo2 = vo) by congruence. subst vo2. exists n, (lower_variant ru (schema_v v oss vo)). apply at_calls. eauto 8.
  - split; [discriminate|]. intros [n [v [vo [k' [ksp' [body' [A [B [Q C]]]]]]]]]. discriminate.
Qed.
Lemma addressed_no seg : addressed "" (variant_names e) seg = false <-> forall n, ~ for_variant i vos n seg.
Proof.
  split.
  - intros H n F. assert (X : addressed "" (variant_names e) seg = true) by (apply addressed_ok; eauto). congruence.
  - intro H. destruct (addressed "" (variant_names e) seg) eqn:E; auto. apply addressed_ok in E as [n F]. now elim (H n).
Qed.

Section N.
Hypothesis NF : forall n vo, nth_error vos n = Some vo -> is_flattened_v vo = false.
Lemma noflat_e : no_flattened e.
Proof.
  intros w I. apply In_nth_error in I as [n N]. apply low_variant in N as [v [oss [vo [A [B [C ->]]]]]]. destruct schema_e as [_ [_ [_ [_ PR]]]]. destruct (PR n v oss vo A B C) as [LEN [FC CV]].
  unfold schema_v. rewrite (w_flatten ru v oss vo LEN CV). now apply (NF n).
Qed.
Lemma source_enum_run validate sp inputs r x :
  (forall n v oss vo, nth_error (se_variants i) n = Some v -> nth_error osss n = Some oss -> nth_error vos n = Some vo ->
     sv_shape v = ShNamed -> transparent_v vo = false -> distinct_in v oss) ->
  enum_run e tm "" validate sp inputs r ->
  r = Ok x <-> exists y,
    source_enum ru i osss vos (default_by auto expr (e_defaults eo)) (existsb (fun b => b) (e_unknowns eo) || negb validate)%bool tm (items_of inputs) y /\
    chained (map post (e_and_thens_of eo)) y x.
Proof.
  intros ND RU. rewrite (l_enum_plain e tm "" validate sp inputs r x RU proper_e noflat_e).
  assert (LD : e_default e = default_by auto expr (e_defaults eo) /\ e_and_thens e = map post (e_and_thens_of eo) /\ e_unknown_ok e = existsb (fun b => b) (e_unknowns eo)).
  { destruct schema_e as [hs [C [-> _]]]. unfold e, default_by. cbn [lower_enum meaning_e e_default e_and_thens e_unknown_ok j_default j_and_thens j_unknown_ok]. split; [|split]; auto.
    - destruct (e_defaults eo) as [|[|] l]; reflexivity.
    - destruct C as [[_ [_ O]] _]. unfold SpecOpts.once in O. destruct (e_unknowns eo) as [|b [|? ?]]; cbn in *; auto; try lia. now rewrite orb_false_r. }
  destruct LD as [-> [-> ->]].
  assert (KY : keyed inputs <-> forall seg, In seg (items_of inputs) -> item_key seg <> None).
  { unfold keyed. rewrite Forall_forall. split; intros H seg I.
    - destruct (H seg I) as [k [ksp [body Q]]]. congruence.
    - specialize (H seg I). destruct (item_key seg) as [[[k ksp] body]|]; [eauto|congruence]. }
  assert (KI : forall k ksp, In (k, ksp) (keys_in inputs) <-> exists seg body, In seg (items_of inputs) /\ item_key seg = Some (k, ksp, body)).
  { intros k ksp. rewrite in_keys_pieces. unfold items_of. split.
    - intros [pc [body [I K]]]. exists (fst pc), body. split; auto. now apply in_map.
    - intros [seg [body [I K]]]. apply in_map_iff in I as [pc [<- I]]. eauto. }
  unfold source_enum. split.
  - intros [K [y [CH H]]]. exists y. split; auto. split; [now apply KY|]. destruct H as [[seg [n [vs [VI [VW [-> VA]]]]]]|[VI DF]].
    + left. unfold variant_items, part in VI. pose proof (proj1 (filter_single _ _ _) VI) as [a [b [IT [_ OT]]]].
      destruct VW as [k [ksp [body [w [Q [AT VV]]]]]]. apply at_calls in AT as [v [oss [vo [A [B [C [-> CL]]]]]]].
      destruct schema_e as [_ [_ [_ [_ PR]]]]. destruct (PR n v oss vo A B C) as [LEN [FC CV]]. destruct (PV n oss vo B C) as [P _].
      exists a, seg, b, n, v, oss, vo, k, ksp, body, vs. repeat (split; [assumption|]). split; [|split; [reflexivity|split]].
      * apply (content_ok ru v oss vo LEN FC CV P tm); auto; [|now apply (TV n)|now apply (ND n)].
        pose proof acc_e as AE. unfold accepted_enum in AE. rewrite Forall_forall in AE. apply AE. apply (nth_error_In _ n). apply low_variant. eauto 8.
      * intros s m I. apply (proj1 (addressed_no s)). now apply OT.
      * intro L. apply orb_false_iff in L as [L1 L2]. apply negb_false_iff in L2. specialize (VA L2 L1).
        assert (NO : forall s, In s (a ++ b) -> False).
        { intros s I. pose proof (OT s I) as AD. assert (J : In s (items_of inputs)) by (rewrite IT; apply in_app_iff in I; apply in_app_iff; cbn; tauto).
          destruct (item_key s) as [[[k' ksp'] body']|] eqn:Q'; [|now apply (proj1 KY K s J)].
          assert (IN : In k' (variant_names e)) by (apply (VA k' ksp'); apply KI; eauto).
          unfold addressed in AD. rewrite Q' in AD. assert (X : existsb (fun m => String.eqb k' ("" ++ m)) (variant_names e) = true) by (apply existsb_exists; exists k'; split; [auto|apply String.eqb_refl]). congruence. }
        destruct a as [|s a]; [|exfalso; apply (NO s); now left]. destruct b as [|s b]; [auto|exfalso; apply (NO s); now left].
    + right. split; auto. intros s m I. apply (proj1 (addressed_no s)). destruct (addressed "" (variant_names e) s) eqn:E; auto.
      assert (J : In s (variant_items e "" (items_of inputs))) by now apply filter_In. rewrite VI in J. destruct J.
  - intros [y [[K H] CH]]. split; [now apply KY|]. exists y. split; auto. destruct H as [[a [seg [b [n [v [oss [vo [k [ksp [body [vs [IT [A [B [C [Q [CL [VC [-> [OT LN]]]]]]]]]]]]]]]]]]]]|[NO DF]].
    + left. exists seg, n, vs. split; [|split; [|split; auto]].
      * apply filter_single. exists a, b. split; auto. split; [apply addressed_ok; exists n, v, vo, k, ksp, body; auto|]. intros s I. apply addressed_no. intro m. now apply OT.
      * exists k, ksp, body, (lower_variant ru (schema_v v oss vo)). split; auto. split; [apply at_calls; eauto 10|].
        destruct schema_e as [_ [_ [_ [_ PR]]]]. destruct (PR n v oss vo A B C) as [LEN [FC CV]]. destruct (PV n oss vo B C) as [P _].
        apply (content_ok ru v oss vo LEN FC CV P tm); auto; [|now apply (TV n)|now apply (ND n)].
        pose proof acc_e as AE. unfold accepted_enum in AE. rewrite Forall_forall in AE. apply AE. apply (nth_error_In _ n). apply low_variant. eauto 8.
      * intros VA U k' ksp' I. subst validate. rewrite U in LN. destruct (LN eq_refl) as [-> ->]. cbn in IT. apply KI in I as [s [bd [I Q']]]. rewrite IT in I. destruct I as [<-|[]].
        assert (k' = k) by congruence. subst k'. apply in_names. exists n, (lower_variant ru (schema_v v oss vo)). apply at_calls. eauto 10.
    + right. split; auto. unfold variant_items, part. assert (X : forall l, (forall s, In s l -> addressed "" (variant_names e) s = false) -> filter (addressed "" (variant_names e)) l = []).
      { induction l as [|s l IH]; intro H; auto. cbn [filter]. rewrite (H s) by now left. apply IH. intros; apply H; now right. }
      apply X. intros s I. apply addressed_no. intro m. now apply NO.
Qed.
End N.

(** *** Flattened variants *)
Section M.
Hypothesis FT : forall n v oss vo, variant_no i osss vos n v oss vo -> is_flattened_v vo = true -> transparent_v vo = false.
Hypothesis ND : forall n v oss vo, variant_no i osss vos n v oss vo -> sv_shape v = ShNamed -> transparent_v vo = false -> distinct_in v oss.
Lemma proper_no n v oss vo : variant_no i osss vos n v oss vo -> proper_v v oss vo.
Proof. intros [A [B C]]. destruct schema_e as [_ [_ [_ [_ PR]]]]. eauto. Qed.
Lemma low_no n v oss vo : variant_no i osss vos n v oss vo -> nth_error (e_variants e) n = Some (lower_variant ru (schema_v v oss vo)).
Proof. intros [A [B C]]. apply low_variant. eauto 8. Qed.
Lemma accepted_no n v oss vo : variant_no i osss vos n v oss vo -> accepted_variant tm (lower_variant ru (schema_v v oss vo)).
Proof. intro N. pose proof acc_e as AE. unfold accepted_enum in AE. rewrite Forall_forall in AE. apply AE. apply (nth_error_In _ n). now apply low_no. Qed.
Lemma plain_no n v oss vo : variant_no i osss vos n v oss vo -> Forall plain oss.
Proof. intros [A [B C]]. eapply PV; eauto. Qed.
Lemma flattened_low n w : SpecEnum.flattened e n w <-> exists v oss vo, variant_no i osss vos n v oss vo /\ w = lower_variant ru (schema_v v oss vo) /\
  is_flattened_v vo = true /\ skipped_v vo = false.
Proof.
  unfold SpecEnum.flattened. split.
  - intros [N [F S]]. apply low_variant in N as [v [oss [vo [A [B [C ->]]]]]]. assert (NO : variant_no i osss vos n v oss vo) by (split; auto).
    destruct (proper_no _ _ _ _ NO) as [LEN [FC CV]]. unfold schema_v in F, S. rewrite (w_flatten ru v oss vo LEN CV) in F. rewrite (w_skip ru v oss vo LEN CV) in S. eauto 8.
  - intros [v [oss [vo [NO [-> [F S]]]]]]. destruct (proper_no _ _ _ _ NO) as [LEN [FC CV]]. split; [now apply low_no|]. unfold schema_v.
    rewrite (w_flatten ru v oss vo LEN CV), (w_skip ru v oss vo LEN CV). auto.
Qed.
Lemma lowered_names t f os : f_names (lower_field ru t (filled (meaning_f f os))) = map fst (names_f f os).
Proof. cbn [lower_field f_names]. rewrite filled_re. destruct (g_skip (meaning_f f os)) as [[[|] ?]|]; auto. destruct (g_default (meaning_f f os)); auto. Qed.
Lemma required_low n v oss vo m f os : variant_no i osss vos n v oss vo -> nth_error (sv_fields v) m = Some f -> nth_error oss m = Some os ->
  SpecEnum.required (lower_field ru (transparent_v vo) (filled (meaning_f f os))) <-> must_have os.
Proof.
  intros NO A B. destruct (proper_no _ _ _ _ NO) as [LEN [FC CV]]. pose proof (plain_no _ _ _ _ NO) as P.
  pose proof (in_p v oss LEN m f os A B) as I. pose proof (low_parsable ru v oss FC P (transparent_v vo) f os I) as LP.
  pose proof (proj2 (proj2 (ps_ok v oss FC P _ I))) as PO. cbn [snd] in PO. pose proof (proj1 (ps_ok v oss FC P _ I)) as OS. cbn [snd] in OS.
  unfold SpecEnum.required, must_have, pitem, is_flat. rewrite LP, (kind_low ru _ f os PO), andb_true_r.
  assert (D : takes os = true -> f_default (lower_field ru (transparent_v vo) (filled (meaning_f f os))) = default_by (rt_auto (ru_type ru f)) (ru_expr ru) (defaults os)).
  { intro T. unfold takes in T. apply andb_true_iff in T as [T _]. apply negb_true_iff in T. rewrite <- skip_first in T by auto. rewrite <- default_made. cbn [lower_field f_default]. rewrite filled_re.
    destruct (g_skip (meaning_f f os)) as [[[|] ?]|] eqn:G; auto. cbn [meaning_f g_skip] in G. rewrite G in T. discriminate T. }
  split; intros [T Q]; split; auto; rewrite (D T) in *; unfold default_by in *; destruct (defaults os) as [|[?|?] ?]; auto; discriminate Q.
Qed.
Lemma key_items k ksp inputs : In (k, ksp) (keys_in inputs) <-> exists seg body, In seg (items_of inputs) /\ item_key seg = Some (k, ksp, body).
Proof.
  rewrite in_keys_pieces. unfold items_of. split.
  - intros [pc [body [I K]]]. exists (fst pc), body. split; auto. now apply in_map.
  - intros [seg [body [I K]]]. apply in_map_iff in I as [pc [<- I]]. eauto.
Qed.
Lemma has_key_low t f os inputs : takes os = true ->
  has_key "" (lower_field ru t (filled (meaning_f f os))) inputs <-> exists seg, In seg (items_of inputs) /\ is_for f os seg.
Proof.
  intro T. unfold takes in T. apply andb_true_iff in T as [T1 T2]. apply negb_true_iff in T1, T2. unfold has_key, named_by. rewrite lowered_names. split.
  - intros [k [ksp [I [n [J E]]]]]. cbn in E. subst n. apply key_items in I as [seg [body [I K]]]. exists seg. split; auto. exists k, ksp, body. split; auto. split; auto.
  - intros [seg [I [k [ksp [body [K [_ [_ J]]]]]]]]. exists k, ksp. split; [apply key_items; eauto|]. exists k. auto.
Qed.
Lemma present_low n v oss vo inputs : variant_no i osss vos n v oss vo ->
  all_present (lower_variant ru (schema_v v oss vo)) "" inputs <->
  forall m f os, nth_error (sv_fields v) m = Some f -> nth_error oss m = Some os -> must_have os -> exists seg, In seg (items_of inputs) /\ is_for f os seg.
Proof.
  intro NO. destruct (proper_no _ _ _ _ NO) as [LEN [FC CV]]. unfold all_present. split.
  - intros H m f os A B M. apply (has_key_low (transparent_v vo)); [apply M|]. apply H; [|now apply (required_low n v oss vo m)].
    apply (nth_error_In _ m). apply (nth_raw ru v oss vo LEN CV). eauto.
  - intros H x I R. apply In_nth_error in I as [m N]. apply (nth_raw ru v oss vo LEN CV) in N as [f [os [A [B ->]]]].
    apply (required_low n v oss vo m f os NO A B) in R. apply has_key_low; [apply R|]. eauto.
Qed.
Lemma needs_low n v oss vo : variant_no i osss vos n v oss vo -> needs (lower_variant ru (schema_v v oss vo)) <-> has_required oss.
Proof.
  intro NO. destruct (proper_no _ _ _ _ NO) as [LEN [FC CV]]. unfold needs, has_required. split.
  - intros [x [I R]]. apply In_nth_error in I as [m N]. apply (nth_raw ru v oss vo LEN CV) in N as [f [os [A [B ->]]]].
    apply (required_low n v oss vo m f os NO A B) in R. exists os. split; auto. eapply nth_error_In; eauto.
  - intros [os [I R]]. apply In_nth_error in I as [m B]. assert (L : m < length (sv_fields v)) by (rewrite LEN; apply nth_error_Some; congruence).
    destruct (nth_error (sv_fields v) m) as [f|] eqn:A; [|apply nth_error_None in A; lia].
    exists (lower_field ru (transparent_v vo) (filled (meaning_f f os))). split; [|now apply (required_low n v oss vo m)].
    apply (nth_error_In _ m). apply (nth_raw ru v oss vo LEN CV). eauto.
Qed.
Lemma chosen_low inputs n w : chosen e "" inputs n w <-> exists v oss vo, meant i osss vos (items_of inputs) n v oss vo /\ w = lower_variant ru (schema_v v oss vo).
Proof.
  unfold chosen, meant, candidate. split.
  - intros [F [A O]]. apply flattened_low in F as [v [oss [vo [NO [-> [F S]]]]]]. exists v, oss, vo. split; auto. split; [refine (conj NO (conj F (conj S _))); exact (proj1 (present_low n v oss vo inputs NO) A)|].
    destruct O as [O|O]; [left; now apply (needs_low n v oss vo)|]. right. intros m v' oss' vo' [NO' [F' [S' A']]] D.
    apply (O m (lower_variant ru (schema_v v' oss' vo'))); [apply flattened_low; eauto 8|exact (proj2 (needs_low m v' oss' vo' NO') D)|exact (proj2 (present_low m v' oss' vo' inputs NO') A')].
  - intros [v [oss [vo [[[NO [F [S A]]] O] ->]]]]. split; [apply flattened_low; eauto 8|]. split; [exact (proj2 (present_low n v oss vo inputs NO) A)|].
    destruct O as [O|O]; [left; now apply (needs_low n v oss vo)|]. right. intros m w' F' N' A'. apply flattened_low in F' as [v' [oss' [vo' [NO' [-> [F' S']]]]]].
    apply (O m v' oss' vo'); [|now apply (needs_low m v' oss' vo')]. refine (conj NO' (conj F' (conj S' _))). exact (proj1 (present_low m v' oss' vo' inputs NO') A').
Qed.
Lemma takes_all_low n v oss vo : variant_no i osss vos n v oss vo -> takes_all (lower_variant ru (schema_v v oss vo)) <-> unknown_v vo = true.
Proof.
  intro NO. destruct (proper_no _ _ _ _ NO) as [LEN [FC CV]]. pose proof (plain_no _ _ _ _ NO) as P. unfold takes_all, schema_v. rewrite (w_unknown ru v oss vo LEN CV). split; [|auto].
  intros [U|[x [I K]]]; auto. exfalso. apply In_nth_error in I as [m N]. apply (nth_raw ru v oss vo LEN CV) in N as [f [os [A [B ->]]]].
  rewrite (kind_low ru _ f os (proj2 (proj2 (ps_ok v oss FC P _ (in_p v oss LEN m f os A B))))) in K. destruct K.
Qed.
Lemma named_no n v oss vo : variant_no i osss vos n v oss vo -> is_flattened_v vo = true -> sv_shape v = ShNamed.
Proof.
  intros NO F. pose proof (accepted_no _ _ _ _ NO) as [_ [_ [S _]]]. destruct (proper_no _ _ _ _ NO) as [LEN [FC CV]].
  unfold schema_v in S. rewrite (w_flatten ru v oss vo LEN CV) in S. exact (S F).
Qed.
Lemma written_low n v oss vo sp inputs vs : variant_no i osss vos n v oss vo -> is_flattened_v vo = true -> keyed inputs ->
  flat_written e tm "" sp inputs n (lower_variant ru (schema_v v oss vo)) vs <-> source_value ru (sv_fields v) oss None (unknown_v vo) tm sp (items_of inputs) vs.
Proof.
  intros NO F KY. destruct (proper_no _ _ _ _ NO) as [LEN [FC CV]]. pose proof (plain_no _ _ _ _ NO) as P. pose proof (FT _ _ _ _ NO F) as T.
  pose proof (ND _ _ _ _ NO (named_no _ _ _ _ NO F) T) as DI. pose proof (accepted_no _ _ _ _ NO) as AC. pose proof (takes_all_low _ _ _ _ NO) as TA.
  pose proof (fun chk => parses_low ru v oss vo LEN FC CV P tm AC chk sp inputs (items_of inputs) vs T DI) as PL.
  pose proof (names_low ru v oss vo LEN FC CV P) as NL.
  set (w := lower_variant ru (schema_v v oss vo)) in *.
  assert (NQ : forall k, In k (flat_names_of w) <-> exists n f os, nth_error (sv_fields v) n = Some f /\ nth_error oss n = Some os /\ names_it f os k) by exact NL. clear NL.
  assert (UW : v_unknown_ok w = unknown_v vo) by exact (w_unknown ru v oss vo LEN CV).
  assert (SV : forall l, source_value ru (sv_fields v) oss None l tm sp (items_of inputs) vs -> source_value ru (sv_fields v) oss None true tm sp (items_of inputs) vs).
  { intros l [S1 [S2 [S3 S4]]]. split; auto. intros seg I. destruct (S1 seg I) as [H|[_ H]]; auto. }
  assert (SK : forall its, its = items_of inputs -> source_value ru (sv_fields v) oss None true tm sp its vs -> (forall k ksp, In (k, ksp) (keys_in inputs) -> In k (flat_names_of w)) -> source_value ru (sv_fields v) oss None false tm sp its vs).
  { intros its -> [S1 [S2 [S3 S4]]] AK. split; auto. intros seg I. destruct (S1 seg I) as [H|[_ [K NF]]]; auto. exfalso.
    destruct (item_key seg) as [[[k ksp] body]|] eqn:Q; [|now elim K]. assert (IK : In k (flat_names_of w)) by (apply (AK k ksp); apply key_items; eauto).
    apply NQ in IK as [m [f [os [A [B N]]]]]. apply (NF m f os A B). exists k, ksp, body. auto. }
  unfold flat_written. destruct (unknown_v vo) eqn:U.
  - split.
    + intros [c [CK [PT _]]]. apply PL in PT. eauto.
    + intro S. exists false. split; [split; [discriminate|intros [_ H]; destruct H; now apply TA]|]. split; [now apply PL|]. split.
      * intros _ H. destruct H. now apply TA.
      * intros _ _ H. congruence.
  - assert (NT : ~ takes_all w) by (intro H; apply TA in H; discriminate H). split.
    + intros [c [CK [PT [NN _]]]]. apply PL in PT. destruct c; [exact PT|]. cbn [negb] in PT.
      apply SK; auto. apply NN; auto. intro N. destruct CK as [_ CK]. discriminate CK. auto.
    + intro S. assert (DN : needs w \/ ~ needs w).
      { unfold w. rewrite (needs_low n v oss vo NO). unfold has_required, must_have. clear. induction oss as [|os l [[os' [I M]]|IH]]; [right; intros [? [[] _]]|left; exists os'; split; [now right|auto]|].
        destruct (takes os) eqn:T, (defaults os) eqn:D; [left; exists os; split; [now left|auto]| | |]; right; intros [os' [[<-|I] [A B]]]; try congruence; apply IH; eauto. }
      assert (IK : forall k ksp, In (k, ksp) (keys_in inputs) -> In k (flat_names_of w)).
      { intros k ksp I. apply key_items in I as [seg [body [I Q]]]. destruct S as [S1 _]. destruct (S1 seg I) as [[m [f [os [x [A [B [k' [ksp' [body' [Q' [N _]]]]]]]]]]]|[X _]]; [|discriminate X].
        apply NQ. exists m, f, os. split; auto. split; auto. congruence. }
      destruct DN as [DN|DN].
      * exists true. split; [tauto|]. split; [now apply PL|]. split; [intro X; now elim X|intro X; now elim NT].
      * exists false. split; [split; [discriminate|tauto]|]. split; [apply PL; eauto|]. split; [auto|intro X; now elim NT].
Qed.
Lemma flat_local_e : flat_local e.
Proof.
  intros w I F. apply In_nth_error in I as [n N]. apply low_variant in N as [v [oss [vo [A [B [C ->]]]]]]. assert (NO : variant_no i osss vos n v oss vo) by (split; auto).
  destruct (proper_no _ _ _ _ NO) as [LEN [FC CV]]. pose proof (plain_no _ _ _ _ NO) as P. unfold schema_v in F. rewrite (w_flatten ru v oss vo LEN CV) in F.
  split; [exact (local_low ru v oss vo LEN FC CV P (TV n v oss vo A B C))|].
  intros x I _. apply In_nth_error in I as [m M]. apply (nth_raw ru v oss vo LEN CV) in M as [f [os [M1 [M2 ->]]]]. rewrite lowered_names.
  pose proof (proj2 (proj2 (ps_ok v oss FC P _ (in_p v oss LEN m f os M1 M2)))) as PO. cbn [snd] in PO.
  pose proof WR as WF. unfold written_enum in WF. rewrite Forall_forall in WF. pose proof (WF v (nth_error_In _ _ A)) as FF. unfold fields_fit in FF. rewrite (named_no _ _ _ _ NO F) in FF.
  assert (SI : sf_ident f <> None) by (first [rewrite Forall_forall in FF; apply FF; eapply nth_error_In; eauto|apply FF; eapply nth_error_In; eauto]).
  unfold names_f. destruct (renames os) as [|r rs]; [|discriminate]. 
  assert (IF : is_flattened os = false).
  { destruct (is_flattened os) eqn:E; auto. unfold is_flattened in E. apply existsb_exists in E as [y [J E]]. destruct PO as [PO _]. unfold flattens in J. apply in_flat_map in J as [o [O J]].
    destruct o; cbn in J; try contradiction; destruct J as [<-|[]]. rewrite (PO _ O) in E. discriminate E. }
  rewrite IF. destruct (sf_ident f) as [[y ysp]|]; [discriminate|now elim SI].
Qed.
Lemma flat_field_names n v oss vo k : variant_no i osss vos n v oss vo ->
  In k (all_names (lower_variant ru (schema_v v oss vo))) <-> exists m f os, nth_error (sv_fields v) m = Some f /\ nth_error oss m = Some os /\ In k (map fst (names_f f os)).
Proof.
  intro NO. destruct (proper_no _ _ _ _ NO) as [LEN [FC CV]]. pose proof (plain_no _ _ _ _ NO) as P. unfold all_names. rewrite in_flat_map. split.
  - intros [x [I J]]. apply In_nth_error in I as [m N]. apply (nth_raw ru v oss vo LEN CV) in N as [f [os [A [B ->]]]]. exists m, f, os. split; auto. split; auto.
    unfold field_key_names in J. rewrite (kind_low ru _ f os (proj2 (proj2 (ps_ok v oss FC P _ (in_p v oss LEN m f os A B))))), lowered_names in J. exact J.
  - intros [m [f [os [A [B J]]]]]. exists (lower_field ru (transparent_v vo) (filled (meaning_f f os))). split; [apply (nth_error_In _ m), (nth_raw ru v oss vo LEN CV); eauto|].
    unfold field_key_names. rewrite (kind_low ru _ f os (proj2 (proj2 (ps_ok v oss FC P _ (in_p v oss LEN m f os A B))))), lowered_names. exact J.
Qed.
Definition flat_name (k : string) : Prop := exists n w, nth_error (e_variants e) n = Some w /\ v_flatten w = true /\ In k (all_names w).
Lemma for_flat_low seg k ksp body : item_key seg = Some (k, ksp, body) -> for_flattened i osss vos seg <-> flat_name k.
Proof.
  intro K. unfold for_flattened, flat_name. split.
  - intros [n [v [oss [vo [m [f [os [k' [ksp' [body' [NO [F [A [B [K' J]]]]]]]]]]]]]]]. assert (k' = k) as -> by congruence. exists n, (lower_variant ru (schema_v v oss vo)). split; [now apply low_no|].
    destruct (proper_no _ _ _ _ NO) as [LEN [FC CV]]. split; [unfold schema_v; now rewrite (w_flatten ru v oss vo LEN CV)|]. apply (flat_field_names n v oss vo k NO). eauto 6.
  - intros [n [w [N [F J]]]]. apply low_variant in N as [v [oss [vo [A [B [C ->]]]]]]. assert (NO : variant_no i osss vos n v oss vo) by (split; auto).
    destruct (proper_no _ _ _ _ NO) as [LEN [FC CV]]. unfold schema_v in F. rewrite (w_flatten ru v oss vo LEN CV) in F. apply (flat_field_names n v oss vo k NO) in J as [m [f [os [D [E J]]]]].
    exists n, v, oss, vo, m, f, os, k, ksp, body. auto 8.
Qed.
Lemma e_names_low k : In k (e_names e) <-> In k (variant_names e) \/ flat_name k.
Proof.
  assert (KN : forall w f, In w (e_variants e) -> In f (v_fields w) -> exists dd, f_kind f = KItem dd).
  { intros w f I J. apply In_nth_error in I as [n N]. apply low_variant in N as [v [oss [vo [A [B [C ->]]]]]]. assert (NO : variant_no i osss vos n v oss vo) by (split; auto).
    destruct (proper_no _ _ _ _ NO) as [LEN [FC CV]]. pose proof (plain_no _ _ _ _ NO) as P. unfold v_fields in J. apply in_map_iff in J as [x [<- J]]. apply In_nth_error in J as [m M].
    apply (nth_raw ru v oss vo LEN CV) in M as [f [os [M1 [M2 ->]]]]. destruct (LemEnum4.skip_default_names (lower_field ru (transparent_v vo) (filled (meaning_f f os)))) as [_ [-> _]].
    rewrite (kind_low ru _ f os (proj2 (proj2 (ps_ok v oss FC P _ (in_p v oss LEN m f os M1 M2))))). eauto. }
  assert (FK : forall w, In w (e_variants e) -> v_flatten w = true -> In k (flat_map (fun f => match f_kind f with KFlatN (Some p) u => join_paths p (fn_names u) | KFlatN None u => fn_names u | _ => [] end) (v_fields w) ++
     flat_map (fun f => match f_kind f with KFlatN _ _ => [] | _ => f_names f end) (v_fields w)) <-> In k (all_names w)).
  { intros w I F. rewrite in_app_iff, !in_flat_map. unfold all_names. rewrite in_flat_map. split.
    - intros [[f [J X]]|[f [J X]]]; destruct (KN w f I J) as [dd K]; rewrite K in X; [destruct X|]. unfold v_fields in J. apply in_map_iff in J as [x [<- J]]. exists x. split; auto.
      destruct (LemEnum4.skip_default_names x) as [N1 [N2 _]]. unfold field_key_names. rewrite <- N2, K. now rewrite <- N1.
    - intros [x [J X]]. right. exists (skip_default x). assert (J2 : In (skip_default x) (v_fields w)) by (unfold v_fields; now apply in_map). split; auto.
      destruct (KN w _ I J2) as [dd K]. rewrite K. destruct (LemEnum4.skip_default_names x) as [N1 [N2 _]]. unfold field_key_names in X. rewrite <- N2, K in X. now rewrite N1. }
  unfold e_names, variant_names, flat_name. rewrite !in_flat_map. split.
  - intros [w [I J]]. apply in_app_iff in J as [J|J]; [left; eauto|]. destruct (v_flatten w) eqn:F; [|destruct J]. right. apply (FK w I F) in J. apply In_nth_error in I as [n N]. eauto.
  - intros [[w [I J]]|[n [w [N [F J]]]]]; [exists w; split; auto; apply in_or_app; now left|]. exists w. pose proof (nth_error_In _ _ N) as I. split; auto. apply in_or_app. right. rewrite F. now apply FK.
Qed.
Lemma flat_names_low k : (exists p ns m, In (p, ns) (flat_map flat_names (e_variants e)) /\ In m ns /\ k = join_path p m) <-> flat_name k.
Proof.
  unfold flat_name. split.
  - intros [p [ns [m [I [J E]]]]]. apply in_flat_map in I as [w [I X]]. apply In_nth_error in I as [n N]. pose proof (flat_names_flat w _ X) as F. exists n, w. split; auto. split; auto.
    apply (LemEnum4.flat_names_in w k F). eauto 6.
  - intros [n [w [N [F J]]]]. apply (LemEnum4.flat_names_in w k F) in J as [p [ns [m [I [J E]]]]]. exists p, ns, m. split; auto. apply in_flat_map. exists w. split; auto. eapply nth_error_In; eauto.
Qed.
Lemma any_flat_low : e_any_flat e = true <-> exists vo, In vo vos /\ is_flattened_v vo = true /\ skipped_v vo = false.
Proof.
  unfold e_any_flat. rewrite existsb_exists. split.
  - intros [w [I F]]. apply andb_true_iff in F as [F S]. apply negb_true_iff in S. apply In_nth_error in I as [n N].
    assert (X : SpecEnum.flattened e n w) by (split; auto). apply flattened_low in X as [v [oss [vo [[_ [_ C]] [_ [A B]]]]]]. exists vo. split; auto. eapply nth_error_In; eauto.
  - intros [vo [I [F S]]]. apply In_nth_error in I as [n C]. destruct EO as [E1 [E2 _]].
    assert (X : exists v oss, nth_error (se_variants i) n = Some v /\ nth_error osss n = Some oss).
    { clear - E1 E2 C. revert vos E2 n C. induction E1; intros vos E2; inversion E2; subst; intros [|n] C; cbn in *; try discriminate; eauto. }
    destruct X as [v [oss [A B]]]. assert (X : SpecEnum.flattened e n (lower_variant ru (schema_v v oss vo))) by (apply flattened_low; exists v, oss, vo; repeat (split; auto)).
    destruct X as [N [F1 S1]]. exists (lower_variant ru (schema_v v oss vo)). split; [eapply nth_error_In; eauto|]. now rewrite F1, S1.
Qed.
Lemma options_low : e_default e = default_by auto expr (e_defaults eo) /\ e_and_thens e = map post (e_and_thens_of eo) /\ e_unknown_ok e = existsb (fun b => b) (e_unknowns eo).
Proof.
  destruct schema_e as [hs [C [-> _]]]. unfold e, default_by. cbn [lower_enum meaning_e e_default e_and_thens e_unknown_ok j_default j_and_thens j_unknown_ok]. split; [|split]; auto.
  - destruct (e_defaults eo) as [|[|] l]; reflexivity.
  - destruct C as [[_ [_ O]] _]. unfold SpecOpts.once in O. destruct (e_unknowns eo) as [|b [|? ?]]; cbn in *; auto; try lia. now rewrite orb_false_r.
Qed.
Lemma keyed_low inputs : keyed inputs <-> forall seg, In seg (items_of inputs) -> item_key seg <> None.
Proof.
  unfold keyed. rewrite Forall_forall. split; intros H seg I.
  - destruct (H seg I) as [k [ksp [body Q]]]. congruence.
  - specialize (H seg I). destruct (item_key seg) as [[[k ksp] body]|]; [eauto|congruence].
Qed.
Lemma none_called its : variant_items e "" its = [] <-> forall s m, In s its -> ~ for_variant i vos m s.
Proof.
  unfold variant_items, part. split.
  - intros VI s m I. apply (proj1 (addressed_no s)). destruct (addressed "" (variant_names e) s) eqn:E; auto.
    assert (J : In s (filter (addressed "" (variant_names e)) its)) by now apply filter_In. rewrite VI in J. destruct J.
  - intro H. induction its as [|s l IH]; auto. cbn [filter]. rewrite (proj2 (addressed_no s)) by (intro m; apply H; now left). apply IH. intros; apply H; now right.
Qed.
(** the other items next to that of a variant *)
Lemma others_low validate n ksp body its a seg b inputs : items_of inputs = its -> its = a ++ seg :: b -> keyed inputs -> item_key seg = Some (n, ksp, body) -> In n (variant_names e) ->
  (forall s, In s (a ++ b) -> addressed "" (variant_names e) s = false) ->
  LemEnum3.others_ok e "" (e_names e) validate n inputs <->
  forall s, In s (a ++ b) -> existsb (fun b => b) (e_unknowns eo) = false ->
    (validate = true -> for_flattened i osss vos s) /\
    (validate = false -> (exists vo', In vo' vos /\ is_flattened_v vo' = true /\ skipped_v vo' = false) -> ~ for_flattened i osss vos s).
Proof.
  intros IT SP KY K NV OT. destruct options_low as [_ [_ UO]]. unfold LemEnum3.others_ok. rewrite UO.
  assert (KO : forall s, In s (a ++ b) -> exists k' ksp' body', item_key s = Some (k', ksp', body') /\ ~ In k' (variant_names e) /\ In (k', ksp') (keys_in inputs)).
  { intros s I. assert (J : In s (items_of inputs)) by (rewrite IT, SP; apply in_app_iff in I; apply in_app_iff; cbn; tauto).
    unfold keyed in KY. rewrite Forall_forall in KY. destruct (KY s J) as [k' [ksp' [body' Q]]]. exists k', ksp', body'. split; auto. split; [|apply key_items; eauto].
    intro X. specialize (OT s I). unfold addressed in OT. rewrite Q in OT. assert (Y : existsb (fun m => String.eqb k' ("" ++ m)) (variant_names e) = true) by (apply existsb_exists; exists k'; split; [auto|apply String.eqb_refl]). congruence. }
  assert (KI : forall k' ksp', In (k', ksp') (keys_in inputs) -> k' = n \/ exists s body', In s (a ++ b) /\ item_key s = Some (k', ksp', body')).
  { intros k' ksp' I. apply key_items in I as [s [body' [I Q]]]. rewrite IT, SP in I. apply in_app_iff in I as [I|[<-|I]].
    - right. exists s, body'. split; auto. apply in_or_app. auto.
    - left. congruence.
    - right. exists s, body'. split; auto. apply in_or_app. auto. }
  split.
  - intros H s I U. destruct (H U) as [H1 H2]. destruct (KO s I) as [k' [ksp' [body' [Q [NI IK]]]]]. split.
    + intro VT. pose proof (H1 VT k' ksp' IK) as J. apply e_names_low in J as [J|J]; [now elim NI|]. now apply (for_flat_low s k' ksp' body').
    + intros VF AF FF. apply (for_flat_low s k' ksp' body' Q) in FF. apply flat_names_low in FF as [p [ns [m [A [B ->]]]]].
      apply (H2 VF (proj2 any_flat_low AF) p ns m A B) with (k := join_path p m) (sp := ksp'); auto. intro X. apply NI. now rewrite X.
  - intros H U. split.
    + intros VT k' ksp' I. apply e_names_low. destruct (KI k' ksp' I) as [->|[s [body' [J Q]]]]; auto. right. apply (for_flat_low s k' ksp' body' Q). now apply (H s J U).
    + intros VF AF p ns m A B NE k' ksp' I ->. cbn [append] in I. destruct (KI _ _ I) as [E|[s [body' [J Q]]]]; [now elim NE|].
      destruct (H s J U) as [_ H2]. apply (H2 VF (proj1 any_flat_low AF)). apply (for_flat_low s _ ksp' body' Q). apply flat_names_low. eauto 6.
Qed.
Lemma name_sets_low n v oss vo kss : variant_no i osss vos n v oss vo ->
  required_sets (lower_variant ru (schema_v v oss vo)) kss <-> name_lists v oss kss.
Proof.
  intro NO. destruct (proper_no _ _ _ _ NO) as [LEN [FC CV]].
  assert (X : forall ks, (exists f, In f (v_raw (lower_variant ru (schema_v v oss vo))) /\ SpecEnum.required f /\ name_set f ks) <->
    (exists m f os, nth_error (sv_fields v) m = Some f /\ nth_error oss m = Some os /\ must_have os /\ name_list f os ks)).
  { intro ks. unfold name_set, name_list. split.
    - intros [x [I [R [S N]]]]. apply In_nth_error in I as [m M]. apply (nth_raw ru v oss vo LEN CV) in M as [f [os [A [B ->]]]]. rewrite lowered_names in N.
      exists m, f, os. split; auto. split; auto. split; auto. now apply (required_low n v oss vo m f os NO A B).
    - intros [m [f [os [A [B [M [S N]]]]]]]. exists (lower_field ru (transparent_v vo) (filled (meaning_f f os))). split; [apply (nth_error_In _ m), (nth_raw ru v oss vo LEN CV); eauto|].
      rewrite lowered_names. split; auto. now apply (required_low n v oss vo m f os NO A B). }
  unfold required_sets, name_lists. split; intros [S H]; split; auto; intro ks; rewrite H; [apply X|symmetry; apply X].
Qed.
Lemma first_low inputs n w : first_chosen e "" inputs n w <-> exists v oss vo, taken i osss vos (items_of inputs) n v oss vo /\ w = lower_variant ru (schema_v v oss vo).
Proof.
  unfold first_chosen, taken. split.
  - intros [C H]. apply chosen_low in C as [v [oss [vo [ME ->]]]]. exists v, oss, vo. split; auto. split; auto. intros n' v' oss' vo' a b ME' A B.
    apply (H n' (lower_variant ru (schema_v v' oss' vo'))); [apply chosen_low; eauto|apply (name_sets_low n v oss vo); auto; apply ME|apply (name_sets_low n' v' oss' vo'); auto; apply ME'].
  - intros [v [oss [vo [[ME H] ->]]]]. split; [apply chosen_low; eauto|]. intros j w C a b A B. apply chosen_low in C as [v' [oss' [vo' [ME' ->]]]].
    apply (name_sets_low n v oss vo) in A; [|apply ME]. apply (name_sets_low j v' oss' vo') in B; [|apply ME']. eauto.
Qed.
Lemma flat_named_e : flat_named_ok e.
Proof. intros w I F. now apply flat_local_e. Qed.
(** if any variant is meant, one and only one is taken *)
Lemma one_taken inputs n v oss vo : meant i osss vos (items_of inputs) n v oss vo ->
  exists n1 v1 oss1 vo1, taken i osss vos (items_of inputs) n1 v1 oss1 vo1 /\
    forall n2 v2 oss2 vo2, taken i osss vos (items_of inputs) n2 v2 oss2 vo2 -> n2 = n1.
Proof.
  intro ME. assert (C : chosen e "" inputs n (lower_variant ru (schema_v v oss vo))) by (apply chosen_low; eauto).
  destruct (first_exists e "" inputs _ _ flat_named_e C) as [j [w F]]. pose proof F as F1. apply first_low in F1 as [v1 [oss1 [vo1 [T ->]]]].
  exists j, v1, oss1, vo1. split; auto. intros n2 v2 oss2 vo2 T2.
  assert (F2 : first_chosen e "" inputs n2 (lower_variant ru (schema_v v2 oss2 vo2))) by (apply first_low; eauto).
  exact (proj1 (first_same e "" inputs _ _ _ _ flat_named_e F2 F)).
Qed.
Lemma source_flat_run validate sp inputs r x : enum_run e tm "" validate sp inputs r ->
  r = Ok x <-> exists y, source_flat_enum ru i osss vos (default_by auto expr (e_defaults eo)) (existsb (fun b => b) (e_unknowns eo)) validate tm sp (items_of inputs) y /\
     chained (map post (e_and_thens_of eo)) y x.
Proof.
  intro RU. destruct options_low as [OD [OA _]]. split.
  - intro R. pose proof R as R1. rewrite (LemEnum5.run_body e tm "" validate sp inputs r RU) in R1.
    apply (LemEnum3.enum_text tm e "" proper_e) in R1 as [KY [y [CH C]]]. rewrite OA in CH. destruct C as [[seg [n [vs [q [VI [VW [-> [[ksp0 [body0 K0]] OO]]]]]]]]|[VI _]].
    + exists (n, vs). split; auto. split; [now apply keyed_low|]. left.
      pose proof VI as VI2. unfold variant_items, part in VI2. apply filter_single in VI2 as [a [b [IT [AD OT]]]].
      destruct VW as [k [ksp [body [w [Q [AT VV]]]]]]. pose proof AT as AT2. apply at_calls in AT as [v [oss [vo [A [B [C [-> CL]]]]]]].
      assert (NO : variant_no i osss vos n v oss vo) by (split; auto). destruct (proper_no _ _ _ _ NO) as [LEN [FC CV]]. pose proof (plain_no _ _ _ _ NO) as P.
      rewrite Q in K0. injection K0 as K0 <- <-. cbn in K0. subst q.
      exists a, seg, b, n, v, oss, vo, k, ksp, body, vs. split; auto. split; auto. split; auto. split; auto. split; [|split; auto].
      * apply (content_ok ru v oss vo LEN FC CV P tm); auto; [now apply (accepted_no n)|now apply (TV n)|now apply (ND n)].
      * intros s I. split; [intro m; apply (proj1 (addressed_no s)); auto|].
        revert s I. apply (proj1 (others_low validate k ksp body (items_of inputs) a seg b inputs eq_refl IT KY Q (proj2 (in_names k) (ex_intro _ n (ex_intro _ _ AT2))) OT) OO).
    + destruct (l_first_run e tm "" validate sp inputs r x RU proper_e flat_local_e VI R) as [_ [y' [CH' C]]]. rewrite OA in CH'. exists y'. split; auto. split; [now apply keyed_low|]. right.
      split; [now apply none_called|]. destruct C as [[n [w [vs [CN [-> FW]]]]]|[CN D]].
      * left. apply first_low in CN as [v [oss [vo [ME ->]]]]. exists n, v, oss, vo, vs. split; auto. split; auto. destruct ME as [[[NO [F _]] _] _]. now apply (written_low n v oss vo).
      * right. split; [|congruence]. intros n v oss vo ME. apply (CN n (lower_variant ru (schema_v v oss vo))). apply chosen_low. eauto.
  - intros [y [[K C] CH]]. apply keyed_low in K as KY. destruct C as [[a [seg [b [n [v [oss [vo [k [ksp [body [vs [IT [NO [Q [CL [VC [-> OT]]]]]]]]]]]]]]]]]|[NC C]].
    + rewrite (LemEnum5.run_body e tm "" validate sp inputs r RU). apply (LemEnum3.enum_text tm e "" proper_e). split; auto. exists (n, vs). split; [now rewrite OA|]. left.
      assert (AD : forall s, In s (a ++ b) -> addressed "" (variant_names e) s = false) by (intros s I; apply addressed_no; apply (OT s I)).
      assert (AT : variant_at e "" k n (lower_variant ru (schema_v v oss vo))) by (apply at_calls; destruct NO as [A [B C]]; eauto 10).
      assert (IN : In k (variant_names e)) by (apply in_names; eauto).
      exists seg, n, vs, k. split; [|split; [|split; [|split]]]; auto.
      * apply filter_single. exists a, b. split; auto. split; auto. apply addressed_ok. destruct NO as [A [B C]]. exists n, v, vo, k, ksp, body. auto.
      * exists k, ksp, body, (lower_variant ru (schema_v v oss vo)). split; auto. split; auto. destruct (proper_no _ _ _ _ NO) as [LEN [FC CV]]. pose proof (plain_no _ _ _ _ NO) as P.
        apply (content_ok ru v oss vo LEN FC CV P tm); auto; [now apply (accepted_no n)|destruct NO as [A [B C]]; now apply (TV n)|now apply (ND n)].
      * eauto.
      * apply (others_low validate k ksp body (items_of inputs) a seg b inputs eq_refl IT KY Q IN AD). intros s I. apply (OT s I).
    + apply none_called in NC as VI. destruct C as [[n [v [oss [vo [vs [ME [-> SV]]]]]]]|[CN D]].
      * apply (l_first_accepts e tm "" validate sp inputs r n (lower_variant ru (schema_v v oss vo)) vs x RU proper_e flat_local_e VI); auto.
        -- apply first_low. eauto.
        -- destruct ME as [[[NO [F _]] _] _]. now apply (written_low n v oss vo).
        -- now rewrite OA.
      * apply (l_flat_default e tm "" validate sp inputs r x y RU proper_e flat_local_e VI); auto; [|congruence|now rewrite OA].
        intros n w CW. apply chosen_low in CW as [v [oss [vo [ME _]]]]. now apply (CN n v oss vo).
Qed.
End M.
End E.

Section F.
Context {env : Env} {V : Type}.
Variable ru : rust V.
Variable sy : synlib.
Hypothesis SY : good_syn_lib sy.
Lemma l_source_enum (auto : evalue V) (expr : list token -> evalue V) (post : list token -> evalue V -> evalue V + synerr) (tm : tmode V) i d osss vos eo validate sp inputs r x :
  good_rust ru -> written_enum i -> derived_enum sy tm i d -> enum_options sy i osss vos eo -> plain_enum ru i osss vos ->
  enum_run (lower_enum ru auto expr post d) tm "" validate sp inputs r ->
  r = Ok x <-> exists y,
    source_enum ru i osss vos (default_by auto expr (e_defaults eo)) (existsb (fun b => b) (e_unknowns eo) || negb validate)%bool tm (items_of inputs) y /\
    chained (map post (e_and_thens_of eo)) y x.
Proof.
  intros G W D O P RU. eapply (source_enum_run ru sy SY auto expr post i osss vos eo O tm d W G D); eauto.
  - intros n oss vo A B. destruct O as [O1 _].
    assert (X : exists v, nth_error (se_variants i) n = Some v).
    { clear - O1 A. revert n A. induction O1; intros [|n] A; cbn in *; try discriminate; eauto. }
    destruct X as [v X]. apply (P n v oss vo X A B).
  - intros n v oss vo A B C. apply (P n v oss vo A B C).
  - intros n vo A. destruct O as [O1 [O2 _]].
    assert (X : exists v oss, nth_error (se_variants i) n = Some v /\ nth_error osss n = Some oss).
    { clear - O1 O2 A. revert vos O2 n A. induction O1; intros vos O2; inversion O2; subst; intros [|n] A; cbn in *; try discriminate; eauto. }
    destruct X as [v [oss [X Y]]]. apply (P n v oss vo X Y A).
  - intros n v oss vo A B C. apply (P n v oss vo A B C).
Qed.
Lemma l_flat_source (auto : evalue V) (expr : list token -> evalue V) (post : list token -> evalue V -> evalue V + synerr) (tm : tmode V) i d osss vos eo validate sp inputs r x :
  good_rust ru -> written_enum i -> derived_enum sy tm i d -> enum_options sy i osss vos eo -> plain_flat_enum ru i osss vos ->
  enum_run (lower_enum ru auto expr post d) tm "" validate sp inputs r ->
  r = Ok x <-> exists y, source_flat_enum ru i osss vos (default_by auto expr (e_defaults eo)) (existsb (fun b => b) (e_unknowns eo)) validate tm sp (items_of inputs) y /\
     chained (map post (e_and_thens_of eo)) y x.
Proof.
  intros G W D O P RU. eapply (source_flat_run ru sy SY auto expr post i osss vos eo O tm d W G D); eauto.
  - intros n oss vo A B. destruct O as [O1 _].
    assert (X : exists v, nth_error (se_variants i) n = Some v).
    { clear - O1 A. revert n A. induction O1; intros [|n] A; cbn in *; try discriminate; eauto. }
    destruct X as [v X]. destruct (P n v oss vo (conj X (conj A B))) as [P1 [P2 _]]. split; auto. intro T. now apply P2.
  - intros n v oss vo A B C. apply (P n v oss vo (conj A (conj B C))).
  - intros n v oss vo NO F. destruct (P n v oss vo NO) as [_ [P2 _]]. destruct (transparent_v vo); auto. destruct (P2 eq_refl). congruence.
  - intros n v oss vo NO. apply (P n v oss vo NO).
Qed.
Lemma l_flat_taken (tm : tmode V) i d osss vos eo inputs n v oss vo :
  good_rust ru -> written_enum i -> derived_enum sy tm i d -> enum_options sy i osss vos eo -> plain_flat_enum ru i osss vos ->
  meant i osss vos (items_of inputs) n v oss vo ->
  exists n1 v1 oss1 vo1, taken i osss vos (items_of inputs) n1 v1 oss1 vo1 /\
    forall n2 v2 oss2 vo2, taken i osss vos (items_of inputs) n2 v2 oss2 vo2 -> n2 = n1.
Proof.
  intros G W D O P ME. eapply (one_taken ru sy SY (0, []) (fun _ => (0, [])) (fun _ y => inl y) i osss vos eo O tm d W G D); eauto.
  - intros m oss' vo' A B. destruct O as [O1 _].
    assert (X : exists v, nth_error (se_variants i) m = Some v).
    { clear - O1 A. revert m A. induction O1; intros [|m] A; cbn in *; try discriminate; eauto. }
    destruct X as [v' X]. destruct (P m v' oss' vo' (conj X (conj A B))) as [P1 [P2 _]]. split; auto. intro T. now apply P2.
  - intros m v' oss' vo' A B C. apply (P m v' oss' vo' (conj A (conj B C))).
Qed.
End F.
