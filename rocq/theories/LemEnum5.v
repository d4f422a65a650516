(** Enums: the theorems about runs. *)
From Verif Require Export LemAbout LemEnum4.

Section E.
Context {env : Env} {V : Type}.
Notation vdef := (vdef V).
Notation edef := (edef V).

Lemma variant_returns (v : vdef) tm prefix c sp : accepted_variant tm v -> v_shape v = ShNamed ->
  let R := variant_reader v prefix c in
  fields_return (r_fields R) /\ flats_return R sp /\ missing_return R tm None sp /\ target_ok R None.
Proof.
  intros [A [B _]] SH R. rewrite SH in A. pose proof (same_good _ _ _ (v_fields_same v) A) as G2.
  assert (GF : forall f, In f (v_fields v) -> good_field ShNamed f) by (now apply Forall_forall).
  repeat split.
  - apply Forall_forall. intros f I P n nsp. specialize (GF f I (pitem_parsable f P)).
    apply pitem_spec in P as [_ [_ [d K]]]. unfold good_kind in GF. unfold item_named. rewrite K in *. apply GF.
  - intros f l I P. specialize (GF f I (pflat_parsable f P)). apply pflat_spec in P as [_ [_ K]].
    unfold good_kind in GF. unfold flat_call. destruct (f_kind f) eqn:FK.
    + now destruct (K d).
    + apply GF.
    + destruct GF.
    + apply GF.
    + apply GF.
  - intros f d I K W. assert (P : is_parsable f = true).
    { pose proof (v_fields_ok tm v B) as FO. rewrite Forall_forall in FO. specialize (FO f I).
      unfold wants_error in W. apply andb_true_iff in W as [W W3]. apply andb_true_iff in W as [W1 W2].
      destruct (is_parsable f) eqn:Q; auto. specialize (FO Q). unfold fields_ok in FO.
      destruct (f_default f); [discriminate|].
      destruct (f_container f); [discriminate|]. destruct tm; intuition congruence. }
    specialize (GF f I P). unfold good_kind in GF. rewrite K in GF. apply GF.
  - intros t E. discriminate.
Qed.
Lemma variant_local (v : vdef) : Forall local_field (v_raw v) -> Forall local_field (v_fields v).
Proof.
  intro H. pose proof (v_fields_same v) as S. revert S H. generalize (v_fields v). generalize (v_raw v).
  induction 1; intro H1; constructor; inversion H1; subst; auto.
  destruct (same_pitem _ _ H) as [E1 [_ E2]]. unfold local_field. rewrite E1, E2. auto.
Qed.
Lemma other_names_in (e : edef) i p ns : In (p, ns) (other_names e i) <->
  exists j w, nth_error (e_variants e) j = Some w /\ j <> i /\ In (p, ns) (flat_names w).
Proof.
  unfold other_names. rewrite in_flat_map. split.
  - intros [[j w] [I J]]. cbn [fst snd] in J. apply in_indexed in I as [_ I]. rewrite Nat.sub_0_r in I.
    destruct (Nat.eqb_spec j i); [destruct J|]. eauto.
  - intros [j [w [N [NE I]]]]. exists (j, w). split; [apply in_indexed; rewrite Nat.sub_0_r; split; auto; lia|].
    cbn [fst snd]. destruct (Nat.eqb_spec j i); [congruence|auto].
Qed.
Lemma needs_empty (v : vdef) : fields_named v -> (flat_empty v = true <-> ~ needs v).
Proof.
  intro FN. rewrite (needs_key v FN). unfold flat_empty. destruct (field_key v); intuition congruence.
Qed.
Lemma foreign_disallow (e : edef) prefix i (v : vdef) m inputs : paths_for prefix inputs m -> v_flatten v = true ->
  disallow_paths (remove_paths m (flat_names v)) (other_names e i) (v_ident v) [] = [] <->
  (forall k ksp, In (k, ksp) (keys_in inputs) -> ~ foreign e prefix i v k).
Proof.
  intros PF FV. rewrite disallow_nil. split.
  - intros [_ H] k ksp IK [j [w [n [N [FW [NE [IN [-> NI]]]]]]]].
    apply (flat_names_in w n FW) in IN as [p [ns [q [I1 [I2 ->]]]]].
    apply (H p ns q); [apply other_names_in; eauto|auto|]. apply remove_paths_keys. split; [apply PF; eauto|].
    intros p' ns' q' J1 J2 E. apply NI. apply (flat_names_in v _ FV). eauto 6.
  - intro H. split; auto. intros p ns q I1 I2 J. apply other_names_in in I1 as [j [w [N [NE I1]]]].
    apply remove_paths_keys in J as [J1 J2]. apply PF in J1 as [ksp J1]. apply (H _ _ J1).
    pose proof (flat_names_flat w _ I1) as FW.
    exists j, w, (join_path p q). repeat split; auto.
    + apply (flat_names_in w _ FW). exists p, ns, q. auto.
    + intro I. apply (flat_names_in v _ FV) in I as [p' [ns' [q' [K1 [K2 E]]]]]. apply (J2 p' ns' q' K1 K2 E).
Qed.
Lemma takes_all_dec (v : vdef) : takes_all v \/ ~ takes_all v.
Proof. rewrite <- accepts_all_spec. destruct (v_accepts_all v); auto. Qed.

Lemma flat_text (e : edef) tm prefix sp i (v : vdef) m inputs y :
  accepted_variant tm v -> v_flatten v = true -> Forall local_field (v_raw v) -> fields_named v ->
  paths_for prefix inputs m -> keyed inputs ->
  fst (flat_block e tm prefix sp i v m [] inputs) = Ok (FSome y, []) <->
  exists vs, y = (i, vs) /\ flat_written e tm prefix sp inputs i v vs.
Proof.
  intros AV FV LF FN PF KY. rewrite flat_exact.
  assert (SH : v_shape v = ShNamed) by (destruct AV as [_ [_ [S _]]]; auto).
  pose proof (needs_empty v FN) as NE. pose proof (accepts_all_spec v) as TA.
  set (c := negb (v_unknown_ok v) && flat_validate v).
  assert (CS : c = true <-> needs v /\ ~ takes_all v).
  { unfold c, flat_validate. assert (U : v_unknown_ok v = true -> v_accepts_all v = true) by (unfold v_accepts_all; intros ->; auto).
    destruct (v_unknown_ok v); cbn [negb andb].
    - specialize (U eq_refl). split; [discriminate|]. intros [_ NT]. destruct NT. now apply TA.
    - rewrite andb_true_r. destruct (flat_empty v).
      + split; [discriminate|]. intros [N _]. now destruct (proj1 NE eq_refl).
      + destruct (v_accepts_all v); cbn [negb].
        * split; [discriminate|]. intros [_ NT]. destruct NT. now apply TA.
        * split; auto. intros _. split.
          -- apply (needs_key v FN). intro Z. assert (X : ~ needs v) by (intro X; apply (needs_key v FN) in X; congruence).
             apply NE in X. discriminate.
          -- intro T. apply TA in T. discriminate. }
  assert (NB : forall vs, fst (named_body (v_fields v) tm None (v_unknown_ok v) (v_allowed v) sp prefix (flat_validate v) inputs) = Ok vs <->
     parses_to (variant_reader v prefix c) tm None sp inputs (items_of inputs) vs).
  { intro vs. destruct (variant_returns v tm prefix c sp AV SH) as [R1 [R2 [R3 R4]]]. rewrite v_allowed_names.
    apply (named_text (variant_reader v prefix c) (v_unknown_ok v) (flat_validate v) tm None sp inputs vs); auto. cbn. now apply variant_local. }
  assert (PRE : flat_pre e prefix sp v [] inputs = Ok [] <-> (~ needs v -> ~ takes_all v ->
       forall k ksp, In (k, ksp) (keys_in inputs) -> In k (flat_names_of v))).
  { unfold flat_pre. cbn [errors_is_empty]. cbv zeta. destruct (flat_empty v) eqn:FE; cbn [andb].
    2: { split; auto. intros _ N. apply NE in N. discriminate. }
    destruct (v_accepts_all v) eqn:AA; cbn [negb]; [rewrite andb_false_r|].
    { split; auto. intros _ _ NT. destruct NT. now apply TA. }
    destruct (v_unknown_ok v) eqn:U; [unfold v_accepts_all in AA; rewrite U in AA; discriminate|]. cbn [negb andb].
    pose proof (keyed_fork inputs KY) as KF. pose proof (validate_nil (v_allowed v) [] (fork_inputs inputs) KF) as VN.
    assert (KI : keys_in (fork_inputs inputs) = keys_in inputs).
    { unfold keys_in. now rewrite fork_pieces. }
    rewrite KI, v_allowed_names in VN. rewrite v_allowed_names.
    destruct (fst (validate_pass (flat_names_of v) [] (fork_inputs inputs))) as [|e0 es0]; cbn [errors_is_empty].
    - split; auto. intros _ _ _. now apply VN.
    - split.
      + pose proof (variant_required_ne sp prefix (all_messages e) (e0 :: es0)) as NN.
        destruct (variant_required sp prefix (all_messages e) (e0 :: es0)); [congruence|]. discriminate.
      + intro H. assert (X : e0 :: es0 = []) by (apply VN; split; auto; apply H; [now apply NE|intro T; apply TA in T; discriminate]). discriminate. }
  split.
  - intro H. pose proof (flat_pre_cases e prefix sp v [] inputs) as PC.
    destruct (flat_pre e prefix sp v [] inputs) as [es1|x|b] eqn:FP; try discriminate H. subst es1. cbn [rbind] in H.
    destruct (fst (named_body (v_fields v) tm None (v_unknown_ok v) (v_allowed v) sp prefix (flat_validate v) inputs)) as [l|x|b] eqn:B; try discriminate H.
    cbn [push_result] in H. injection H as <- H. exists l. split; auto. exists c. split; auto. split; [now apply NB|]. split; [now apply PRE|].
    intros T U1 U2. rewrite U1, U2 in H. cbn [orb negb andb] in H. apply TA in T. rewrite T in H. exact (proj1 (foreign_disallow e prefix i v m inputs PF FV) H).
  - intros [vs [-> [c' [C' [P [P1 P2]]]]]]. assert (c' = c).
    { destruct c' eqn:Q; symmetry; [apply CS, C'; auto|]. destruct c eqn:Q2; auto.
      assert (Z : false = true) by (apply C', CS; auto). discriminate. }
    subst c'. apply NB in P. rewrite P. apply PRE in P1. rewrite P1. cbn [rbind push_result]. f_equal. f_equal.
    destruct (e_unknown_ok e) eqn:U1; cbn [orb negb andb]; auto. destruct (v_unknown_ok v) eqn:U2; cbn [orb negb andb]; auto.
    destruct (v_accepts_all v) eqn:AA; auto. apply (foreign_disallow e prefix i v m inputs PF FV). apply P2; auto. now apply TA.
Qed.

Lemma run_body (e : edef) tm prefix v sp inputs r : enum_run e tm prefix v sp inputs r ->
  r = fst (enum_body e tm (e_names e) sp prefix v inputs).
Proof.
  intro H. destruct H as [m ins|m prefix v ins|m i ins|obj spans pn sp v ins VT AB]; try reflexivity.
  destruct (about_eq _ _ _ _ AB) as [-> ->].
  unfold enum_attr_body. replace v with (negb (e_accepts_all e)); [reflexivity|]. pose proof (enum_accepts_spec e) as S.
  destruct (e_accepts_all e), v; auto; exfalso.
  - assert (X : true = false) by (apply VT, S; reflexivity). discriminate.
  - assert (X : false = true) by (apply S, VT; reflexivity). discriminate.
Qed.
Lemma run_returns (e : edef) tm prefix v sp inputs r : enum_run e tm prefix v sp inputs r -> proper_enum tm e -> returns r.
Proof.
  intros H P. apply run_body in H as ->. destruct P as [A [T _]].
  apply (enum_body_good tm e (e_names e) sp prefix v A T inputs).
Qed.
Lemma not_ok {A} (r : res A) : returns r -> (forall x, r <> Ok x) -> exists e, r = Err e.
Proof. destruct r; intros R H; [now destruct (H a)|eauto|destruct R]. Qed.
Lemma no_flattened_any (e : edef) : no_flattened e -> e_any_flat e = false.
Proof.
  intro H. unfold e_any_flat. destruct (existsb _ (e_variants e)) eqn:X; auto. apply existsb_exists in X as [v [I X]]. rewrite (H v I) in X. discriminate.
Qed.
Lemma no_flattened_names (e : edef) : no_flattened e -> e_names e = variant_names e.
Proof.
  unfold no_flattened, e_names, variant_names. induction (e_variants e) as [|v l IH]; intro H; cbn [flat_map]; auto.
  rewrite IH by (intros w I; apply H; now right). rewrite (H v) by (now left). cbn [orb]. now rewrite app_nil_r.
Qed.

(** *** C21 *)
Lemma l_enum_plain (e : edef) tm prefix validate sp inputs r x :
  enum_run e tm prefix validate sp inputs r -> proper_enum tm e -> no_flattened e ->
  r = Ok x <-> keyed inputs /\ exists y, chained (e_and_thens e) y x /\
   ((exists seg i vs, variant_items e prefix (items_of inputs) = [seg] /\ variant_written e tm prefix seg i vs /\ y = (i, vs) /\
       (validate = true -> e_unknown_ok e = false -> forall k ksp, In (k, ksp) (keys_in inputs) -> In k (variant_names e))) \/
    (variant_items e prefix (items_of inputs) = [] /\ e_default e = Some y)).
Proof.
  intros H P NF. apply run_body in H as ->. rewrite (enum_text tm e prefix P). rewrite (no_flattened_names e NF).
  apply and_iff_compat_l. pose proof (no_flattened_any e NF) as AF. pose proof (no_flat_matches e AF) as PF.
  split; intros [y [CH C]]; exists y; split; auto; rewrite PF in *.
  - destruct C as [[seg [i [vs [n [VI [VW [Y [_ O]]]]]]]]|C]; auto. left. exists seg, i, vs. repeat split; auto.
    intros VT U. now apply (O U).
  - destruct C as [[seg [i [vs [VI [VW [Y O]]]]]]|C]; auto. left. 
    pose proof VW as [k [ksp [body [w [K [[_ [_ [n [_ KE]]]] _]]]]]].
    exists seg, i, vs, n. split; auto. split; auto. split; auto. split; [rewrite KE in K; eauto|].
    intro U. split; [intro VT; exact (O VT U)|congruence].
Qed.
Lemma l_enum_two (e : edef) tm prefix validate sp inputs r :
  enum_run e tm prefix validate sp inputs r -> proper_enum tm e ->
  2 <= length (variant_items e prefix (items_of inputs)) -> exists x, r = Err x.
Proof.
  intros H P L. pose proof (run_returns _ _ _ _ _ _ _ H P) as RT. apply run_body in H. apply not_ok; auto. intros x E. rewrite H in E.
  apply (enum_text tm e prefix P) in E as [_ [y [_ [[seg [i [vs [n [VI _]]]]]|[VI _]]]]]; rewrite VI in L; cbn in L; lia.
Qed.
Lemma l_enum_alone (e : edef) prefix sp inputs r x tm :
  enum_run e tm prefix true sp inputs r -> proper_enum tm e -> no_flattened e -> prefix = "" ->
  e_unknown_ok e = false -> e_default e = None -> r = Ok x ->
  exists seg i vs, items_of inputs = [seg] /\ variant_written e tm prefix seg i vs /\ chained (e_and_thens e) (i, vs) x.
Proof.
  intros H P NF -> U D E. apply (l_enum_plain e tm "" true sp inputs r x H P NF) in E as [KY [y [CH [[seg [i [vs [VI [VW [-> O]]]]]]|[_ DF]]]]]; [|congruence].
  exists seg, i, vs. split; auto. rewrite <- VI. unfold variant_items, part. symmetry.
  assert (A : forall s, In s (items_of inputs) -> addressed "" (variant_names e) s = true).
  { intros s I. unfold keyed in KY. rewrite Forall_forall in KY. destruct (KY s I) as [k [ksp [body K]]].
    apply addressed_spec. exists k, ksp, body, k. split; auto. split; auto. apply (O eq_refl U k ksp).
    apply in_keys_pieces. unfold items_of in I. apply in_map_iff in I as [pc [<- I]]. eauto. }
  clear -A. induction (items_of inputs) as [|s l IH]; auto. cbn [filter]. rewrite A by (now left). f_equal. apply IH. intros; apply A; now right.
Qed.
End E.
