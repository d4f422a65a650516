(** From the source of an enum to the values it parses *)
From Verif Require Import LemWf LemWfD LemSmall LemStruct LemStructP LemNamed LemRun LemSchema LemSchema5 LemSchema6 LemOpts4 LemOpts5 LemOpts6 LemOpts7 LemTStruct LemSplit LemEnum2 LemEnum5 LemVariant.
From Verif Require Export LemSource2.
From Verif Require Import SpecColl.
From Verif Require Export SpecESource.

Section V.
Context {env : Env} {V : Type}.
Variable ru : rust V.
Variables (v : src_variant) (oss : list (list fopt)) (vo : list vopt).
Let ps := combine (sv_fields v) oss.
Let gs := map (fun p => meaning_f (fst p) (snd p)) ps.
Let h := meaning_v v gs vo.
Let w := lower_variant ru h.
Hypothesis LEN : length (sv_fields v) = length oss.
Hypothesis FC : Forall2 consistent_f (sv_fields v) oss.
Hypothesis CV : consistent_v v gs vo.
Hypothesis PL : Forall plain oss.

Lemma once_first (l : list (option (bool * span))) : SpecOpts.once l -> b_true (option_map fst (first_of (somes l))) = existsb fst (somes l).
Proof. unfold SpecOpts.once. destruct l as [|[[b s]|] [|y l]]; cbn; intro; auto; try lia. now rewrite orb_false_r. Qed.
Lemma w_transparent : v_transparent w = transparent_v vo.
Proof. cbn. apply once_first. apply CV. Qed.
Lemma w_flatten : v_flatten w = is_flattened_v vo.
Proof. cbn. apply once_first. apply CV. Qed.
Lemma w_skip : v_skip w = skipped_v vo.
Proof. cbn. unfold skipped_v. assert (O : SpecOpts.once (v_skips vo)) by apply CV. unfold SpecOpts.once in O. destruct (v_skips vo) as [|[b s] [|y l]]; cbn in *; auto; try lia. now rewrite orb_false_r. Qed.
Lemma w_unknown : v_unknown_ok w = unknown_v vo.
Proof. cbn. unfold unknown_v. assert (O : SpecOpts.once (v_unknowns vo)) by apply CV. unfold SpecOpts.once in O. destruct (v_unknowns vo) as [|b [|y l]]; cbn in *; auto; try lia. now rewrite orb_false_r. Qed.

(** fields *)
Lemma ps_ok p : In p ps -> SpecOpts.once (skips (snd p)) /\ SpecOpts.once (containers (snd p)) /\ plain (snd p).
Proof.
  unfold ps. clear - FC PL. revert PL. induction FC as [|f os fs oss C F IH]; cbn [combine]; [intros _ []|]. intros P [<-|I]; inversion P; subst; auto.
  cbn [snd]. destruct C as [C _]. tauto.
Qed.
Lemma w_raw : v_raw w = map (fun p => lower_field ru (transparent_v vo) (filled (meaning_f (fst p) (snd p)))) ps.
Proof.
  pose proof w_transparent as T. cbn [w lower_variant v_transparent] in T. unfold w, lower_variant. cbn [v_raw]. rewrite T. unfold h, gs. cbn [meaning_v h_fields]. now rewrite !map_map.
Qed.
Lemma kind_low t f os : plain os -> f_kind (lower_field ru t (filled (meaning_f f os))) = KItem (if t then rt_item (ru_type ru f) else impl_of ru f os).
Proof.
  intro P. assert (E : g_kind ru t (filled (meaning_f f os)) = g_kind ru t (meaning_f f os)).
  { rewrite filled_re. destruct (g_skip (meaning_f f os)) as [[[|] ?]|]; auto. destruct (g_default (meaning_f f os)); auto. }
  cbn [lower_field f_kind]. rewrite E. destruct t.
  - destruct (plain_flat _ P) as [P1 [P2 P3]]. unfold g_kind, flatten_true. cbn [meaning_f g_append g_rest g_flatten]. rewrite P1, P2, P3.
    unfold g_type. cbn [meaning_f g_with g_src]. destruct (withs os); reflexivity.
  - now apply kind_made.
Qed.
Lemma same_low t g : let a := lower_field ru t g in let b := lower_field ru false g in
  f_default a = f_default b /\ f_transforms a = f_transforms b /\ f_container a = f_container b /\ f_skip a = f_skip b /\ f_names a = f_names b /\ f_ident a = f_ident b /\ f_auto a = f_auto b.
Proof. repeat split. Qed.
Lemma skip_low t g : let a := skip_default (lower_field ru t g) in let b := skip_default (lower_field ru false g) in
  f_default a = f_default b /\ f_transforms a = f_transforms b /\ f_container a = f_container b /\ f_skip a = f_skip b.
Proof. unfold skip_default. cbn [lower_field f_default f_skip]. destruct (g_default_value ru g); [repeat split|]. destruct (sv_true (g_skip g)); repeat split. Qed.
Lemma as_fields tm : transparent_v vo = false -> s_fields tm (as_struct w) = map (made ru None tm) ps.
Proof.
  intro T. pose proof w_raw as R. rewrite T in R.
  unfold s_fields, s_fields_meta, s_fields_attr. cbn [as_struct s_default s_raw has_target]. rewrite R. destruct tm as [|pn obj]; rewrite !map_map; apply map_ext_in; intros [f os] I; destruct (ps_ok _ I) as [A [B C]]; cbn [fst snd] in *.
  - change (made ru None TMeta) with (made_as ru None TMeta (item_kind ru)). rewrite <- (meta_made ru None (item_kind ru) f os A B (kind_made ru f os C)). symmetry. apply (meta_fill ru None).
  - apply (attr_made ru None (TAttrs pn obj) (item_kind ru) f os A B (kind_made ru f os C)). discriminate.
Qed.
Lemma w_flat : existsb is_flat (v_raw w) = false.
Proof.
  rewrite w_raw. destruct (existsb is_flat _) eqn:E; auto. apply existsb_exists in E as [x [I F]]. apply in_map_iff in I as [[f os] [<- I]].
  unfold is_flat in F. cbn [fst snd] in F. rewrite kind_low in F by apply (ps_ok _ I). discriminate.
Qed.
Lemma low_parsable t f os : In (f, os) ps -> is_parsable (lower_field ru t (filled (meaning_f f os))) = takes os.
Proof.
  intro I. destruct (ps_ok _ I) as [A [B C]]. cbn [snd] in *. unfold is_parsable, takes.
  assert (S : f_skip (lower_field ru t (filled (meaning_f f os))) = is_skipped os).
  { rewrite <- skip_first by auto. cbn [lower_field f_skip]. rewrite filled_re. destruct (g_skip (meaning_f f os)) as [[[|] ?]|]; auto. destruct (g_default (meaning_f f os)); auto. }
  assert (O : f_container (lower_field ru t (filled (meaning_f f os))) = is_object os).
  { rewrite <- object_first by auto. cbn [lower_field f_container]. unfold g_is_container. rewrite filled_re. destruct (g_skip (meaning_f f os)) as [[[|] ?]|]; auto. destruct (g_default (meaning_f f os)); auto. }
  rewrite S, O. apply andb_comm.
Qed.
Lemma nth_p n f os : nth_error ps n = Some (f, os) <-> nth_error (sv_fields v) n = Some f /\ nth_error oss n = Some os.
Proof. apply nth_ps. exact LEN. Qed.
Lemma nth_raw n x : nth_error (v_raw w) n = Some x <-> exists f os, nth_error (sv_fields v) n = Some f /\ nth_error oss n = Some os /\
  x = lower_field ru (transparent_v vo) (filled (meaning_f f os)).
Proof.
  rewrite w_raw, nth_error_map. split.
  - destruct (nth_error ps n) as [[f os]|] eqn:N; [|discriminate]. injection 1 as <-. apply nth_p in N as [A B]. eauto.
  - intros [f [os [A [B ->]]]]. assert (N : nth_error ps n = Some (f, os)) by now apply nth_p. now rewrite N.
Qed.
Lemma in_p n f os : nth_error (sv_fields v) n = Some f -> nth_error oss n = Some os -> In (f, os) ps.
Proof. intros A B. apply (nth_error_In _ n). now apply nth_p. Qed.

Section T.
Variable tm : tmode V.
Hypothesis AC : accepted_variant tm w.
Hypothesis TV : typed_variant ru v oss vo.
Lemma typed_nth n f os : nth_error (sv_fields v) n = Some f -> nth_error oss n = Some os ->
  fine (impl_in ru vo f os) /\ (sv_shape v = ShUnnamed -> transparent_v vo = false -> uniform ru f os).
Proof.
  unfold typed_variant in TV. intros A B. clear - TV A B. revert n A B. induction TV; intros [|n] A B; cbn in *; try discriminate; eauto. injection A as <-. injection B as <-. auto.
Qed.
Lemma raw_fine x d : In x (v_raw w) -> f_kind x = KItem d -> fine d.
Proof.
  intros I K. apply In_nth_error in I as [n N]. apply nth_raw in N as [f [os [A [B ->]]]]. rewrite kind_low in K by apply (ps_ok _ (in_p _ _ _ A B)).
  injection K as <-. apply (typed_nth n f os A B).
Qed.
Lemma plain_w : transparent_v vo = false -> plain_variant tm w.
Proof. intro T. split; auto. split; [rewrite w_transparent; auto|apply w_flat]. Qed.

Lemma names_low q : In q (s_names (as_struct w)) <-> exists n f os, nth_error (sv_fields v) n = Some f /\ nth_error oss n = Some os /\ names_it f os q.
Proof.
  unfold s_names, fields_names. cbn [as_struct s_raw]. rewrite in_flat_map. split.
    - intros [x [I J]]. apply In_nth_error in I as [n N]. apply nth_raw in N as [f [os [A [B ->]]]]. exists n, f, os. split; auto. split; auto.
      rewrite (low_parsable _ f os (in_p _ _ _ A B)) in J. destruct (takes os) eqn:TK; [|destruct J]. unfold takes in TK. apply andb_true_iff in TK as [T1 T2].
      split; [now apply negb_true_iff|]. split; [now apply negb_true_iff|]. unfold field_key_names in J. rewrite kind_low in J by apply (ps_ok _ (in_p _ _ _ A B)).
      cbn [lower_field f_names] in J. rewrite filled_re in J. destruct (g_skip (meaning_f f os)) as [[[|] ?]|]; auto. destruct (g_default (meaning_f f os)); auto.
    - intros [n [f [os [A [B [S [O I]]]]]]]. exists (lower_field ru (transparent_v vo) (filled (meaning_f f os))). split; [apply (nth_error_In _ n), nth_raw; eauto|].
      rewrite (low_parsable _ f os (in_p _ _ _ A B)). unfold takes. rewrite S, O. cbn. unfold field_key_names. rewrite kind_low by apply (ps_ok _ (in_p _ _ _ A B)).
      cbn [lower_field f_names]. rewrite filled_re. destruct (g_skip (meaning_f f os)) as [[[|] ?]|]; auto. destruct (g_default (meaning_f f os)); auto.
Qed.
Lemma local_low : Forall local_field (v_raw w).
Proof.
  apply Forall_forall. intros x I P n nsp. unfold item_named. apply In_nth_error in I as J. destruct J as [m N]. apply nth_raw in N as [f [os [A [B ->]]]].
    pose proof (kind_low (transparent_v vo) f os (proj2 (proj2 (ps_ok _ (in_p _ _ _ A B))))) as K. pose proof (raw_fine _ _ I K) as FI. rewrite K. exact (ld_named _ (fine_local _ FI) n nsp).
Qed.
Lemma content_named k ksp body vs : transparent_v vo = false -> sv_shape v = ShNamed -> distinct_in v oss ->
  accepts (v_named w tm "" ksp) body vs <-> variant_content ru v oss vo tm k ksp body vs.
Proof.
  intros T SH ND. pose proof (as_fields tm T) as LF. pose proof (plain_w T) as PW.
  pose proof local_low as LFd.
  rewrite (l_variant_named tm w "" ksp body vs PW SH LFd).
  assert (ND2 : NoDup (map fst (flat_map g_idents (map (fun p => meaning_f (fst p) (snd p)) ps)))).
  { unfold distinct_in in ND. fold ps in ND. rewrite flat_map_concat_map, map_map, <- flat_map_concat_map. exact ND. }
  pose proof names_low as AL.
  assert (SR : struct_reader (as_struct w) tm "" true = mkReader (map (made ru None tm) ps) "" (negb (unknown_v vo)) (s_names (as_struct w))).
  { unfold struct_reader. rewrite LF, andb_true_r. cbn [as_struct s_unknown_ok]. now rewrite w_unknown. }
  rewrite SR.
  pose proof (fun its us => parses_source ru None tm _ _ LEN ND2 (negb (unknown_v vo)) _ AL ksp [] its us) as X. rewrite negb_involutive in X.
  split.
  - intros [ts [A B]]. apply (VC_named ru v oss vo tm k ksp body vs ts); auto. now apply X.
  - intros [T2 S2 _ _|ts _ _ A B|ts its _ S2 _ _ _|j f os x T2 _ _ _ _ _ _]; try congruence. exists ts. split; auto. now apply X.
Qed.
Lemma parses_low chk sp inputs its us : transparent_v vo = false -> distinct_in v oss ->
  parses_to (variant_reader w "" chk) tm None sp inputs its us <-> source_value ru (sv_fields v) oss None (negb chk) tm sp its us.
Proof.
  intros T ND. unfold variant_reader. rewrite <- (as_struct_fields tm w AC), (as_fields tm T).
  assert (ND2 : NoDup (map fst (flat_map g_idents (map (fun p => meaning_f (fst p) (snd p)) ps)))).
  { unfold distinct_in in ND. fold ps in ND. rewrite flat_map_concat_map, map_map, <- flat_map_concat_map. exact ND. }
  exact (parses_source ru None tm _ _ LEN ND2 chk _ names_low sp inputs its us).
Qed.
Lemma content_unit k ksp body vs : transparent_v vo = false -> sv_shape v = ShUnit ->
  accepts (v_named w tm "" ksp) body vs <-> variant_content ru v oss vo tm k ksp body vs.
Proof.
  intros T SH. rewrite (l_variant_unit tm w "" ksp body vs SH). split.
  - intros [A B]. now apply VC_unit.
  - intros [_ _ A B|ts _ S2 _ _|ts its _ S2 _ _ _|j f os x T2 _ _ _ _ _ _]; try congruence. auto.
Qed.
Lemma content_tuple k ksp body vs : transparent_v vo = false -> sv_shape v = ShUnnamed ->
  accepts (v_named w tm "" ksp) body vs <-> variant_content ru v oss vo tm k ksp body vs.
Proof.
  intros T SH. pose proof (as_fields tm T) as LF. pose proof (plain_w T) as PW.
  assert (FI : fine_items (as_struct w)) by (apply Forall_forall; intros x I d _ K; eapply raw_fine; eauto).
  assert (UM : Forall uniform_missing (v_raw w)).
  { apply Forall_forall. intros x I d n sp u n' sp' K M. apply In_nth_error in I as [m N]. apply nth_raw in N as [f [os [A [B ->]]]].
    rewrite kind_low, T in K by apply (ps_ok _ (in_p _ _ _ A B)). injection K as <-. destruct (typed_nth m f os A B) as [_ U]. eapply (U SH T); eauto. }
  rewrite (l_variant_tuple tm w "" ksp body vs PW SH FI UM).
  assert (TS : tuple_struct (as_struct w)).
  { split; [now apply (as_struct_accepted tm)|]. split; [exact SH|]. split; [now apply (as_struct_flat tm)|discriminate]. }
  destruct (tuple_fields_ok (as_struct w) tm TS FI UM) as [_ [_ [_ PP]]].
  pose proof (fun its us => tuple_source ru None tm (as_struct w) (sv_fields v) oss LEN LF eq_refl its us PP) as X. cbn [as_struct s_raw] in X.
  assert (AD : all_default w <-> forall os, In os oss -> takes os = true -> defaults os <> []).
  { assert (DF : forall f os, In (f, os) ps -> takes os = true -> f_default (lower_field ru (transparent_v vo) (filled (meaning_f f os))) = None <-> defaults os = []).
    { intros f os I TK. destruct (ps_ok _ I) as [A [B C]]. cbn [snd] in *. unfold takes in TK. apply andb_true_iff in TK as [TK _]. apply negb_true_iff in TK. rewrite <- skip_first in TK by auto.
      assert (E : filled (meaning_f f os) = meaning_f f os). { rewrite filled_re. cbn [meaning_f g_skip]. destruct (first_of (skips os)) as [[[|] ?]|]; auto. discriminate TK. }
      rewrite E. cbn [lower_field f_default]. rewrite default_made. destruct (defaults os) as [|[|] l]; cbn; split; congruence. }
    split.
    - intros H os I TK D. apply In_nth_error in I as [n N]. assert (L : n < length (sv_fields v)) by (rewrite LEN; apply nth_error_Some; congruence).
      destruct (nth_error (sv_fields v) n) as [f|] eqn:A; [|apply nth_error_None in A; lia].
      apply (H (lower_field ru (transparent_v vo) (filled (meaning_f f os)))); [apply (nth_error_In _ n), nth_raw; eauto|rewrite (low_parsable _ f os (in_p _ _ _ A N)); auto|].
      apply (DF f os (in_p _ _ _ A N)); auto.
    - intros H x I P. apply In_nth_error in I as [n N]. apply nth_raw in N as [f [os [A [B ->]]]]. rewrite (low_parsable _ f os (in_p _ _ _ A B)) in P.
      intro Q. apply (DF f os (in_p _ _ _ A B) P) in Q. apply (H os); auto. eapply nth_error_In; eauto. }
  assert (NP : (forall f, In f (v_raw w) -> is_parsable f = false) <-> forall os, In os oss -> takes os = false).
  { split.
    - intros H os I. apply In_nth_error in I as [n N]. assert (L : n < length (sv_fields v)) by (rewrite LEN; apply nth_error_Some; congruence).
      destruct (nth_error (sv_fields v) n) as [f|] eqn:A; [|apply nth_error_None in A; lia].
      rewrite <- (low_parsable (transparent_v vo) f os (in_p _ _ _ A N)). apply H. apply (nth_error_In _ n), nth_raw. eauto.
    - intros H x I. apply In_nth_error in I as [n N]. apply nth_raw in N as [f [os [A [B ->]]]]. rewrite (low_parsable _ f os (in_p _ _ _ A B)). apply H. eapply nth_error_In; eauto. }
  split.
  - intros [ts [its [us [A [B [C D]]]]]]. apply (VC_tuple ru v oss vo tm k ksp body vs ts its); auto.
    + destruct A as [[A1 [A2 A3]]|A]; [left; split; auto; split; auto; now apply AD|now right].
    + destruct B as [B|[B1 [B2 B3]]]; [now left|right; split; auto; split; auto; now apply NP].
    + apply X. eauto.
  - intros [_ S2 _ _|ts _ S2 _ _|ts its _ _ A B C|j f os x T2 _ _ _ _ _ _]; try congruence. apply X in C as [us [C D]]. exists ts, its, us. split; [|split; [|auto]].
    + destruct A as [[A1 [A2 A3]]|A]; [left; split; auto; split; auto; now apply AD|now right].
    + destruct B as [B|[B1 [B2 B3]]]; [now left|right; split; auto; split; auto; now apply NP].
Qed.

(** transparent variants *)
Lemma nth_vf n x : nth_error (v_fields w) n = Some x <-> exists f os, nth_error (sv_fields v) n = Some f /\ nth_error oss n = Some os /\
  x = skip_default (lower_field ru (transparent_v vo) (filled (meaning_f f os))).
Proof.
  unfold v_fields. rewrite nth_error_map. split.
  - destruct (nth_error (v_raw w) n) as [y|] eqn:N; [|discriminate]. injection 1 as <-. apply nth_raw in N as [f [os [A [B ->]]]]. eauto.
  - intros [f [os [A [B ->]]]]. rewrite (proj2 (nth_raw n (lower_field ru (transparent_v vo) (filled (meaning_f f os))))); eauto.
Qed.
Lemma vf_facts n f os : nth_error (sv_fields v) n = Some f -> nth_error oss n = Some os ->
  let x := skip_default (lower_field ru (transparent_v vo) (filled (meaning_f f os))) in
  f_default x = default_for ru None tm f os /\ f_transforms x = map (lower_transform ru) (transforms os) /\ f_container x = is_object os /\
  is_parsable x = takes os /\ f_kind x = KItem (impl_in ru vo f os).
Proof.
  intros A B x. pose proof (in_p _ _ _ A B) as I. destruct (ps_ok _ I) as [O1 [O2 P]]. cbn [snd] in *.
  destruct (skip_low (transparent_v vo) (filled (meaning_f f os))) as [E1 [E2 [E3 E4]]]. fold x in E1, E2, E3, E4.
  pose proof (attr_made ru None (TAttrs None (rt_auto (ru_type ru f))) (item_kind ru) f os O1 O2 (kind_made ru f os P) ltac:(discriminate)) as M. unfold skip_if, filled_if in M. rewrite M in E1, E2, E3, E4. cbn [made_as f_default f_transforms f_container f_skip] in E1, E2, E3, E4.
  split; [|split; [|split; [|split]]]; auto.
  - rewrite E1. destruct tm as [|pn obj] eqn:TM; [|reflexivity]. unfold default_for. destruct (default_by _ _ (defaults os)) eqn:D; auto. rewrite andb_false_r, orb_false_r, andb_true_r.
    destruct (is_skipped os) eqn:S; auto. cbn [andb orb]. destruct (is_object os) eqn:O; auto. exfalso.
    destruct AC as [_ [C _]]. rewrite Forall_forall in C. assert (Ix : In (lower_field ru (transparent_v vo) (filled (meaning_f f os))) (v_raw w)) by (apply (nth_error_In _ n), nth_raw; eauto).
    specialize (C _ Ix). cbn in C. destruct (same_low (transparent_v vo) (filled (meaning_f f os))) as [F1 [_ [F3 _]]]. cbn [lower_field f_default f_container] in F1, F3.
    assert (SK : filled (meaning_f f os) = meaning_f f os). { rewrite filled_re. rewrite <- skip_first in S by auto. cbn [meaning_f g_skip]. destruct (first_of (skips os)) as [[[|] ?]|]; auto. discriminate S. }
    rewrite SK in C. unfold g_is_container in C. cbn [meaning_f g_container] in C. rewrite object_first in C by auto. specialize (C O). rewrite default_made, D in C. now apply C.
  - unfold is_parsable, takes. rewrite E3, E4. apply andb_comm.
  - unfold impl_in. rewrite <- (kind_low (transparent_v vo) f os P). apply skip_default_kind.
Qed.
Lemma one_takes : transparent_v vo = true -> forall n m f g os os', nth_error (sv_fields v) n = Some f -> nth_error oss n = Some os ->
  nth_error (sv_fields v) m = Some g -> nth_error oss m = Some os' -> takes os = true -> takes os' = true -> n = m.
Proof.
  intros T n m f g os os' A B A' B' K K'. destruct AC as [_ [_ [_ TR]]]. rewrite w_transparent in TR. destruct (TR T) as [L _].
  assert (L1 : length (filter is_parsable (v_raw w)) <= 1) by lia. rewrite (filter_one _ _ LEN) in L1.
  apply (L1 n m (lower_field ru (transparent_v vo) (filled (meaning_f f os))) (lower_field ru (transparent_v vo) (filled (meaning_f g os')))).
  - apply nth_raw. eauto.
  - apply nth_raw. eauto.
  - rewrite (low_parsable _ f os (in_p _ _ _ A B)). auto.
  - rewrite (low_parsable _ g os' (in_p _ _ _ A' B')). auto.
Qed.
Lemma around_ok j x vs : transparent_v vo = true -> (exists f os, nth_error (sv_fields v) j = Some f /\ nth_error oss j = Some os /\ takes os = true) ->
  around (v_fields w) tm None j x vs <-> length vs = length (sv_fields v) /\
    (forall n g os' u, nth_error (sv_fields v) n = Some g -> nth_error oss n = Some os' -> nth_error vs n = Some u ->
       if Nat.eqb n j then converted ru os' x u else without_item ru None tm n g os' u).
Proof.
  intros T [fj [osj [Aj [Bj Kj]]]]. unfold around.
  assert (LF : length (v_fields w) = length (sv_fields v)).
  { unfold v_fields. rewrite map_length, w_raw, map_length. unfold ps. rewrite combine_length. lia. }
  rewrite LF. apply and_iff_compat_l. split.
  - intros H n g os u A B C. destruct (vf_facts n g os A B) as [D [TR [CO [PA KI]]]].
    assert (NI : forall seg, In seg [] -> ~ is_for g os seg) by (intros ? []).
    assert (N : nth_error (v_fields w) n = Some (skip_default (lower_field ru (transparent_v vo) (filled (meaning_f g os))))) by (apply nth_vf; eauto).
    destruct (H n _ u N C) as [[E X]|[[E [pn [obj [TM [CN X]]]]]|[[E [CN [y [DF X]]]]|[_ [_ [_ [t [X _]]]]]]]]; [| | |discriminate X].
    + subst n. rewrite Nat.eqb_refl. apply converted_ok. now rewrite <- TR.
    + rewrite (proj2 (Nat.eqb_neq n j) E). apply (Ob_object ru None tm SCall [] n g os u pn obj); auto; [congruence|]. apply converted_ok. now rewrite <- TR.
    + rewrite (proj2 (Nat.eqb_neq n j) E). apply (Ob_default ru None tm SCall [] n g os u y); auto; [intro Z; rewrite <- CO; auto|congruence|]. apply converted_ok. now rewrite <- TR.
  - intros H n f u N C. apply nth_vf in N as [g [os [A [B ->]]]]. destruct (vf_facts n g os A B) as [D [TR [CO [PA KI]]]].
    specialize (H n g os u A B C). destruct (Nat.eqb_spec n j) as [E|E].
    + left. split; auto. rewrite TR. now apply converted_ok.
    + right. destruct H as [seg y I _ _|pn obj TM O X|y _ O DF X|t _ _ _ Z _|y _ O DF _ _ _].
      * destruct I.
      * left. split; auto. exists pn, obj. split; auto. split; [congruence|]. rewrite TR. now apply converted_ok.
      * right. left. split; auto. split; [rewrite CO; auto|]. exists y. split; [congruence|]. rewrite TR. now apply converted_ok.
      * discriminate Z.
      * exfalso. apply E. apply (one_takes T n j g fj os osj); auto. unfold takes. rewrite O, andb_true_r. apply negb_true_iff.
        unfold default_for in DF. destruct (default_by _ _ _); [discriminate|]. destruct (is_skipped os); auto. discriminate DF.
Qed.
Lemma content_transparent k ksp body vs : transparent_v vo = true ->
  variant_value w tm "" k ksp body vs <-> variant_content ru v oss vo tm k ksp body vs.
Proof.
  intro T. split.
  - intros [T2 _|j f d x _ N P K A R]; [rewrite w_transparent in T2; congruence|].
    apply nth_vf in N as [g [os [N1 [N2 ->]]]]. destruct (vf_facts j g os N1 N2) as [_ [_ [_ [PA KI]]]]. rewrite PA in P. rewrite KI in K. injection K as <-.
    apply around_ok in R as [L R]; eauto 6. unfold impl_in in A. rewrite T in A. apply (VC_transparent ru v oss vo tm k ksp body vs j g os x); auto.
  - intros [T2 _ _ _|ts T2 _ _ _|ts its T2 _ _ _ _|j f os x _ N1 N2 TK A L R]; try congruence.
    destruct (vf_facts j f os N1 N2) as [_ [_ [_ [PA KI]]]].
    apply (VV_transparent w tm "" k ksp body vs j (skip_default (lower_field ru (transparent_v vo) (filled (meaning_f f os)))) (impl_in ru vo f os) x); auto.
    + now rewrite w_transparent.
    + apply nth_vf. eauto.
    + now rewrite PA.
    + unfold impl_in. now rewrite T.
    + apply around_ok; eauto 6.
Qed.
Lemma content_ok k ksp body vs : (sv_shape v = ShNamed -> transparent_v vo = false -> distinct_in v oss) ->
  variant_value w tm "" k ksp body vs <-> variant_content ru v oss vo tm k ksp body vs.
Proof.
  intro ND. destruct (transparent_v vo) eqn:T; [now apply content_transparent|].
  assert (X : variant_value w tm "" k ksp body vs <-> accepts (v_named w tm "" ksp) body vs).
  { split; [|apply VV_fields; now rewrite w_transparent]. intros [_ A|j f d x T2 _ _ _ _ _]; auto. rewrite w_transparent in T2. congruence. }
  rewrite X. destruct (sv_shape v) eqn:SH; [apply content_named|apply content_tuple|apply content_unit]; auto.
Qed.
End T.
End V.
