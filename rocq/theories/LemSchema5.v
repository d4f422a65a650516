(** From an accepted source to an accepted schema, and the macro does not panic. *)
From Verif Require Import LemWf LemWfD LemWfE LemSmall LemEnum4 SpecSmall LemAttr LemFlat2 WfMore.
From Verif Require Export LemSchema4.

Section L.
Context {env : Env}.
Variable sy : synlib.

Lemma fold_quiet {A} (step : errors -> A -> errors) (Q : A -> Prop) :
  (forall es a, step es a = [] -> es = [] /\ Q a) ->
  forall l es, fold_left step l es = [] -> es = [] /\ Forall Q l.
Proof.
  intro H. induction l as [|a l IH]; intros es; cbn [fold_left]; [auto|].
  intro E. apply IH in E as [E F]. apply H in E as [E Qa]. auto.
Qed.
Lemma meta_check_inv e : meta_container_check e = [] ->
  Forall (fun v => Forall (fun f => g_is_container f = true -> g_default f <> None) (h_fields v)) (j_variants e).
Proof.
  unfold meta_container_check. intro H. eapply fold_quiet in H; [exact (proj2 H)|].
  intros es v H1. eapply fold_quiet in H1; [exact H1|].
  intros es1 f. cbv beta. unfold g_is_container. destruct (g_container f) as [c|]; [|intro; split; auto; discriminate].
  destruct (fc_value c); cbn [andb]; [|intro; split; auto; discriminate].
  destruct (g_default f); [intro; split; auto; discriminate|]. intro X. apply push_nil in X. contradiction.
Qed.

(** *** fields keep their kind when defaults are filled in *)
Lemma sk_src f : g_src (skip_fill f) = g_src f.
Proof. unfold skip_fill. destruct (sv_true (g_skip f)); auto. destruct (g_default f); auto. destruct (g_skip f) as [[? ?]|] eqn:E2; cbn; congruence. Qed.
Lemma sk_idents f : g_idents (skip_fill f) = g_idents f.
Proof. unfold skip_fill. destruct (sv_true (g_skip f)); auto. destruct (g_default f); auto. destruct (g_skip f) as [[? ?]|] eqn:E2; cbn; congruence. Qed.
Lemma sk_flatten f : g_flatten (skip_fill f) = g_flatten f.
Proof. unfold skip_fill. destruct (sv_true (g_skip f)); auto. destruct (g_default f); auto. destruct (g_skip f) as [[? ?]|] eqn:E2; cbn; congruence. Qed.
Lemma sk_append f : g_append (skip_fill f) = g_append f.
Proof. unfold skip_fill. destruct (sv_true (g_skip f)); auto. destruct (g_default f); auto. destruct (g_skip f) as [[? ?]|] eqn:E2; cbn; congruence. Qed.
Lemma sk_rest f : g_rest (skip_fill f) = g_rest f.
Proof. unfold skip_fill. destruct (sv_true (g_skip f)); auto. destruct (g_default f); auto. destruct (g_skip f) as [[? ?]|] eqn:E2; cbn; congruence. Qed.
Lemma sk_container f : g_container (skip_fill f) = g_container f.
Proof. unfold skip_fill. destruct (sv_true (g_skip f)); auto. destruct (g_default f); auto. destruct (g_skip f) as [[? ?]|] eqn:E2; cbn; congruence. Qed.
Lemma sk_skip f : g_skip (skip_fill f) = g_skip f.
Proof. unfold skip_fill. destruct (sv_true (g_skip f)); auto. destruct (g_default f); auto. destruct (g_skip f) as [[? ?]|] eqn:E2; cbn; congruence. Qed.
Lemma co_same f : g_src (container_fill f) = g_src f /\ g_idents (container_fill f) = g_idents f /\
  g_flatten (container_fill f) = g_flatten f /\ g_append (container_fill f) = g_append f /\
  g_rest (container_fill f) = g_rest f /\ g_container (container_fill f) = g_container f /\
  g_skip (container_fill f) = g_skip f /\ g_transforms (container_fill f) = g_transforms f.
Proof.
  unfold container_fill. destruct (g_container f) as [c|] eqn:E; [|repeat split; auto].
  destruct (g_default f); [repeat split; auto|]. destruct (fc_value c); repeat split; cbn; auto.
Qed.

(** the facts that do not depend on the default *)
Record shape_facts (f : src_field) (g : sfield) : Prop := mkShapeFacts {
  hf_src : g_src g = f;
  hf_tuple : sf_ident f = None -> g_append g = None /\ g_rest g = None;
  hf_first : sf_ident f <> None -> flatten_true g = false -> g_idents g <> [] }.
Lemma facts_shape f g : field_facts f g -> shape_facts f g.
Proof. intros [A B C D E F G H I J K]. constructor; auto. intro X. destruct (B X) as [? [? ?]]. auto. Qed.
Lemma facts_skip f g : shape_facts f g -> shape_facts f (skip_fill g).
Proof.
  intros [A B C]. constructor; rewrite ?sk_src, ?sk_append, ?sk_rest, ?sk_idents; auto.
  unfold flatten_true in *. rewrite sk_flatten. auto.
Qed.
Lemma facts_cont f g : shape_facts f g -> shape_facts f (container_fill g).
Proof.
  intros [A B C]. destruct (co_same g) as [E1 [E2 [E3 [E4 [E5 [E6 [E7 E8]]]]]]].
  constructor; rewrite ?E1, ?E4, ?E5, ?E2; auto. unfold flatten_true in *. rewrite E3. auto.
Qed.
Lemma forall2_map_r {A B C} (R : A -> B -> Prop) (S : A -> C -> Prop) (h : B -> C) l l' :
  (forall a b, R a b -> S a (h b)) -> Forall2 R l l' -> Forall2 S l (map h l').
Proof. intros H F. induction F; cbn [map]; constructor; auto. Qed.
Lemma forall2_imp {A B} (R S : A -> B -> Prop) l l' : (forall a b, R a b -> S a b) -> Forall2 R l l' -> Forall2 S l l'.
Proof. intros H F. induction F; constructor; auto. Qed.
Lemma read_shape l fs : Forall2 (fun f g => read_field sy f = Ok g) l fs -> Forall2 shape_facts l fs.
Proof. apply forall2_imp. intros a b H. apply facts_shape, field_ok with (1 := H). Qed.

Lemma gen_fields_ok sh l fs : fields_fit sh l -> Forall2 shape_facts l fs -> gen_fields sh fs = Ok tt.
Proof.
  intros W F. unfold gen_fields. destruct sh; auto.
  assert (X : forall l fs, Forall2 shape_facts l fs -> Forall (fun f => sf_ident f <> None) l ->
    forallb (fun f => opt_some (sf_ident (g_src f)) && (if plain_field f then match g_idents f with [] => false | _ => true end else true)) fs = true).
  { clear. induction 1 as [|f g l fs H F IH]; intro W; cbn [forallb]; auto. inversion W as [|? ? W1 W2]; subst.
    rewrite IH by auto. rewrite andb_true_r. destruct H as [<- B C]. destruct (sf_ident (g_src g)) as [x|] eqn:SI; [|congruence].
    cbn [opt_some andb]. destruct (plain_field g) eqn:PF; auto. unfold plain_field, g_is_flat in PF.
    destruct (flatten_true g) eqn:FT; [rewrite andb_false_r in PF; discriminate PF|].
    destruct (g_idents g); auto. exfalso. apply C; auto. }
  rewrite (X l fs); auto.
Qed.
Lemma find_plain fs : length (firstn 2 (filter plain_field fs)) = 1 -> find plain_field fs <> None.
Proof.
  intros H E. assert (X : filter plain_field fs = []).
  { destruct (filter plain_field fs) as [|f l] eqn:FP; auto.
    assert (I : In f (filter plain_field fs)) by (rewrite FP; now left). apply filter_In in I as [I P].
    apply (find_none _ _ E) in I. congruence. }
  rewrite X in H. discriminate H.
Qed.
Lemma gen_struct_ok i d : written_struct i -> ss_shape i = i_shape d -> Forall2 shape_facts (ss_fields i) (i_fields d) -> gen_struct d = Ok tt.
Proof.
  intros W SH F. unfold gen_struct. rewrite (gen_fields_ok (i_shape d) (ss_fields i)); [|now rewrite <- SH|auto]. cbn [rbind].
  destruct (i_is_transparent d) eqn:T; auto. unfold i_is_transparent in T. apply andb_prop in T as [_ T]. apply Nat.eqb_eq in T.
  apply find_plain in T. destruct (find plain_field (i_fields d)); congruence.
Qed.
Lemma struct_shape i d : read_struct sy i = Ok d -> ss_shape i = i_shape d /\ Forall2 shape_facts (ss_fields i) (i_fields d).
Proof.
  intro H. apply struct_ok in H as [fs [R SH F _ _ _ _ _ _]]. split; auto. apply read_shape in R.
  rewrite F. destruct (opt_some (i_default d)); auto. eapply forall2_map_r; [|exact R]. apply facts_skip.
Qed.
Lemma fill_shape i d : ss_shape i = i_shape d /\ Forall2 shape_facts (ss_fields i) (i_fields d) ->
  ss_shape i = i_shape (fill_struct d) /\ Forall2 shape_facts (ss_fields i) (i_fields (fill_struct d)).
Proof. intros [A B]. split; auto. cbn [fill_struct i_fields]. eapply forall2_map_r; [|exact B]. apply facts_cont. Qed.

Lemma l_struct_front i : good_syn_lib sy -> written_struct i ->
  returns (derive_meta_struct sy i) /\ returns (derive_attr_struct sy i).
Proof.
  intros G W. pose proof (l_read_struct_returns sy G i) as R. unfold derive_meta_struct, derive_attr_struct.
  destruct (read_struct sy i) as [d|e|b] eqn:E; cbn [rbind]; [|split; exact Logic.I|destruct R].
  apply struct_shape in E. pose proof (fill_shape i d E) as E2.
  rewrite (gen_struct_ok i d W (proj1 E) (proj2 E)), (gen_struct_ok i (fill_struct d) W (proj1 E2) (proj2 E2)). split; exact Logic.I.
Qed.

(** *** transparent *)
Lemma transparent_one what fs : transparent_check what fs = None ->
  exists f, filter g_is_parsable fs = [f] /\ flatten_true f = false /\ sv_true (g_append f) = false.
Proof.
  unfold transparent_check. destruct (filter g_is_parsable fs) as [|f [|g l]]; try discriminate.
  - destruct (flatten_true f) eqn:A; [discriminate|]. destruct (sv_true (g_append f)) eqn:B; [discriminate|]. eauto.
  - destruct (flatten_true f); [discriminate|]. destruct (sv_true (g_append f)); discriminate.
Qed.
Lemma sk_parsable f : g_is_parsable (skip_fill f) = g_is_parsable f.
Proof. unfold g_is_parsable, g_is_container. now rewrite sk_container, sk_skip. Qed.
Lemma filter_map_same {A B} (h : A -> B) (p : B -> bool) (q : A -> bool) l : (forall a, p (h a) = q a) -> filter p (map h l) = map h (filter q l).
Proof. intro H. induction l as [|a l IH]; cbn [map filter]; auto. rewrite H, IH. now destruct (q a). Qed.

Lemma variant_shape v h : read_variant sy v = Ok h -> h_src h = v /\ Forall2 shape_facts (sv_fields v) (h_fields h).
Proof.
  intro H. apply variant_ok in H as [fs [A R F _ _ _ _ _ _]]. split; auto. rewrite F.
  eapply forall2_map_r; [|exact (read_shape _ _ R)]. apply facts_skip.
Qed.
Lemma variant_transparent v h : read_variant sy v = Ok h -> b_true (h_transparent h) = true ->
  exists f, filter g_is_parsable (h_fields h) = [f] /\ flatten_true f = false /\ sv_true (g_append f) = false.
Proof.
  intros H T. apply variant_ok in H as [fs [A R F _ _ X _ _ _]]. destruct (h_transparent h); [|discriminate T].
  assert (Y : transparent_check "variant" fs = None) by (apply X; discriminate). apply transparent_one in Y as [f [P [Q S]]].
  exists (skip_fill f). rewrite F, (filter_map_same skip_fill g_is_parsable g_is_parsable) by apply sk_parsable. rewrite P.
  unfold flatten_true. rewrite sk_flatten, sk_append. auto.
Qed.
Lemma gen_variant_ok v h : fields_fit (sv_shape v) (sv_fields v) -> read_variant sy v = Ok h ->
  (b_true (h_transparent h) = true -> forall f, In f (h_fields h) -> g_is_parsable f = true -> sv_true (g_rest f) = false) -> gen_variant h = Ok tt.
Proof.
  intros W H R. unfold gen_variant. destruct (sv_true (h_skip h)); auto. destruct (variant_shape v h H) as [E F].
  rewrite (gen_fields_ok (sv_shape (h_src h)) (sv_fields v)); [|now rewrite E|auto]. cbn [rbind].
  destruct (b_true (h_transparent h)) eqn:T; auto. destruct (variant_transparent v h H T) as [f [P [A B]]].
  assert (I : In f (h_fields h) /\ g_is_parsable f = true) by (apply filter_In; rewrite P; now left). destruct I as [I IP].
  destruct (find plain_field (h_fields h)) eqn:FP; auto. apply (find_none _ _ FP) in I as X.
  unfold plain_field, g_is_flat in X. rewrite IP, A, B, (R eq_refl f I IP) in X. discriminate X.
Qed.
Lemma gen_variants_ok vs : Forall (fun h => gen_variant h = Ok tt) vs -> gen_variants vs = Ok tt.
Proof. induction 1 as [|h vs H F IH]; cbn [gen_variants]; auto. rewrite H. exact IH. Qed.
Lemma gen_variant_panics v h : fields_fit (sv_shape v) (sv_fields v) -> read_variant sy v = Ok h ->
  sv_true (h_skip h) = false -> b_true (h_transparent h) = true ->
  (exists f, In f (h_fields h) /\ g_is_parsable f = true /\ sv_true (g_rest f) = true) -> gen_variant h = Bad Panic.
Proof.
  intros W H S T [f [I [IP R]]]. unfold gen_variant. rewrite S. destruct (variant_shape v h H) as [E F].
  rewrite (gen_fields_ok (sv_shape (h_src h)) (sv_fields v)); [|now rewrite E|auto]. cbn [rbind]. rewrite T.
  destruct (variant_transparent v h H T) as [g [P [A B]]].
  assert (f = g). { assert (X : In f (filter g_is_parsable (h_fields h))) by (apply filter_In; auto). rewrite P in X. now destruct X as [->|[]]. } subst g.
  destruct (find plain_field (h_fields h)) as [g|] eqn:FP; auto. apply find_some in FP as [Ig PF].
  unfold plain_field in PF. apply andb_true_iff in PF as [PP PN].
  assert (g = f). { assert (X : In g (filter g_is_parsable (h_fields h))) by (apply filter_In; auto). rewrite P in X. now destruct X as [->|[]]. } subst g.
  unfold g_is_flat in PN. rewrite R, !orb_true_r in PN. discriminate PN.
Qed.
Lemma gen_variants_panic vs : (exists h, In h vs /\ gen_variant h = Bad Panic) -> exists b, gen_variants vs = Bad b.
Proof.
  intros [h [I G]]. induction vs as [|x vs IH]; [destruct I|]. cbn [gen_variants]. destruct I as [->|I]; [rewrite G; eexists; reflexivity|].
  destruct (gen_variant x) as [[]|e|b] eqn:E; cbn [rbind]; [auto| |eauto].
  exfalso. revert E. unfold gen_variant, gen_fields. clear. destruct (sv_true (h_skip x)); [discriminate|].
  destruct (sv_shape (h_src x)); cbn [rbind]; repeat match goal with |- context[if ?b then _ else _] => destruct b; cbn [rbind] end;
    try discriminate; destruct (find plain_field (h_fields x)); discriminate.
Qed.
Lemma l_enum_panics i : good_syn_lib sy -> written_enum i -> Forall snake_ok (se_variants i) ->
  ((exists b, derive_meta_enum sy i = Bad b) <-> exists d, read_enum sy i = Ok d /\ transparent_with_rest d) /\
  ((exists b, derive_attr_enum sy i = Bad b) <-> exists d, read_enum sy i = Ok d /\ transparent_with_rest d).
Proof.
  intros G W S. pose proof (l_read_enum_returns sy G i S) as R. unfold derive_meta_enum, derive_attr_enum.
  destruct (read_enum sy i) as [d|e|b] eqn:E; [| |destruct R].
  2:{ cbn [rbind]. split; (split; [intros [b X]; discriminate X|intros [d [X _]]; discriminate X]). }
  cbn [rbind]. pose proof (ef_read _ _ _ (enum_ok sy i d E)) as F. unfold written_enum in W. rewrite Forall_forall in W.
  assert (Yes : transparent_with_rest d -> exists b, gen_variants (j_variants d) = Bad b).
  { intros [v [f [I [SK [T [If [P Re]]]]]]]. apply gen_variants_panic. exists v. split; auto.
    destruct (Forall2_in_r _ _ _ _ F I) as [sv [Iv Rv]]. apply (gen_variant_panics sv v); eauto. }
  assert (No : transparent_with_rest d \/ gen_variants (j_variants d) = Ok tt).
  { destruct (existsb (fun v => negb (sv_true (h_skip v)) && b_true (h_transparent v) &&
                existsb (fun f => g_is_parsable f && sv_true (g_rest f)) (h_fields v)) (j_variants d)) eqn:X.
    - left. apply existsb_exists in X as [v [I X]]. apply andb_true_iff in X as [X Y]. apply andb_true_iff in X as [SK T].
      apply existsb_exists in Y as [f [If Y]]. apply andb_true_iff in Y as [P Re]. apply negb_true_iff in SK. exists v, f. auto 10.
    - right. apply gen_variants_ok. apply Forall_forall. intros h I. destruct (Forall2_in_r _ _ _ _ F I) as [v [Iv Rv]].
      destruct (sv_true (h_skip h)) eqn:SK; [unfold gen_variant; now rewrite SK|].
      apply (gen_variant_ok v h); auto. intros T f If P. destruct (sv_true (g_rest f)) eqn:RG; auto. rewrite <- X.
      symmetry. apply existsb_exists. exists h. rewrite SK, T. split; auto. cbn [negb andb]. apply existsb_exists. exists f. rewrite P, RG. auto. }
  assert (C : forall r : res senum, (forall b, gen_variants (j_variants d) = Bad b -> exists b', r = Bad b') ->
              (gen_variants (j_variants d) = Ok tt -> returns r) ->
              ((exists b, r = Bad b) <-> exists d0, Ok d = Ok d0 /\ transparent_with_rest d0)).
  { intros r H1 H2. split.
    - intros [b Eb]. exists d. split; auto. destruct No as [T|GV]; auto. specialize (H2 GV). rewrite Eb in H2. destruct H2.
    - intros [d0 [X T]]. injection X as <-. destruct (Yes T) as [b Eb]. eauto. }
  split; apply C.
  - intros b ->. cbn. eauto.
  - intros ->. cbn. apply returns_rmap, returns_check.
  - intros b ->. cbn. eauto.
  - intros ->. exact Logic.I.
Qed.
Lemma l_enum_front i : good_syn_lib sy -> written_enum i -> Forall snake_ok (se_variants i) ->
  (forall d, read_enum sy i = Ok d -> ~ transparent_with_rest d) ->
  returns (derive_meta_enum sy i) /\ returns (derive_attr_enum sy i).
Proof.
  intros G W S N. destruct (l_enum_panics i G W S) as [[P _] [Q _]].
  split; [destruct (derive_meta_enum sy i) as [x|e|b]; [exact I|exact I|destruct (P (ex_intro _ b eq_refl)) as [d [X Y]]; exact (N d X Y)]
         |destruct (derive_attr_enum sy i) as [x|e|b]; [exact I|exact I|destruct (Q (ex_intro _ b eq_refl)) as [d [X Y]]; exact (N d X Y)]].
Qed.

(** *** the lowered schema is accepted *)
Context {V : Type}.
Variable ru : rust V.
Lemma good_g_type own f : good_rust ru -> good_type (g_type ru own f).
Proof.
  intros [A B]. unfold g_type. destruct (g_with f) as [m|]; [|apply A]. destruct own; [apply A|].
  destruct (A (g_src f)) as [A1 [A2 [A3 [A4 A5]]]]. destruct (B m) as [B1 [B2 [B3 [B4 B5]]]].
  unfold good_type. cbn [rt_item rt_fn rt_fu rt_append rt_rest]. refine (conj B1 (conj B2 (conj B3 (conj B4 B5)))).
Qed.
Lemma lower_parsable own f : is_parsable (lower_field ru own f) = g_is_parsable f.
Proof. reflexivity. Qed.
Lemma lower_good own sh f g : good_rust ru -> fields_fit sh [f] -> shape_facts f g -> good_field sh (lower_field ru own g).
Proof.
  intros G W [A B C] _. cbn [lower_field f_kind]. unfold g_kind. destruct (good_g_type own g G) as [G1 [G2 [G3 [G4 G5]]]].
  rewrite A. destruct sh; cbn [fields_fit] in W; try discriminate W; inversion W as [|? ? W1 W2]; subst.
  - destruct (sv_true (g_append g)); [exact G4|]. destruct (sv_true (g_rest g)); [exact G5|].
    destruct (flatten_true g); [|exact G1]. destruct (sf_ident (g_src g)); [exact G2|congruence].
  - destruct (B W1) as [-> ->]. cbn [sv_true]. destruct (flatten_true g); [|exact G1]. rewrite W1. exact G3.
Qed.
Lemma lower_all own sh l fs : good_rust ru -> fields_fit sh l -> Forall2 shape_facts l fs -> Forall (good_field sh) (map (lower_field ru own) fs).
Proof.
  intros G W F. induction F as [|f g l fs H F IH]; cbn [map]; [constructor|]. constructor.
  - apply (lower_good own sh f g G); auto. destruct sh; cbn [fields_fit] in *; [| |discriminate W]; inversion W; auto.
  - apply IH. destruct sh; cbn [fields_fit] in *; [| |discriminate W]; inversion W; auto.
Qed.
Lemma filter_parsable own fs : filter is_parsable (map (lower_field ru own) fs) = map (lower_field ru own) (filter g_is_parsable fs).
Proof. apply filter_map_same. intro. reflexivity. Qed.
Lemma no_and_then_lower own fs : no_field_and_then fs -> Forall no_and_then (map (lower_field ru own) fs).
Proof.
  intro H. apply Forall_forall. intros f I. apply in_map_iff in I as [g [<- I]]. unfold no_field_and_then in H. rewrite Forall_forall in H.
  intros t It. cbn [lower_field f_transforms] in It. apply in_map_iff in It as [s [<- Is]]. destruct s; cbn; auto. exact (H g I _ Is).
Qed.
Lemma l_struct_bridge i d auto expr post : good_rust ru -> written_struct i ->
  derive_meta_struct sy i = Ok d \/ derive_attr_struct sy i = Ok d ->
  (st_true (i_transparent d) = true -> no_field_and_then (i_fields d)) ->
  accepted_struct (lower_struct ru auto expr post d).
Proof.
  intros G W H N.
  assert (X : exists d0, read_struct sy i = Ok d0 /\ (d = d0 \/ d = fill_struct d0)).
  { unfold derive_meta_struct, derive_attr_struct in H. destruct (read_struct sy i) as [d0|e|b]; cbn [rbind] in H; [|destruct H; discriminate|destruct H; discriminate].
    exists d0. split; auto. destruct H as [H|H]; [destruct (gen_struct (fill_struct d0))|destruct (gen_struct d0)]; cbn [rmap] in H; try discriminate H; injection H as <-; auto. }
  destruct X as [d0 [R D]]. pose proof (struct_shape i d0 R) as S.
  assert (S2 : ss_shape i = i_shape d /\ Forall2 shape_facts (ss_fields i) (i_fields d)).
  { destruct D as [->| ->]; auto. now apply fill_shape. }
  clear S. destruct S2 as [S1 S2]. split; cbn [lower_struct s_shape s_raw].
  - apply (lower_all false (i_shape d) (ss_fields i)); auto. now rewrite <- S1.
  - intro T. unfold s_is_transparent in T. cbn [s_transparent s_raw lower_struct] in T. apply andb_prop in T as [T _].
    fold (st_true (i_transparent d)) in T. split; [|apply no_and_then_lower; auto].
    rewrite filter_parsable, map_length.
    apply struct_ok in R as [fs [_ _ F _ _ _ TR _ _]].
    assert (TC : transparent_check "struct" fs = None).
    { apply TR. intro Z. destruct D as [->| ->]; cbn [fill_struct i_transparent] in T; rewrite Z in T; discriminate T. }
    apply transparent_one in TC as [f [P _]].
    assert (L0 : length (filter g_is_parsable (i_fields d0)) = 1).
    { rewrite F. destruct (opt_some (i_default d0)); [now rewrite P|].
      rewrite (filter_map_same skip_fill g_is_parsable g_is_parsable) by apply sk_parsable. now rewrite P. }
    destruct D as [->| ->]; auto. cbn [fill_struct i_fields].
    rewrite (filter_map_same container_fill g_is_parsable g_is_parsable); [now rewrite map_length|].
    intro g. destruct (co_same g) as [_ [_ [_ [_ [_ [E6 [E7 _]]]]]]]. unfold g_is_parsable, g_is_container. now rewrite E6, E7.
Qed.

Lemma lower_pitem own f : pitem (lower_field ru own f) = plain_field f.
Proof.
  unfold pitem, plain_field. rewrite lower_parsable. f_equal. unfold is_flat, g_is_flat.
  cbn [f_kind lower_field]. unfold g_kind.
  destruct (sv_true (g_append f)); [now rewrite orb_true_r|]. destruct (sv_true (g_rest f)); [now rewrite !orb_true_r|].
  destruct (flatten_true f); [destruct (sf_ident (g_src f)); reflexivity|reflexivity].
Qed.
Lemma lower_variant_ok tm v h : good_rust ru -> fields_fit (sv_shape v) (sv_fields v) -> read_variant sy v = Ok h ->
  (b_true (h_flatten h) = true -> sv_shape (h_src h) = ShNamed) ->
  (b_true (h_transparent h) = true -> forall f, In f (h_fields h) -> g_is_parsable f = true -> sv_true (g_rest f) = false) ->
  (match tm with TMeta => Forall (fun f => g_is_container f = true -> g_default f <> None) (h_fields h) | TAttrs _ _ => True end) ->
  accepted_variant tm (lower_variant ru h).
Proof.
  intros G W H FL NR C. destruct (variant_shape v h H) as [E F]. unfold accepted_variant. cbn [lower_variant v_shape v_raw v_flatten v_transparent].
  split; [apply (lower_all _ _ (sv_fields v)); auto; now rewrite E|].
  split. { apply Forall_forall. intros g I. apply in_map_iff in I as [f [<- I]]. unfold container_ok. destruct tm; auto.
           rewrite Forall_forall in C. intro X. cbn [lower_field f_default f_container] in *. specialize (C f I X). unfold g_default_value.
           destruct (g_default f); [discriminate|congruence]. }
  split; auto. intro T. destruct (variant_transparent v h H T) as [f [P [A B]]]. rewrite filter_parsable, P. split; [reflexivity|].
  rewrite (filter_map_same (lower_field ru (b_true (h_transparent h))) pitem plain_field) by apply lower_pitem. rewrite map_length.
  assert (X : forall l, filter plain_field l = filter (fun f => negb (g_is_flat f)) (filter g_is_parsable l)).
  { induction l as [|x l IH]; cbn [filter]; auto. change (plain_field x) with (g_is_parsable x && negb (g_is_flat x)). destruct (g_is_parsable x); cbn [andb filter]; rewrite IH; reflexivity. }
  rewrite X, P. cbn [filter]. unfold g_is_flat. rewrite A, B.
  assert (I : In f (h_fields h) /\ g_is_parsable f = true) by (apply (proj1 (filter_In g_is_parsable f (h_fields h))); rewrite P; now left).
  rewrite (NR T f (proj1 I) (proj2 I)). reflexivity.
Qed.
Lemma l_enum_bridge_meta i d auto expr post : good_rust ru -> written_enum i ->
  derive_meta_enum sy i = Ok d -> no_transparent_rest d -> accepted_enum TMeta (lower_enum ru auto expr post d).
Proof.
  intros G W H N. unfold derive_meta_enum in H. destruct (read_enum sy i) as [d0|e|b] eqn:R; cbn [rbind] in H; try discriminate H.
  destruct (gen_variants (j_variants d0)); cbn [rbind] in H; try discriminate H.
  destruct (check (meta_container_check d0)) as [u|e|b] eqn:CH; cbn [rmap] in H; try discriminate H. injection H as <-.
  apply check_ok, meta_check_inv in CH. pose proof (enum_ok sy i d0 R) as [F _ _ FL _ _]. unfold accepted_enum. cbn [lower_enum e_variants].
  apply Forall_forall. intros x I. apply in_map_iff in I as [h [<- I]]. destruct (Forall2_in_r _ _ _ _ F I) as [v [Iv Rv]].
  rewrite Forall_forall in FL, CH. unfold written_enum in W. rewrite Forall_forall in W.
  apply (lower_variant_ok TMeta v h); auto. intros T f If _. exact (N h f I T If).
Qed.
Lemma l_enum_bridge_attr i d auto expr post pn obj : good_rust ru -> written_enum i ->
  derive_attr_enum sy i = Ok d -> no_transparent_rest d -> accepted_enum (TAttrs pn obj) (lower_enum ru auto expr post d).
Proof.
  intros G W H N. unfold derive_attr_enum in H. destruct (read_enum sy i) as [d0|e|b] eqn:R; cbn [rbind] in H; try discriminate H.
  destruct (gen_variants (j_variants d0)); cbn [rmap] in H; try discriminate H. injection H as <-.
  pose proof (enum_ok sy i d0 R) as [F _ _ FL _ _]. unfold accepted_enum. cbn [lower_enum e_variants].
  apply Forall_forall. intros x I. apply in_map_iff in I as [h [<- I]]. destruct (Forall2_in_r _ _ _ _ F I) as [v [Iv Rv]].
  rewrite Forall_forall in FL. unfold written_enum in W. rewrite Forall_forall in W.
  apply (lower_variant_ok (TAttrs pn obj) v h); auto. intros T f If _. exact (N h f I T If).
Qed.
Lemma gen_no_rest v h vs : fields_fit (sv_shape v) (sv_fields v) -> read_variant sy v = Ok h -> In h vs -> gen_variants vs = Ok tt ->
  sv_true (h_skip h) = false ->
  b_true (h_transparent h) = true -> forall f, In f (h_fields h) -> g_is_parsable f = true -> sv_true (g_rest f) = false.
Proof.
  intros W R I GV SK T f If P. destruct (sv_true (g_rest f)) eqn:RE; auto. exfalso.
  destruct (gen_variants_panic vs) as [b X]; [|congruence]. exists h. split; auto. apply (gen_variant_panics v h); eauto.
Qed.
Lemma l_enum_live_meta i d auto expr post : good_rust ru -> written_enum i ->
  derive_meta_enum sy i = Ok d -> accepted_live TMeta (lower_enum ru auto expr post d).
Proof.
  intros G W H. unfold derive_meta_enum in H. destruct (read_enum sy i) as [d0|e|b] eqn:R; cbn [rbind] in H; try discriminate H.
  destruct (gen_variants (j_variants d0)) as [[]|e|b] eqn:GV; cbn [rbind] in H; try discriminate H.
  destruct (check (meta_container_check d0)) as [u|e|b] eqn:CH; cbn [rmap] in H; try discriminate H. injection H as <-.
  apply check_ok, meta_check_inv in CH. pose proof (enum_ok sy i d0 R) as [F _ _ FL _ _]. unfold accepted_live. cbn [lower_enum e_variants].
  intros x I SK. apply in_map_iff in I as [h [<- I]]. destruct (Forall2_in_r _ _ _ _ F I) as [v [Iv Rv]].
  rewrite Forall_forall in FL, CH. unfold written_enum in W. rewrite Forall_forall in W.
  apply (lower_variant_ok TMeta v h); auto. apply (gen_no_rest v h (j_variants d0)); auto.
Qed.
Lemma l_enum_live_attr i d auto expr post pn obj : good_rust ru -> written_enum i ->
  derive_attr_enum sy i = Ok d -> accepted_live (TAttrs pn obj) (lower_enum ru auto expr post d).
Proof.
  intros G W H. unfold derive_attr_enum in H. destruct (read_enum sy i) as [d0|e|b] eqn:R; cbn [rbind] in H; try discriminate H.
  destruct (gen_variants (j_variants d0)) as [[]|e|b] eqn:GV; cbn [rmap] in H; try discriminate H. injection H as <-.
  pose proof (enum_ok sy i d0 R) as [F _ _ FL _ _]. unfold accepted_live. cbn [lower_enum e_variants].
  intros x I SK. apply in_map_iff in I as [h [<- I]]. destruct (Forall2_in_r _ _ _ _ F I) as [v [Iv Rv]].
  rewrite Forall_forall in FL. unfold written_enum in W. rewrite Forall_forall in W.
  apply (lower_variant_ok (TAttrs pn obj) v h); auto. apply (gen_no_rest v h (j_variants d0)); auto.
Qed.
End L.
