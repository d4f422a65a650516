(** Lemmas for PropsTight.v. *)
From Verif Require Import LemBlock2 LemAttr2 LemFlat LemEnum5.
From Verif Require Export LemBlock4 SpecTight.

Lemma l_delimiter : forall (env : Env) dl A (d : dict A) m s, written_in dl A d ->
  (forall ts gsp rest, toks s <> TGroup dl ts gsp :: rest) ->
  d_item d m s = (Err (mkSyn (not_a_group dl s) []), s).
Proof.
  intros env dl A d m s W N.
  assert (G : forall B (f : parser B), with_group dl f s = (Err (mkSyn (not_a_group dl s) []), s)).
  { intros B f. unfold with_group, not_a_group, error_at, err1. destruct (toks s) as [|[ | | |d' ts gsp] rest]; try (destruct dl; reflexivity).
    destruct (delim_eqb dl d') eqn:E; [|destruct dl; reflexivity]. exfalso. assert (dl = d') by (destruct dl, d'; try discriminate; reflexivity). subst d'. exact (N ts gsp rest eq_refl). }
  destruct W; try exact (G _ _).
  - unfold struct_dict. rewrite H. cbn [d_item]. rewrite H0. exact (G _ _).
  - unfold struct_dict. rewrite H. cbn [d_item]. destruct (s_shape s0); [congruence|exact (G _ _)|exact (G _ _)].
Qed.

Lemma l_no_attribute : forall (env : Env) V (s : sdef V) conv o i f d p others,
  named_struct s -> Forall stays_field (s_raw s) -> s_is_transparent s = false ->
  s_attributes s = p :: others -> ref_tokens (derived_matches (s_attributes s)) o = [] ->
  nth_error (s_raw s) i = Some f -> f_kind f = KItem d -> is_parsable f = true ->
  f_default f = None -> s_default s = None -> no_missing_value d ->
  exists e, struct_parse_attributes s conv o = Err e /\
    In (mkErr SCall ("missing required field #[" ++ join_strs "::" p ++ "(" ++ f_ident f ++ ")]")) (errs_of e).
Proof.
  intros env V s conv o i f d p others NS SF NT AT NO N K P D SD NM.
  assert (AB : about (s_attributes s) [] (Some (join_strs "::" p)) SCall) by (apply (Ab_declared _ p others AT)).
  pose proof (R_attributes s (conv o) [] _ _ (negb (s_accepts_all s)) [] NT (flag_lenient s) AB) as R.
  destruct (l_missing_msg s _ _ _ _ _ _ i f d R NS SF (or_introl eq_refl) N K P D SD NM) as [e [E I]].
  { intros [k [ksp [X _]]]. destruct X. }
  exists e. split; [|exact I]. unfold struct_parse_attributes. rewrite NO. unfold parse_struct_attr_tokens. cbn [parse_next].
  destruct (struct_attr_body s (conv o) [] []) as [r b]. cbn [fst] in E. now rewrite E.
Qed.

Lemma block_make blk : blk <> [] -> Forall (fun seg => seg <> [] /\ no_comma seg) blk -> exists ts tl, block blk true ts tl.
Proof.
  intros NE F. induction F as [|seg blk [N NC] F IH]; [congruence|]. set (t := TPunct comma_c false SCall).
  assert (C : comma_tok t) by (exists false, SCall; reflexivity).
  destruct blk as [|seg2 blk].
  - exists (seg ++ [t; t]), [t; t]. apply Bk_last; auto. exists t, [t]. split; [reflexivity|]. split; [exact C|discriminate].
  - destruct (IH ltac:(discriminate)) as [ts [tl B]]. exists (seg ++ t :: ts), tl. apply Bk_more; auto. discriminate.
Qed.
Section C.
Context {env : Env}.
Lemma array_counted {A} N (d : dict A) : fine d -> counted (array_fu N d).
Proof. intros F blk v NE FB T. destruct (block_make blk NE FB) as [ts [tl B]]. cbn [array_fu fu_count]. now apply (l_array_block N d blk true ts tl v F NE B). Qed.
Lemma each_length {A} (ds : list (dict A)) blk vs : each_accepts ds blk vs -> length blk = length ds.
Proof. intro H. induction H; cbn; auto. Qed.
Lemma tuple_counted {A} (ds : list (dict A)) : Forall fine ds -> counted (tuple_fu ds).
Proof. intros F blk v NE FB T. destruct (block_make blk NE FB) as [ts [tl B]]. cbn [tuple_fu fu_count]. apply (each_length ds blk v). now apply (l_tuple_block ds blk true ts tl v F NE B). Qed.
Lemma vec_counted {A} (d : dict A) : fine d -> counted (vec_fu d).
Proof. intros F blk v NE FB T. destruct (block_make blk NE FB) as [ts [tl B]]. cbn [vec_fu fu_count]. apply (l_vec_block d blk true ts tl v F NE B) in T as [T _]. discriminate. Qed.
Lemma map_counted {A B} (g : A -> B) u : by_items u -> counted u -> counted (fu_map g u).
Proof.
  intros BI C blk v NE FB T. destruct (block_make blk NE FB) as [ts [tl BK]]. cbn [fu_map fu_count].
  assert (X : exists w, takes u blk true w); [|destruct X as [w X]; exact (C blk w NE FB X)].
  apply (takes_block (fu_map g u) (fun more b _ => exists w, takes u b more w) blk true v ts tl); auto.
  intros i ts' sc c segs w l L NB NS H. unfold fu_map, pmap in H. cbn in H.
  destruct (fu_parse u Unnamed i [mkStream ts' sc c]) as [[x|e|b] l1] eqn:E; try discriminate. injection H as <- <-.
  destruct (proj1 BI i ts' sc c segs x l1 L NB NS E) as [s' [-> X]]. exists s'. split; auto. intro EN. destruct (X EN) as [b [rest [E1 [E2 TK]]]].
  exists b, rest. split; auto. split; auto. split; [eauto|]. now apply map_takes.
Qed.
Lemma spread_count {V} (s : sdef V) blk os : spread true (s_raw s) blk os -> counted_fields s -> Forall (fun seg => seg <> [] /\ no_comma seg) blk ->
  length blk = s_count s.
Proof.
  unfold counted_fields, s_count. intros SP CF FB. induction SP as [|f d fs seg segs v os P K A SP IH|f u fs b segs v os P K NE T SP IH|f fs os P M SP IH|f fs segs os P SP IH]; cbn [length filter map fold_right]; auto.
  - inversion CF; subst. inversion FB; subst. unfold is_flat at 1. rewrite K. cbn [negb length fold_right]. rewrite IH; auto.
  - inversion CF as [|? ? [_ H] ?]; subst. apply Forall_app in FB as [FB1 FB2]. unfold is_flat at 1. rewrite K. cbn [negb]. rewrite app_length, IH; auto.
    specialize (H u K b v NE FB1 T). unfold fu_count0. destruct (fu_count u); [lia|contradiction].
  - discriminate.
  - inversion CF as [|? ? [H _] ?]; subst. congruence.
Qed.
Lemma struct_counted {V} (s : sdef V) : any_tuple_struct s -> fine_items s -> flat_items_ok s -> Forall uniform_missing (s_raw s) ->
  counted_fields s -> counted (struct_fu s).
Proof.
  intros TS FI BI UM CF blk v NE FB T. destruct (block_make blk NE FB) as [ts [tl B]].
  apply (l_struct_block s blk true ts tl v TS FI BI UM NE B) in T as [os [vs [SP _]]].
  unfold struct_fu. rewrite (proj1 (proj2 TS)). cbn [fu_count]. now apply (spread_count s blk os).
Qed.
End C.

Section U.
Context {env : Env} {V : Type}.
Lemma field_part_same (s : sdef V) tm prefix sp its its' i f x : In f (s_raw s) ->
  part prefix (s_names s) its = part prefix (s_names s) its' ->
  field_part s tm prefix sp its i f x -> field_part s tm prefix sp its' i f x.
Proof.
  intros I E H. pose proof (part_field s prefix f its its' I E) as EF. destruct H as [seg w P PE W T|P PE L|l w P PE F T].
  - apply (FP_item s tm prefix sp its' i f x seg w P); auto. congruence.
  - apply (FP_none s tm prefix sp its' i f x P); auto. congruence.
  - apply (FP_flat s tm prefix sp its' i f x l w P); auto. congruence.
Qed.
Lemma l_obeyed (s : sdef V) tm prefix v sp inputs inputs' r r' ws :
  parse_run s tm prefix v sp inputs r -> parse_run s tm prefix v sp inputs' r' ->
  named_struct s -> Forall local_field (s_raw s) -> Forall (routes prefix) (s_raw s) -> separate s ->
  is_prefix prefix -> (v = true -> prefix = "") -> s_unknown_ok s = true ->
  keyed inputs -> keyed inputs' ->
  part prefix (s_names s) (items_of inputs) = part prefix (s_names s) (items_of inputs') ->
  r = Ok ws <-> r' = Ok ws.
Proof.
  intros R R' NS LF RT SE IP VP U K K' E.
  rewrite (l_split_keys s tm prefix v sp inputs r ws R NS LF RT SE IP VP), (l_split_keys s tm prefix v sp inputs' r' ws R' NS LF RT SE IP VP).
  split; intros [vs [C [L [_ [_ F]]]]]; exists vs; (split; [exact C|]); (split; [exact L|]); (split; [assumption|]); (split; [congruence|]);
    intros i f x N1 N2; (eapply field_part_same; [eapply nth_error_In; eauto| |eapply F; eauto]); auto.
Qed.
Lemma l_enum_obeyed (e : edef V) tm prefix v sp inputs inputs' r r' x :
  enum_run e tm prefix v sp inputs r -> enum_run e tm prefix v sp inputs' r' ->
  proper_enum tm e -> no_flattened e -> e_unknown_ok e = true -> keyed inputs -> keyed inputs' ->
  part prefix (variant_names e) (items_of inputs) = part prefix (variant_names e) (items_of inputs') ->
  r = Ok x <-> r' = Ok x.
Proof.
  intros R R' P NF U K K' E. rewrite (l_enum_plain e tm prefix v sp inputs r x R P NF), (l_enum_plain e tm prefix v sp inputs' r' x R' P NF).
  unfold variant_items. rewrite E.
  split; intros [_ [y [C [[seg [i [vs [A [B [D _]]]]]]|H]]]]; (split; [assumption|]); exists y; (split; [exact C|]);
    [left|right|left|right]; auto; exists seg, i, vs; repeat split; auto; congruence.
Qed.
End U.
Lemma lenient_spec_fn {env : Env} {V} (s : sdef V) : fn_accepts_all (struct_fn s) = true <-> lenient s.
Proof. exact (lenient_spec s). Qed.
Lemma l_counts (env : Env) :
  (forall A N (d : dict A), fine d -> counted (array_fu N d)) /\
  (forall A (ds : list (dict A)), Forall fine ds -> counted (tuple_fu ds)) /\
  (forall A (d : dict A), fine d -> counted (vec_fu d)) /\
  (forall A B (g : A -> B) u, by_items u -> counted u -> counted (fu_map g u)) /\
  (forall V (s : sdef V), any_tuple_struct s -> fine_items s -> flat_items_ok s -> Forall uniform_missing (s_raw s) ->
     counted_fields s -> counted (struct_fu s)).
Proof.
  split; [exact (@array_counted env)|]. split; [exact (@tuple_counted env)|]. split; [exact (@vec_counted env)|]. split; [exact (@map_counted env)|exact (@struct_counted env)].
Qed.
