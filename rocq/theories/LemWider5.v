(** Proofs for PropsWider.v: further types that read more *)
From Verif Require Import LemWf LemNamed LemSchema2 LemRun.
From Verif Require Export LemWider4.
Local Open Scope string_scope.
Local Open Scope list_scope.

Section L.
Context {env : Env} {V : Type}.
Notation sdef := (sdef V).
Notation edef := (edef V).

(** two named structs, through the function for their content *)
Lemma named_reads (s s' : sdef) : s_shape s = ShNamed -> s_shape s' = ShNamed -> s_is_transparent s = false -> s_is_transparent s' = false -> s_default s' = s_default s ->
  (forall m, at_least (s_inline s m) (s_inline s' m)) -> reads_more (struct_dict s) (struct_dict s').
Proof.
  intros SH SH' NT NT' D I. unfold struct_dict. rewrite SH, SH', NT, NT', D. cbv zeta.
  assert (IT : forall m, at_least (parse_delimited_with Brace (on_single (s_inline s m))) (parse_delimited_with Brace (on_single (s_inline s' m)))).
  { intro m. exact (below_delimited Brace _ _ (below_single _ _ (I m))). }
  assert (F : forall sp a, parse_empty sp (on_single (s_inline s (Named sp))) = Ok a -> parse_empty sp (on_single (s_inline s' (Named sp))) = Ok a).
  { intros sp a. exact (below_empty sp _ _ a (below_single _ _ (I (Named sp)))). }
  constructor; cbn [d_item d_inline d_flag d_named d_missing]; auto. intros n sp. now apply below_def_named.
Qed.
Lemma lax_s_body (s s' : sdef) f d tm m sp prefix v i : relaxed s f d s' -> at_least (s_body s tm m sp prefix v i) (s_body s' tm m sp prefix v i).
Proof.
  intros [[a [b [E1 E2]]] RF SH SH' D D' U T]. unfold s_body. rewrite SH, SH', D, D', U, T. apply more_and_thens.
  destruct (lax_same f d RF) as [S1 [S2 [S3 S4]]].
  set (q := fun g : field V => match tm with TMeta => container_default (skip_default g) | TAttrs _ _ => skip_default g end).
  assert (FE : forall z : sdef, s_default z = None -> s_fields tm z = map q (s_raw z)).
  { intros z Z. unfold s_fields, s_fields_meta, s_fields_attr, q. rewrite Z. cbn [has_target]. destruct tm; rewrite ?map_map; auto. }
  assert (Q1 : q f = f) by (unfold q; destruct tm; now rewrite S1, ?S3).
  assert (Q2 : q (defaulting f d) = defaulting f d) by (unfold q; destruct tm; now rewrite S2, ?S4).
  rewrite (FE s D), (FE s' D'), E1, E2, !map_app. cbn [map]. rewrite Q1, Q2.
  assert (NM : s_names s' = s_names s).
  { unfold s_names, fields_names. rewrite E1, E2, !flat_map_app. reflexivity. }
  rewrite NM. exact (lax_body f d (map q b) RF (map q a) tm (s_unknown_ok s) (s_names s) sp prefix v).
Qed.
Lemma lax_names (s s' : sdef) f d : relaxed s f d s' -> s_names s' = s_names s /\ s_accepts_all s' = s_accepts_all s.
Proof.
  intros [[a [b [E1 E2]]] RF SH SH' D D' U T]. split.
  - unfold s_names, fields_names. rewrite E1, E2, !flat_map_app. reflexivity.
  - unfold s_accepts_all, fields_accepts_all. rewrite E1, E2, U, !existsb_app. reflexivity.
Qed.
Lemma l_more_relaxed (s s' : sdef) f d : relaxed s f d s' -> s_is_transparent s = false -> s_is_transparent s' = false ->
  reads_more (struct_dict s) (struct_dict s') /\ flat_reads_more (struct_fn s) (struct_fn s').
Proof.
  intros R T T'. destruct (lax_names s s' f d R) as [N1 N2].
  assert (F : flat_reads_more (struct_fn s) (struct_fn s')).
  { constructor; auto. intros m p v ins a ins'. cbn [fn_parse struct_fn]. exact (lax_s_body s s' f d TMeta m _ p v 0 R ins a ins'). }
  split; auto. pose proof R as R0. destruct R as [_ _ SH SH' D D' _ _]. apply named_reads; auto; [congruence|]. intro m. unfold s_inline. rewrite SH, SH', N2. apply F.
Qed.
Lemma enum_reads (e e' : edef) : e_default e' = e_default e -> (forall m, at_least (fn_parse (enum_fn e) m "" true) (fn_parse (enum_fn e') m "" true)) ->
  reads_more (enum_dict e) (enum_dict e').
Proof.
  intros D I. unfold enum_dict. rewrite D. cbv zeta.
  assert (IT : forall m, at_least (fun s => parse_delimited_with Brace (on_single (fn_parse (enum_fn e) (to_named m s) "" true)) s)
                                  (fun s => parse_delimited_with Brace (on_single (fn_parse (enum_fn e') (to_named m s) "" true)) s)).
  { intros m s a s'. exact (below_delimited Brace _ _ (below_single _ _ (I (to_named m s))) s a s'). }
  assert (F : forall sp a, parse_empty sp (on_single (fn_parse (enum_fn e) (Named sp) "" true)) = Ok a -> parse_empty sp (on_single (fn_parse (enum_fn e') (Named sp) "" true)) = Ok a).
  { intros sp a. exact (below_empty sp _ _ a (below_single _ _ (I (Named sp)))). }
  constructor; cbn [d_item d_inline d_flag d_named d_missing]; auto. intros n sp. now apply below_def_named.
Qed.
Lemma l_more_relaxed_enum (e e' : edef) f d : relaxed_in e f d e' -> reads_more (enum_dict e) (enum_dict e') /\ flat_reads_more (enum_fn e) (enum_fn e').
Proof.
  intros [[a [w [b [fa [fb [V1 [V2 [V3 [V4 [V5 V6]]]]]]]]]] RF D T U]. pose proof (lax_variant w f d fa fb V3 V4 V5 V6 RF) as RE.
  pose proof (names_allowing e e' a b w _ V1 RE V2) as N. pose proof (enum_below e e' a b w _ V1 RE V2 D T U) as B.
  assert (F : flat_reads_more (enum_fn e) (enum_fn e')).
  { constructor; [exact N|reflexivity|]. intros m p v ins x ins'. cbn [fn_parse enum_fn]. rewrite N. apply B. }
  split; auto. apply enum_reads; auto. intro m. apply F.
Qed.
Lemma l_more_allowing_variant (e e' : edef) : allowing_in e e' -> reads_more (enum_dict e) (enum_dict e') /\ flat_reads_more (enum_fn e) (enum_fn e').
Proof.
  intros [[a [w [b [V1 [VF V2]]]]] D T U _]. assert (RE : replaces w (v_allowing w)) by (constructor; auto; apply variant_below).
  pose proof (names_allowing e e' a b w _ V1 RE V2) as N. pose proof (enum_below e e' a b w _ V1 RE V2 D T U) as B.
  assert (F : flat_reads_more (enum_fn e) (enum_fn e')).
  { constructor; [exact N|reflexivity|]. intros m p v ins x ins'. cbn [fn_parse enum_fn]. rewrite N. apply B. }
  split; auto. apply enum_reads; auto. intro m. apply F.
Qed.
End L.
