(** Proofs about options without effect (C91). *)
From Verif Require Export SpecIdle.
From Verif Require Import Attrs.

Section I.
Context {env : Env} {V : Type}.
Implicit Types f g : field V.
Implicit Types fs gs : list (field V).

Variable vt : bool.

(** what two fields must have in common for the generated code to do the same *)
Inductive akin : field V -> field V -> Prop :=
| AkinAlike : forall f g, alike f g -> akin f g
| AkinSkip : forall f g, f_skip f = true -> f_skip g = true -> f_default f = f_default g ->
    f_transforms f = f_transforms g -> f_container f = f_container g ->
    (vt = false -> f_default f <> None) -> akin f g.

Lemma alike_kind f g : alike f g -> f_kind f = f_kind g /\ f_names f = f_names g /\
  is_parsable f = is_parsable g /\ f_container f = f_container g /\ f_ident f = f_ident g.
Proof. intros [h|h a o K S C|h r o K S C]; repeat split. Qed.
Lemma unparsable f : f_skip f = true -> is_parsable f = false.
Proof. intro H. unfold is_parsable. rewrite H. apply andb_false_r. Qed.
Lemma akin_parsable f g : akin f g -> is_parsable f = is_parsable g /\ f_container f = f_container g /\
  (is_parsable f = true -> alike f g).
Proof.
  intros [a b H|a b S1 S2 D T C N].
  - pose proof (alike_kind _ _ H) as [_ [_ [P [C _]]]]. auto.
  - rewrite (unparsable _ S1), (unparsable _ S2). split; auto. split; auto. discriminate.
Qed.
Lemma akin_flat f g : akin f g -> pflat f = pflat g /\ pitem f = pitem g.
Proof.
  intro H. apply akin_parsable in H as [P [_ A]]. unfold pflat, pitem, is_flat. rewrite <- P.
  destruct (is_parsable f); auto. destruct (alike_kind _ _ (A eq_refl)) as [-> _]. auto.
Qed.
Lemma akin_item f g : akin f g -> pitem f = true -> f = g.
Proof.
  intros H P. pose proof (akin_parsable _ _ H) as [_ [_ A]]. unfold pitem in P. apply andb_true_iff in P as [P1 P2].
  unfold is_flat in P2. destruct (A P1) as [h|h a o K S C|h r o K S C]; auto; rewrite K in P2; discriminate P2.
Qed.

Lemma akin_names fs gs : Forall2 akin fs gs -> fields_names fs = fields_names gs.
Proof.
  induction 1 as [|f g fs gs H F IH]; [reflexivity|]. unfold fields_names in *. cbn [flat_map]. rewrite IH. f_equal.
  apply akin_parsable in H as [P [_ A]]. rewrite <- P. destruct (is_parsable f); auto.
  destruct (alike_kind _ _ (A eq_refl)) as [K [N _]]. unfold field_key_names. now rewrite K, N.
Qed.
Lemma takes_all fs : fields_accepts_all fs = existsb takes_everything fs.
Proof.
  unfold fields_accepts_all. induction fs as [|f fs IH]; [reflexivity|]. cbn [existsb]. rewrite <- IH.
  unfold is_rest at 1, takes_everything at 1. destruct (f_kind f) eqn:K; cbn [orb]; try reflexivity.
  all: destruct (existsb is_rest fs); cbn [orb]; rewrite ?orb_true_r; reflexivity.
Qed.
Lemma akin_any fs gs : Forall2 akin fs gs -> existsb pflat fs = existsb pflat gs.
Proof.
  induction 1 as [|f g fs gs H F IH]; [reflexivity|]. cbn [existsb]. rewrite IH. apply akin_flat in H as [-> _]. reflexivity.
Qed.
Lemma akin_init fs gs : Forall2 akin fs gs -> init_slots fs = init_slots gs.
Proof. induction 1 as [|f g fs gs H F IH]; [reflexivity|]. unfold init_slots in *. cbn [map]. now rewrite IH. Qed.

Lemma akin_find fs gs : Forall2 akin fs gs -> forall k i, find_field k fs i = find_field k gs i.
Proof.
  induction 1 as [|f g fs gs H F IH]; intros k i; [reflexivity|]. cbn [find_field].
  pose proof (akin_flat _ _ H) as [_ P].
  rewrite <- P, IH. destruct (pitem f) eqn:E; [|reflexivity]. now rewrite (akin_item _ _ H E).
Qed.

Lemma loop_ext {St} (F G : string -> span -> St -> stream -> res unit * St * stream) :
  (forall p sp st s, F p sp st s = G p sp st s) -> forall n st s, struct_loop F n st s = struct_loop G n st s.
Proof.
  intros H n. induction n as [|n IH]; intros st s; [reflexivity|]. cbn [struct_loop].
  destruct (is_empty s); auto. destruct (parse_any_path s) as [[p|e|b] s1]; auto. rewrite H.
  destruct (G _ _ st s1) as [[[u|e|b] st1] s2]; auto. destruct (is_empty s2); auto.
  destruct (parse_comma s2) as [[v|e|b] s3]; auto.
Qed.
Lemma struct_ext {St} (F G : string -> span -> St -> stream -> res unit * St * stream) :
  (forall p sp st s, F p sp st s = G p sp st s) -> forall l st, parse_struct F st l = parse_struct G st l.
Proof.
  intros H l. induction l as [|s l IH]; intro st; [reflexivity|]. cbn [parse_struct].
  rewrite (loop_ext F G H). destruct (struct_loop G _ st s) as [[[u|e|b] st1] s2]; auto. rewrite IH. auto.
Qed.

Lemma akin_closure fs gs u al pre v : Forall2 akin fs gs -> forall p sp st s,
  named_closure fs u al pre v p sp st s = named_closure gs u al pre v p sp st s.
Proof.
  intros F p sp [sl es] s. unfold named_closure. destruct (strip_prefix pre p); auto. now rewrite (akin_find _ _ F).
Qed.

Lemma akin_call f g pre sp al l : akin f g -> pflat f = true -> flat_call f pre sp al l = flat_call g pre sp al l.
Proof.
  intros H P. apply akin_parsable in H as [_ [_ A]]. unfold pflat in P. apply andb_true_iff in P as [P _].
  apply A, alike_kind in P as [K [N _]]. unfold flat_call. now rewrite K, N.
Qed.
Lemma akin_flats fs gs : Forall2 akin fs gs -> forall pre sp al sl es l,
  flat_fields pre sp al fs sl es l = flat_fields pre sp al gs sl es l.
Proof.
  induction 1 as [|f g fs gs H F IH]; intros pre sp al sl es l; [reflexivity|].
  cbn [flat_fields]. destruct sl as [|st sl]; auto. pose proof (akin_flat _ _ H) as [P _].
  rewrite <- P, (akin_any _ _ F), IH. destruct (pflat f) eqn:PF; auto. rewrite (akin_call f g _ _ _ _ H PF).
  destruct (flat_call g pre sp al _) as [[v|e|b] l1]; auto; now rewrite IH.
Qed.

(** after the flattened fields were read, none of them is undecided *)
Definition decided (f : field V) (st : fstatus V) : Prop := pflat f = true -> st <> FNone.
Lemma flats_decided fs : forall pre sp al sl es l sl1 es1 l1, length sl = length fs ->
  flat_fields pre sp al fs sl es l = (Ok (sl1, es1), l1) -> Forall2 decided fs sl1.
Proof.
  induction fs as [|f fs IH]; intros pre sp al sl es l sl1 es1 l1 L H.
  - destruct sl; [|discriminate L]. injection H as <- _ _. constructor.
  - destruct sl as [|st sl]; [discriminate L|]. injection L as L. cbn [flat_fields] in H. destruct (pflat f) eqn:P.
    + destruct (flat_call f pre sp al _) as [[v|e|b] l2]; [| |discriminate H];
        (destruct (flat_fields pre sp al fs sl _ _) as [[[sl2 es2]|e'|b'] l3] eqn:Q; try discriminate H;
         injection H as <- _ _; constructor; [intros _; discriminate|eapply IH; eassumption]).
    + destruct (flat_fields pre sp al fs sl es l) as [[[sl2 es2]|e'|b'] l3] eqn:Q; try discriminate H.
      injection H as <- _ _. constructor; [intro X; congruence|eapply IH; eassumption].
Qed.
Lemma containers_decided tm fs sl : Forall2 decided fs sl -> Forall2 decided fs (set_containers tm fs sl).
Proof.
  destruct tm as [|pn obj]; [destruct fs; auto|].
  induction 1 as [|f st fs sl D F IH]; cbn [set_containers]; constructor; auto.
  destruct (f_container f); auto. intros _; discriminate.
Qed.
Lemma missing_decided tm pre sp fs : forall sl es sl1 es1, Forall2 decided fs sl ->
  named_missing tm vt pre sp fs sl es = Ok (sl1, es1) -> Forall2 decided fs sl1.
Proof.
  induction fs as [|f fs IH]; intros sl es sl1 es1 D H.
  - inversion D; subst. injection H as <- _. constructor.
  - inversion D as [|? st ? sl' D1 D2]; subst. cbn [named_missing] in H.
    assert (N : forall st' es', decided f st' ->
      match named_missing tm vt pre sp fs sl' es' with
      | Ok (sl2, es2) => Ok (st' :: sl2, es2) | Err e => Err e | Bad b => Bad b end = Ok (sl1, es1) ->
      Forall2 decided (f :: fs) sl1).
    { intros st' es' D' Q. destruct (named_missing tm vt pre sp fs sl' es') as [[sl2 es2]|e|b] eqn:Q2; try discriminate Q.
      injection Q as <- _. constructor; eauto. }
    destruct (f_kind f) eqn:K; try solve [eapply N; eauto]. destruct (_ && _)%bool.
    + destruct (d_missing d _ sp) as [v|e|b]; [| |discriminate H]; (eapply N; [|exact H]); auto. intros _; discriminate.
    + eapply N; eauto.
Qed.

Lemma akin_containers tm fs gs : Forall2 akin fs gs -> forall sl, set_containers tm fs sl = set_containers tm gs sl.
Proof.
  intro F. destruct tm as [|pn obj]; [destruct F; auto|].
  induction F as [|f g fs gs H F IH]; intros [|st sl]; auto. cbn [set_containers]. rewrite IH.
  apply akin_parsable in H as [_ [-> _]]. reflexivity.
Qed.
Lemma akin_missing fs gs : Forall2 akin fs gs -> forall tm pre sp sl es,
  named_missing tm vt pre sp fs sl es = named_missing tm vt pre sp gs sl es.
Proof.
  induction 1 as [|f g fs gs H F IH]; intros tm pre sp sl es; [reflexivity|]. cbn [named_missing].
  destruct sl as [|st sl]; auto.
  destruct H as [f g H|f g S1 S2 D T C N].
  - destruct H as [h|h a o K S C|h r o K S C]; [destruct (f_kind h)| |]; cbn [with_default f_kind]; rewrite ?K, ?IH; auto.
    destruct (_ && _)%bool; auto. destruct (d_missing d _ sp); now rewrite ?IH.
  - assert (W : wants_error vt f = false /\ wants_error vt g = false).
    { unfold wants_error. rewrite <- D. destruct vt; [split; apply andb_false_r|].
      specialize (N eq_refl). destruct (f_default f); [|congruence]. rewrite !andb_false_r. auto. }
    destruct W as [-> ->]. cbn [andb]. rewrite IH. destruct (f_kind f), (f_kind g); reflexivity.
Qed.
Lemma akin_sets fs gs : Forall2 akin fs gs -> forall sl es, Forall2 decided fs sl -> field_sets fs sl es = field_sets gs sl es.
Proof.
  induction 1 as [|f g fs gs H F IH]; intros sl es D; [reflexivity|]. cbn [field_sets].
  inversion D as [|? st ? sl' D1 D2]; subst.
  assert (E : set_field f st es = set_field g st es).
  { destruct H as [f g H|f g S1 S2 D' T C N]; [|unfold set_field; rewrite D', T; reflexivity].
    destruct H as [h|h a o K S C|h r o K S C]; auto; unfold decided, pflat, is_parsable, is_flat in D1;
      rewrite K, S, C in D1; specialize (D1 eq_refl); unfold set_field; cbn [with_default f_default f_transforms];
      f_equal; destruct st; try congruence; destruct (f_default h), o; reflexivity. }
  rewrite E. destruct (set_field g st es) as [st1 es1]. now rewrite (IH _ es1 D2).
Qed.

Lemma struct_slots fs u al pre v l : forall st r sl es l1, length (fst st) = length fs ->
  parse_struct (named_closure fs u al pre v) st l = (r, (sl, es), l1) -> length sl = length fs.
Proof.
  assert (C : forall p sp st s r st1 s1, named_closure fs u al pre v p sp st s = (r, st1, s1) ->
              length (fst st) = length fs -> length (fst st1) = length fs).
  { assert (U : forall i x (sl : list (fstatus V)), length (upd_nth i x sl) = length sl).
    { intros i x sl. revert i. induction sl as [|y sl IH]; intros [|i]; cbn; auto. }
    intros p sp [sl es] s r st1 s1 H L. unfold named_closure in H.
    destruct (strip_prefix pre p); [|injection H as _ <- _; exact L].
    destruct (find_field _ fs 0) as [[i f]|]; [|injection H as _ <- _; exact L].
    destruct (fs_parse_named _ sp _ _ es s) as [[[x es1]|e|b] s2]; injection H as _ <- _; cbn; auto. now rewrite U. }
  assert (Lp : forall n st s r st1 s1, struct_loop (named_closure fs u al pre v) n st s = (r, st1, s1) ->
               length (fst st) = length fs -> length (fst st1) = length fs).
  { induction n as [|n IH]; intros st s r st1 s1 H L; cbn [struct_loop] in H; [injection H as _ <- _; exact L|].
    destruct (is_empty s); [injection H as _ <- _; exact L|].
    destruct (parse_any_path s) as [[p|e|b] s2]; try (injection H as _ <- _; exact L).
    destruct (named_closure _ _ _ _ _ _ _ st s2) as [[[w|e|b] st2] s3] eqn:Q; apply C in Q; auto;
      try (injection H as _ <- _; exact Q).
    destruct (is_empty s3); [injection H as _ <- _; exact Q|].
    destruct (parse_comma s3) as [[w2|e|b] s4]; try (injection H as _ <- _; exact Q). eapply IH; eauto. }
  induction l as [|s l IH]; intros st r sl es l1 L H; cbn [parse_struct] in H; [injection H as _ E _; subst st; exact L|].
  destruct (struct_loop _ _ st s) as [[[w|e|b] st1] s1] eqn:Q; apply Lp in Q; auto;
    try (injection H as _ E _; subst st1; exact Q).
  destruct (parse_struct _ st1 l) as [[r2 [sl2 es2]] l2] eqn:Q2. eapply IH in Q2; eauto. injection H as _ E _ _. congruence.
Qed.

Lemma l_akin_body fs gs tm target u sp pre v : has_target target = vt -> Forall2 akin fs gs -> forall l,
  named_body fs tm target u (fields_names fs) sp pre v l = named_body gs tm target u (fields_names gs) sp pre v l.
Proof.
  intros HT F l. unfold named_body. rewrite <- (akin_names _ _ F), <- (akin_any _ _ F), <- (akin_init _ _ F).
  rewrite <- (struct_ext _ _ (akin_closure fs gs u (fields_names fs) pre v F)).
  destruct (parse_struct _ _ _) as [[r [sl1 es1]] src1] eqn:Q. apply struct_slots in Q.
  2:{ cbn. unfold init_slots. apply map_length. }
  assert (E : forall es l1, named_post fs tm target (fields_names fs) sp pre sl1 es l1
                          = named_post gs tm target (fields_names fs) sp pre sl1 es l1).
  { intros es l1. unfold named_post. rewrite HT, <- (akin_flats _ _ F).
    destruct (flat_fields _ _ _ fs sl1 es l1) as [[[sl2 es2]|e|b] l2] eqn:Q2; auto. apply flats_decided in Q2; auto.
    f_equal. rewrite <- (akin_containers tm _ _ F), <- (akin_missing _ _ F).
    apply (containers_decided tm) in Q2.
    destruct (named_missing _ _ _ _ fs _ es2) as [[sl3 es3]|e|b] eqn:Q3; auto. cbn [rbind].
    apply missing_decided in Q3; auto. unfold post_finish. now rewrite (akin_sets _ _ F _ _ Q3). }
  destruct r; auto.
Qed.

End I.

Section I2.
Context {env : Env} {V : Type}.
Implicit Types f g : field V.
Implicit Types fs gs : list (field V).

Lemma Forall2_impl_ (P Q : field V -> field V -> Prop) : (forall f g, P f g -> Q f g) -> forall fs gs,
  Forall2 P fs gs -> Forall2 Q fs gs.
Proof. intros H fs gs F. induction F; constructor; auto. Qed.
Lemma alike_all fs gs : Forall2 alike fs gs -> fields_accepts_all fs = fields_accepts_all gs.
Proof.
  intro F. rewrite !takes_all. induction F as [|f g fs gs H F IH]; [reflexivity|]. cbn [existsb]. rewrite IH.
  unfold takes_everything. destruct (alike_kind _ _ H) as [-> _]. reflexivity.
Qed.

Lemma alike_default f g : alike f g -> alike (skip_default f) (skip_default g) /\ alike (container_default f) (container_default g).
Proof.
  intros [h|h a o K S C|h r o K S C]; [split; constructor| |];
    unfold skip_default, container_default; cbn [with_default f_default f_skip f_container]; rewrite S, C;
    destruct (f_default h), o; split; first [exact (AlikeAppend h a _ K S C)|exact (AlikeRest h r _ K S C)].
Qed.
Lemma alike_maps fs gs (q : field V -> field V) : (forall f g, alike f g -> alike (q f) (q g)) ->
  Forall2 alike fs gs -> Forall2 alike (map q fs) (map q gs).
Proof. intros H F. induction F; cbn; constructor; auto. Qed.
Lemma alike_fields tm (s t : sdef V) : alike_structs s t -> Forall2 alike (s_fields tm s) (s_fields tm t).
Proof.
  intros [_ F _ D _ _ _].
  assert (A : Forall2 alike (s_fields_attr s) (s_fields_attr t)).
  { unfold s_fields_attr. rewrite D. destruct (has_target _); auto. apply alike_maps; auto. intros; now apply alike_default. }
  destruct tm; auto. apply alike_maps; auto. intros; now apply alike_default.
Qed.
(** the names do not depend on the defaults *)
Lemma names_fields tm (s : sdef V) : s_names s = fields_names (s_fields tm s).
Proof.
  assert (N : forall q : field V -> field V, (forall f, field_key_names (q f) = field_key_names f /\ is_parsable (q f) = is_parsable f) ->
              forall fs, fields_names (map q fs) = fields_names fs).
  { intros q Q fs. unfold fields_names. induction fs as [|f fs IH]; [reflexivity|]. cbn [map flat_map]. rewrite IH.
    destruct (Q f) as [-> ->]. reflexivity. }
  assert (S1 : forall f : field V, field_key_names (skip_default f) = field_key_names f /\ is_parsable (skip_default f) = is_parsable f).
  { intro f. unfold skip_default. destruct (f_default f); auto. destruct (f_skip f) eqn:E; auto.
    split; [reflexivity|]. unfold is_parsable. cbn [f_container f_skip]. now rewrite E. }
  assert (S2 : forall f : field V, field_key_names (container_default f) = field_key_names f /\ is_parsable (container_default f) = is_parsable f).
  { intro f. unfold container_default. destruct (f_default f); auto. destruct (f_container f) eqn:E; auto.
    split; [reflexivity|]. unfold is_parsable. cbn [f_container f_skip]. now rewrite E. }
  assert (A : fields_names (s_fields_attr s) = s_names s).
  { unfold s_fields_attr. destruct (has_target _); auto. now rewrite N. }
  destruct tm; cbn [s_fields]; auto. unfold s_fields_meta. now rewrite N.
Qed.

Record akin_structs (s t : sdef V) : Prop := {
  an_shape : s_shape s = ShNamed /\ s_shape t = ShNamed;
  an_fields : forall tm, Forall2 (akin (has_target (s_default t))) (s_fields tm s) (s_fields tm t);
  an_plain : s_transparent s = false /\ s_transparent t = false;
  an_all : s_accepts_all s = s_accepts_all t;
  an_default : s_default s = s_default t;
  an_unknown : s_unknown_ok s = s_unknown_ok t;
  an_thens : s_and_thens s = s_and_thens t;
  an_attributes : s_attributes s = s_attributes t }.

Lemma akin_body (s t : sdef V) tm m sp pre v i l : akin_structs s t ->
  s_body s tm m sp pre v i l = s_body t tm m sp pre v i l.
Proof.
  intros [[S1 S2] F _ _ D U T _].
  unfold s_body, p_and_thens. rewrite S1, S2, T, D, U, (names_fields tm s), (names_fields tm t).
  rewrite (l_akin_body _ _ _ tm (s_default t) (s_unknown_ok t) sp pre v eq_refl (F tm)). reflexivity.
Qed.

Lemma akin_same (s t : sdef V) : akin_structs s t ->
  (forall m st, d_item (struct_dict s) m st = d_item (struct_dict t) m st) /\
  (forall m l, d_inline (struct_dict s) m l = d_inline (struct_dict t) m l) /\
  (forall sp, d_flag (struct_dict s) sp = d_flag (struct_dict t) sp) /\
  (forall m prefix validate l,
     fn_parse (struct_fn s) m prefix validate l = fn_parse (struct_fn t) m prefix validate l) /\
  (forall obj spans l, struct_attr_body s obj spans l = struct_attr_body t obj spans l).
Proof.
  intro A.
  assert (P : s_is_transparent s = false /\ s_is_transparent t = false).
  { unfold s_is_transparent. destruct (an_plain _ _ A) as [-> ->]. auto. }
  destruct P as [P1 P2]. pose proof (an_all _ _ A) as AA.
  assert (FN : forall m prefix validate l, fn_parse (struct_fn s) m prefix validate l = fn_parse (struct_fn t) m prefix validate l).
  { intros. cbn [struct_fn fn_parse]. now apply akin_body. }
  assert (IN : forall m l, s_inline s m l = s_inline t m l).
  { intros. unfold s_inline. destruct (an_shape _ _ A) as [-> ->]. rewrite AA. apply FN. }
  unfold struct_dict. rewrite P1, P2. destruct (an_shape _ _ A) as [S1 S2]. rewrite S1, S2.
  cbn [d_item d_inline d_flag]. split; [|split; [|split; [|split]]]; auto.
  - intros m st. unfold parse_delimited_with, with_group, pbind, on_single. destruct (toks st) as [|[| | |] ?]; auto.
    all: now rewrite ?IN.
  - intro sp. unfold parse_empty, parse2, on_single. now rewrite IN.
  - intros obj spans l. unfold struct_attr_body. rewrite P1, P2, AA, (an_attributes _ _ A). now apply akin_body.
Qed.

Lemma l_idle_default (s t : sdef V) : alike_structs s t ->
  (forall m st, d_item (struct_dict s) m st = d_item (struct_dict t) m st) /\
  (forall m l, d_inline (struct_dict s) m l = d_inline (struct_dict t) m l) /\
  (forall sp, d_flag (struct_dict s) sp = d_flag (struct_dict t) sp) /\
  (forall m prefix validate l,
     fn_parse (struct_fn s) m prefix validate l = fn_parse (struct_fn t) m prefix validate l) /\
  (forall obj spans l, struct_attr_body s obj spans l = struct_attr_body t obj spans l).
Proof.
  intro A. apply akin_same. pose proof A as [S F P D U T X]. constructor; auto.
  - intro tm. exact (Forall2_impl_ _ _ (AkinAlike _) _ _ (alike_fields tm _ _ A)).
  - unfold s_accepts_all. now rewrite U, (alike_all _ _ F).
Qed.

(** *** Skipped fields *)
Lemma skipped_all fs gs : Forall2 skipped_alike fs gs -> fields_accepts_all fs = fields_accepts_all gs.
Proof.
  intro F. rewrite !takes_all. induction F as [|f g fs gs H F IH]; [reflexivity|]. cbn [existsb]. rewrite IH.
  destruct H as [f|f g _ _ _ _ _ _ E1 E2]; [reflexivity|]. now rewrite E1, E2.
Qed.
Lemma skipped_defaults vt f g : skipped_alike f g ->
  let q (x : field V) := if (vt : bool) then x else skip_default x in
  akin vt (q f) (q g) /\ akin vt (container_default (q f)) (container_default (q g)).
Proof.
  intros [h|h k S1 S2 D A T C E1 E2]; cbv zeta; [split; apply AkinAlike; constructor|].
  assert (X : forall x : field V, f_skip (skip_default x) = f_skip x /\ f_container (skip_default x) = f_container x /\
      f_transforms (skip_default x) = f_transforms x /\
      f_default (skip_default x) = (if f_skip x then match f_default x with None => Some (f_auto x) | Some v => Some v end else f_default x)).
  { intro x. unfold skip_default. destruct (f_default x) eqn:K; [destruct (f_skip x); auto|].
    destruct (f_skip x) eqn:K2; cbn; auto. }
  assert (Y : forall x : field V, f_skip (container_default x) = f_skip x /\ f_container (container_default x) = f_container x /\
      f_transforms (container_default x) = f_transforms x /\
      f_default (container_default x) = (if f_container x then match f_default x with None => Some (f_auto x) | Some v => Some v end else f_default x)).
  { intro x. unfold container_default. destruct (f_default x) eqn:K; [destruct (f_container x); auto|].
    destruct (f_container x) eqn:K2; cbn; auto. }
  assert (Z : forall x : field V, f_auto (skip_default x) = f_auto x).
  { intro x. unfold skip_default. destruct (f_default x); auto. destruct (f_skip x); auto. }
  destruct (X h) as [X1 [X2 [X3 X4]]], (X k) as [X5 [X6 [X7 X8]]]. rewrite S1 in *. rewrite S2 in *.
  assert (M : forall a b : field V, f_skip a = true -> f_skip b = true -> f_default a = f_default b -> f_auto a = f_auto b ->
    f_transforms a = f_transforms b -> f_container a = f_container b -> (vt = false -> f_default a <> None) ->
    akin vt a b /\ akin vt (container_default a) (container_default b)).
  { intros a b Q1 Q2 Q3 Q4 Q5 Q6 Q7. destruct (Y a) as [Y1 [Y2 [Y3 Y4]]], (Y b) as [Y5 [Y6 [Y7 Y8]]].
    split; apply AkinSkip; auto; try congruence.
    - rewrite Y4, Y8, Q3, Q4, Q6. reflexivity.
    - intro E. rewrite Y4. specialize (Q7 E). destruct (f_container a), (f_default a); congruence. }
  destruct vt; apply M; auto; try congruence.
  - rewrite X4, X8, D, A. reflexivity.
  - intros _. rewrite X4. destruct (f_default h); discriminate.
Qed.

Lemma l_skip_struct (s t : sdef V) : skip_structs s t ->
  (forall m st, d_item (struct_dict s) m st = d_item (struct_dict t) m st) /\
  (forall m l, d_inline (struct_dict s) m l = d_inline (struct_dict t) m l) /\
  (forall sp, d_flag (struct_dict s) sp = d_flag (struct_dict t) sp) /\
  (forall m prefix validate l,
     fn_parse (struct_fn s) m prefix validate l = fn_parse (struct_fn t) m prefix validate l) /\
  (forall obj spans l, struct_attr_body s obj spans l = struct_attr_body t obj spans l).
Proof.
  intro A. apply akin_same. pose proof A as [S F P D U T X]. constructor; auto.
  - intro tm. unfold s_fields, s_fields_meta, s_fields_attr. rewrite D.
    assert (E : (if has_target (s_default t) then s_raw s else map skip_default (s_raw s))
              = map (fun f => if has_target (s_default t) then f else skip_default f) (s_raw s) /\
                (if has_target (s_default t) then s_raw t else map skip_default (s_raw t))
              = map (fun f => if has_target (s_default t) then f else skip_default f) (s_raw t)).
    { destruct (has_target _); auto. now rewrite !map_id. }
    destruct E as [-> ->].
    destruct tm; rewrite ?map_map; induction F as [|f g fs gs H F IH]; cbn [map]; constructor; auto;
      apply (skipped_defaults (has_target (s_default t)) _ _ H).
  - unfold s_accepts_all. now rewrite U, (skipped_all _ _ F).
Qed.

(** *** Skipped variants *)
Implicit Types v w : vdef V.
Implicit Types vs ws : list (vdef V).

Lemma skip_find vs ws : Forall2 skipped_variants vs ws -> forall k i, find_variant k vs i = find_variant k ws i.
Proof.
  induction 1 as [|v w vs ws H F IH]; intros k i; [reflexivity|]. cbn [find_variant]. rewrite IH.
  destruct H as [v|v w S1 S2 F1 F2]; auto. rewrite S1, S2, !andb_false_r. reflexivity.
Qed.
Lemma skip_flat_map {B} (q : vdef V -> list B) vs ws : (forall v, v_skip v = true -> v_flatten v = false -> q v = []) ->
  Forall2 skipped_variants vs ws -> flat_map q vs = flat_map q ws.
Proof.
  intros Q. induction 1 as [|v w vs ws H F IH]; [reflexivity|]. cbn [flat_map]. rewrite IH.
  destruct H as [v|v w S1 S2 F1 F2]; auto. now rewrite (Q v), (Q w).
Qed.
Lemma skip_exists (q : vdef V -> bool) vs ws : (forall v, v_skip v = true -> v_flatten v = false -> q v = false) ->
  Forall2 skipped_variants vs ws -> existsb q vs = existsb q ws.
Proof.
  intros Q. induction 1 as [|v w vs ws H F IH]; [reflexivity|]. cbn [existsb]. rewrite IH.
  destruct H as [v|v w S1 S2 F1 F2]; auto. now rewrite (Q v), (Q w).
Qed.
Lemma skip_len vs ws : Forall2 skipped_variants vs ws -> length vs = length ws.
Proof. induction 1; cbn; auto. Qed.
Lemma skip_names (e h : edef V) : skip_enums e h -> e_names e = e_names h.
Proof.
  intros [F _ _ _ _]. unfold e_names. apply skip_flat_map; auto. intros v S K. now rewrite S, K.
Qed.
Lemma skip_messages (e h : edef V) : skip_enums e h -> all_messages e = all_messages h.
Proof.
  intros [F _ _ _ _]. unfold all_messages. f_equal. induction F as [|v w vs ws H F IH]; [reflexivity|].
  cbn [filter]. rewrite IH. destruct H as [v|v w S1 S2 F1 F2]; auto. now rewrite S1, S2.
Qed.
Lemma skip_any (e h : edef V) : skip_enums e h -> e_any_flat e = e_any_flat h.
Proof. intros [F _ _ _ _]. apply skip_exists; auto. intros v S K. now rewrite K. Qed.
Lemma skip_matches (e h : edef V) : skip_enums e h -> flat_matches e = flat_matches h.
Proof.
  intros [F _ _ _ _]. unfold flat_matches. rewrite <- (skip_len _ _ F).
  generalize (@nil (key_t * (nat * vdef V))) as m. generalize (seq 0 (length (e_variants e))) as ns.
  induction F as [|v w vs ws H F IH]; intros ns m; destruct ns as [|n ns]; auto. cbn [combine fold_left].
  rewrite IH. destruct H as [v|v w S1 S2 F1 F2]; auto. now rewrite F1, F2.
Qed.
Lemma skip_others (e h : edef V) i : skip_enums e h -> other_names e i = other_names h i.
Proof.
  intros [F _ _ _ _]. unfold other_names. rewrite <- (skip_len _ _ F).
  generalize (seq 0 (length (e_variants e))) as ns.
  induction F as [|v w vs ws H F IH]; intros ns; destruct ns as [|n ns]; auto. cbn [combine flat_map fst snd].
  rewrite IH. destruct H as [v|v w S1 S2 F1 F2]; auto. unfold flat_names. now rewrite F1, F2.
Qed.
Lemma skip_closure (e h : edef V) tm pre : skip_enums e h -> forall p sp q s,
  enum_closure e tm pre p sp q s = enum_closure h tm pre p sp q s.
Proof.
  intros A p sp q s. unfold enum_closure. destruct (strip_prefix pre p); auto. rewrite (skip_any _ _ A), (skip_find _ _ (se_variants_ _ _ A)). reflexivity.
Qed.
Lemma skip_block (e h : edef V) tm pre sp i v paths es l : skip_enums e h ->
  flat_block e tm pre sp i v paths es l = flat_block h tm pre sp i v paths es l.
Proof.
  intro A. unfold flat_block. rewrite (skip_messages _ _ A), (skip_others _ _ i A), (se_unknown _ _ A). reflexivity.
Qed.
Lemma skip_body (e h : edef V) tm al sp pre vd l : skip_enums e h ->
  enum_body e tm al sp pre vd l = enum_body h tm al sp pre vd l.
Proof.
  intro A. unfold enum_body. rewrite (skip_any _ _ A), (se_unknown _ _ A).
  rewrite (struct_ext _ _ (skip_closure e h tm pre A)).
  unfold pick_flat. rewrite (skip_matches _ _ A), (se_default_ _ _ A), (skip_messages _ _ A), (se_thens _ _ A).
  replace (flat_map flat_names (e_variants e)) with (flat_map flat_names (e_variants h)).
  2:{ symmetry. apply skip_flat_map; [|apply A]. intros v _ K. unfold flat_names. now rewrite K. }
  destruct (parse_struct _ _ _) as [[[u|x|b] q] src1]; auto; destruct (q_value q); auto;
    (destruct (find _ _) as [[k [i v]]|]; [rewrite (skip_block e h) by exact A; reflexivity|
     destruct (find _ _) as [[k [i v]]|]; [rewrite (skip_block e h) by exact A; reflexivity|reflexivity]]).
Qed.

Lemma l_skip_enum (e h : edef V) : skip_enums e h ->
  (forall m st, d_item (enum_dict e) m st = d_item (enum_dict h) m st) /\
  (forall m l, d_inline (enum_dict e) m l = d_inline (enum_dict h) m l) /\
  (forall sp, d_flag (enum_dict e) sp = d_flag (enum_dict h) sp) /\
  (forall m prefix validate l,
     fn_parse (enum_fn e) m prefix validate l = fn_parse (enum_fn h) m prefix validate l) /\
  (forall obj spans l, enum_attr_body e obj spans l = enum_attr_body h obj spans l) /\
  fn_names (enum_fn e) = fn_names (enum_fn h).
Proof.
  intro A.
  assert (FN : forall m prefix validate l, fn_parse (enum_fn e) m prefix validate l = fn_parse (enum_fn h) m prefix validate l).
  { intros. cbn [enum_fn fn_parse]. rewrite (skip_names _ _ A). now apply skip_body. }
  split; [|split; [|split; [|split; [exact FN|split]]]].
  - intros m st. cbn [enum_dict d_item]. unfold parse_delimited_with, with_group, pbind, on_single.
    destruct (toks st) as [|[| | |] ?]; auto. all: now rewrite ?FN.
  - intros m l. apply FN.
  - intro sp. cbn [enum_dict d_flag]. unfold parse_empty, parse2, on_single. now rewrite FN.
  - intros obj spans l. unfold enum_attr_body. rewrite (skip_names _ _ A), (se_attributes _ _ A).
    replace (e_accepts_all e) with (e_accepts_all h); [now apply skip_body|].
    unfold e_accepts_all. rewrite (se_unknown _ _ A). f_equal; [f_equal|]; symmetry; apply skip_exists; try apply A.
    + intros v S K. now rewrite S.
    + intros v S K. now rewrite K.
  - apply (skip_names _ _ A).
Qed.
End I2.

(** *** `with` in a transparent variant *)
Lemma l_idle_with V (ru : rust V) (v : svariant) : h_transparent v = Some true ->
  lower_variant ru (without_modules v) = lower_variant ru v.
Proof.
  intro T. unfold lower_variant. cbn [without_modules h_transparent h_src h_idents h_fields h_flatten h_skip h_unknown_ok].
  rewrite T. cbn [b_true]. f_equal. rewrite map_map. apply map_ext. intro f. unfold lower_field, g_kind, g_type.
  cbn. destruct (g_with f); reflexivity.
Qed.
