(** What a variant accepts after its name *)
From Verif Require Import LemWf LemWfD LemWfE LemSmall LemItems LemWalk LemNamed LemStruct LemStructP LemTuple LemTStruct LemSplit LemColl2.
From Verif Require Export SpecVariant.

Section N.
Context {env : Env}.
Lemma struct_loop_empties {St} (func : string -> span -> St -> stream -> res unit * St * stream) n : forall st s,
  fst (fst (struct_loop func n st s)) = Ok tt -> toks (snd (struct_loop func n st s)) = [].
Proof.
  induction n as [|n IH]; intros st s; cbn [struct_loop]; [discriminate|].
  destruct (is_empty s) eqn:E; [intros _; unfold is_empty in E; cbn [snd]; now destruct (toks s)|].
  destruct (parse_any_path s) as [[p|e|b] s1]; try discriminate. destruct (func (path_key p) (p_span p) st s1) as [[[[]|e|b] st1] s2]; try discriminate.
  destruct (is_empty s2) eqn:E2; [intros _; unfold is_empty in E2; cbn [snd]; now destruct (toks s2)|].
  destruct (parse_comma s2) as [[[]|e|b] s3]; try discriminate. apply IH.
Qed.
Lemma parse_struct_empties {St} (func : string -> span -> St -> stream -> res unit * St * stream) l : forall st,
  fst (fst (parse_struct func st l)) = Ok tt -> Forall (fun s => toks s = []) (snd (parse_struct func st l)).
Proof.
  induction l as [|s l IH]; intro st; cbn [parse_struct]; [constructor|].
  pose proof (struct_loop_empties func (S (length (toks s))) st s) as X. destruct (struct_loop func (S (length (toks s))) st s) as [[[[]|e|b] st1] s1]; try discriminate. cbn [fst snd] in X.
  specialize (IH st1). destruct (parse_struct func st1 l) as [[r st2] l1]. cbn [fst snd] in *. intro H. constructor; auto.
Qed.
(** the three spellings *)
Lemma named_spellings {A} dl (inline : mode -> mparser A) (flag : span -> res A) sp body v :
  (forall m, well_behaved_m (inline m)) ->
  accepts (parse_named_with (fun m => parse_delimited_with dl (on_single (inline m))) inline flag sp) body v <->
  (body = [] /\ flag sp = Ok v) \/
  (exists ts gsp, body = [TGroup Paren ts gsp] /\ forall c, whole (inline (Named sp)) [mkStream ts (SClose gsp) c] v) \/
  (exists j esp ts gsp, body = [TPunct eq_c j esp; TGroup dl ts gsp] /\ forall c, whole (inline (Named sp)) [mkStream ts (SClose gsp) c] v).
Proof.
  intro W.
  assert (DR : forall d' s w, fst (parse_delimited_with d' (on_single (inline (Named sp))) s) = Ok w -> forall ts gsp rest, toks s = TGroup d' ts gsp :: rest ->
    toks (snd (parse_delimited_with d' (on_single (inline (Named sp))) s)) = rest).
  { intros d' s w _ ts gsp rest E. unfold parse_delimited_with, with_group. rewrite E. assert (delim_eqb d' d' = true) as -> by (destruct d'; reflexivity).
    destruct (pbind _ _ _) as [r c]. reflexivity. }
  split.
  - intro H. assert (H0 : forall c, fst (parse_named_with (fun m => parse_delimited_with dl (on_single (inline m))) inline flag sp (mkStream body SCall c)) = Ok v /\
      toks (snd (parse_named_with (fun m => parse_delimited_with dl (on_single (inline m))) inline flag sp (mkStream body SCall c))) = []).
    { intro c. specialize (H [] SCall c (or_introl eq_refl)). rewrite app_nil_r in H. exact H. }
    clear H. unfold parse_named_with in H0. unfold peek_eq, peek_punct, peek_group in H0. cbn [toks] in H0.
    destruct body as [|t r]; [left; split; auto; exact (proj1 (H0 None))|].
    destruct (punct_rest [eq_c] (t :: r)) as [r'|] eqn:PR.
    + right. right. destruct t as [|c j esp| |]; try discriminate PR. cbn [punct_rest] in PR. destruct (Ascii.eqb eq_c c) eqn:EC; [|discriminate PR]. apply Ascii.eqb_eq in EC. subst c. cbn [andb] in PR.
      injection PR as PR. subst r'.
      unfold pbind, parse_eq, parse_punct in H0. cbn [toks] in H0. rewrite punct_rest_eq in H0. unfold set_toks in H0. cbn [scope cell] in H0.
      destruct (H0 None) as [H1 _]. apply delimited_ok in H1; [|apply W]. destruct H1 as [ts [gsp [rest [E _]]]]. cbn [toks] in E. subst r.
      exists j, esp, ts, gsp. assert (rest = []) as ->. { destruct (H0 None) as [H1 H2]. rewrite (DR _ _ _ H1 _ _ _ eq_refl) in H2. exact H2. }
      split; auto. intro c. destruct (H0 c) as [H1 _]. apply delimited_ok in H1; [|apply W]. destruct H1 as [ts' [gsp' [rest' [E X]]]]. cbn [toks cell] in *. injection E as <- <- <-. exact X.
    + destruct (match t with TGroup d' _ _ => delim_eqb Paren d' | _ => false end) eqn:PG.
      * right. left. destruct (H0 None) as [H1 _]. apply delimited_ok in H1; [|apply W]. destruct H1 as [ts [gsp [rest [E _]]]]. cbn [toks] in E. injection E as -> ->.
        exists ts, gsp. assert (rest = []) as ->. { destruct (H0 None) as [H1 H2]. rewrite (DR _ _ _ H1 _ _ _ eq_refl) in H2. exact H2. }
        split; auto. intro c. destruct (H0 c) as [H1 _]. apply delimited_ok in H1; [|apply W]. destruct H1 as [ts' [gsp' [rest' [E X]]]]. cbn [toks cell] in *. injection E as <- <- <-. exact X.
      * destruct (H0 None) as [_ H2]. discriminate H2.
  - intros [[-> F]|[[ts [gsp [-> F]]]|[j [esp [ts [gsp [-> F]]]]]]] tl sc c E; unfold parse_named_with.
    + cbn [app]. destruct (peek_eq_ends tl sc c E) as [-> ->]. auto.
    + unfold peek_eq, peek_punct, peek_group. cbn [toks app punct_rest delim_eqb].
      assert (X : fst (parse_delimited_with Paren (on_single (inline (Named sp))) (mkStream (TGroup Paren ts gsp :: tl) sc c)) = Ok v) by (apply delimited_ok; [apply W|]; exists ts, gsp, tl; split; auto; apply F).
      split; auto. now apply (DR _ _ _ X ts gsp tl).
    + unfold peek_eq, peek_punct. cbn [toks app]. rewrite punct_rest_eq. unfold pbind, parse_eq, parse_punct. cbn [toks]. rewrite punct_rest_eq. unfold set_toks. cbn [scope cell].
      assert (X : fst (parse_delimited_with dl (on_single (inline (Named sp))) (mkStream (TGroup dl ts gsp :: tl) sc c)) = Ok v) by (apply delimited_ok; [apply W|]; exists ts, gsp, tl; split; auto; apply F).
      split; auto. now apply (DR _ _ _ X ts gsp tl).
Qed.
End N.

Section W.
Context {env : Env} {V : Type}.
Implicit Types v : vdef V.

Lemma as_struct_fields tm v : accepted_variant tm v -> s_fields tm (as_struct v) = v_fields v.
Proof.
  intros [_ [C _]]. unfold s_fields, s_fields_meta, s_fields_attr, v_fields, as_struct. cbn [s_default s_raw has_target].
  destruct tm; auto. rewrite map_map. apply map_ext_in. intros f I. rewrite Forall_forall in C. specialize (C f I). cbn in C.
  unfold container_default. destruct (f_default (skip_default f)) eqn:D; auto.
  destruct (skip_default_kind f) as [_ [_ [E _]]]. rewrite E. destruct (f_container f) eqn:F; auto.
  exfalso. apply C; auto. unfold skip_default in D. destruct (f_default f) eqn:D2; auto. congruence.
Qed.
Lemma as_struct_accepted tm v : plain_variant tm v -> accepted_struct (as_struct v).
Proof. intros [[G _] [T _]]. split; auto. discriminate. Qed.
Lemma as_struct_flat tm v : plain_variant tm v -> no_flat (as_struct v).
Proof.
  intros [_ [_ F]]. unfold no_flat. cbn [s_raw as_struct]. destruct (existsb pflat (v_raw v)) eqn:E; auto. apply existsb_exists in E as [f [I P]].
  rewrite <- F. symmetry. apply existsb_exists. exists f. split; auto. unfold pflat in P. now apply andb_true_iff in P.
Qed.
Lemma plain_accepts_all tm v : plain_variant tm v -> v_accepts_all v = v_unknown_ok v.
Proof.
  intros [_ [_ F]]. unfold v_accepts_all, fields_accepts_all.
  assert (K : forall f, In f (v_fields v) -> is_flat f = false).
  { intros f I. unfold v_fields in I. apply in_map_iff in I as [g [<- I]]. destruct (is_flat g) eqn:E.
    - rewrite <- F. rewrite (proj2 (existsb_exists is_flat (v_raw v))) in F by eauto. discriminate.
    - unfold is_flat in *. now rewrite (proj1 (skip_default_kind g)). }
  assert (existsb is_rest (v_fields v) = false) as ->.
  { destruct (existsb is_rest (v_fields v)) eqn:E; auto. apply existsb_exists in E as [f [I P]]. specialize (K f I). unfold is_rest in P. unfold is_flat in K. destruct (f_kind f); discriminate. }
  assert (existsb (fun f => match f_kind f with KFlatN _ u => fn_accepts_all u | _ => false end) (v_fields v) = false) as ->.
  { destruct (existsb _ (v_fields v)) eqn:E; auto. apply existsb_exists in E as [f [I P]]. specialize (K f I). unfold is_flat in K. destruct (f_kind f); discriminate. }
  apply orb_false_r.
Qed.
(** streams without tokens are left alone *)
Lemma flat_fields_rest prefix sp al : forall (fs : list (field V)) sl es ins, existsb pflat fs = false ->
  snd (flat_fields prefix sp al fs sl es ins) = ins.
Proof.
  induction fs as [|f fs IH]; intros sl es ins F; cbn [flat_fields]; auto. cbn [existsb] in F. apply orb_false_iff in F as [-> F].
  destruct sl as [|st sl]; auto. specialize (IH sl es ins F). destruct (flat_fields prefix sp al fs sl es ins) as [[[sl2 es2]|e|b] ins3]; exact IH.
Qed.
Lemma named_rest (fs : list (field V)) tm target u al sp prefix w inputs : existsb pflat fs = false ->
  snd (named_body fs tm target u al sp prefix w inputs) = snd (parse_struct (named_closure fs u al prefix w) (init_slots fs, []) inputs).
Proof.
  intros F. unfold named_body. rewrite F. cbv zeta.
  destruct (parse_struct _ _ inputs) as [[r [sl es]] ins]. cbn [fst snd].
  assert (X : forall es', snd (named_post fs tm target al sp prefix sl es' ins) = ins).
  { intro es'. unfold named_post. pose proof (flat_fields_rest prefix sp al fs sl es' ins F) as Y. destruct (flat_fields _ _ _ _ _ _ _) as [[[sl1 es1]|e|b] i1]; exact Y. }
  destruct r; auto.
Qed.
Lemma inline_empty tm v prefix sp m s : plain_variant tm v -> toks s = [] -> snd (v_inline v tm prefix sp m [s]) = [s].
Proof.
  intros PV E. unfold v_inline. assert (NF : existsb pflat (v_fields v) = false).
  { rewrite <- (as_struct_fields tm v (proj1 PV)), flat_fields_same. exact (as_struct_flat tm v PV). }
  destruct (v_shape v).
  - rewrite named_rest by auto. cbn [parse_struct]. rewrite E. cbn [length struct_loop]. unfold is_empty. rewrite E. reflexivity.
  - unfold unnamed_body. destruct (existsb is_parsable (v_fields v)).
    + unfold parse_tuple_struct. rewrite Nat.add_comm. cbn [length Nat.add tuple_loop]. unfold is_empty. rewrite E. reflexivity.
    + destruct s as [ts sc c]. cbn [toks] in E. subst ts. reflexivity.
  - destruct s as [ts sc c]. cbn [toks] in E. subst ts. reflexivity.
Qed.
Lemma empty_inline tm v prefix sp m q vs : plain_variant tm v ->
  parse_empty q (on_single (v_inline v tm prefix sp m)) = Ok vs <-> fst (v_inline v tm prefix sp m [root_stream []]) = Ok vs.
Proof.
  intro PV. unfold parse_empty, parse2, on_single. pose proof (inline_empty tm v prefix sp m (root_stream []) PV eq_refl) as X.
  destruct (v_inline v tm prefix sp m [root_stream []]) as [r l]. cbn [fst snd] in *. subst l. cbn [hd root_stream toks cell].
  destruct r; split; auto; discriminate.
Qed.
Lemma root_whole tm v prefix sp m vs : plain_variant tm v ->
  fst (v_inline v tm prefix sp m [root_stream []]) = Ok vs <-> whole (v_inline v tm prefix sp m) [root_stream []] vs.
Proof.
  intro PV. unfold whole. rewrite (inline_empty tm v prefix sp m (root_stream []) PV eq_refl). split; [intro H; split; auto|tauto].
  constructor; auto. now left.
Qed.

(** *** named fields *)
Lemma inline_named tm v prefix sp m ts sc c vs : plain_variant tm v -> v_shape v = ShNamed -> Forall local_field (v_raw v) ->
  whole (v_inline v tm prefix sp m) [mkStream ts sc c] vs <->
  parses_to (struct_reader (as_struct v) tm prefix true) tm None sp [] (items ts) vs.
Proof.
  intros PV SH LF. assert (NS : named_struct (as_struct v)).
  { split; [eapply as_struct_accepted; eauto|]. split; auto. discriminate. }
  destruct (struct_returns (as_struct v) tm prefix true sp NS) as [A [B [D E]]]. cbn [as_struct s_default] in D, E.
  assert (FE : s_fields tm (as_struct v) = v_fields v) by (apply as_struct_fields, PV).
  assert (NF : existsb pflat (v_fields v) = false) by (rewrite <- FE, flat_fields_same; exact (as_struct_flat tm v PV)).
  assert (NM : s_names (as_struct v) = v_allowed v).
  { unfold s_names, v_allowed, fields_names, v_fields. cbn [s_raw as_struct]. rewrite flat_map_concat_map, flat_map_concat_map, map_map. f_equal.
    apply map_ext. intro f. destruct (skip_default_kind f) as [K [P _]]. unfold field_key_names. rewrite K, P. unfold skip_default.
    destruct (f_default f); auto. destruct (f_skip f); auto. }
  assert (BODY : v_inline v tm prefix sp m = named_body (r_fields (struct_reader (as_struct v) tm prefix true)) tm None (v_unknown_ok v)
     (r_allowed (struct_reader (as_struct v) tm prefix true)) sp (r_prefix (struct_reader (as_struct v) tm prefix true)) (negb (v_unknown_ok v))).
  { unfold v_inline. rewrite SH, (plain_accepts_all tm v PV). cbn [r_fields r_allowed r_prefix struct_reader]. now rewrite FE, NM. }
  assert (CH : r_check (struct_reader (as_struct v) tm prefix true) = negb (v_unknown_ok v) && negb (v_unknown_ok v)).
  { cbn. now destruct (v_unknown_ok v). }
  assert (NF' : existsb pflat (r_fields (struct_reader (as_struct v) tm prefix true)) = false) by (cbn [r_fields struct_reader]; now rewrite FE).
  rewrite <- (items_of_one ts sc c).
  assert (SAME : parses_to (struct_reader (as_struct v) tm prefix true) tm None sp [] (items_of [mkStream ts sc c]) vs <->
    parses_to (struct_reader (as_struct v) tm prefix true) tm None sp [mkStream ts sc c] (items_of [mkStream ts sc c]) vs).
  { assert (K : forall i f, nth_error (r_fields (struct_reader (as_struct v) tm prefix true)) i = Some f -> pflat f = false).
    { intros i f N. destruct (pflat f) eqn:P; auto. rewrite <- NF'. symmetry. apply existsb_exists. exists f. split; auto. eapply nth_error_In; eauto. }
    assert (K2 : forall l l', parses_to (struct_reader (as_struct v) tm prefix true) tm None sp l (items_of [mkStream ts sc c]) vs ->
      parses_to (struct_reader (as_struct v) tm prefix true) tm None sp l' (items_of [mkStream ts sc c]) vs).
    { intros l l' [X1 [X2 [X3 X4]]]. refine (conj X1 (conj X2 (conj X3 _))). intros i f w N1 N2.
      apply (field_gets_ins _ _ _ _ l l' _ _ _ _ ltac:(rewrite (K i f N1); discriminate)). now apply X4. }
    split; apply K2. }
  rewrite SAME. rewrite <- (named_text _ (v_unknown_ok v) (negb (v_unknown_ok v)) tm None sp [mkStream ts sc c] vs A B D CH E (local_fields tm (as_struct v) LF)).
  unfold whole. rewrite BODY. split; [tauto|]. intro H. split; auto.
  rewrite named_rest by auto. apply blank_ends. apply parse_struct_empties.
  pose proof (named_body_exact _ (v_unknown_ok v) (negb (v_unknown_ok v)) tm None sp [mkStream ts sc c] A B D CH) as X. cbv zeta in X. rewrite NF' in X.
  rewrite (parse_struct_walk _ (upd_named (struct_reader (as_struct v) tm prefix true)) (eat_named (struct_reader (as_struct v) tm prefix true))
     (closure_walk _ _ _ A CH) (eat_named_adv _ A)). cbn [fst].
  destruct (walks (eat_named (struct_reader (as_struct v) tm prefix true)) [mkStream ts sc c]) as [[l stop] ins1]. cbn [fst snd] in *.
  destruct stop as [e|]; auto. exfalso. rewrite H in X. unfold all_errors in X. unfold errs_of in X.
  destruct (entries_errors (struct_reader (as_struct v) tm prefix true) [] l); cbn [app] in X; discriminate.
Qed.
Lemma l_variant_named tm v prefix ksp body vs : plain_variant tm v -> v_shape v = ShNamed -> Forall local_field (v_raw v) ->
  accepts (v_named v tm prefix ksp) body vs <->
  exists ts, (body = [] /\ ts = [] \/ content ShNamed body ts) /\
    parses_to (struct_reader (as_struct v) tm prefix true) tm None ksp [] (items ts) vs.
Proof.
  intros PV SH LF. unfold v_named, v_item. rewrite named_spellings by (intro m; apply v_inline_good, PV).
  unfold v_flag. rewrite SH.
  assert (IN := fun m ts sc c => inline_named tm v prefix ksp m ts sc c vs PV SH LF).
  split.
  - intros [[-> H]|[[ts [gsp [-> H]]]|[j [esp [ts [gsp [-> H]]]]]]].
    + exists []. split; auto. apply (empty_inline tm v prefix ksp _ _ vs PV), (root_whole tm v prefix ksp _ vs PV) in H. now apply IN in H.
    + exists ts. split; [right; constructor|]. specialize (H None). now apply IN in H.
    + exists ts. split; [right; apply Co_equals|]. specialize (H None). now apply IN in H.
  - intros [ts [[[-> ->]|C] H]].
    + left. split; auto. apply (empty_inline tm v prefix ksp _ _ vs PV), (root_whole tm v prefix ksp _ vs PV). now apply IN.
    + right. inversion C; subst; [left; exists ts, gsp|right; exists j, esp, ts, gsp]; (split; [reflexivity|]); intro c; now apply IN.
Qed.

(** *** no fields *)
Lemma l_variant_unit tm v prefix ksp body vs : v_shape v = ShUnit ->
  accepts (v_named v tm prefix ksp) body vs <->
  vs = [] /\ (body = [] \/ exists ts, content ShUnit body ts /\ blank ts).
Proof.
  intros SH.
  assert (W : forall m, well_behaved_m (v_inline v tm prefix ksp m)).
  { intro m. unfold v_inline. rewrite SH. apply wbm_bind; auto using wbm_ret. apply good_unit. }
  unfold v_named, v_item. rewrite named_spellings by auto. unfold v_flag. rewrite SH.
  assert (IN : forall m ts gsp c, whole (v_inline v tm prefix ksp m) [mkStream ts (SClose gsp) c] vs <-> vs = [] /\ blank ts).
  { intros m ts gsp c. unfold v_inline. rewrite SH. unfold whole, pbind, pret. cbn.
    split.
    - intros [H U]. split; [congruence|]. inversion U as [|? ? U1 _]; subst. destruct U1 as [U1|[t [U1 U2]]]; [now left|]. right. exists t. split; auto. now apply comma_tok_is.
    - intros [-> B]. split; auto. constructor; auto. destruct B as [->|[t [B ->]]]; [now left|]. right. exists t. split; auto. now apply comma_tok_is. }
  split.
  - intros [[-> H]|[[ts [gsp [-> H]]]|[j [esp [ts [gsp [-> H]]]]]]].
    + injection H as <-. auto.
    + specialize (H None). apply IN in H as [-> B]. split; auto. right. exists ts. split; auto. constructor.
    + specialize (H None). apply IN in H as [-> B]. split; auto. right. exists ts. split; auto. apply (Co_equals ShUnit).
  - intros [-> [->|[ts [C B]]]]; [now left|]. right.
    inversion C; subst; [left; exists ts, gsp|right; exists j, esp, ts, gsp]; (split; [reflexivity|]); intro c; now apply IN.
Qed.

(** *** tuple fields *)
Lemma allows_default tm v : plain_variant tm v -> allows_empty None (v_fields v) = true <-> all_default v.
Proof.
  intros [_ [_ F]]. unfold allows_empty. cbn [has_target orb]. rewrite forallb_forall. unfold all_default.
  assert (K : forall f, In f (v_raw v) -> is_flat f = false).
  { intros f I. destruct (is_flat f) eqn:E; auto. rewrite <- F. symmetry. apply existsb_exists. eauto. }
  split.
  - intros H f I P. specialize (H (skip_default f)). destruct (skip_default_kind f) as [E1 [E2 _]].
    assert (D : f_default (skip_default f) = f_default f).
    { unfold skip_default. destruct (f_default f) eqn:D; auto. unfold is_parsable in P. destruct (f_skip f); auto. rewrite andb_false_r in P. discriminate. }
    rewrite D in H. unfold is_flat in H. rewrite E1 in H. fold (is_flat f) in H. rewrite (K f I) in H. cbn [orb] in H.
    intro N. rewrite N in H. discriminate H. apply filter_In. split; [unfold v_fields; now apply in_map|congruence].
  - intros H g I. apply filter_In in I as [I P]. unfold v_fields in I. apply in_map_iff in I as [f [<- I]].
    destruct (skip_default_kind f) as [E1 [E2 _]]. rewrite E2 in P. specialize (H f I P).
    unfold skip_default. destruct (f_default f) eqn:D; [rewrite D; apply orb_true_r|congruence].
Qed.
Lemma inline_tuple tm v prefix sp m ts sc c vs : plain_variant tm v -> v_shape v = ShUnnamed ->
  fine_items (as_struct v) -> Forall uniform_missing (v_raw v) ->
  whole (v_inline v tm prefix sp m) [mkStream ts sc c] vs <->
  exists its os, values_in v ts its /\ positional (v_raw v) its os /\ tuple_values (as_struct v) tm os vs.
Proof.
  intros PV SH FI UM. assert (TS : tuple_struct (as_struct v)).
  { split; [eapply as_struct_accepted; eauto|]. split; auto. split; [eapply as_struct_flat; eauto|discriminate]. }
  destruct (tuple_fields_ok (as_struct v) tm TS FI UM) as [P1 [WE [P2 P3]]].
  assert (FE : s_fields tm (as_struct v) = v_fields v) by (apply as_struct_fields, PV).
  pose proof (tuple_struct_ok (as_struct v) tm m sp prefix true 0 [mkStream ts sc c] vs TS FI UM) as X.
  assert (SB : s_body (as_struct v) tm m sp prefix true 0 [mkStream ts sc c] =
    (after_and_thens [] (fst (unnamed_body (v_fields v) tm None false m sp 0 [mkStream ts sc c])), snd (unnamed_body (v_fields v) tm None false m sp 0 [mkStream ts sc c]))).
  { unfold s_body. cbn [s_shape s_default s_and_thens as_struct]. rewrite SH, FE. unfold p_and_thens. now destruct (unnamed_body _ _ _ _ _ _ _ _). }
  rewrite SB in X. cbn [fst snd] in X. rewrite after_and_thens_ok in X.
  assert (Y : whole (v_inline v tm prefix sp m) [mkStream ts sc c] vs <->
    (exists ws, fst (unnamed_body (v_fields v) tm None false m sp 0 [mkStream ts sc c]) = Ok ws /\ chained [] ws vs) /\
    Forall used_up (snd (unnamed_body (v_fields v) tm None false m sp 0 [mkStream ts sc c]))).
  { unfold v_inline. rewrite SH. unfold whole. cbn [s_default as_struct] in WE. rewrite FE in P1, WE.
    rewrite (unnamed_ok (v_fields v) P1 tm None true m sp 0 [mkStream ts sc c] vs WE ltac:(discriminate)).
    rewrite <- (unnamed_ok (v_fields v) P1 tm None false m sp 0 [mkStream ts sc c] vs WE ltac:(discriminate)).
    split.
    - intros [H1 H2]. split; auto. exists vs. split; auto. constructor.
    - intros [[ws [H1 C]] H2]. inversion C; subst. auto. }
  rewrite Y, X. clear X Y SB. cbn [s_raw s_and_thens as_struct].
  destruct (filter is_parsable (v_raw v)) as [|f0 fl] eqn:FL.
  - assert (NP : forall f, In f (v_raw v) -> is_parsable f = false).
    { intros f I. destruct (is_parsable f) eqn:E; auto. assert (Z : In f (filter is_parsable (v_raw v))) by (apply filter_In; auto). rewrite FL in Z. destruct Z. }
    assert (PN : forall its os, positional (v_raw v) its os -> its = []).
    { intros its os H. clear -H NP. induction H; auto.
      - exfalso. rewrite NP in H by (left; auto). discriminate.
      - apply IHpositional. intros g I. apply NP. now right. }
    cbn [length]. split.
    + intros [l1 [os [ws [S1 [S2 [S3 C]]]]]]. inversion C; subst. assert (I := PN _ _ S2). rewrite I in S2. exists [], os. split; auto.
      right. split; auto. split; auto. assert (U : used_up (mkStream ts sc c)) by (apply none_items; eauto).
      destruct U as [U|[t [U1 U2]]]; [now left|]. right. exists t. split; auto. now apply comma_tok_is.
    + intros [its [os [VI [S2 S3]]]]. assert (I := PN _ _ S2). subst its.
      assert (U : used_up (mkStream ts sc c)).
      { destruct VI as [I|[_ [B _]]].
        - left. cbn [toks]. destruct ts as [|t r]; auto. exfalso. unfold items in I. symmetry in I. apply map_eq_nil in I. cbn [pieces] in I. destruct (is_comma t); [discriminate|]. destruct (pieces r) as [|[]]; discriminate.
        - destruct B as [->|[t [B ->]]]; [now left|]. right. exists t. split; auto. now apply comma_tok_is. }
      apply none_items in U as [l1 [S1 I]]. exists l1, os, vs. rewrite I. repeat split; auto; try apply S3. constructor.
  - assert (NZ : 0 < length (f0 :: fl)) by (simpl; lia).
    assert (IP : In f0 (v_raw v) /\ is_parsable f0 = true) by (apply filter_In; rewrite FL; now left).
    split.
    + intros [l1 [os [ws [S1 [S2 [S3 C]]]]]]. inversion C; subst. rewrite (single_items _ _ _ NZ S1) in S2. exists (items ts), os. split; auto. now left.
    + intros [its [os [VI [S2 S3]]]]. destruct VI as [->|[_ [_ N]]]; [|destruct IP as [I1 I2]; rewrite (N f0 I1) in I2; discriminate].
      exists [mkStream ts sc c], os, vs. rewrite items_of_one. repeat split; auto; try apply S3; [|constructor].
      exists []. rewrite app_nil_r. split; auto. split; [|auto].
      assert (LE : length (elems [mkStream ts sc c]) = length (items ts)) by (rewrite <- (map_length el_toks), elems_items; now rewrite items_of_one).
      cbn [Nat.add]. rewrite LE, <- FL. clear -S2. induction S2; cbn [filter]; rewrite ?H; cbn [length]; lia.
Qed.
Lemma l_variant_tuple tm v prefix ksp body vs : plain_variant tm v -> v_shape v = ShUnnamed ->
  fine_items (as_struct v) -> Forall uniform_missing (v_raw v) ->
  accepts (v_named v tm prefix ksp) body vs <->
  exists ts its os, (body = [] /\ ts = [] /\ all_default v \/ content ShUnnamed body ts) /\
    values_in v ts its /\ positional (v_raw v) its os /\ tuple_values (as_struct v) tm os vs.
Proof.
  intros PV SH FI UM. unfold v_named, v_item. rewrite named_spellings by (intro m; apply v_inline_good, PV).
  unfold v_flag. rewrite SH.
  assert (IN := fun m ts sc c => inline_tuple tm v prefix ksp m ts sc c vs PV SH FI UM).
  split.
  - intros [[-> H]|[[ts [gsp [-> H]]]|[j [esp [ts [gsp [-> H]]]]]]].
    + destruct (allows_empty None (v_fields v)) eqn:AE; [|discriminate]. apply (allows_default tm v PV) in AE.
      apply (empty_inline tm v prefix ksp _ _ vs PV), (root_whole tm v prefix ksp _ vs PV) in H. apply IN in H as [its [os H]].
      exists [], its, os. auto.
    + specialize (H None). apply IN in H as [its [os H]]. exists ts, its, os. split; auto. right. constructor.
    + specialize (H None). apply IN in H as [its [os H]]. exists ts, its, os. split; auto. right. apply (Co_equals ShUnnamed).
  - intros [ts [its [os [[[-> [-> AD]]|C] H]]]].
    + left. split; auto. rewrite (proj2 (allows_default tm v PV) AD). apply (empty_inline tm v prefix ksp _ _ vs PV), (root_whole tm v prefix ksp _ vs PV). apply IN. eauto.
    + right. inversion C; subst; [left; exists ts, gsp|right; exists j, esp, ts, gsp]; (split; [reflexivity|]); intro c; apply IN; eauto.
Qed.
End W.
