(** Option, Flag, bool, append and rest fields, quoted, Punctuated, SpannedValue. *)
From Verif Require Export LemImpl.

Section O.
Context {env : Env}.
Lemma items_no_comma l seg : In seg (items_of l) -> no_comma seg.
Proof.
  rewrite <- elems_items. intro H. apply in_map_iff in H as [x [<- I]]. now apply elem_of in I.
Qed.
(** *** named items *)
Lemma option_named {A} (d : dict A) n sp s :
  d_named (option_dict d) n sp s = pmap Some (parse_named_with (d_item d) (def_inline (d_item d)) (d_flag d) sp) s.
Proof.
  unfold option_dict, dict_item_flag_missing, def_named. cbn [d_named]. unfold parse_named_with. unfold pmap. destruct (peek_eq s).
  { unfold pbind. destruct (parse_eq s) as [[] s1]; auto. }
  destruct (peek_group Paren s); [|reflexivity].
  unfold parse_delimited_with, with_group. destruct (toks s) as [|[] ts]; try reflexivity.
  destruct (delim_eqb Paren d0); [|reflexivity]. unfold pbind, on_single, def_inline, parse_first, pbind. cbn [option_item]. unfold pmap, pret.
  destruct (d_item d (Named sp) (group_content ts0 sp0 (cell s))) as [[v|e|b] s1]; cbn [rmap rbind]; auto.
  destruct (parse_eof s1) as [[[]|e|b] s2]; cbn [rmap rbind hd]; auto. destruct (parse_eof s2) as [[[]|e|b] s3]; cbn; auto.
Qed.
Lemma l_option_named A (d : dict A) n sp s : standard d -> (forall m l, d_inline d m l = def_inline (d_item d) m l) ->
  fst (d_named (option_dict d) n sp s) = rmap Some (fst (d_named d n sp s)) /\
  snd (d_named (option_dict d) n sp s) = snd (d_named d n sp s).
Proof.
  intros ST IN. rewrite option_named, (ST n sp s). unfold def_named.
  assert (E : parse_named_with (d_item d) (def_inline (d_item d)) (d_flag d) sp s = parse_named_with (d_item d) (d_inline d) (d_flag d) sp s).
  { unfold parse_named_with. destruct (peek_eq s); auto. destruct (peek_group Paren s); auto. unfold parse_delimited_with, with_group.
    destruct (toks s) as [|[] ts]; auto. destruct (delim_eqb Paren d0); auto. unfold pbind, on_single. now rewrite IN. }
  rewrite <- E. unfold pmap. destruct (parse_named_with (d_item d) (def_inline (d_item d)) (d_flag d) sp s) as [[] ?]; auto.
Qed.
(** for all types: the values after `=` and the bare name; never None *)
Lemma l_option_unparenthesised A (d : dict A) n sp s : standard d -> (forall ts gsp rest, toks s <> TGroup Paren ts gsp :: rest) ->
  fst (d_named (option_dict d) n sp s) = rmap Some (fst (d_named d n sp s)) /\
  snd (d_named (option_dict d) n sp s) = snd (d_named d n sp s).
Proof.
  intros ST NP. rewrite option_named, (ST n sp s). unfold def_named.
  assert (E : parse_named_with (d_item d) (def_inline (d_item d)) (d_flag d) sp s = parse_named_with (d_item d) (d_inline d) (d_flag d) sp s).
  { unfold parse_named_with. destruct (peek_eq s); auto. destruct (peek_group Paren s) eqn:G; auto. exfalso. unfold peek_group in G.
    destruct (toks s) as [|[] ts]; try discriminate. destruct d0; try discriminate. now apply (NP ts0 sp0 ts). }
  rewrite <- E. unfold pmap. destruct (parse_named_with (d_item d) (def_inline (d_item d)) (d_flag d) sp s) as [[] ?]; auto.
Qed.
Lemma l_option_some A (d : dict A) n sp s o : fst (d_named (option_dict d) n sp s) = Ok o -> exists v, o = Some v.
Proof.
  rewrite option_named. unfold pmap. destruct (parse_named_with (d_item d) (def_inline (d_item d)) (d_flag d) sp s) as [[] ?]; cbn; intro H; inversion H; eauto.
Qed.
Lemma peek_kw_true k s : peek_kw k s = true <-> exists sp r, toks s = TIdent k sp :: r.
Proof.
  unfold peek_kw. destruct (toks s) as [|[i sp| | |] r]; try (split; [discriminate|intros [? [? ?]]; discriminate]).
  rewrite String.eqb_eq. split; [intros <-; eauto|intros [? [? H]]; congruence].
Qed.
Lemma l_option_unnamed A (d : dict A) s o : good_dict d ->
  fst (d_item (option_dict d) Unnamed s) = Ok o <->
  (o = None /\ exists sp r, toks s = TIdent "None" sp :: r) \/
  (exists v sp ts gsp r, o = Some v /\ toks s = TIdent "Some" sp :: TGroup Paren ts gsp :: r /\
     whole (d_inline d Unnamed) [mkStream ts (SClose gsp) (cell s)] v).
Proof.
  intro G. cbn [d_item option_dict dict_item_flag_missing option_item].
  destruct (peek_kw "Some" s) eqn:S1.
  - apply peek_kw_true in S1 as [sp [r T]]. unfold pbind at 1. unfold parse_kw. rewrite T.
    change (String.eqb "Some" "Some") with true. cbv iota. unfold pmap.
    set (q := parse_delimited_with Paren (on_single (d_inline d Unnamed)) (set_toks s r)).
    assert (Q : forall v, fst q = Ok v <-> exists ts gsp rest, r = TGroup Paren ts gsp :: rest /\ whole (d_inline d Unnamed) [mkStream ts (SClose gsp) (cell s)] v).
    { intro v. unfold q. rewrite delimited_ok by apply G. reflexivity. }
    replace (fst (let (r0, s1) := q in (rmap Some r0, s1))) with (rmap Some (fst q)) by (destruct q; reflexivity).
    split.
    + intro H. right. destruct (fst q) as [v|e|b] eqn:E; try discriminate. injection H as <-.
      destruct (proj1 (Q v) eq_refl) as [ts [gsp [rest [-> W]]]]. exists v, sp, ts, gsp, rest. auto.
    + intros [[-> [sp' [r' T']]]|[v [sp' [ts [gsp [rest [-> [T' W]]]]]]]]; [congruence|].
      injection T' as _ E. assert (X : fst q = Ok v) by (apply Q; exists ts, gsp, rest; auto). now rewrite X.
  - destruct (peek_kw "None" s) eqn:N1.
    + apply peek_kw_true in N1 as [sp [r T]]. unfold pbind, parse_kw. rewrite T.
      change (String.eqb "None" "None") with true. cbv iota. cbn. split.
      * intro H. left. split; [congruence|]. now exists sp, r.
      * intros [[-> _]|[v [sp' [ts [gsp [rest [_ [T' _]]]]]]]]; [reflexivity|congruence].
    + cbn. split; [discriminate|]. intros [[_ H]|[v [sp' [ts [gsp [rest [_ [T' _]]]]]]]].
      * apply peek_kw_true in H. congruence.
      * assert (X : peek_kw "Some" s = true) by (apply peek_kw_true; eauto). congruence.
Qed.

(** *** absent fields *)
Context {V : Type}.
Lemma pitem_flags (f : field V) : pitem f = true -> f_container f = false /\ f_skip f = false.
Proof. unfold pitem, is_parsable. destruct (f_container f), (f_skip f); auto; discriminate. Qed.
Lemma left_out_missing (s : sdef V) tm prefix sp i f d x w : pitem f = true -> f_kind f = KItem d -> f_default f = None -> s_default s = None ->
  (forall n sp, d_missing d n sp = Ok w) -> left_out s tm prefix sp i f x <-> transformed (f_transforms f) w x.
Proof.
  intros P K D SD M. destruct (pitem_flags f P) as [FC FS].
  assert (FD : field_default s tm f = None) by (unfold field_default; rewrite D, FS, FC; destruct tm; reflexivity).
  split.
  - intros [pn obj E|w' E1 E2|t E1 E2 E3|d' w' E1 E2 E3 E4 E5]; congruence.
  - intro T. eapply LO_missing; eauto.
Qed.
Lemma l_absent_value (s : sdef V) tm prefix v sp inputs ws i f d w :
  parse_run s tm prefix v sp inputs (Ok ws) -> named_struct s -> distinct_names s -> Forall local_field (s_raw s) ->
  nth_error (s_raw s) i = Some f -> pitem f = true -> f_kind f = KItem d ->
  f_default f = None -> s_default s = None -> (forall n sp, d_missing d n sp = Ok w) ->
  exists vs x, chained (s_and_thens s) vs ws /\ nth_error vs i = Some x /\
    (~ has_key prefix f inputs -> transformed (f_transforms f) w x) /\
    (has_key prefix f inputs -> exists seg u, In seg (items_of inputs) /\ written prefix f seg u /\ transformed (f_transforms f) u x).
Proof.
  intros R NS DN LF N P K D SD M. destruct (l_present_or_left_out s tm prefix v sp inputs ws i f R NS DN LF N P) as [vs [x [C [X [A B]]]]].
  exists vs, x. split; auto. split; auto. split; auto. intro H. apply (left_out_missing s tm prefix sp i f d x w P K D SD M). auto.
Qed.
Lemma l_option_field A (s : sdef V) tm prefix v sp inputs ws i f (g : option A -> V) d :
  parse_run s tm prefix v sp inputs (Ok ws) -> named_struct s -> distinct_names s -> Forall local_field (s_raw s) ->
  nth_error (s_raw s) i = Some f -> pitem f = true -> f_kind f = KItem (dict_map g (option_dict d)) ->
  f_default f = None -> s_default s = None ->
  exists vs x, chained (s_and_thens s) vs ws /\ nth_error vs i = Some x /\
    (~ has_key prefix f inputs -> transformed (f_transforms f) (g None) x) /\
    (has_key prefix f inputs -> exists u, transformed (f_transforms f) (g (Some u)) x).
Proof.
  intros R NS DN LF N P K D SD.
  destruct (l_absent_value s tm prefix v sp inputs ws i f _ (g None) R NS DN LF N P K D SD) as [vs [x [C [X [H1 H2]]]]]; [reflexivity|].
  exists vs, x. split; auto. split; auto. split; auto. intro H. destruct (H2 H) as [seg [u [I [[k [ksp [body [IK [NB AC]]]]] T]]]].
  unfold item_named in AC. rewrite K in AC. destruct (AC [] SCall None ends_nil) as [AC1 _]. cbn [d_named dict_map] in AC1. unfold pmap in AC1.
  pose proof (l_option_some A d (first_name f) ksp (mkStream (body ++ []) SCall None)) as OS.
  destruct (d_named (option_dict d) (first_name f) ksp (mkStream (body ++ []) SCall None)) as [[o|e|b] s1]; cbn in AC1; try discriminate.
  destruct (OS o eq_refl) as [u' ->]. injection AC1 as <-. eauto.
Qed.

(** *** Flag *)
Lemma flag_named_value n sp t body sc c : is_comma t = false ->
  exists e, fst (d_named flag_dict n sp (mkStream (t :: body) sc c)) = Err e.
Proof.
  intro C. cbn [d_named flag_dict]. unfold is_empty, peek_comma, peek_punct. cbn [toks punct_rest orb].
  destruct t; try (eexists; reflexivity). cbn in C. rewrite Ascii.eqb_sym in C. rewrite C. eexists; reflexivity.
Qed.
Lemma flag_map_value (g : option span -> V) n sp body w : no_comma body -> accepts (d_named (dict_map g flag_dict) n sp) body w ->
  body = [] /\ w = g (Some sp).
Proof.
  intros N AC. destruct (AC [] SCall None ends_nil) as [AC1 AC2]. rewrite app_nil_r in AC1, AC2. cbn [d_named dict_map] in AC1. unfold pmap in AC1.
  destruct body as [|t body]; [cbn in AC1; injection AC1 as <-; auto|]. apply nc_cons in N as [C _].
  destruct (flag_named_value n sp t body SCall None C) as [e E]. destruct (d_named flag_dict n sp _) as [r s1]. cbn [fst] in E. subst r. discriminate.
Qed.
Lemma l_flag_field (s : sdef V) tm prefix v sp inputs ws i f (g : option span -> V) :
  parse_run s tm prefix v sp inputs (Ok ws) -> named_struct s -> distinct_names s -> Forall local_field (s_raw s) ->
  nth_error (s_raw s) i = Some f -> pitem f = true -> f_kind f = KItem (dict_map g flag_dict) ->
  f_default f = None -> s_default s = None ->
  exists vs x, chained (s_and_thens s) vs ws /\ nth_error vs i = Some x /\
    (~ has_key prefix f inputs -> transformed (f_transforms f) (g None) x) /\
    (has_key prefix f inputs -> exists seg k ksp, In seg (items_of inputs) /\ item_key seg = Some (k, ksp, []) /\
       named_by prefix f k /\ transformed (f_transforms f) (g (Some ksp)) x).
Proof.
  intros R NS DN LF N P K D SD.
  destruct (l_absent_value s tm prefix v sp inputs ws i f _ (g None) R NS DN LF N P K D SD) as [vs [x [C [X [H1 H2]]]]]; [reflexivity|].
  exists vs, x. split; auto. split; auto. split; auto. intro H. destruct (H2 H) as [seg [u [I [[k [ksp [body [IK [NB AC]]]]] T]]]].
  assert (NC : no_comma body). { destruct (key_suffix _ _ _ _ IK) as [pre E]. apply items_no_comma in I. rewrite E in I. now apply nc_app in I. }
  unfold item_named in AC. rewrite K in AC. destruct (flag_map_value _ _ _ _ _ NC AC) as [-> ->]. exists seg, k, ksp. auto.
Qed.
(** an occurrence of a field's name holds a value that the field accepts *)
Lemma ok_written (s : sdef V) tm prefix v sp inputs ws i f seg k ksp body :
  parse_run s tm prefix v sp inputs (Ok ws) -> named_struct s -> distinct_names s -> Forall local_field (s_raw s) ->
  nth_error (s_raw s) i = Some f -> pitem f = true -> In seg (items_of inputs) -> item_key seg = Some (k, ksp, body) -> named_by prefix f k ->
  exists w, accepts (item_named f (first_name f) ksp) body w.
Proof.
  intros R NS DN LF N P I IK NB. destruct (run_body _ _ _ _ _ _ _ R) as [m E]; [apply NS|]. symmetry in E. apply struct_text in E; auto.
  destruct E as [vs [[F _] _]]. rewrite Forall_forall in F. specialize (F seg I). pose proof (named_owner s tm prefix v k i f DN N P NB) as O.
  destruct F as [[j [w [k' [ksp' [body' [f' [IK' [O' A]]]]]]]]|[k' [ksp' [body' [IK' [O' _]]]]]].
  - assert (k' = k /\ ksp' = ksp /\ body' = body) as [-> [-> ->]] by (rewrite IK in IK'; injection IK' as -> -> ->; auto). rewrite O in O'. injection O' as _ <-. eauto.
  - assert (k' = k) by congruence. subst k'. rewrite O in O'. discriminate.
Qed.
Lemma l_flag_value_fails (s : sdef V) tm prefix v sp inputs r i f (g : option span -> V) seg k ksp body :
  parse_run s tm prefix v sp inputs r -> named_struct s -> distinct_names s -> Forall local_field (s_raw s) ->
  nth_error (s_raw s) i = Some f -> pitem f = true -> f_kind f = KItem (dict_map g flag_dict) ->
  In seg (items_of inputs) -> item_key seg = Some (k, ksp, body) -> named_by prefix f k -> body <> [] ->
  exists e, r = Err e.
Proof.
  intros R NS DN LF N P K I IK NB NE. assert (RT : returns r).
  { destruct (run_body _ _ _ _ _ _ _ R) as [m ->]; [apply NS|]. apply (s_body_good s tm m sp prefix v 0 (proj1 NS) inputs). }
  apply not_ok; auto. intros ws ->. destruct (ok_written s tm prefix v sp inputs ws i f seg k ksp body R NS DN LF N P I IK NB) as [w AC].
  assert (NC : no_comma body). { destruct (key_suffix _ _ _ _ IK) as [pre E]. apply items_no_comma in I. rewrite E in I. now apply nc_app in I. }
  unfold item_named in AC. rewrite K in AC. destruct (flag_map_value _ _ _ _ _ NC AC) as [-> _]. now destruct NE.
Qed.

(** *** append and rest fields *)
Lemma l_flat_value (s : sdef V) tm prefix v sp inputs ws i f :
  parse_run s tm prefix v sp inputs (Ok ws) -> named_struct s -> Forall local_field (s_raw s) ->
  nth_error (s_raw s) i = Some f -> pflat f = true ->
  exists vs x w l, chained (s_and_thens s) vs ws /\ nth_error vs i = Some x /\ transformed (f_transforms f) w x /\
    items_of l = items_of inputs /\ fst (flat_call f prefix sp (s_names s) l) = Ok w.
Proof.
  intros R NS LF N P. destruct (run_body _ _ _ _ _ _ _ R) as [m E]; [apply NS|]. symmetry in E. apply struct_text in E; auto.
  destruct E as [vs [[_ [_ [L H]]] C]]. cbn [r_fields struct_reader] in L. rewrite s_fields_len in L.
  destruct (nth_error vs i) as [x|] eqn:NX.
  2:{ apply nth_error_None in NX. rewrite L in NX. apply nth_error_None in NX. congruence. }
  assert (PP : is_parsable f = true) by (unfold pflat in P; now destruct (is_parsable f)).
  pose proof (s_fields_nth tm s i f N PP) as Ng. specialize (H i f x Ng NX).
  assert (FC : f_container f = false). { unfold pflat, is_parsable in P. destruct (f_container f); auto; discriminate. }
  assert (PI : pitem f = false). { unfold pitem, pflat in *. destruct (is_parsable f); auto. cbn in *. now rewrite P. }
  destruct H as [seg w I G T|w PF FL T|pn obj TM FC' T|w EX PF FC' FD T|t EX PF FC' FD SD NT|d w EX FC' FD SD K DM T]; try congruence.
  - pose proof (gives_pitem _ _ _ _ _ G Ng). congruence.
  - exists vs, x, w. eexists. split; [exact C|]. split; auto. split; [exact T|]. cbn [r_prefix r_allowed struct_reader] in FL.
    split; [|exact FL]. unfold flat_in. destruct (existsb pflat _); auto. apply items_of_fork.
  - exfalso. unfold pflat, is_flat in P. rewrite K in P. now rewrite andb_false_r in P.
Qed.
End O.
