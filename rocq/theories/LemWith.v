(** bool items, append and rest fields, quoted values, Punctuated, SpannedValue. *)
From Verif Require Export SpecWith LemColl3.

Section W.
Context {env : Env}.
(** *** bool *)
Lemma bool_lit s b s1 : d_item bool_dict Unnamed s = (Ok b, s1) <-> exists sp r, toks s = TIdent (bool_word b) sp :: r /\ s1 = set_toks s r.
Proof.
  cbn [d_item bool_dict dict_item_flag]. unfold pmap, parse_lit_as. split.
  - destruct (lit_rest (toks s)) as [[[l sp] r]|] eqn:L; [|cbn; discriminate]. unfold lit_rest in L.
    destruct (toks s) as [|t ts]; [discriminate|]. destruct t as [i isp|c j psp|l' lsp|d ts' gsp]; try discriminate.
    + destruct (String.eqb i "true") eqn:E1.
      * injection L as <- <- <-. cbn. intro H. injection H as <- <-. apply String.eqb_eq in E1. subst i. exists isp, ts. auto.
      * destruct (String.eqb i "false") eqn:E2; [|discriminate]. injection L as <- <- <-. cbn. intro H. injection H as <- <-. apply String.eqb_eq in E2. subst i. exists isp, ts. auto.
    + destruct ts as [|[] ts]; try discriminate. destruct (Ascii.eqb c "-"); [|discriminate]. destruct l0; try discriminate; injection L as <- <- <-; cbn; discriminate.
    + injection L as <- <- <-. cbn. destruct l'; discriminate.
  - intros [sp [r [T ->]]]. rewrite T. destruct b; reflexivity.
Qed.
Lemma eof_ok c : forall c2, parse_eof c = (Ok tt, c2) -> toks c2 = [] /\ (toks c = [] \/ exists t, comma_tok t /\ toks c = [t]).
Proof.
  intro c2. unfold parse_eof. destruct (toks c) as [|t r] eqn:T; [rewrite T; intro H; injection H as <-; auto|].
  destruct (is_comma t) eqn:C; cbn [toks set_toks].
  - destruct r; [|discriminate]. intro H. injection H as <-. cbn. split; auto. right. exists t. split; auto. now apply comma_tok_is.
  - rewrite T. discriminate.
Qed.
Lemma eof_run c : (toks c = [] \/ exists t, comma_tok t /\ toks c = [t]) -> exists c2, parse_eof c = (Ok tt, c2) /\ toks c2 = [].
Proof.
  unfold parse_eof. intros [E|[t [C E]]]; rewrite E; [rewrite E; eauto|]. apply comma_tok_is in C. rewrite C. cbn [toks set_toks]. eauto.
Qed.
Lemma l_bool n sp body b : no_comma body -> accepts (d_named bool_dict n sp) body b <-> bool_body body b.
Proof.
  intro N. cbn [d_named bool_dict dict_item_flag]. unfold def_named. split.
  - intro H. destruct (H [] SCall None ends_nil) as [H1 H2]. rewrite app_nil_r in *. clear H.
    set (st := mkStream body SCall None) in *.
    destruct body as [|t body]; [cbn in H1; injection H1 as <-; constructor|].
    destruct t as [i isp|c j psp|l lsp|d ts gsp].
    1,3: rewrite named_flag_case in H2 by (cbn; congruence); cbn in H2; discriminate.
    + destruct (Ascii.eqb eq_c c) eqn:E.
      * apply Ascii.eqb_eq in E. subst c. rewrite (named_eq_case _ _ _ _ _ _ st j psp body eq_refl) in H1, H2. subst st. cbn [scope cell] in H1, H2.
        destruct (pmap fst (parse_lit_as "boolean literal" sel_bool) (mkStream body SCall None)) as [r s1] eqn:Q. cbn [fst snd] in H1, H2. subst r.
        destruct (proj1 (bool_lit (mkStream body SCall None) b s1) Q) as [bsp [r [T ->]]]. cbn in H2, T. subst. constructor.
      * rewrite named_flag_case in H2 by (cbn; intros; try congruence; intro X; injection X as -> -> ->; discriminate). cbn in H2. discriminate.
    + destruct d.
      2,3: rewrite named_flag_case in H2 by (cbn; congruence); cbn in H2; discriminate.
      rewrite (named_paren_case _ _ _ _ _ _ st ts gsp body eq_refl) in H1, H2.
      rewrite (delimited_case _ _ _ _ st ts gsp body eq_refl) in H1, H2.
      unfold on_single, def_inline, parse_first, pbind in H1, H2.
      destruct (pmap fst (parse_lit_as "boolean literal" sel_bool) (mkStream ts (SClose gsp) (cell st))) as [[v|e|x] s1] eqn:Q; cbn in H1; try discriminate.
      destruct (parse_eof s1) as [[[]|e|x] s2] eqn:E1; cbn in H1; try discriminate.
      destruct (parse_eof s2) as [[[]|e|x] s3] eqn:E2; cbn in H1, H2; try discriminate. injection H1 as ->. cbn in H2. rewrite ?E2 in H2. cbn in H2. subst body.
      destruct (proj1 (bool_lit _ b s1) Q) as [bsp [r [T ->]]]. cbn in T. subst ts.
      destruct (eof_ok _ _ E1) as [_ Z]. cbn in Z. constructor. exact Z.
  - intros H tl sc c E. destruct H as [|b j esp bsp|b bsp commas gsp C].
    + cbn [app]. tailcase E; rewrite named_flag_case; cbn; intros; try discriminate; auto.
    + cbn [app]. rewrite (named_eq_case _ _ _ _ _ _ (mkStream (TPunct eq_c j esp :: TIdent (bool_word b) bsp :: tl) sc c) j esp (TIdent (bool_word b) bsp :: tl) eq_refl).
      pose proof (proj2 (bool_lit (mkStream (TIdent (bool_word b) bsp :: tl) sc c) b _) (ex_intro _ bsp (ex_intro _ tl (conj eq_refl eq_refl)))) as Q.
      cbn [d_item bool_dict dict_item_flag] in Q. cbn [scope cell]. rewrite Q. auto.
    + cbn [app]. rewrite (named_paren_case _ _ _ _ _ _ (mkStream (TGroup Paren (TIdent (bool_word b) bsp :: commas) gsp :: tl) sc c) (TIdent (bool_word b) bsp :: commas) gsp tl eq_refl).
      rewrite (delimited_case _ _ _ _ (mkStream (TGroup Paren (TIdent (bool_word b) bsp :: commas) gsp :: tl) sc c) (TIdent (bool_word b) bsp :: commas) gsp tl eq_refl).
      unfold on_single, def_inline, parse_first, pbind. cbn [scope cell].
      pose proof (proj2 (bool_lit (mkStream (TIdent (bool_word b) bsp :: commas) (SClose gsp) c) b _) (ex_intro _ bsp (ex_intro _ commas (conj eq_refl eq_refl)))) as Q.
      cbn [d_item bool_dict dict_item_flag] in Q. rewrite Q.
      destruct (eof_run (set_toks (mkStream (TIdent (bool_word b) bsp :: commas) (SClose gsp) c) commas) C) as [c2 [E1 E2]].
      cbn [set_toks toks scope cell] in *. rewrite E1. cbn [pret]. cbn [hd].
      destruct (eof_run c2 (or_introl E2)) as [c3 [E3 E4]]. rewrite E3. auto.
Qed.

(** *** Append and rest fields *)
Context {V : Type}.
Lemma pmap_ok {S A B} (g : A -> B) (p : pm S A) s w : fst (pmap g p s) = Ok w <-> exists v, fst (p s) = Ok v /\ w = g v.
Proof.
  unfold pmap. destruct (p s) as [[v|e|b] s1]; cbn; split; try discriminate; try (intros [v' [H _]]; discriminate).
  - intro H. injection H as <-. eauto.
  - intros [v' [H ->]]. now injection H as ->.
Qed.
Lemma flat_is_flat (f : field V) : is_parsable f = true -> (exists a, f_kind f = KAppend a) \/ (exists r, f_kind f = KRest r) -> pflat f = true.
Proof. intros P [[a K]|[a K]]; unfold pflat, is_flat; rewrite P, K; reflexivity. Qed.
Lemma l_append_field A (d : dict A) (g : list A -> V) (s : sdef V) tm prefix v sp inputs ws i f :
  fine d -> parse_run s tm prefix v sp inputs (Ok ws) -> named_struct s -> Forall local_field (s_raw s) ->
  nth_error (s_raw s) i = Some f -> is_parsable f = true -> f_kind f = KAppend (fun ps => pmap g (vec_append d ps)) ->
  exists vs x es, chained (s_and_thens s) vs ws /\ nth_error vs i = Some x /\ transformed (f_transforms f) (g es) x /\
    appended d (map (join_path prefix) (f_names f)) (items_of inputs) es.
Proof.
  intros FD R NS LF N P K.
  destruct (l_flat_value s tm prefix v sp inputs ws i f R NS LF N) as [vs [x [w [l [C [NX [T [I F]]]]]]]].
  { apply flat_is_flat; eauto. }
  unfold flat_call in F. rewrite K in F. apply pmap_ok in F as [es [F ->]]. apply vec_append_ok in F; auto. rewrite I in F.
  exists vs, x, es. auto.
Qed.
Lemma l_append_set_field A eqb (d : dict A) (g : list A -> V) (s : sdef V) tm prefix v sp inputs ws i f :
  fine d -> parse_run s tm prefix v sp inputs (Ok ws) -> named_struct s -> Forall local_field (s_raw s) ->
  nth_error (s_raw s) i = Some f -> is_parsable f = true -> f_kind f = KAppend (fun ps => pmap g (set_append eqb d ps)) ->
  exists vs x es, chained (s_and_thens s) vs ws /\ nth_error vs i = Some x /\ transformed (f_transforms f) (g es) x /\
    appended d (map (join_path prefix) (f_names f)) (items_of inputs) es /\ all_different eqb es.
Proof.
  intros FD R NS LF N P K.
  destruct (l_flat_value s tm prefix v sp inputs ws i f R NS LF N) as [vs [x [w [l [C [NX [T [I F]]]]]]]].
  { apply flat_is_flat; eauto. }
  unfold flat_call in F. rewrite K in F. apply pmap_ok in F as [es [F ->]]. apply set_append_ok in F; auto. rewrite I in F.
  destruct F. exists vs, x, es. auto 6.
Qed.
Lemma l_rest_field K A eqb (kstr : K -> string) (dk : dict K) (dv : dict A) (g : list (K * A) -> V) (s : sdef V) tm prefix v sp inputs ws i f :
  fine dk -> fine dv -> nonempty_keys dk ->
  parse_run s tm prefix v sp inputs (Ok ws) -> named_struct s -> Forall local_field (s_raw s) ->
  nth_error (s_raw s) i = Some f -> is_parsable f = true -> f_kind f = KRest (fun ex => pmap g (map_rest eqb kstr dk dv ex)) ->
  exists vs x sel kvs, chained (s_and_thens s) vs ws /\ nth_error vs i = Some x /\ transformed (f_transforms f) (g kvs) x /\
    selected kstr dk (s_names s) (items_of inputs) sel /\ Forall2 (accepts (map_entry kstr dk dv)) sel kvs /\
    all_different eqb (map fst kvs).
Proof.
  intros FK FV NE R NS LF N P KD.
  destruct (l_flat_value s tm prefix v sp inputs ws i f R NS LF N) as [vs [x [w [l [C [NX [T [I F]]]]]]]].
  { apply flat_is_flat; eauto. }
  unfold flat_call in F. rewrite KD in F. apply pmap_ok in F as [kvs [F ->]]. apply rest_ok in F; auto. rewrite I in F.
  destruct F as [sel [S1 [S2 S3]]]. exists vs, x, sel, kvs. auto 8.
Qed.

(** *** Quoted values *)
Lemma lit_str_ok s x sp rest : toks s = TLit (LStr x) sp :: rest -> parse_lit_str s = (Ok (x, sp), set_toks s rest).
Proof. intro T. unfold parse_lit_str, parse_lit_as, lit_rest. rewrite T. reflexivity. Qed.
Lemma lit_str_err s : ~ starts_str (toks s) -> exists e s1, parse_lit_str s = (Err e, s1).
Proof.
  intro N. unfold parse_lit_str, parse_lit_as. destruct (lit_rest (toks s)) as [[[l sp] r]|] eqn:L; [|cbn; eauto].
  unfold lit_rest in L. destruct (toks s) as [|t ts]; [discriminate|]. destruct t as [i isp|c j psp|l' lsp|d ts' gsp]; try discriminate.
  - destruct (String.eqb i "true"); [injection L as <- <- <-; cbn; eauto|].
    destruct (String.eqb i "false"); [injection L as <- <- <-; cbn; eauto|discriminate].
  - destruct ts as [|[] ts]; try discriminate. destruct (Ascii.eqb c "-"); [|discriminate]. destruct l0; try discriminate; injection L as <- <- <-; cbn; eauto.
  - injection L as <- <- <-. cbn. destruct l'; cbn; eauto. exfalso. apply N. unfold starts_str. eauto.
Qed.
Lemma peek_str s : peek_lit sel_str s = true <-> starts_str (toks s).
Proof.
  unfold peek_lit, lit_rest. split.
  - destruct (toks s) as [|t ts]; [discriminate|]. destruct t as [i isp|c j psp|l' lsp|d ts' gsp]; try discriminate.
    + destruct (String.eqb i "true"); [discriminate|]. destruct (String.eqb i "false"); discriminate.
    + destruct ts as [|[] ts]; try discriminate. destruct (Ascii.eqb c "-"); [|discriminate]. destruct l; discriminate.
    + destruct l'; try discriminate. intros _. unfold starts_str. eauto.
  - intros [x [sp [r ->]]]. reflexivity.
Qed.
Lemma respan_placed {A} sp (e : synerr) : placed_at sp (@Err A e) (Err (respan_all sp e)).
Proof.
  cbn [placed_at]. unfold respan_all, errs_of. cbn [se_hd se_tl map e_msg]. rewrite map_map. cbn [e_msg]. split; auto.
  constructor; auto. apply Forall_forall. intros y H. apply in_map_iff in H as [z [<- _]]. reflexivity.
Qed.
Definition lit_parse {A} (p : parser A) (x : string) : res A :=
  match env_lex x with inl ts => parse2 p ts | inr msg => Err (err1 SCall msg) end.
Lemma lit_parse_text {A} (p : parser A) x : text_parse p x (lit_parse p x).
Proof. unfold lit_parse. destruct (env_lex x) eqn:E; [now apply TP_tokens|]. now apply TP_no_tokens. Qed.
Lemma quoted_run A (p : parser A) s x sp rest : toks s = TLit (LStr x) sp :: rest ->
  exists r, placed_at sp (lit_parse p x) r /\ syn_quoted_item p s = (r, set_toks s rest).
Proof.
  intro T. unfold syn_quoted_item, pbind. rewrite (lit_str_ok _ _ _ _ T). cbn [fst snd]. fold (lit_parse p x).
  destruct (lit_parse p x) as [a|e|b]; [exists (Ok a)|exists (Err (respan_all sp e))|exists (Bad b)]; (split; [|reflexivity]); [reflexivity|apply respan_placed|reflexivity].
Qed.
Lemma quoted_syn A (d : dict A) m s : quoted_item d m s = syn_quoted_item (d_item d m) s.
Proof. reflexivity. Qed.
Lemma l_quoted A (d : dict A) m s x sp rest : toks s = TLit (LStr x) sp :: rest ->
  exists r, text_parse (d_item d m) x r /\
    placed_at sp r (fst (d_item (quoted_dict d) m s)) /\ snd (d_item (quoted_dict d) m s) = set_toks s rest.
Proof.
  intro T. exists (lit_parse (d_item d m) x). split; [apply lit_parse_text|]. cbn [d_item quoted_dict]. rewrite quoted_syn.
  destruct (quoted_run A (d_item d m) s x sp rest T) as [r [H ->]]. auto.
Qed.
Lemma l_syn_quoted A (p : parser A) m s x sp rest : toks s = TLit (LStr x) sp :: rest ->
  exists r, text_parse p x r /\
    placed_at sp r (fst (d_item (syn_quoted_dict p) m s)) /\ snd (d_item (syn_quoted_dict p) m s) = set_toks s rest.
Proof.
  intro T. exists (lit_parse p x). split; [apply lit_parse_text|]. cbn [d_item syn_quoted_dict dict_item_flag].
  destruct (quoted_run A p s x sp rest T) as [r [H ->]]. auto.
Qed.
Lemma l_quoted_only A (d : dict A) m s : ~ starts_str (toks s) -> exists e, fst (d_item (quoted_dict d) m s) = Err e.
Proof.
  intro N. cbn [d_item quoted_dict]. unfold quoted_item, pbind. destruct (lit_str_err s N) as [e [s1 ->]]. cbn. eauto.
Qed.
Lemma l_syn_quoted_only A (p : parser A) m s : ~ starts_str (toks s) -> exists e, fst (d_item (syn_quoted_dict p) m s) = Err e.
Proof.
  intro N. cbn [d_item syn_quoted_dict dict_item_flag]. unfold syn_quoted_item, pbind. destruct (lit_str_err s N) as [e [s1 ->]]. cbn. eauto.
Qed.
Lemma maybe_str A (d : dict A) m s : starts_str (toks s) -> maybe_quoted_item d m s = quoted_item d m s.
Proof. intro H. unfold maybe_quoted_item. now rewrite (proj2 (peek_str s) H). Qed.
Lemma maybe_other A (d : dict A) m s : ~ starts_str (toks s) -> maybe_quoted_item d m s = d_item d m s.
Proof. intro H. unfold maybe_quoted_item. destruct (peek_lit sel_str s) eqn:P; auto. apply peek_str in P. tauto. Qed.
Lemma l_maybe_plain A (d : dict A) m s : ~ starts_str (toks s) -> d_item (maybe_quoted_dict d) m s = d_item d m s.
Proof. apply maybe_other. Qed.
Lemma l_maybe_quoted A (d : dict A) m s x sp rest : toks s = TLit (LStr x) sp :: rest ->
  d_item (maybe_quoted_dict d) m s = d_item (quoted_dict d) m s.
Proof. intro H. apply maybe_str. unfold starts_str. eauto. Qed.
Lemma l_maybe_same A (d : dict A) m s x sp rest ts : toks s = TLit (LStr x) sp :: rest -> env_lex x = inl ts -> ~ starts_str ts ->
  placed_at sp (parse2 (d_item (maybe_quoted_dict d) m) ts) (fst (d_item (maybe_quoted_dict d) m s)).
Proof.
  intros T L N. rewrite (l_maybe_quoted A d m s x sp rest T). cbn [d_item quoted_dict]. rewrite quoted_syn.
  destruct (quoted_run A (d_item d m) s x sp rest T) as [r [H ->]]. cbn [fst]. unfold lit_parse in H. rewrite L in H.
  unfold parse2 in *. cbn [d_item maybe_quoted_dict]. rewrite maybe_other; auto.
Qed.
Lemma l_quoted_named A (d : dict A) n nsp s j esp x sp rest : toks s = TPunct eq_c j esp :: TLit (LStr x) sp :: rest ->
  exists r, text_parse (d_item d (Named nsp)) x r /\ placed_at sp r (fst (d_named (quoted_dict d) n nsp s)) /\
    toks (snd (d_named (quoted_dict d) n nsp s)) = rest.
Proof.
  intro T. cbn [d_named quoted_dict]. unfold def_named. rewrite (named_eq_case _ _ _ _ _ _ s j esp _ T).
  destruct (l_quoted A d (Named nsp) (mkStream (TLit (LStr x) sp :: rest) (scope s) (cell s)) x sp rest eq_refl) as [r [H1 [H2 H3]]].
  exists r. cbn [d_item quoted_dict] in H2, H3. rewrite H3. auto.
Qed.
Lemma l_quoted_paren A (d : dict A) n nsp s x sp gsp rest :
  toks s = TGroup Paren [TLit (LStr x) sp] gsp :: rest ->
  exists r, text_parse (d_item d (Named nsp)) x r /\ placed_at sp r (fst (d_named (quoted_dict d) n nsp s)) /\
    toks (snd (d_named (quoted_dict d) n nsp s)) = rest.
Proof.
  intro T. cbn [d_named quoted_dict]. unfold def_named. rewrite (named_paren_case _ _ _ _ _ _ s _ gsp _ T).
  rewrite (delimited_case _ _ _ _ s _ gsp _ T). unfold on_single, def_inline, parse_first, pbind.
  destruct (l_quoted A d (Named nsp) (mkStream [TLit (LStr x) sp] (SClose gsp) (cell s)) x sp [] eq_refl) as [r [H1 [H2 H3]]].
  exists r. split; auto. cbn [d_item quoted_dict] in H2, H3. destruct (quoted_item d (Named nsp) _) as [r2 s2]. cbn [fst snd] in H2, H3. subst s2.
  destruct r2 as [v|e|b]; cbn; auto.
Qed.

(** *** SpannedValue *)
Lemma sp_rmap {A} (r : res A) (f : A -> A * span) : (forall v, fst (f v) = v) -> unspan (rmap f r) = r.
Proof. intro H. destruct r; cbn; now rewrite ?H. Qed.
Lemma l_spanned A (d : dict A) : forall m,
  spans (d_item (spanned_dict d) m) (d_item d m) /\ spans (d_inline (spanned_dict d) m) (d_inline d m) /\
  (forall n sp, spans (d_named (spanned_dict d) n sp) (d_named d n sp)) /\
  (forall sp, unspan (d_flag (spanned_dict d) sp) = d_flag d sp).
Proof.
  intro m. cbn [d_item d_inline d_named d_flag spanned_dict]. refine (conj _ (conj _ (conj _ _))).
  - intro s. unfold sv_item. destruct (d_item d m s). cbn [fst snd]. split; auto. now apply sp_rmap.
  - intro s. unfold sv_inline. destruct (d_inline d m s). cbn [fst snd]. split; auto. now apply sp_rmap.
  - intros n sp s. unfold sv_named. destruct (d_named d n sp s). cbn [fst snd]. split; auto. now apply sp_rmap.
  - intro sp. now apply sp_rmap.
Qed.
Lemma sv_spans A (p : mparser A) : spans (sv_multi p) p.
Proof. intro s. unfold sv_multi. destruct (p s). cbn [fst snd]. split; auto. now apply sp_rmap. Qed.
Lemma l_spanned_flat A (u : flat_unnamed A) (w : flat_named A) (a : append_fn A) (r : rest_fn A) :
  (fu_count (spanned_fu u) = fu_count u /\ forall m i, spans (fu_parse (spanned_fu u) m i) (fu_parse u m i)) /\
  (fn_names (spanned_fn w) = fn_names w /\ fn_accepts_all (spanned_fn w) = fn_accepts_all w /\
   forall m p v, spans (fn_parse (spanned_fn w) m p v) (fn_parse w m p v)) /\
  (forall ps, spans (spanned_append a ps) (a ps)) /\ (forall ex, spans (spanned_rest r ex) (r ex)).
Proof. refine (conj (conj eq_refl _) (conj (conj eq_refl (conj eq_refl _)) (conj _ _))); intros; apply sv_spans. Qed.
Lemma l_spanned_ops A H (eqb : A -> A -> bool) (cmp : A -> A -> comparison) (h : A -> H) (disp : A -> string) v w a b a' b' :
  sv_eq eqb (v, a) (w, b) = sv_eq eqb (v, a') (w, b') /\ sv_eq eqb (v, a) (w, b) = eqb v w /\
  sv_cmp cmp (v, a) (w, b) = cmp v w /\ sv_hash h (v, a) = h v /\ sv_display disp (v, a) = disp v.
Proof. auto. Qed.
End W.
