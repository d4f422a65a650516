(** Types whose values are one or two tokens. *)
From Verif Require Import LemSmall LemWf LemMore.
From Verif Require Export SpecPrim.

Section P.
Context {env : Env}.

Lemma stream_eq (a b : stream) : toks a = toks b -> scope a = scope b -> cell a = cell b -> a = b.
Proof. destruct a, b. cbn. congruence. Qed.

(** a value read by looking at the first tokens only *)
Lemma lit_inv s l sp r : lit_rest (toks s) = Some (l, sp, r) ->
  (exists x, toks s = TLit x sp :: r /\ l = PLit false x) \/
  (exists b : bool, toks s = TIdent (if b then "true" else "false") sp :: r /\ l = PBool b) \/
  (exists j x lsp, toks s = TPunct "-" j sp :: TLit x lsp :: r /\ l = PLit true x /\ ((exists n, x = LInt n) \/ exists d, x = LFloat d)).
Proof.
  unfold lit_rest. destruct (toks s) as [|[i isp|c j psp|x lsp|d ts gsp] rest]; try discriminate.
  - destruct (String.eqb_spec i "true") as [->|]; [intro H; injection H as <- <- <-; right; left; exists true; auto|].
    destruct (String.eqb_spec i "false") as [->|]; [intro H; injection H as <- <- <-; right; left; exists false; auto|discriminate].
  - destruct rest as [|[|? ? ?|x lsp|] rest]; try discriminate. destruct (Ascii.eqb_spec c "-") as [->|]; [|discriminate].
    destruct x; try discriminate; intro H; injection H as <- <- <-; right; right; exists j; eexists; exists lsp; split; [reflexivity| |reflexivity|];
      (split; [reflexivity|]); eauto.
  - intro H. injection H as <- <- <-. left. eauto.
Qed.
Lemma lit_as_iff {A} what (sel : plit -> option A) s v s' : pmap fst (parse_lit_as what sel) s = (Ok v, s') <->
  exists l sp, lit_rest (toks s) = Some (l, sp, toks s') /\ sel l = Some v /\ scope s' = scope s /\ cell s' = cell s.
Proof.
  unfold pmap, parse_lit_as. split.
  - destruct (lit_rest (toks s)) as [[[l sp] r]|] eqn:L; [|discriminate]. destruct (sel l) as [a|] eqn:S; cbn; [|discriminate].
    intro H. injection H as <- <-. exists l, sp. auto.
  - intros [l [sp [-> [-> [E F]]]]]. cbn. f_equal. apply stream_eq; auto.
Qed.
Lemma lit_as_err {A} what (sel : plit -> option A) s :
  (exists v s', parse_lit_as what sel s = (Ok v, s')) \/
  exists msg s', parse_lit_as what sel s = (Err (mkSyn (mkErr (in_span s) msg) []), s').
Proof.
  unfold parse_lit_as. destruct (lit_rest (toks s)) as [[[l sp] r]|] eqn:L.
  - destruct (sel l); [left; eauto|right]. unfold error_at. unfold in_span. destruct (toks s); [discriminate L|]. unfold err1. eauto.
  - right. unfold error_at, in_span, err1. destruct (toks s); eauto.
Qed.
Lemma in_span_next s : placed_next s (in_span s).
Proof.
  unfold in_span. destruct (toks s) as [|t r] eqn:E; [now constructor|]. destruct t; cbn [tok_open_span];
    [eapply (PN_token s (TIdent _ _))|eapply (PN_token s (TPunct _ _ _))|eapply (PN_token s (TLit _ _))|eapply PN_open]; exact E.
Qed.

Lemma lit_place {A} what (sel : plit -> option A) s v sp s' : parse_lit_as what sel s = (Ok (v, sp), s') -> placed_next s sp.
Proof.
  unfold parse_lit_as. destruct (lit_rest (toks s)) as [[[l lsp] r]|] eqn:L; [|discriminate]. destruct (sel l); [|discriminate].
  intro H. injection H as _ <- _. destruct (lit_inv _ _ _ _ L) as [[x [X _]]|[[b [X _]]|[j [x [lsp2 [X _]]]]]];
    [apply (PN_token s (TLit x lsp) _ X)|apply (PN_token s (TIdent _ lsp) _ X)|apply (PN_token s (TPunct _ _ lsp) _ X)].
Qed.
Lemma from_str_iff {A} (fs : string -> A + string) s v s' : from_str_item fs s = (Ok v, s') <->
  exists b, w_from_str fs b v /\ toks s = b ++ toks s' /\ scope s' = scope s /\ cell s' = cell s.
Proof.
  unfold from_str_item, pbind, parse_lit_str, parse_lit_as. split.
  - destruct (lit_rest (toks s)) as [[[l sp] r]|] eqn:L; [|discriminate]. destruct (sel_str l) as [x|] eqn:S; [|discriminate].
    cbn [fst snd]. destruct (fs x) as [y|msg] eqn:F; [|discriminate]. intro H. injection H as <- <-.
    destruct (lit_inv _ _ _ _ L) as [[z [X ->]]|[[b [X ->]]|[j [z [lsp [X [-> Y]]]]]]]; cbn in S; try discriminate S.
    destruct z; try discriminate S. injection S as <-. eexists [_]. split; [econstructor; exact F|]. split; [exact X|auto].
  - intros [b [[x sp y F] [X [E G]]]]. cbn [app] in X. rewrite X. cbn. rewrite F. f_equal. apply stream_eq; auto.
Qed.
Lemma l_reads A d w bare gone : simple_type A d w bare gone -> forall m, reads (d_item d m) w.
Proof.
  intros T m s v s'. destruct T; cbn [d_item].
  - cbn [string_dict dict_item d_item]. unfold parse_lit_str. rewrite lit_as_iff. split.
    + intros [l [sp [L [S [E F]]]]]. destruct (lit_inv _ _ _ _ L) as [[x [X ->]]|[[b [X ->]]|[j [x [lsp [X [-> Y]]]]]]]; cbn in S; try discriminate S.
      destruct x; try discriminate S. injection S as <-. exists [TLit (LStr s0) sp]. split; [constructor|auto].
    + intros [b [[x sp] [X [E F]]]]. exists (PLit false (LStr x)), sp. cbn [app] in X. rewrite X. auto.
  - cbn [char_dict dict_item d_item]. rewrite lit_as_iff. split.
    + intros [l [sp [L [S [E F]]]]]. destruct (lit_inv _ _ _ _ L) as [[x [X ->]]|[[b [X ->]]|[j [x [lsp [X [-> Y]]]]]]]; cbn in S; try discriminate S.
      destruct x; try discriminate S. injection S as <-. exists [TLit (LChar c) sp]. split; [constructor|auto].
    + intros [b [[x sp] [X [E F]]]]. exists (PLit false (LChar x)), sp. cbn [app] in X. rewrite X. auto.
  - cbn [float_dict dict_item d_item]. rewrite lit_as_iff. split.
    + intros [l [sp [L [S [E F]]]]]. destruct (lit_inv _ _ _ _ L) as [[x [X ->]]|[[b [X ->]]|[j [x [lsp [X [-> Y]]]]]]]; cbn in S; try discriminate S.
      * destruct x; try discriminate S. injection S as <-. eexists [_]. split; [econstructor|split; [first [exact X|reflexivity]|auto]].
      * destruct x; try discriminate S. injection S as <-. eexists [_; _]. split; [econstructor|split; [exact X|auto]].
    + intros [b [[x sp|x j psp sp] [X [E F]]]]; cbn [app] in X; rewrite X; [exists (PLit false (LFloat x)), sp|exists (PLit true (LFloat x)), psp]; auto.
  - cbn [bool_dict dict_item_flag d_item]. rewrite lit_as_iff. split.
    + intros [l [sp [L [S [E F]]]]]. destruct (lit_inv _ _ _ _ L) as [[x [X ->]]|[[b [X ->]]|[j [x [lsp [X [-> Y]]]]]]]; cbn in S; try discriminate S.
      injection S as <-. destruct b; eexists [_]; (split; [econstructor|split; [exact X|auto]]).
    + intros [b [[sp|sp] [X [E F]]]]; cbn [app] in X; rewrite X; [exists (PBool true), sp|exists (PBool false), sp]; auto.
  - split.
    + intro Q. pose proof (l_int_sound env k m s v s' H Q) as [R W]. destruct W as [[n [sp [X ->]]]|[j [psp [n [sp [X ->]]]]]].
      * pose proof (l_int_complete env k m s H) as [C _]. destruct (C n sp _ X) as [C1 _]. rewrite (C1 R) in Q. injection Q as <-.
        exists [TLit (LInt n) sp]. split; [now constructor|auto].
      * destruct (ik_signed k) eqn:SG.
        -- pose proof (l_int_complete env k m s) as C. rewrite SG in C. destruct (C ltac:(discriminate)) as [_ C2].
           destruct (C2 n j psp sp _ X eq_refl) as [C1 _]. rewrite (C1 R) in Q. injection Q as <-.
           exists [TPunct "-" j psp; TLit (LInt n) sp]. split; [now constructor|auto].
        -- exfalso. cbn [int_dict dict_item d_item] in Q. unfold parse_int, pbind, parse_lit_as in Q. rewrite X in Q. cbn [lit_rest] in Q. cbn in Q.
           unfold int_from_str in Q. rewrite SG in Q. cbn in Q. discriminate Q.
    + intros [b [[n sp R|n j psp sp SG R] [X [E F]]]]; cbn [app] in X; destruct (l_int_complete env k m s H) as [C1 C2].
      * destruct (C1 n sp _ X) as [C _]. rewrite (C R). f_equal. apply stream_eq; auto.
      * destruct (C2 n j psp sp _ X SG) as [C _]. rewrite (C R). f_equal. apply stream_eq; auto.
  - rewrite (l_u8 env m s v s'). split.
    + intros [t [X [E [F [[b [sp [-> ->]]]|[n [sp [-> [-> R]]]]]]]]]; eexists [_]; (split; [econstructor; try lia|split; [exact X|auto]]).
    + intros [b [[b' sp|n sp R] [X [E F]]]]; cbn [app] in X; eexists; (split; [exact X|]); (split; [exact E|]); (split; [exact F|]); [left|right]; eauto 6.
      exists n, sp. repeat split; auto; lia.
  - cbn [ident_dict dict_item d_item]. unfold parse_any_ident. destruct (toks s) as [|t r] eqn:X.
    + split; [discriminate|]. intros [b [[i sp] [Y _]]]. discriminate Y.
    + destruct t; try (split; [discriminate|intros [b [[i' sp'] [Y _]]]; discriminate Y]). split.
      * intro H. injection H as <- <-. eexists [_]. split; [econstructor|split; [first [exact X|reflexivity]|auto]].
      * intros [b [[i' sp'] [Y [E F]]]]. injection Y; intros; subst; f_equal; apply stream_eq; auto.
  - cbn [tokentree_dict dict_item d_item]. destruct (toks s) as [|t r] eqn:X.
    + split; [discriminate|]. intros [b [[i] [Y _]]]. discriminate Y.
    + split.
      * intro H. injection H as <- <-. eexists [_]. split; [econstructor|split; [first [exact X|reflexivity]|auto]].
      * intros [b [[i'] [Y [E F]]]]. injection Y; intros; subst; f_equal; apply stream_eq; auto.
  - cbn [literal_dict one_token_dict dict_item d_item]. destruct (toks s) as [|t r] eqn:X.
    + split; [discriminate|]. intros [b [[i] [Y _]]]. discriminate Y.
    + destruct t; try (split; [discriminate|intros [b [[i'] [Y _]]]; discriminate Y]). split.
      * intro H. injection H as <- <-. eexists [_]. split; [econstructor|split; [first [exact X|reflexivity]|auto]].
      * intros [b [[i'] [Y [E F]]]]. injection Y; intros; subst; f_equal; apply stream_eq; auto.
  - cbn [punct_dict one_token_dict dict_item d_item]. destruct (toks s) as [|t r] eqn:X.
    + split; [discriminate|]. intros [b [[c j sp N] [Y _]]]. discriminate Y.
    + destruct t; try (split; [discriminate|intros [b [[c' j' sp' N] [Y _]]]; discriminate Y]).
      destruct (Ascii.eqb_spec c "'") as [->|N].
      * split; [discriminate|]. intros [b [[c' j' sp' N] [Y _]]]. injection Y; intros; subst. now destruct N.
      * split.
        -- intro H. injection H as <- <-. eexists [_]. split; [now constructor|split; [reflexivity|auto]].
        -- intros [b [[c' j' sp' _] [Y [E F]]]]. injection Y; intros; subst; f_equal; apply stream_eq; auto.
  - cbn [group_dict one_token_dict dict_item d_item]. destruct (toks s) as [|t r] eqn:X.
    + split; [discriminate|]. intros [b [[i] [Y _]]]. discriminate Y.
    + destruct t; try (split; [discriminate|intros [b [[i'] [Y _]]]; discriminate Y]). split.
      * intro H. injection H as <- <-. eexists [_]. split; [econstructor|split; [first [exact X|reflexivity]|auto]].
      * intros [b [[d' ts' sp'] [Y [E F]]]]. injection Y; intros; subst; f_equal; apply stream_eq; auto.
  - cbn [from_str_dict dict_item d_item]. apply from_str_iff.
  - cbn [from_str_default_dict dict_item_flag_missing d_item]. apply from_str_iff.
Qed.

Lemma l_simple_err A d w bare gone : simple_type A d w bare gone -> forall m s,
  (exists v s', d_item d m s = (Ok v, s')) \/
  exists sp msg s', d_item d m s = (Err (mkSyn (mkErr sp msg) []), s') /\ placed_next s sp.
Proof.
  assert (L : forall B C what (sel : plit -> option B) (f : B * span -> C) s,
            (exists v s', pmap f (parse_lit_as what sel) s = (Ok v, s')) \/
            exists sp msg s', pmap f (parse_lit_as what sel) s = (Err (mkSyn (mkErr sp msg) []), s') /\ placed_next s sp).
  { intros B C what sel f s. unfold pmap. destruct (lit_as_err what sel s) as [[v [s' ->]]|[msg [s' ->]]]; cbn; [left; eauto|right].
    exists (in_span s), msg, s'. split; auto. apply in_span_next. }
  assert (O : forall what pick m s, (exists v s', d_item (one_token_dict what pick) m s = (Ok v, s')) \/
            exists sp msg s', d_item (one_token_dict what pick) m s = (Err (mkSyn (mkErr sp msg) []), s') /\ placed_next s sp).
  { intros what pick m s. cbn [one_token_dict dict_item d_item]. unfold cur_span. destruct (toks s) as [|t r] eqn:X.
    - right. unfold err1. eexists _, _, _. split; [reflexivity|]. now constructor.
    - destruct (pick t); [left; eauto|right]. unfold err1. eexists _, _, _. split; [reflexivity|]. now apply PN_token with r. }
  assert (I : forall k s, (exists v s', parse_int k s = (Ok v, s')) \/
            exists sp msg s', parse_int k s = (Err (mkSyn (mkErr sp msg) []), s') /\ placed_next s sp).
  { intros k s. unfold parse_int, pbind. destruct (parse_lit_as "integer literal" sel_int_sign s) as [r s1] eqn:Q.
    destruct (lit_as_err "integer literal" sel_int_sign s) as [[v [s' Y]]|[msg [s' Y]]]; rewrite Q in Y; injection Y as -> ->.
    - destruct v as [[neg n] sp]. cbn [fst snd]. destruct (int_from_str k neg n); [left; eauto|right].
      unfold err1. eexists _, _, _. split; [reflexivity|]. now apply (lit_place _ _ _ _ _ _ Q).
    - right. exists (in_span s), msg, s'. split; auto. apply in_span_next. }
  assert (F : forall B (fs : string -> B + string) s, (exists v s', from_str_item fs s = (Ok v, s')) \/
            exists sp msg s', from_str_item fs s = (Err (mkSyn (mkErr sp msg) []), s') /\ placed_next s sp).
  { intros B fs s. unfold from_str_item, pbind. destruct (parse_lit_str s) as [r s1] eqn:Q.
    destruct (lit_as_err "string literal" sel_str s) as [[v [s' Y]]|[msg [s' Y]]]; fold parse_lit_str in Y; rewrite Q in Y; injection Y as -> ->.
    - destruct v as [x sp]. cbn [fst snd]. destruct (fs x); [left; eauto|right].
      unfold err1. eexists _, _, _. split; [reflexivity|]. now apply (lit_place _ _ _ _ _ _ Q).
    - right. exists (in_span s), msg, s'. split; auto. apply in_span_next. }
  intros T m s. destruct T; try (cbn; apply L); try apply O; try (cbn; apply I); try (cbn; apply F).
  - cbn [u8_dict dict_item d_item]. unfold parse_u8. destruct (peek_lit sel_byte s); [apply L|]. destruct (peek_lit sel_int_sign s); [apply I|].
    right. exists (in_span s). unfold error_at, in_span, err1. destruct (toks s) as [|t r] eqn:X;
      (eexists _, _; split; [reflexivity|]); pose proof (in_span_next s) as P; unfold in_span in P; rewrite X in P; exact P.
  - cbn [ident_dict dict_item d_item]. unfold parse_any_ident. pose proof (in_span_next s) as P.
    destruct (toks s) as [|[i isp|c j psp|l lsp|d ts gsp] r] eqn:X; try (left; eauto; fail); right; exists (in_span s); unfold error_at, err1, in_span in *;
      rewrite X in *; (eexists _, _; split; [reflexivity|exact P]).
  - cbn [tokentree_dict dict_item d_item]. unfold cur_span, err1. destruct (toks s) as [|t r] eqn:X; [right|left; eauto].
    eexists _, _, _. split; [reflexivity|]. now constructor.
Qed.

(** ** after the name *)
Lemma at_end_tail (s s1 : stream) b : toks s = b ++ toks s1 -> at_end s1 ->
  exists tl, (tl = [] \/ exists t, comma_tok t /\ tl = [t]) /\ toks s = b ++ tl.
Proof. intros E [H|[t [H C]]]; exists (toks s1); split; auto; right; exists t; auto. Qed.
Lemma first_iff {A} (item : mode -> parser A) (w : list token -> A -> Prop) m s rest v l' :
  reads (item m) w -> (def_inline item m (s :: rest) = (Ok v, l') <->
    exists b tl, w b v /\ (tl = [] \/ exists t, comma_tok t /\ tl = [t]) /\ toks s = b ++ tl /\
      l' = mkStream [] (scope s) (cell s) :: rest).
Proof.
  intro R. unfold def_inline, parse_first, pbind, pret. split.
  - destruct (item m s) as [[x|e|q] s1] eqn:Q; try discriminate. apply R in Q as [b [W [X [E F]]]].
    destruct (parse_eof_cases env s1) as [[AE Y]|[_ [e [c2 Y]]]]; rewrite Y; [|discriminate].
    intro H. injection H as <- <-. destruct (at_end_tail s s1 b X AE) as [tl [T1 T2]]. exists b, tl. rewrite E, F. auto.
  - intros [b [tl [W [T1 [X ->]]]]].
    assert (Q : item m s = (Ok v, mkStream tl (scope s) (cell s))) by (apply R; exists b; auto). rewrite Q.
    destruct (parse_eof_cases env (mkStream tl (scope s) (cell s))) as [[_ Y]|[N _]]; [rewrite Y; reflexivity|].
    exfalso. apply N. unfold at_end. cbn [toks]. destruct T1 as [->|[t [C ->]]]; eauto.
Qed.
Lemma named_forms {A} (item : mode -> parser A) flag (w : list token -> A -> Prop) (bare : A -> Prop) sp s v s' :
  reads (item (Named sp)) w -> (forall x, flag sp = Ok x <-> bare x) ->
  (parse_named_with item (def_inline item) flag sp s = (Ok v, s') <->
   after_name w bare s v (toks s') /\ scope s' = scope s /\ cell s' = cell s).
Proof.
  intros R FL. pose proof (l_try_parse_named s) as T. destruct (try_parse_named s).
  - destruct T as [j [esp [r T]]]. rewrite (named_eq_case _ _ _ _ _ _ _ _ _ _ T), (R _ v s'). cbn [toks scope cell]. split.
    + intros [b [W [-> [E F]]]]. split; auto. now apply AN_equals with b j esp.
    + intros [H [E F]]. inversion H as [b j' esp' r' W T' EQ|b tl gsp r' W _ T' EQ|B N1 N2 EQ]; rewrite T in *; try discriminate.
      * injection T' as _ _ ->. exists b. auto.
      * exfalso. eapply N1. reflexivity.
  - destruct T as [ts [gsp [r T]]]. rewrite (named_paren_case _ _ _ _ _ _ _ _ _ _ T), (delimited_case _ _ _ _ _ _ _ _ T). unfold on_single.
    set (s1 := mkStream ts (SClose gsp) (cell s)). destruct (def_inline item (Named sp) [s1]) as [[a|e|q] l] eqn:Q.
    + apply (first_iff item w _ s1 [] a l R) in Q as [b [tl [W [T1 [X ->]]]]]. cbn [hd]. unfold parse_eof. cbn [toks].
      unfold drop_cell. cbn [cell toks s1 scope].
      replace (match cell s with Some x => Some x | None => None end) with (cell s) by (now destruct (cell s)). split.
      * intro H. injection H as <- <-. cbn [toks scope cell]. split; auto. cbn [toks s1] in X. subst ts. now apply AN_parens with b tl gsp.
      * intros [H [E F]]. inversion H as [b' j' esp' r' W' T' EQ|b' tl' gsp' r' W' T1' T' EQ|B N1 N2 EQ]; rewrite T in *; try discriminate.
        -- injection T' as -> -> ->. assert (Q2 : def_inline item (Named sp) [s1] = (Ok v, [mkStream [] (SClose gsp') (cell s)])).
           { apply (first_iff item w _ s1 [] v _ R). exists b', tl'. auto. }
           assert (Q1 : def_inline item (Named sp) [s1] = (Ok a, [mkStream [] (SClose gsp') (cell s)])).
           { apply (first_iff item w _ s1 [] a _ R). exists b, tl. auto. }
           rewrite Q1 in Q2. injection Q2 as ->. f_equal. apply stream_eq; auto.
        -- exfalso. eapply N2. reflexivity.
    + split; [discriminate|]. intros [H [E F]]. inversion H as [b' j' esp' r' W' T' EQ|b' tl' gsp' r' W' T1' T' EQ|B N1 N2 EQ]; rewrite T in *; try discriminate.
      * injection T' as -> -> ->. assert (Q2 : def_inline item (Named sp) [s1] = (Ok v, [mkStream [] (SClose gsp') (cell s)])).
        { apply (first_iff item w _ s1 [] v _ R). exists b', tl'. auto. } rewrite Q in Q2. discriminate Q2.
      * exfalso. eapply N2. reflexivity.
    + split; [discriminate|]. intros [H [E F]]. inversion H as [b' j' esp' r' W' T' EQ|b' tl' gsp' r' W' T1' T' EQ|B N1 N2 EQ]; rewrite T in *; try discriminate.
      * injection T' as -> -> ->. assert (Q2 : def_inline item (Named sp) [s1] = (Ok v, [mkStream [] (SClose gsp') (cell s)])).
        { apply (first_iff item w _ s1 [] v _ R). exists b', tl'. auto. } rewrite Q in Q2. discriminate Q2.
      * exfalso. eapply N2. reflexivity.
  - destruct T as [N1 N2]. rewrite (named_flag_case _ _ _ _ _ _ _ N1 N2). split.
    + intro H. injection H as H <-. split; auto. apply FL in H. now apply AN_bare.
    + intros [H [E F]]. inversion H as [b j' esp' r' W T' EQ|b tl gsp r' W _ T' EQ|B _ _ EQ].
      * now apply N1 in T'.
      * now apply N2 in T'.
      * apply FL in B. rewrite B. f_equal. apply stream_eq; auto.
Qed.
Lemma l_simple_named A d w bare gone : simple_type A d w bare gone -> forall n sp s v s',
  d_named d n sp s = (Ok v, s') <-> after_name w bare s v (toks s') /\ scope s' = scope s /\ cell s' = cell s.
Proof.
  intros T n sp s v s'. pose proof (l_reads A d w bare gone T (Named sp)) as R.
  destruct T; cbn [d_named string_dict char_dict float_dict bool_dict int_dict u8_dict ident_dict tokentree_dict literal_dict punct_dict
                   group_dict one_token_dict from_str_dict from_str_default_dict dict_item dict_item_flag dict_item_flag_missing d_item] in *;
    unfold def_named; apply named_forms; auto; intro y0; unfold no_value; (split; [intro HH; try discriminate HH; try injection HH as <-; reflexivity|]);
    intro HH; try destruct HH; reflexivity.
Qed.
Lemma l_simple_missing A d w bare gone : simple_type A d w bare gone -> forall n sp v, d_missing d n sp = Ok v <-> gone v.
Proof.
  intros T n sp v. destruct T; unfold no_value; (split; [intro HH; try discriminate HH; try injection HH as <-; reflexivity|]);
    intro HH; try destruct HH; reflexivity.
Qed.
Lemma l_simple_inline A d w bare gone : simple_type A d w bare gone -> forall m s v s',
  d_inline d m [s] = (Ok v, [s']) <->
    exists b tl, w b v /\ (tl = [] \/ exists t, comma_tok t /\ tl = [t]) /\ toks s = b ++ tl /\
      s' = mkStream [] (scope s) (cell s).
Proof.
  intros T m s v s'. pose proof (l_reads A d w bare gone T m) as R.
  assert (I : d_inline d = def_inline (d_item d)) by (destruct T; reflexivity). rewrite I, (first_iff (d_item d) w m s [] v [s'] R).
  split; intros [b [tl [W [T1 [X E]]]]]; exists b, tl; repeat split; auto; [now injection E|now rewrite E].
Qed.
End P.
