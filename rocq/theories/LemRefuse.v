(** What is reported for a value that is not accepted *)
From Verif Require Import LemSmall LemWf LemMore.
From Verif Require Export LemPrim SpecRefuse.
Local Open Scope string_scope.
Local Open Scope list_scope.

Section R.
Context {env : Env}.

Definition has_lit {A} (sel : plit -> option A) (s : stream) : Prop :=
  exists l sp r a, lit_rest (toks s) = Some (l, sp, r) /\ sel l = Some a.

Lemma error_next s what : error_at s ("expected " ++ what)%string = mkSyn (mkErr (next_place s) (asks_for s what)) [].
Proof.
  unfold error_at, next_place, asks_for, err1. destruct (toks s) as [|[] r]; reflexivity.
Qed.
Ltac lits L := destruct (lit_inv _ _ _ _ L) as [[?x [?X ->]]|[[?b [?X ->]]|[?j [?x [?lsp [?X [-> ?Y]]]]]]].
Lemma lit_no {A} what (sel : plit -> option A) s : ~ has_lit sel s ->
  exists s', parse_lit_as what sel s = (Err (mkSyn (mkErr (next_place s) (asks_for s what)) []), s').
Proof.
  intro N. unfold parse_lit_as. destruct (lit_rest (toks s)) as [[[l sp] r]|] eqn:L.
  - destruct (sel l) eqn:S; [destruct N; exists l, sp, r, a; auto|]. rewrite error_next. eauto.
  - rewrite error_next. eauto.
Qed.
Lemma lit_dec {A} (sel : plit -> option A) s : has_lit sel s \/ ~ has_lit sel s.
Proof.
  unfold has_lit. destruct (lit_rest (toks s)) as [[[l sp] r]|] eqn:L.
  - destruct (sel l) eqn:S; [left; eauto 8|right]. intros [l' [sp' [r' [a [E F]]]]]. injection E as <- <- <-. congruence.
  - right. intros [l' [sp' [r' [a [E F]]]]]. discriminate.
Qed.
Lemma lit_peek {A} (sel : plit -> option A) s : peek_lit sel s = true <-> has_lit sel s.
Proof.
  unfold peek_lit, has_lit. destruct (lit_rest (toks s)) as [[[l sp] r]|] eqn:L.
  - destruct (sel l) eqn:S; split; auto; try discriminate; [eauto 8|]. intros [l' [sp' [r' [a [E F]]]]]. injection E as <- <- <-. congruence.
  - split; [discriminate|]. intros [l' [sp' [r' [a [E F]]]]]. discriminate.
Qed.
Ltac st := eexists _, _; split; [|cbn; eassumption].
Lemma kind_string s : has_lit sel_str s <-> starts is_string s.
Proof.
  split.
  - intros [l [sp [r [a [L S]]]]]. lits L; cbn in S; try discriminate. destruct x; try discriminate.
    exists [TLit (LStr s0) sp], r. split; [eexists _, _; reflexivity|exact X].
  - intros [b [r [[x [sp ->]] E]]]. cbn in E. exists (PLit false (LStr x)), sp, r, x. rewrite E. auto.
Qed.
Lemma kind_char s : has_lit sel_char s <-> starts is_char s.
Proof.
  split.
  - intros [l [sp [r [a [L S]]]]]. lits L; cbn in S; try discriminate. destruct x; try discriminate.
    eexists [_], r. split; [eexists _, _; reflexivity|exact X].
  - intros [b [r [[x [sp ->]] E]]]. cbn in E. exists (PLit false (LChar x)), sp, r, x. rewrite E. auto.
Qed.
Lemma kind_float s : has_lit sel_float s <-> starts is_float s.
Proof.
  split.
  - intros [l [sp [r [a [L S]]]]]. lits L; cbn in S; try discriminate; destruct x; try discriminate.
    + eexists [_], r. split; [eexists _, _; left; reflexivity|exact X].
    + eexists [_; _], r. split; [eexists _, _; right; eexists _, _; reflexivity|exact X].
  - intros [b [r [[x [sp [->|[j [psp ->]]]]] E]]]; cbn in E.
    + exists (PLit false (LFloat x)), sp, r, (false, x). rewrite E. auto.
    + exists (PLit true (LFloat x)), psp, r, (true, x). rewrite E. auto.
Qed.
Lemma kind_int s : has_lit sel_int_sign s <-> starts is_int s.
Proof.
  split.
  - intros [l [sp [r [a [L S]]]]]. lits L; cbn in S; try discriminate; destruct x; try discriminate.
    + eexists [_], r. split; [eexists _, _; left; reflexivity|exact X].
    + eexists [_; _], r. split; [eexists _, _; right; eexists _, _; reflexivity|exact X].
  - intros [b [r [[x [sp [->|[j [psp ->]]]]] E]]]; cbn in E.
    + exists (PLit false (LInt x)), sp, r, (false, x). rewrite E. auto.
    + exists (PLit true (LInt x)), psp, r, (true, x). rewrite E. auto.
Qed.
Lemma kind_bool s : has_lit sel_bool s <-> starts is_bool s.
Proof.
  split.
  - intros [l [sp [r [a [L S]]]]]. lits L; cbn in S; try discriminate.
    destruct b; [exists [TIdent "true" sp], r|exists [TIdent "false" sp], r]; (split; [exists sp; auto|exact X]).
  - intros [b [r [[sp [->| ->]] E]]]; cbn in E; [exists (PBool true)|exists (PBool false)]; eexists sp, r, _; rewrite E; cbn; auto.
Qed.
Lemma kind_byte s : has_lit sel_byte s \/ has_lit sel_int_sign s <-> starts is_byte_or_int s.
Proof.
  rewrite kind_int. split.
  - intros [[l [sp [r [a [L S]]]]]|[b [r [I E]]]].
    + lits L; cbn in S; try discriminate. destruct x; try discriminate.
      eexists [_], r. split; [left; eexists _, _; reflexivity|exact X].
    + exists b, r. split; [now right|auto].
  - intros [b [r [[[x [sp ->]]|I] E]]].
    + left. cbn in E. exists (PLit false (LByte x)), sp, r, x. rewrite E. auto.
    + right. exists b, r. auto.
Qed.

(** integers *)
Lemma int_says k neg n : match int_from_str k neg n with inl _ => forall msg, ~ bad_int k neg n msg | inr m => forall msg, bad_int k neg n msg <-> msg = m end.
Proof.
  unfold int_from_str. destruct (neg && negb (ik_signed k)) eqn:SG.
  - apply andb_true_iff in SG as [-> SG]. apply negb_true_iff in SG. intro msg. split; [|intros ->; now constructor].
    intro B. inversion B; subst; try reflexivity; match goal with H : true = true -> _ |- _ => rewrite (H eq_refl) in SG; discriminate end.
  - assert (SG' : neg = true -> ik_signed k = true) by (intros ->; cbn in SG; now destruct (ik_signed k)).
    assert (NS : forall msg, bad_int k neg n msg -> neg = true -> ik_signed k = false -> False) by (intros ? ? A B; rewrite (SG' A) in B; discriminate).
    destruct (Z.ltb_spec (if neg then - Z.of_N n else Z.of_N n) (ik_lo k)) as [LT|LE].
    + intro msg. split; [|intros ->; now apply Bi_small]. intro B.
      inversion B; subst; auto; try lia; exfalso; [eapply NS; eauto|destruct neg; cbn in LT; lia].
    + destruct (Z.ltb_spec (ik_hi k) (if neg then - Z.of_N n else Z.of_N n)) as [GT|GE].
      * intro msg. split; [|intros ->; now apply Bi_large]. intro B.
        inversion B; subst; auto; try lia; exfalso; [eapply NS; eauto|destruct neg; cbn in GT; lia].
      * destruct (ik_nonzero k && ((if neg then - Z.of_N n else Z.of_N n) =? 0)%Z) eqn:NZ.
        -- apply andb_true_iff in NZ as [NZ Z0]. apply Z.eqb_eq in Z0. assert (n = 0%N) by (destruct neg; lia). subst n.
           intro msg. split; [|intros ->; apply Bi_zero; auto; destruct neg; cbn in *; lia]. intro B.
           inversion B; subst; auto; try lia; exfalso; eapply NS; eauto.
        -- intros msg B. inversion B; subst; try lia; [eapply NS; eauto|]. rewrite H1 in NZ. destruct neg; discriminate NZ.
Qed.
Lemma int_run s : has_lit sel_int_sign s ->
  exists neg n sp s', (forall A (f : bool * N * span -> parser A), pbind (parse_lit_as "integer literal" sel_int_sign) f s = f (neg, n, sp) s') /\
    ((neg = false /\ exists r, toks s = TLit (LInt n) sp :: r) \/ (neg = true /\ exists j lsp r, toks s = TPunct "-" j sp :: TLit (LInt n) lsp :: r)).
Proof.
  intros [l [sp [r [[neg n] [L S]]]]]. exists neg, n, sp, (set_toks s r). split.
  - intros A f. unfold pbind, parse_lit_as. now rewrite L, S.
  - lits L; cbn in S; try discriminate; destruct x; try discriminate; injection S as <- <-; [left|right]; eauto 8.
Qed.
Lemma int_type_run d k m s : int_type d k -> has_lit sel_int_sign s -> d_item d m s = parse_int k s.
Proof.
  intros [k'|] H; [reflexivity|]. cbn [u8_dict dict_item d_item]. unfold parse_u8.
  destruct (peek_lit sel_byte s) eqn:P.
  - exfalso. apply lit_peek in P as [l [sp [r [a [L S]]]]]. destruct H as [l' [sp' [r' [a' [L' S']]]]].
    rewrite L in L'. injection L' as <- <- <-. destruct l as [[] []|]; discriminate.
  - apply lit_peek in H. now rewrite H.
Qed.
Lemma int_refused d k m s : int_type d k -> has_lit sel_int_sign s -> forall sp msg,
  (exists s', d_item d m s = (Err (mkSyn (mkErr sp msg) []), s')) <->
  ((exists n r, toks s = TLit (LInt n) sp :: r /\ bad_int k false n msg) \/
   (exists n j lsp r, toks s = TPunct "-" j sp :: TLit (LInt n) lsp :: r /\ bad_int k true n msg)).
Proof.
  intros I H sp msg. rewrite (int_type_run d k m s I H). destruct (int_run s H) as [neg [n [sp0 [s' [E C]]]]].
  unfold parse_int. rewrite E. cbn [fst snd]. pose proof (int_says k neg n) as B. destruct (int_from_str k neg n) as [v|mm].
  - split; [intros [? X]; discriminate X|]. intros [[n' [r' [T' X]]]|[n' [j' [l' [r' [T' X]]]]]].
    + destruct C as [[-> [r T]]|[-> [j [l [r T]]]]]; rewrite T in T'; [injection T' as -> -> ->|discriminate]. now apply B in X.
    + destruct C as [[-> [r T]]|[-> [j [l [r T]]]]]; rewrite T in T'; [discriminate|injection T' as -> -> -> -> ->]. now apply B in X.
  - split.
    + intros [s2 X]. unfold err1 in X. injection X as <- <- _. destruct C as [[-> [r T]]|[-> [j [l [r T]]]]]; [left; exists n, r|right; exists n, j, l, r]; (split; [exact T|now apply B]).
    + intros [[n' [r' [T' X]]]|[n' [j' [l' [r' [T' X]]]]]].
      * destruct C as [[-> [r T]]|[-> [j [l [r T]]]]]; rewrite T in T'; [injection T' as -> -> ->|discriminate]. apply B in X. subst. eauto.
      * destruct C as [[-> [r T]]|[-> [j [l [r T]]]]]; rewrite T in T'; [discriminate|injection T' as -> -> -> -> ->]. apply B in X. subst. eauto.
Qed.
Lemma l_refused_sound A (d : dict A) s sp msg : refused A d s sp msg -> forall m,
  exists s', d_item d m s = (Err (mkSyn (mkErr sp msg) []), s').
Proof.
  intros R m. destruct R as [A d what kind s B N|d text kind s B N|d k s n sp r msg I T B|d k s n j sp lsp r msg I T B|A fs d s x sp r msg I T F|s j sp r T].
  - assert (PM : forall X Y wh (sel : plit -> option X) (f : X * span -> Y), ~ has_lit sel s ->
              exists s', pmap f (parse_lit_as wh sel) s = (Err (mkSyn (mkErr (next_place s) (asks_for s wh)) []), s')).
    { intros X Y wh sel f H. destruct (lit_no wh sel s H) as [s' E]. unfold pmap. rewrite E. cbn. eauto. }
    destruct B.
    + rewrite <- kind_string in N. exact (PM _ _ "string literal" sel_str fst N).
    + rewrite <- kind_char in N. exact (PM _ _ "character literal" sel_char fst N).
    + rewrite <- kind_float in N. exact (PM _ _ "floating point literal" sel_float fst N).
    + rewrite <- kind_bool in N. exact (PM _ _ "boolean literal" sel_bool fst N).
    + rewrite <- kind_int in N. cbn [int_dict dict_item d_item]. unfold parse_int, pbind.
      destruct (lit_no "integer literal" sel_int_sign s N) as [s' E]. rewrite E. eauto.
    + rewrite <- kind_byte in N. cbn [u8_dict dict_item d_item]. unfold parse_u8.
      destruct (peek_lit sel_byte s) eqn:P1; [apply lit_peek in P1; tauto|]. destruct (peek_lit sel_int_sign s) eqn:P2; [apply lit_peek in P2; tauto|].
      change "expected byte literal or integer literal" with ("expected " ++ "byte literal or integer literal")%string. rewrite error_next. eauto.
    + rewrite <- kind_string in N. exact (PM _ _ "string literal" sel_str _ N).
    + assert (W : d_item unit_dict m s = (Err (error_at s "expected parentheses"), s)).
      { cbn [unit_dict d_item]. unfold unit_item, with_group. destruct (toks s) as [|[i isp|c j psp|l lsp|[] ts gsp] r] eqn:X; try reflexivity.
        exfalso. apply N. exists [TGroup Paren ts gsp], r. split; [eexists _, _; reflexivity|auto]. }
      rewrite W. change "expected parentheses" with ("expected " ++ "parentheses")%string. rewrite error_next. eauto.
    + cbn [ident_dict dict_item d_item]. unfold parse_any_ident. change "expected ident" with ("expected " ++ "ident")%string. rewrite error_next.
      destruct (toks s) as [|[i isp|c j psp|l lsp|dd ts gsp] r] eqn:X; eauto. exfalso. apply N. exists [TIdent i isp], r. split; [eexists _, _; reflexivity|auto].
    + rewrite <- kind_string in N. cbn [from_str_dict dict_item d_item]. unfold from_str_item, pbind, parse_lit_str.
      destruct (lit_no "string literal" sel_str s N) as [s' E]. rewrite E. eauto.
    + rewrite <- kind_string in N. cbn [from_str_default_dict dict_item_flag_missing d_item]. unfold from_str_item, pbind, parse_lit_str.
      destruct (lit_no "string literal" sel_str s N) as [s' E]. rewrite E. eauto.
  - unfold whole_place. destruct B; cbn [tokentree_dict literal_dict punct_dict group_dict one_token_dict dict_item d_item]; unfold cur_span, err1;
      destruct (toks s) as [|[i isp|c j psp|l lsp|dd ts gsp] r] eqn:X; eauto;
      try (exfalso; apply N; eexists [_], r; split; [|exact X]; first [eexists; reflexivity|eexists _, _; reflexivity|eexists _, _, _; reflexivity]; fail).
    cbn [tok_span]. destruct (Ascii.eqb_spec c "'") as [->|NE]; [eauto|]. exfalso. apply N. exists [TPunct c j psp], r. split; [|exact X].
    exists c, j, psp. auto.
  - apply (int_refused d k m s I); [|left; eauto]. apply kind_int. exists [TLit (LInt n) sp], r. split; [eexists _, _; left; reflexivity|exact T].
  - apply (int_refused d k m s I); [|right; eauto 8]. apply kind_int. exists [TPunct "-" j sp; TLit (LInt n) lsp], r.
    split; [eexists _, _; right; eexists _, _; reflexivity|exact T].
  - destruct I; cbn [from_str_dict from_str_default_dict dict_item dict_item_flag_missing d_item]; unfold from_str_item, pbind, parse_lit_str, parse_lit_as;
      rewrite T; cbn; rewrite F; unfold err1; eauto.
  - cbn [tokenstream_dict dict_item_flag_missing d_item]. unfold tokenstream_item, peek_comma, peek_punct, in_span. rewrite T. cbn. unfold err1. eauto.
Qed.
Lemma l_refused_total A d w bare gone : simple_type A d w bare gone -> forall m s,
  (exists v s', d_item d m s = (Ok v, s')) \/ exists sp msg, refused A d s sp msg.
Proof.
  intros T m s.
  assert (SY : forall what kind, by_syn A d what kind -> ~ starts kind s -> exists sp msg, refused A d s sp msg).
  { intros what kind B N. eexists _, _. eapply Rf_syn; eauto. }
  assert (PM : forall X Y wh (sel : plit -> option X) (f : X * span -> Y), has_lit sel s -> exists v s', pmap f (parse_lit_as wh sel) s = (Ok v, s')).
  { intros X Y wh sel f [l [sp [r [a [L S]]]]]. unfold pmap, parse_lit_as. rewrite L, S. cbn. eauto. }
  assert (IN : forall d k, int_type d k -> has_lit sel_int_sign s -> (exists v s', d_item d m s = (Ok v, s')) \/ exists sp msg, refused Z d s sp msg).
  { intros d0 k I H. rewrite (int_type_run d0 k m s I H). destruct (int_run s H) as [neg [n [sp0 [s' [E C]]]]].
    unfold parse_int. rewrite E. cbn [fst snd]. pose proof (int_says k neg n) as B. destruct (int_from_str k neg n) as [v|mm]; [left; eauto|right].
    assert (BI : bad_int k neg n mm) by now apply B.
    destruct C as [[-> [r X]]|[-> [j [l [r X]]]]]; exists sp0, mm; [eapply Rf_int|eapply Rf_minus]; eauto. }
  assert (FS : forall B (fs : string -> B + string) d, from_str_type fs d -> has_lit sel_str s ->
            (exists v s', from_str_item fs s = (Ok v, s')) \/ exists sp msg, refused B d s sp msg).
  { intros B fs d0 I H. apply kind_string in H as [b [r [[x [sp ->]] E]]]. cbn in E. unfold from_str_item, pbind, parse_lit_str, parse_lit_as.
    rewrite E. cbn. destruct (fs x) as [v|mm] eqn:F; [left; eauto|right]. exists sp, mm. eapply Rf_from_str; eauto. }
  destruct T.
  - destruct (lit_dec sel_str s) as [H|H]; [left; exact (PM _ _ "string literal" sel_str fst H)|right]. rewrite kind_string in H. eapply SY; eauto; constructor.
  - destruct (lit_dec sel_char s) as [H|H]; [left; exact (PM _ _ "character literal" sel_char fst H)|right]. rewrite kind_char in H. eapply SY; eauto; constructor.
  - destruct (lit_dec sel_float s) as [H|H]; [left; exact (PM _ _ "floating point literal" sel_float fst H)|right]. rewrite kind_float in H. eapply SY; eauto; constructor.
  - destruct (lit_dec sel_bool s) as [H|H]; [left; exact (PM _ _ "boolean literal" sel_bool fst H)|right]. rewrite kind_bool in H. eapply SY; eauto; constructor.
  - destruct (lit_dec sel_int_sign s) as [K|K]; [apply (IN _ k); [constructor|auto]|right]. rewrite kind_int in K. eapply SY; eauto; constructor.
  - destruct (lit_dec sel_int_sign s) as [K|K]; [apply (IN _ (ubits 8)); [constructor|auto]|].
    destruct (lit_dec sel_byte s) as [H|H].
    + left. cbn [u8_dict dict_item d_item]. unfold parse_u8. rewrite (proj2 (lit_peek sel_byte s) H). exact (PM _ _ "byte literal" sel_byte _ H).
    + right. eapply SY; [constructor|]. rewrite <- kind_byte. tauto.
  - cbn [ident_dict dict_item d_item]. unfold parse_any_ident. destruct (toks s) as [|[i isp|c j psp|l lsp|dd ts gsp] r] eqn:X; eauto;
      right; (eapply SY; [constructor|]); intros [b [r' [[i' [sp' ->]] E]]]; rewrite X in E; discriminate E.
  - cbn [tokentree_dict dict_item d_item]. destruct (toks s) as [|t r] eqn:X; eauto. right. eexists _, _. eapply Rf_token; [constructor|].
    intros [b [r' [[t' ->] E]]]. rewrite X in E. discriminate E.
  - cbn [literal_dict one_token_dict dict_item d_item]. destruct (toks s) as [|[i isp|c j psp|l lsp|dd ts gsp] r] eqn:X; eauto;
      right; eexists _, _; (eapply Rf_token; [constructor|]); intros [b [r' [[i' [sp' ->]] E]]]; rewrite X in E; discriminate E.
  - cbn [punct_dict one_token_dict dict_item d_item]. destruct (toks s) as [|[i isp|c j psp|l lsp|dd ts gsp] r] eqn:X; eauto;
      try (right; eexists _, _; (eapply Rf_token; [constructor|]); intros [b [r' [[c' [j' [sp' [-> _]]]] E]]]; rewrite X in E; discriminate E).
    destruct (Ascii.eqb_spec c "'") as [->|NE]; eauto. right; eexists _, _; (eapply Rf_token; [constructor|]).
    intros [b [r' [[c' [j' [sp' [-> N]]]] E]]]; rewrite X in E. injection E; intros; subst; congruence.
  - cbn [group_dict one_token_dict dict_item d_item]. destruct (toks s) as [|[i isp|c j psp|l lsp|dd ts gsp] r] eqn:X; eauto;
      right; eexists _, _; (eapply Rf_token; [constructor|]); intros [b [r' [[c' [j' [sp' ->]]] E]]]; rewrite X in E; discriminate E.
  - destruct (lit_dec sel_str s) as [H|H]; [apply (FS _ fs (from_str_dict fs)); [constructor|auto]|right]. rewrite kind_string in H. eapply SY; eauto; constructor.
  - destruct (lit_dec sel_str s) as [H|H]; [apply (FS _ fs (from_str_default_dict fs x)); [constructor|auto]|right]. rewrite kind_string in H. eapply SY; eauto; constructor.
Qed.
Lemma l_refused A d w bare gone : simple_type A d w bare gone -> forall m s e s', d_item d m s = (Err e, s') ->
  exists sp msg, e = mkSyn (mkErr sp msg) [] /\ refused A d s sp msg.
Proof.
  intros T m s e s' H. destruct (l_refused_total A d w bare gone T m s) as [[v [s2 E]]|[sp [msg R]]]; [congruence|].
  exists sp, msg. split; auto. destruct (l_refused_sound A d s sp msg R m) as [s2 E]. congruence.
Qed.
Lemma l_refused_iff A d w bare gone : simple_type A d w bare gone -> forall m s e,
  (exists s', d_item d m s = (Err e, s')) <-> exists sp msg, e = mkSyn (mkErr sp msg) [] /\ refused A d s sp msg.
Proof.
  intros T m s e. split.
  - intros [s' H]. eapply l_refused; eauto.
  - intros [sp [msg [-> R]]]. exact (l_refused_sound A d s sp msg R m).
Qed.
Lemma eof_left (c : stream) : (toks c = [] \/ exists k, comma_tok k /\ toks c = [k]) /\ fst (parse_eof c) = Ok tt \/
  exists t, left_over (toks c) t /\ fst (parse_eof c) = Err (mkSyn (mkErr (tok_span t) ("unexpected token `" ++ env_show t ++ "`")%string) []).
Proof.
  unfold parse_eof. destruct (toks c) as [|t r] eqn:E; [left; rewrite E; auto|]. destruct (is_comma t) eqn:C.
  - cbn [set_toks toks]. destruct r as [|t2 r]; [left; split; [right; exists t; split; [now apply is_comma_spec|auto]|auto]|].
    right. exists t2. split; [|reflexivity]. exists r. right. exists t. split; [now apply is_comma_spec|auto].
  - rewrite E. right. exists t. split; [|reflexivity]. exists r. left. split; auto. intro K. apply is_comma_spec in K. congruence.
Qed.
Lemma delimited_content {A} dl (p : parser A) s ts gsp rest : toks s = TGroup dl ts gsp :: rest ->
  content_result p (mkStream ts (SClose gsp) (cell s)) (fst (parse_delimited_with dl p s)) /\
  toks (snd (parse_delimited_with dl p s)) = rest.
Proof.
  intro E. rewrite (delimited_case _ _ _ _ _ _ _ _ E). destruct (p (mkStream ts (SClose gsp) (cell s))) as [[v|e|b] c] eqn:P.
  - destruct (eof_left c) as [[H F]|[t [H F]]]; destruct (parse_eof c) as [r2 c2]; cbn [fst] in F; subst r2; cbn; (split; [|reflexivity]).
    + eapply CR_value; eauto.
    + eapply CR_left; eauto.
  - split; [|reflexivity]. eapply CR_error; eauto.
  - split; [|reflexivity]. eapply CR_bad; eauto.
Qed.
Lemma l_content dl A (d : dict A) m s ts gsp rest : has_content dl A d -> toks s = TGroup dl ts gsp :: rest ->
  content_result (on_single (d_inline d m)) (mkStream ts (SClose gsp) (cell s)) (fst (d_item d m s)) /\
  toks (snd (d_item d m s)) = rest.
Proof.
  intros W E. destruct W; try exact (delimited_content _ _ s _ _ _ E).
  - unfold struct_dict in *. rewrite H in *. cbn [d_item d_inline]. rewrite H0 in *. exact (delimited_content _ _ s _ _ _ E).
  - unfold struct_dict. rewrite H. cbn [d_item d_inline]. destruct (s_shape s0) eqn:S; [congruence|exact (delimited_content _ _ s _ _ _ E)|].
    replace (s_inline s0 m) with (s_inline s0 Unnamed); [exact (delimited_content _ _ s _ _ _ E)|].
    unfold s_inline, s_body. rewrite S. reflexivity.
Qed.
Lemma l_content_enum V (e : edef V) m s ts gsp rest : toks s = TGroup Brace ts gsp :: rest ->
  content_result (on_single (d_inline (enum_dict e) (Named (match m with Named sp => sp | Unnamed => SOpen gsp end))))
                 (mkStream ts (SClose gsp) (cell s)) (fst (d_item (enum_dict e) m s)) /\
  toks (snd (d_item (enum_dict e) m s)) = rest.
Proof.
  intro E. cbn [enum_dict d_item d_inline].
  replace (to_named m s) with (Named (match m with Named sp => sp | Unnamed => SOpen gsp end)); [exact (delimited_content _ _ s _ _ _ E)|].
  destruct m; [reflexivity|]. unfold to_named, to_span, in_span. cbn. now rewrite E.
Qed.
Lemma l_parens A item inline (flag : span -> res A) sp s ts gsp rest : toks s = TGroup Paren ts gsp :: rest ->
  content_result (on_single (inline (Named sp))) (mkStream ts (SClose gsp) (cell s)) (fst (parse_named_with item inline flag sp s)) /\
  toks (snd (parse_named_with item inline flag sp s)) = rest.
Proof. intro E. rewrite (named_paren_case _ _ _ _ _ _ _ _ _ _ E). now apply delimited_content. Qed.
Lemma l_option_result A (d : dict A) s : option_result d s (fst (d_item (option_dict d) Unnamed s)).
Proof.
  cbn [option_dict dict_item_flag_missing d_item option_item]. unfold peek_kw, parse_kw, pbind, pmap, pret.
  assert (O : (forall sp r, toks s <> TIdent "None" sp :: r) -> (forall sp r, toks s <> TIdent "Some" sp :: r) ->
     option_result d s (Err (error_at s "expected `Some` or `None`"))).
  { intros N1 N2. change "expected `Some` or `None`" with ("expected " ++ "`Some` or `None`")%string. rewrite error_next. now apply OR_neither. }
  destruct (toks s) as [|[i isp|c j psp|l lsp|dd gts gsp] r] eqn:T; try (apply O; discriminate).
  destruct (String.eqb_spec i "Some") as [->|N2].
  - cbn [fst snd]. set (s1 := set_toks s r).
    assert (Q : (exists ts gsp r', r = TGroup Paren ts gsp :: r') \/ forall ts gsp r', r <> TGroup Paren ts gsp :: r').
    { destruct r as [|[| | |[] ts gsp] r']; try (right; discriminate). left. eauto. }
    destruct Q as [[ts [gsp [r' ->]]]|Q].
    + destruct (delimited_content Paren (on_single (d_inline d Unnamed)) s1 ts gsp r' eq_refl) as [C _].
      destruct (parse_delimited_with Paren (on_single (d_inline d Unnamed)) s1) as [x s2]. cbn [fst] in *.
      eapply OR_some; [exact T|exact C].
    + assert (W : parse_delimited_with Paren (on_single (d_inline d Unnamed)) s1 = (Err (mkSyn (not_a_group Paren s1) []), s1)).
      { unfold parse_delimited_with, with_group. unfold s1 at 1. cbn [set_toks toks]. unfold not_a_group, error_at, err1. cbn [s1 set_toks toks scope].
        destruct r as [|[| | |[] ts gsp] r']; try reflexivity. now destruct (Q ts gsp r'). }
      rewrite W. cbn [fst rmap]. now apply (OR_alone d s isp r).
  - destruct (String.eqb_spec i "None") as [->|N1].
    + cbn [fst]. now apply (OR_none d s isp r).
    + apply O; intros sp r' E; injection E; intros; congruence.
Qed.
Lemma l_tokens_refused m s e : (exists s', d_item tokenstream_dict m s = (Err e, s')) <->
  (exists j sp r, toks s = TPunct "," j sp :: r /\ e = mkSyn (mkErr sp "unexpected comma") []) \/
  (toks s = [] /\ e = mkSyn (mkErr (match m with Named sp => sp | Unnamed => scope s end) "expected token") []).
Proof.
  cbn [tokenstream_dict dict_item_flag_missing d_item]. unfold tokenstream_item, peek_comma, peek_punct, in_span, to_span, err1.
  destruct (toks s) as [|t r] eqn:T.
  - cbn. split.
    + intros [s' H]. injection H as <- _. right. split; auto. destruct m; cbn; try reflexivity. unfold in_span. now rewrite T.
    + intros [[j [sp [r [X _]]]]|[_ ->]]; [discriminate|]. destruct m; cbn; unfold in_span; rewrite ?T; eauto.
  - split.
    + intros [s' H]. left. destruct t as [i isp|c j psp|l lsp|dd gts gsp]; try (cbn in H; discriminate).
      destruct (Ascii.eqb_spec comma_c c) as [<-|N].
      * exists j, psp, r. split; auto. cbn in H. injection H as <- _. reflexivity.
      * exfalso. cbn [punct_rest until_comma is_comma] in H. destruct (Ascii.eqb_spec comma_c c); [congruence|].
        destruct (Ascii.eqb_spec c comma_c); [congruence|]. discriminate.
    + intros [[j [sp [r' [X ->]]]]|[X _]]; [|discriminate]. injection X as -> ->. cbn. eauto.
Qed.
End R.
