(** Proofs for PropsTail.v. *)
From Verif Require Export SpecTail.
From Verif Require Import LemWf LemItems LemWalk LemNamed LemStruct LemStructP LemTuple LemTStruct LemSplit LemColl2 LemBlock LemBlock2 LemBlock3 LemBlock4 LemVariant LemEnum2 LemEnum3 LemEnum5.
Local Open Scope string_scope.
Local Open Scope list_scope.

Section T.
Context {env : Env} {V : Type}.
Variable s : sdef V.
Hypothesis PS : plain_struct s.

Lemma tail_flat : existsb pflat (s_fields TMeta s) = false.
Proof. destruct PS as [_ [NF _]]. rewrite flat_fields_same. exact NF. Qed.
(** the spans do not matter *)
Lemma tail_same sp sp' l l' its vs :
  parses_to (struct_reader s TMeta "" true) TMeta (s_default s) sp l its vs ->
  parses_to (struct_reader s TMeta "" true) TMeta (s_default s) sp' l' its vs.
Proof.
  pose proof tail_flat as NF. destruct PS as [_ [_ [_ UM]]].
  intros [X1 [X2 [X3 X4]]]. refine (conj X1 (conj X2 (conj X3 _))). intros i f w N1 N2.
  pose proof (X4 i f w N1 N2) as G. cbn [r_fields struct_reader] in N1.
  assert (P : pflat f = false).
  { destruct (pflat f) eqn:P; auto. rewrite <- NF. symmetry. apply existsb_exists. exists f. split; auto. eapply nth_error_In; eauto. }
  destruct G as [seg w0 I GV T|w0 PF|pn obj TM|w0 E PF C D T|t E PF C D TT N|d w0 E C D TT K M T].
  - eapply G_item; eauto.
  - congruence.
  - discriminate TM.
  - eapply G_default; eauto.
  - eapply G_target; eauto.
  - eapply G_missing; eauto.
    destruct (nth_error (s_raw s) i) as [g|] eqn:NR.
    2: { apply nth_error_None in NR. rewrite <- (s_fields_len TMeta s) in NR. apply nth_error_None in NR. congruence. }
    destruct (s_fields_eff TMeta s i g NR) as [g' [N' [_ [KK _]]]]. assert (g' = f) by congruence. subst g'.
    rewrite Forall_forall in UM. eapply (UM g); [eapply nth_error_In; eauto|congruence|exact M].
Qed.
Lemma tail_body m ts sc c ws :
  fst (fn_parse (struct_fn s) m "" true [mkStream ts sc c]) = Ok ws <-> keyed_values s (items ts) ws.
Proof.
  cbn [struct_fn fn_parse]. rewrite struct_text by apply PS. unfold keyed_values. rewrite items_of_one.
  split; intros [vs [P C]]; exists vs; split; auto; eapply tail_same; eauto.
Qed.
Lemma tail_rest m st ws l : fn_parse (struct_fn s) m "" true [st] = (Ok ws, l) -> exists s', l = [s'] /\ toks s' = [].
Proof.
  cbn [struct_fn fn_parse]. intro H.
  assert (R : snd (s_body s TMeta m (to_full_span m [st]) "" true 0 [st]) = l) by now rewrite H.
  assert (O : fst (s_body s TMeta m (to_full_span m [st]) "" true 0 [st]) = Ok ws) by now rewrite H.
  destruct PS as [NS [_ [LF _]]]. rewrite s_body_named in O by apply NS. apply after_and_thens_ok in O as [vs [O _]].
  assert (R2 : snd (named_body (s_fields TMeta s) TMeta (s_default s) (s_unknown_ok s) (s_names s) (to_full_span m [st]) "" true [st]) = l).
  { rewrite <- R. unfold s_body. rewrite (proj1 (proj2 NS)). unfold p_and_thens. now destruct (named_body _ _ _ _ _ _ _ _ _). }
  pose proof tail_flat as NF. rewrite named_rest in R2 by auto.
  destruct (struct_returns s TMeta "" true (to_full_span m [st]) NS) as [A [B [D E]]].
  pose proof (named_body_exact (struct_reader s TMeta "" true) (s_unknown_ok s) true TMeta (s_default s) (to_full_span m [st]) [st] A B D eq_refl) as X.
  cbv zeta in X. cbn [r_fields r_allowed r_prefix struct_reader] in X. rewrite NF in X.
  assert (K : fst (fst (parse_struct (named_closure (s_fields TMeta s) (s_unknown_ok s) (s_names s) "" true) (init_slots (s_fields TMeta s), []) [st])) = Ok tt).
  { pose proof (parse_struct_walk _ (upd_named (struct_reader s TMeta "" true)) (eat_named (struct_reader s TMeta "" true))
     (closure_walk _ (s_unknown_ok s) true A eq_refl) (eat_named_adv _ A) [st] (init_slots (s_fields TMeta s), [])) as Y.
    cbn [r_fields r_allowed r_prefix struct_reader] in Y. rewrite Y. cbn [fst]. fold (struct_reader s TMeta "" true) in X |- *.
    destruct (walks (eat_named (struct_reader s TMeta "" true)) [st]) as [[en stop] ins1]. cbn [fst snd] in *.
    destruct stop as [e|]; auto. exfalso. rewrite O in X. unfold all_errors, errs_of in X.
    destruct (entries_errors _ _ _) in X; cbn [app] in X; discriminate X. }
  pose proof (parse_struct_empties _ [st] _ K) as F. rewrite R2 in F.
  cbn [parse_struct] in R2. destruct (struct_loop _ _ _ st) as [[r0 st1] s1].
  assert (L1 : exists s', l = [s']).
  { destruct r0; cbn in R2; subst l; eauto. }
  destruct L1 as [s' ->]. inversion F; subst. eauto.
Qed.
Lemma tail_blank m sc c : snd (fn_parse (struct_fn s) m "" true [mkStream [] sc c]) = [mkStream [] sc c].
Proof.
  cbn [struct_fn fn_parse]. destruct PS as [NS _].
  unfold s_body. rewrite (proj1 (proj2 NS)). unfold p_and_thens.
  pose proof (named_rest (s_fields TMeta s) TMeta (s_default s) (s_unknown_ok s) (s_names s) (to_full_span m [mkStream [] sc c]) "" true [mkStream [] sc c] tail_flat) as R.
  destruct (named_body _ _ _ _ _ _ _ _ _) as [r l]. cbn [fst snd] in *. rewrite R. reflexivity.
Qed.
End T.

(** *** A flattened type that takes all that is left *)
Section G.
Context {env : Env} {A : Type}.
Variable u : flat_unnamed A.
Variable K : list (list token) -> A -> Prop.
Hypothesis H1 : forall i ts sc c v, fst (fu_parse u Unnamed i [mkStream ts sc c]) = Ok v <-> K (items ts) v.
Hypothesis H2 : forall i st v l, fu_parse u Unnamed i [st] = (Ok v, l) -> exists s', l = [s'] /\ toks s' = [].
Hypothesis H3 : forall i sc, snd (fu_parse u Unnamed i [mkStream [] sc None]) = [mkStream [] sc None].
Lemma all_takes blk more ts tl v : blk <> [] -> block blk more ts tl ->
  takes u blk more v <-> more = false /\ K blk v.
Proof.
  intros NE B. split.
  - intro T. destruct (T 0 ts tl SCall None B) as [s' [E U]].
    destruct (H2 _ _ _ _ E) as [s2 [X Z]]. injection X as <-.
    destruct more.
    + rewrite Z in U. subst tl. destruct (block_tail _ _ _ _ B (or_introl NE)) as [t [r [F _]]]. discriminate F.
    + split; auto. destruct (block_listed _ _ _ B) as [L _]. rewrite <- (listed_items _ _ L).
      apply (H1 0 ts SCall None). now rewrite E.
  - intros [-> Q] i ts' tl' sc c B'. destruct (block_listed _ _ _ B') as [L _]. rewrite <- (listed_items _ _ L) in Q.
    apply (H1 i ts' sc c) in Q.
    destruct (fu_parse u Unnamed i [mkStream ts' sc c]) as [r l] eqn:E. cbn [fst] in Q. subst r.
    destruct (H2 _ _ _ _ E) as [s' [-> Z]]. exists s'. split; auto. now left.
Qed.
Lemma all_absent v : absent u v <-> K [] v.
Proof.
  split.
  - intro Q. specialize (Q 0 SCall). apply (H1 0 [] SCall None). now rewrite Q.
  - intros Q i sc. apply (H1 i [] sc None) in Q. pose proof (H3 i sc) as R.
    destruct (fu_parse _ _ _ _) as [r l]. cbn [fst snd] in *. congruence.
Qed.
Lemma all_by_items : by_items u.
Proof.
  split; [|split]; auto.
  - intros i ts sc c segs v l L NB NE H. destruct (H2 _ _ _ _ H) as [s' [-> Z]].
    exists s'. split; auto. intros _. exists segs, []. rewrite app_nil_r. split; auto. split; auto. cbn [some_items].
    destruct (listed_whole _ _ L NB) as [tl B]. apply (all_takes segs false ts tl); auto. split; auto.
    rewrite <- (listed_items _ _ L). apply (H1 i ts sc c). now rewrite H.
  - intros i sc v l H. apply all_absent. apply (H1 i [] sc None). now rewrite H.
Qed.
Lemma all_left : takes_rest u K.
Proof. split; [exact all_by_items|]. split; [exact all_takes|exact all_absent]. Qed.
End G.
Lemma map_left {env : Env} {A B} (g : A -> B) u K :
  (forall i ts sc c v, fst (fu_parse u Unnamed i [mkStream ts sc c]) = Ok v <-> K (items ts) v) ->
  (forall i st v l, fu_parse u Unnamed i [st] = (Ok v, l) -> exists s', l = [s'] /\ toks s' = []) ->
  (forall i sc, snd (fu_parse u Unnamed i [mkStream [] sc None]) = [mkStream [] sc None]) ->
  takes_rest (fu_map g u) (fun its v => exists w, K its w /\ v = g w).
Proof.
  intros H1 H2 H3. apply all_left; unfold fu_map, pmap; cbn [fu_parse].
  - intros i ts sc c v. specialize (H1 i ts sc c). destruct (fu_parse u Unnamed i _) as [[w|e|b] l]; cbn [fst] in *.
    + split; [intros [= <-]; exists w; split; auto; now apply H1|]. intros [w' [Q ->]]. apply H1 in Q. now injection Q as ->.
    + split; [discriminate|]. intros [w' [Q ->]]. apply H1 in Q. congruence.
    + split; [discriminate|]. intros [w' [Q ->]]. apply H1 in Q. congruence.
  - intros i st v l. specialize (H2 i st). destruct (fu_parse u Unnamed i _) as [[w|e|b] l0]; try discriminate.
    intros [= <- <-]. eauto.
  - intros i sc. specialize (H3 i sc). destruct (fu_parse u Unnamed i _) as [[w|e|b] l0]; exact H3.
Qed.

Section S.
Context {env : Env} {V : Type}.
Lemma tail_fu (s : sdef V) m i l : plain_struct s -> fu_parse (struct_fu s) m i l = fn_parse (struct_fn s) m "" true l.
Proof. intro PS. unfold struct_fu. destruct PS as [[_ [SH _]] _]. now rewrite SH. Qed.
Lemma l_tail_struct (s : sdef V) B (g : list V -> B) : plain_struct s ->
  takes_rest (fu_map g (struct_fu s)) (fun its v => exists w, keyed_values s its w /\ v = g w).
Proof.
  intro PS. apply map_left; intros; rewrite ?tail_fu in * by auto.
  - now apply tail_body.
  - eapply tail_rest; eauto.
  - now apply tail_blank.
Qed.
(** enums *)
Lemma struct_one {St} (f : string -> span -> St -> stream -> res unit * St * stream) st s :
  exists r st1 s1, parse_struct f st [s] = (r, st1, [s1]).
Proof. cbn [parse_struct]. destruct (struct_loop f _ st s) as [[[[]|e|b] st1] s1]; eauto. Qed.
Lemma enum_skips (e : edef V) allowed sp prefix validate st x l : no_flattened e ->
  enum_body e TMeta allowed sp prefix validate [st] = (Ok x, l) -> exists s', l = [s'] /\ toks s' = [].
Proof.
  intro NF. pose proof (no_flat_matches e (no_flattened_any e NF)) as PF. unfold enum_body.
  assert (S1 : exists s0, (if e_any_flat e || negb (e_unknown_ok e) then fork_inputs [st] else [st]) = [s0]) by (destruct (_ || _); cbn; eauto). destruct S1 as [s0 ->].
  destruct (struct_one (enum_closure e TMeta prefix) (mkEst None FNone [] []) s0) as [r [q [s1 ->]]].
  assert (S2 : exists s2, (if e_any_flat e || negb (e_unknown_ok e) then [st] else [s1]) = [s2]) by (destruct (_ || _); eauto). destruct S2 as [s2 S2]. rewrite S2.
  assert (VP : forall es, exists es' s3, validate_pass allowed es [s2] = (es', [s3])).
  { intro es. unfold validate_pass. destruct (struct_one (check_closure allowed) es s2) as [r0 [q0 [s3 ->]]]. eauto. }
  assert (Q : forall o es l', (let (ret, es2) := run_and_thens (e_and_thens e) o es in
     (rbind (check es2) (fun _ => match ret with Some y => Ok y | None => Bad Panic end), skip_all [l'])) = (Ok x, l) -> exists s', l = [s'] /\ toks s' = []).
  { intros o es l'. destruct (run_and_thens _ _ _) as [ret es2]. cbn [skip_all map]. intros [= _ <-]. eauto. }
  destruct r as [[]|er|b]; try discriminate.
  - destruct (q_value q) as [| |y]; [|apply Q|].
    + rewrite PF. destruct (e_default e); [apply Q|]. destruct (_ && _); [|apply Q]. destruct (VP (push_result (q_errors q) (Ok tt))) as [es' [s3 ->]]. apply Q.
    + destruct (q_key q); [|discriminate]. match goal with |- context [validate_pass allowed ?es1 [s2]] => destruct (negb _ && validate); [|apply Q]; destruct (VP es1) as [es' [s3 ->]]; apply Q end.
  - destruct (q_value q) as [| |y]; [|apply Q|].
    + rewrite PF. destruct (e_default e); [apply Q|]. destruct (_ && _); [|apply Q]. destruct (VP (push_result (q_errors q) (Err er : res unit))) as [es' [s3 ->]]. apply Q.
    + destruct (q_key q); [|discriminate]. match goal with |- context [validate_pass allowed ?es1 [s2]] => destruct (negb _ && validate); [|apply Q]; destruct (VP es1) as [es' [s3 ->]]; apply Q end.
Qed.
Lemma enum_blank (e : edef V) allowed sp prefix validate sc : no_flattened e ->
  snd (enum_body e TMeta allowed sp prefix validate [mkStream [] sc None]) = [mkStream [] sc None].
Proof.
  intro NF. pose proof (no_flat_matches e (no_flattened_any e NF)) as PF. unfold enum_body.
  assert (S1 : (if e_any_flat e || negb (e_unknown_ok e) then fork_inputs [mkStream [] sc None] else [mkStream [] sc None]) = [mkStream [] sc None]) by now destruct (_ || _). rewrite S1.
  cbn [parse_struct struct_loop toks length is_empty q_value q_errors push_result].
  assert (S2 : (if e_any_flat e || negb (e_unknown_ok e) then [mkStream [] sc None] else [mkStream [] sc None]) = [mkStream [] sc None]) by now destruct (_ || _). rewrite S2.
  rewrite PF. assert (VP : forall es, validate_pass allowed es [mkStream [] sc None] = (es, [mkStream [] sc None])) by reflexivity.
  destruct (e_default e).
  - destruct (run_and_thens _ _ _). reflexivity.
  - rewrite VP. destruct (_ && _); destruct (run_and_thens _ _ _); reflexivity.
Qed.
Lemma one_keys ts sc c k ksp : In (k, ksp) (keys_in [mkStream ts sc c]) <->
  exists seg body, In seg (items ts) /\ item_key seg = Some (k, ksp, body).
Proof.
  rewrite in_keys_pieces. rewrite <- (items_of_one ts sc c). unfold items_of. split.
  - intros [pc [body [I KE]]]. exists (fst pc), body. split; auto. now apply in_map.
  - intros [seg [body [I KE]]]. apply in_map_iff in I as [pc [<- I]]. eauto.
Qed.
Lemma l_tail_enum (e : edef V) B (g : evalue V -> B) : proper_enum TMeta e -> no_flattened e ->
  takes_rest (fu_map g (enum_fu e)) (fun its v => exists w, keyed_variant e its w /\ v = g w).
Proof.
  intros P NF. apply map_left.
  - intros i ts sc c v. rewrite (l_enum_plain e TMeta "" true _ _ _ v (E_flatten_tuple e Unnamed i [mkStream ts sc c]) P NF).
    unfold keyed_variant, keyed. rewrite items_of_one. apply and_iff_compat_l.
    split; intros [y [CH [[seg [n [vs [VI [VW [Y O]]]]]]|D]]]; exists y; split; auto; left; exists seg, n, vs; repeat split; auto.
    + intros U seg0 k ksp body I KE. apply (O eq_refl U k ksp). apply one_keys. eauto.
    + intros _ U k ksp I. apply one_keys in I as [seg0 [body [I KE]]]. eauto.
  - intros i st v l H. exact (enum_skips _ _ _ _ _ _ _ _ NF H).
  - intros i sc. exact (enum_blank e _ _ _ _ sc NF).
Qed.
End S.

Section C.
Context {env : Env} {V : Type}.
Lemma spread_tail fs (f : field V) u : Forall is_item fs -> is_parsable f = true -> f_kind f = KFlatU u ->
  forall segs os, length fs < length segs ->
  spread false (fs ++ [f]) segs os <->
  exists a b us w, segs = a ++ b /\ b <> [] /\ each_item fs a us /\ takes u b false w /\ os = map Some us ++ [Some w].
Proof.
  intros FI P K. induction FI as [|g fs [PG [d KG]] FI IH]; intros segs os L; cbn [app].
  - split.
    + intro S. inversion S as [|? ? ? ? ? ? ? ? K2|f0 u0 fs0 blk segs0 v os0 P0 K0 NE T S0|? ? ? P0 M0 S0|? ? ? ? P0 S0]; subst; try congruence.
      * inversion S0; subst. rewrite app_nil_r in *. cbn [some_items orb] in T. exists [], blk, [], v. split; auto. split; auto. split; [constructor|]. split; auto. now assert (u = u0) as -> by congruence.
      * cbn in L. lia.
    + intros [a [b [us [w [-> [NE [E [T ->]]]]]]]]. inversion E; subst. cbn [app map]. rewrite <- (app_nil_r b).
      eapply Sp_flat; eauto. constructor.
  - split.
    + intro S. inversion S as [|? d0 ? seg segs0 v os0 P0 K0 AC S0|f0 u0 fs0 blk segs0 v os0 P0 K0 NE T S0|? ? ? P0 M0 S0|? ? ? ? P0 S0]; subst; try congruence.
      * cbn in L. apply IH in S0 as [a [b [us [w [-> [NE [E [T ->]]]]]]]]; [|lia].
        exists (seg :: a), b, (v :: us), w. split; auto. split; auto. split; [econstructor; eauto|]. split; auto.
      * cbn in L. lia.
    + intros [a [b [us [w [-> [NE [E [T ->]]]]]]]]. inversion E as [|? d0 ? seg a0 v us0 K0 AC E0]; subst. cbn [app map]. eapply Sp_item; eauto.
      apply IH; [cbn in L; lia|]. exists a0, b, us0, w. auto.
Qed.
Lemma spread_exact fs (f : field V) : Forall is_item fs -> is_parsable f = true ->
  forall segs os, length segs = length fs ->
  spread false (fs ++ [f]) segs os <-> exists us, each_item fs segs us /\ os = map Some us ++ [None].
Proof.
  intros FI P. induction FI as [|g fs [PG [d KG]] FI IH]; intros segs os L; cbn [app].
  - destruct segs; [|discriminate]. split.
    + intro S. inversion S as [|? ? ? ? ? ? ? ? K2|f0 u0 fs0 blk segs0 v os0 P0 K0 NE T S0|? ? ? P0 M0 S0|? ? ? ? P0 S0]; subst; try congruence.
      * inversion S0; subst. rewrite app_nil_r in *. congruence.
      * inversion S0; subst. exists []. split; auto. constructor.
    + intros [us [E ->]]. inversion E; subst. cbn. apply Sp_short; auto. constructor.
  - destruct segs as [|seg segs]; [discriminate|]. split.
    + intro S. inversion S as [|? d0 ? seg0 segs0 v os0 P0 K0 AC S0|f0 u0 fs0 blk segs0 v os0 P0 K0 NE T S0|? ? ? P0 M0 S0|? ? ? ? P0 S0]; subst; try congruence.
      apply IH in S0 as [us [E ->]]; [|cbn in L; lia]. exists (v :: us). split; auto. econstructor; eauto.
    + intros [us [E ->]]. inversion E as [|? d0 ? seg0 a0 v us0 K0 AC E0]; subst. cbn [app map]. eapply Sp_item; eauto.
      apply IH; [cbn in L; lia|]. eauto.
Qed.

Lemma each_item_len (fs : list (field V)) segs vs : each_item fs segs vs -> length segs = length fs.
Proof. induction 1; cbn; auto. Qed.
Lemma tailed_by (s : sdef V) fs f u K : tailed s fs f u -> takes_rest u K -> flat_items_ok s.
Proof.
  intros [E [FI [P KF]]] [BI _]. unfold flat_items_ok. rewrite E. apply Forall_app. split.
  - eapply Forall_impl; [|exact FI]. intros x [_ [d KX]] u0 _ KU. congruence.
  - constructor; [|constructor]. intros u0 _ KU. now assert (u0 = u) as -> by congruence.
Qed.
Lemma l_tail_args (s : sdef V) fs f u K tm p st segs ws :
  tuple_run s tm p -> any_tuple_struct s -> fine_items s -> Forall uniform_missing (s_raw s) ->
  tailed s fs f u -> takes_rest u K ->
  listed segs (toks st) -> ~ In [] segs -> length fs < length segs ->
  whole p [st] ws <->
  exists us v vs, each_item fs (firstn (length fs) segs) us /\ K (skipn (length fs) segs) v /\
    spread_values s tm (map Some (us ++ [v])) vs /\ chained (s_and_thens s) vs ws.
Proof.
  intros TR AT FI UM TL BK LS NE LT. rewrite (l_block_run s tm p st segs ws TR AT FI (tailed_by _ _ _ _ _ TL BK) UM LS NE).
  destruct TL as [E [FF [P KF]]]. rewrite E. destruct BK as [_ [TK _]].
  assert (BK : forall b, b <> [] -> (exists a, segs = a ++ b) -> exists ts tl, block b false ts tl).
  { intros b NB [a ->]. destruct (listed_whole _ _ LS NE) as [tl B]. destruct a as [|x a]; [eauto|].
    destruct (block_app (x :: a) b false _ _ ltac:(discriminate) NB B) as [t0 [ts' [_ [_ B3]]]]. eauto. }
  split.
  - intros [os [vs [S [SV C]]]]. apply (spread_tail fs f _ FF P KF segs os LT) in S as [a [b [us [v [-> [NB [EI [T ->]]]]]]]].
    destruct (BK b NB ltac:(eauto)) as [ts [tl B]]. apply (TK b false ts tl v NB B) in T as [_ KV].
    pose proof (each_item_len _ _ _ EI) as LA. exists us, v, vs. rewrite <- LA, firstn_app, skipn_app, Nat.sub_diag, firstn_all, skipn_all. cbn [firstn skipn]. rewrite app_nil_r, map_app.
    auto.
  - intros [us [w [vs [EI [KV [SV C]]]]]]. exists (map Some (us ++ [w])), vs. split; [|split]; auto.
    apply (spread_tail fs f _ FF P KF segs _ LT).
    assert (NB : skipn (length fs) segs <> []) by (intro X; apply (f_equal (@length _)) in X; rewrite skipn_length in X; cbn in X; lia).
    exists (firstn (length fs) segs), (skipn (length fs) segs), us, w. split; [now rewrite firstn_skipn|]. split; auto. split; auto.
    rewrite map_app. split; auto.
    destruct (BK _ NB ltac:(exists (firstn (length fs) segs); now rewrite firstn_skipn)) as [ts [tl B]].
    apply (TK _ false ts tl); eauto.
Qed.
Lemma l_tail_none (s : sdef V) fs f u K tm p st segs ws :
  tuple_run s tm p -> any_tuple_struct s -> fine_items s -> Forall uniform_missing (s_raw s) ->
  tailed s fs f u -> takes_rest u K ->
  listed segs (toks st) -> ~ In [] segs -> length segs = length fs ->
  whole p [st] ws <->
  exists us vs, each_item fs segs us /\
    spread_values s tm (map Some us ++ [None]) vs /\ chained (s_and_thens s) vs ws.
Proof.
  intros TR AT FI UM TL BK LS NE LT. rewrite (l_block_run s tm p st segs ws TR AT FI (tailed_by _ _ _ _ _ TL BK) UM LS NE).
  destruct TL as [E [FF [P KF]]]. rewrite E. split.
  - intros [os [vs [S X]]]. apply (spread_exact fs f FF P segs os LT) in S as [us [EI ->]]. eauto.
  - intros [us [vs [EI X]]]. exists (map Some us ++ [None]), vs. split; auto. apply (spread_exact fs f FF P segs _ LT). eauto.
Qed.
End C.
