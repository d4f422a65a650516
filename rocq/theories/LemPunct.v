(** Punctuated. *)
From Verif Require Export LemWith.

Section P.
Context {env : Env} {A : Type} (d : dict A).
Local Notation p := (d_item d Unnamed).
Lemma punct_grow pc : forall n st s st' s', punct_loop pc d n st s = (Ok st', s') -> exists more, snd st' = snd st ++ more.
Proof.
  induction n as [|n IH]; intros st s st' s'; cbn [punct_loop]; [discriminate|]. destruct (is_empty s).
  { intro H. injection H as <- <-. exists []. now rewrite app_nil_r. }
  destruct (d_item d Unnamed s) as [[v|e|b] s1]; [| |discriminate].
  - destruct (is_empty s1); [intro H; apply IH in H; exact H|]. destruct (parse_punct [pc] (String pc "") s1) as [[u|e|b] s2].
    + intro H. injection H as <- <-. exists []. cbn. now rewrite app_nil_r.
    + intro H. apply IH in H as [more H]. cbn [snd] in H. unfold push_syn in H. rewrite <- app_assoc in H. eauto.
    + discriminate.
  - intro H. apply IH in H as [more H]. cbn [snd] in H. unfold push_syn in H. rewrite <- app_assoc in H. eauto.
Qed.
Lemma grown pc n ws e s st' s' es : punct_loop pc d n (ws, push_syn es e) s = (Ok st', s') -> snd st' = [] -> False.
Proof.
  intros H E. apply punct_grow in H as [more H]. rewrite E in H. cbn [snd] in H. unfold push_syn, errs_of in H.
  destruct es; cbn in H; discriminate.
Qed.
Lemma comma_parse s : parse_punct [comma_c] (String comma_c "") s = parse_comma s.
Proof. reflexivity. Qed.
Definition after (tl : list token) : list token := match tl with [] => [] | _ :: r => r end.
Lemma punct_one n ws s vs s' : local p -> punct_loop comma_c d n (ws, []) s = (Ok (vs, []), s') ->
  (toks s = [] /\ vs = ws /\ s' = s) \/
  exists seg tl v, toks s = seg ++ tl /\ no_comma seg /\ ends tl /\ toks s <> [] /\ accepts p seg v /\ vs = ws ++ [v] /\ toks s' = after tl.
Proof.
  intros L H. destruct n as [|n]; [discriminate|]. cbn [punct_loop] in H. destruct (is_empty s) eqn:E.
  { injection H as <- <-. left. unfold is_empty in E. destruct (toks s); [auto|discriminate]. }
  right. destruct (cut_item (toks s)) as [seg [tl [T [N EN]]]]. exists seg, tl.
  assert (NE : toks s <> []). { unfold is_empty in E. intro X. rewrite X in E. discriminate. }
  assert (SS : s = mkStream (seg ++ tl) (scope s) (cell s)) by (destruct s; cbn in *; now subst).
  pose proof (proj1 L s) as ST.
  pose proof (local_accepts_at p seg tl (scope s) (cell s)) as AC. rewrite <- SS in AC.
  assert (LR : forall v, fst (p s) = Ok v -> exists rest, toks (snd (p s)) = rest ++ tl /\ no_comma rest).
  { intros v X. destruct (proj2 L seg N) as [[w [rest G]]|G].
    - exists rest. destruct (G tl (scope s) (cell s) EN) as [_ G2]. rewrite <- SS in G2. split; auto.
      destruct ST as [pre [S1 S2]]. rewrite G2, T, app_assoc in S1. apply app_inv_tail in S1. subst seg. unfold no_comma in *. now apply Forall_app in N.
    - destruct (G tl (scope s) (cell s) EN) as [e G1]. rewrite <- SS in G1. congruence. }
  destruct (p s) as [[v|e|b] s1] eqn:Q; cbn [fst snd] in *; [| |discriminate].
  2:{ exfalso. exact (grown _ _ _ _ _ _ _ _ H eq_refl). }
  exists v. destruct (LR v eq_refl) as [rest [R1 R2]]. destruct (is_empty s1) eqn:E1.
  - assert (Z : toks s1 = []) by (unfold is_empty in E1; destruct (toks s1); [auto|discriminate]).
    rewrite R1 in Z. apply app_eq_nil in Z as [-> ->]. cbn [app] in R1.
    destruct n as [|n]; [discriminate|]. cbn [punct_loop] in H. rewrite E1 in H. injection H as <- <-.
    refine (conj T (conj N (conj EN (conj NE (conj _ (conj eq_refl _)))))); [|exact R1]. exact (AC v L N EN eq_refl R1).
  - rewrite comma_parse in H. destruct rest as [|t rest].
    + cbn [app] in R1. destruct (ends_inv tl EN) as [->|[t [r [-> C]]]]; [unfold is_empty in E1; rewrite R1 in E1; discriminate|].
      rewrite (parse_comma_cons s1 t r R1 C) in H. injection H as <- <-.
      refine (conj T (conj N (conj EN (conj NE (conj _ (conj eq_refl eq_refl)))))). exact (AC v L N EN eq_refl R1).
    + exfalso. apply nc_cons in R2 as [C _]. destruct (parse_comma_not s1 t (rest ++ tl) R1 C) as [e E2]. rewrite E2 in H.
      exact (grown _ _ _ _ _ _ _ _ H eq_refl).
Qed.
Lemma punct_run n ws s seg tl v : local p -> toks s = seg ++ tl -> no_comma seg -> ends tl -> toks s <> [] -> accepts p seg v ->
  exists s', punct_loop comma_c d (S (S n)) (ws, []) s = (Ok (ws ++ [v], []), s') /\ toks s' = after tl.
Proof.
  intros L T N EN NE AC. cbn [punct_loop]. unfold is_empty at 1. destruct (toks s) eqn:TS; [tauto|]. rewrite <- TS in *. clear TS.
  assert (SS : s = mkStream (seg ++ tl) (scope s) (cell s)) by (destruct s; cbn in *; now subst).
  destruct (AC tl (scope s) (cell s) EN) as [A1 A2]. rewrite <- SS in A1, A2.
  destruct (p s) as [r s1]. cbn [fst snd] in *. subst r. destruct (ends_inv tl EN) as [->|[t' [r [-> C]]]].
  - unfold is_empty. rewrite A2. eauto.
  - unfold is_empty. rewrite A2. rewrite comma_parse, (parse_comma_cons s1 t' r A2 C). eauto.
Qed.
Lemma over_grow : forall l st st' l',
  over_streams (fun st s => punct_loop comma_c d (S (S (length (toks s)))) st s) st l = (Ok st', l') -> exists more, snd st' = snd st ++ more.
Proof.
  induction l as [|s l IH]; intros st st' l'; cbn [over_streams].
  { intro H. injection H as <- <-. exists []. now rewrite app_nil_r. }
  destruct (punct_loop comma_c d (S (S (length (toks s)))) st s) as [[st1|e|b] s1] eqn:Q; [|discriminate|discriminate].
  destruct (over_streams _ st1 l) as [r1 l1] eqn:O. intro H. injection H as -> <-. apply IH in O as [m1 O]. apply punct_grow in Q as [m2 Q].
  exists (m2 ++ m1). now rewrite O, Q, app_assoc.
Qed.
Lemma over_punct : local p -> forall l ws vs l',
  over_streams (fun st s => punct_loop comma_c d (S (S (length (toks s)))) st s) (ws, []) l = (Ok (vs, []), l') ->
  (Forall (fun s => length (items (toks s)) <= 1) l -> exists us, Forall2 (accepts p) (items_of l) us /\ vs = ws ++ us) /\
  (Forall used_up l' -> Forall (fun s => ~ In [] (items (toks s)) -> length (items (toks s)) <= 1) l).
Proof.
  intro L. induction l as [|s l IH]; intros ws vs l'; cbn [over_streams].
  { intro H. injection H as <- <-. split; [|constructor]. exists []. split; [constructor|now rewrite app_nil_r]. }
  destruct (punct_loop comma_c d (S (S (length (toks s)))) (ws, []) s) as [[[ws1 es1]|e|b] s1] eqn:Q; [|discriminate|discriminate].
  destruct (over_streams _ (ws1, es1) l) as [r1 l1] eqn:O. intro H. injection H as -> <-.
  assert (es1 = []). { apply over_grow in O as [more O]. cbn [snd] in O. now destruct es1. } subst es1.
  apply IH in O as [O1 O2]. clear IH. destruct (punct_one _ _ _ _ _ L Q) as [[T [-> ->]]|[seg [tl [v [T [N [EN [NE [AC [-> T1]]]]]]]]]].
  - split.
    + intro F. apply Forall_cons_iff in F as [_ F]. destruct (O1 F) as [us [U ->]]. exists us. split; auto.
      unfold items_of, all_pieces. cbn [flat_map]. rewrite T. exact U.
    + intro F. apply Forall_cons_iff in F as [_ F]. constructor; auto. rewrite T. cbn. lia.
  - assert (IT : items (toks s) = seg :: items (after tl)).
    { unfold items. rewrite T, pieces_app; auto; [|congruence]. cbn [map fst]. destruct tl; reflexivity. }
    split.
    + intro F. apply Forall_cons_iff in F as [F1 F]. destruct (O1 F) as [us [U ->]]. exists (v :: us). rewrite <- app_assoc. split; auto.
      change (s :: l) with ([s] ++ l). rewrite items_of_app. replace (items_of [s]) with (items (toks s)) by (destruct s; now rewrite items_of_one).
      rewrite IT in *. cbn [length] in F1. destruct (items (after tl)); [|cbn in F1; lia]. cbn [app]. now constructor.
    + intro F. apply Forall_cons_iff in F as [F1 F]. constructor; auto. rewrite IT. intro NB. destruct F1 as [F1|[t [F1 C]]]; rewrite T1 in F1.
      * rewrite F1. cbn. lia.
      * exfalso. apply NB. right. rewrite F1. unfold items. cbn [pieces]. rewrite C. cbn. auto.
Qed.
Lemma over_punct_run : local p -> forall l ws us, Forall (fun s => length (items (toks s)) <= 1) l -> Forall2 (accepts p) (items_of l) us ->
  exists l', over_streams (fun st s => punct_loop comma_c d (S (S (length (toks s)))) st s) (ws, []) l = (Ok (ws ++ us, []), l') /\
    Forall (fun s => toks s = []) l'.
Proof.
  intro L. induction l as [|s l IH]; intros ws us F U; cbn [over_streams].
  { inversion U; subst. exists []. now rewrite app_nil_r. }
  apply Forall_cons_iff in F as [F1 F]. change (s :: l) with ([s] ++ l) in U. rewrite items_of_app in U.
  replace (items_of [s]) with (items (toks s)) in U by (destruct s; now rewrite items_of_one).
  destruct (toks s) as [|t0 r0] eqn:TS.
  - cbn [app items pieces map length] in U.
    assert (Z : forall n, punct_loop comma_c d (S n) (ws, []) s = (Ok (ws, []), s)) by (intro n; cbn [punct_loop]; unfold is_empty; now rewrite TS).
    rewrite Z. destruct (IH ws us F U) as [l' [-> Z2]]. eauto.
  - rewrite <- TS in *. destruct (cut_item (toks s)) as [seg [tl [T [N EN]]]].
    assert (NE : toks s <> []) by congruence. assert (IT : items (toks s) = seg :: items (after tl)).
    { unfold items. rewrite T, pieces_app; auto; [|congruence]. cbn [map fst]. destruct tl; reflexivity. }
    rewrite IT in *. cbn [length] in F1. destruct (items (after tl)) eqn:IA; [|cbn in F1; lia]. cbn [app] in U. inversion U as [|? v ? us' AC U']; subst.
    destruct (punct_run (length (toks s)) ws s seg tl v L T N EN NE AC) as [s' [-> S2]].
    destruct (IH (ws ++ [v]) us' F U') as [l' [-> Z]]. rewrite <- app_assoc. eexists. split; [reflexivity|]. constructor; auto.
    rewrite S2. unfold items in IA. apply map_eq_nil in IA. now apply pieces_nil.
Qed.
Lemma flat_over l vs : fst (punctuated_flat comma_c d l) = Ok vs <->
  exists l', over_streams (fun st s => punct_loop comma_c d (S (S (length (toks s)))) st s) ([], []) l = (Ok (vs, []), l') /\ snd (punctuated_flat comma_c d l) = l'.
Proof.
  unfold punctuated_flat, finish.
  match goal with |- context [over_streams ?b ?st l] => destruct (over_streams b st l) as [[[ws es]|e|b'] l1] end; cbn [rbind fst snd].
  - destruct es; cbn; split.
    + intro H. injection H as ->. eauto.
    + intros [l' [H _]]. now injection H as ->.
    + discriminate.
    + intros [l' [H _]]. discriminate.
  - split; [discriminate|intros [l' [H _]]; discriminate].
  - split; [discriminate|intros [l' [H _]]; discriminate].
Qed.
Lemma l_punct_single l vs : local p -> Forall (fun s => length (items (toks s)) <= 1) l ->
  fst (punctuated_flat comma_c d l) = Ok vs <-> Forall2 (accepts p) (items_of l) vs.
Proof.
  intros L F. rewrite flat_over. split.
  - intros [l' [O _]]. apply over_punct in O as [O _]; auto. destruct (O F) as [us [U ->]]. exact U.
  - intro U. destruct (over_punct_run L l [] vs F U) as [l' [O _]]. exists l'. split; auto. unfold punctuated_flat, finish. rewrite O. reflexivity.
Qed.
Lemma punct_single_rest l vs : local p -> Forall (fun s => length (items (toks s)) <= 1) l ->
  Forall2 (accepts p) (items_of l) vs -> whole (punctuated_flat comma_c d) l vs.
Proof.
  intros L F U. destruct (over_punct_run L l [] vs F U) as [l' [O Z]]. unfold whole, punctuated_flat, finish. rewrite O. split; auto.
  cbn [snd]. eapply Forall_impl; [|exact Z]. intros x H. now left.
Qed.
Lemma l_punct_two l vs s : local p -> In s l -> ~ In [] (items (toks s)) -> 2 <= length (items (toks s)) ->
  ~ whole (punctuated_flat comma_c d) l vs.
Proof.
  intros L I NB G [H U]. apply flat_over in H as [l' [O E]]. rewrite E in U. apply over_punct in O as [_ O]; auto. specialize (O U).
  rewrite Forall_forall in O. specialize (O s I NB). lia.
Qed.
End P.
Section G.
Context {env : Env} {A : Type} (d : dict A).
Lemma l_punct_group m s segs vs : fine d -> consumes (d_item d Unnamed) -> length segs <= 1 -> group_of Bracket s segs ->
  fst (d_item (punctuated_dict comma_c d) m s) = Ok vs <-> Forall2 (accepts (d_item d Unnamed)) segs vs.
Proof.
  intros F CO LE G. assert (L : local (d_item d Unnamed)) by (apply fi_item; auto).
  apply group_items in G as [ts [gsp [rest [E I]]]]. cbn [d_item punctuated_dict dict_inline].
  rewrite delimited_ok by (apply wbm_punctuated; [apply F|auto]).
  assert (FS : Forall (fun s => length (items (toks s)) <= 1) [mkStream ts (SClose gsp) (cell s)]) by (constructor; auto; cbn [toks]; now rewrite I).
  split.
  - intros [ts' [gsp' [rest' [E' [H _]]]]]. rewrite E in E'. injection E' as <- <- <-.
    apply l_punct_single in H; auto. now rewrite items_of_one, I in H.
  - intro H. exists ts, gsp, rest. split; auto. apply punct_single_rest; auto. now rewrite items_of_one, I.
Qed.
Lemma l_punct_never m s segs : fine d -> consumes (d_item d Unnamed) -> 2 <= length segs -> ~ In [] segs -> group_of Bracket s segs ->
  exists e, fst (d_item (punctuated_dict comma_c d) m s) = Err e.
Proof.
  intros F CO LE NB G. assert (L : local (d_item d Unnamed)) by (apply fi_item; auto).
  assert (W : good_dict (punctuated_dict comma_c d)) by (apply good_punctuated; [apply F|auto]).
  apply not_ok.
  { apply (gd_item _ W). }
  apply group_items in G as [ts [gsp [rest [E I]]]]. cbn [d_item punctuated_dict dict_inline]. intros vs H.
  rewrite delimited_ok in H by (apply wbm_punctuated; [apply F|auto]).
  destruct H as [ts' [gsp' [rest' [E' H]]]]. rewrite E in E'. injection E' as <- <- <-.
  refine (l_punct_two d _ vs (mkStream ts (SClose gsp) (cell s)) L _ _ _ H); [left; reflexivity| |]; cbn [toks]; now rewrite I.
Qed.
End G.

(** *** No implementation reads past its item *)
Section L.
Context {env : Env}.
Lemma l_local A (d : dict A) : regular A d -> local_dict d.
Proof. intro R. apply fine_local. now apply (proj1 l_impl). Qed.
Lemma l_fine A (d : dict A) : regular A d -> fine d.
Proof. intro R. now apply (proj1 l_impl). Qed.
Lemma l_flag_local : local_dict flag_dict.
Proof. exact flag_local. Qed.
Lemma l_tokentree : usable _ tokentree_dict /\ ~ local (d_item tokentree_dict Unnamed).
Proof.
  split; [exact Us_tokentree|]. intros [S _]. destruct (S (root_stream [TPunct comma_c false SCall])) as [pre [E N]].
  cbn in E. rewrite app_nil_r in E. subst pre. inversion N as [|? ? H _]. apply H. unfold comma_tok. eauto.
Qed.
Lemma l_punct_tree : usable _ punct_dict /\ ~ local (d_item punct_dict Unnamed).
Proof.
  split; [exact Us_punct|]. intros [S _]. destruct (S (root_stream [TPunct comma_c false SCall])) as [pre [E N]].
  cbn in E. rewrite app_nil_r in E. subst pre. inversion N as [|? ? H _]. apply H. unfold comma_tok. eauto.
Qed.
End L.
