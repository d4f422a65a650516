(** Reading options: [read_items] against [written]. *)
From Verif Require Import LemWf LemWfD LemWfE LemSmall LemItems LemAttr.
From Verif Require Export SpecOpts LemSchema LemSchema2.

Section G.
Context {env : Env} {O St : Type}.
Variable spells : string -> span -> stream -> O -> stream -> Prop.
Variable arm : string -> span -> St -> errors -> parser (St * errors).
(** state [st] is reached with the options [os], which are fine so far *)
Variable R : list O -> St -> Prop.
Variable inc : list O -> Prop.
Hypothesis AW : forall k sp st es, well_behaved (arm k sp st es).
Hypothesis AK : forall k sp st es s st' s', arm k sp st es s = (Ok (st', []), s') -> es = [].
Hypothesis AS : forall os k sp st s st' s', R os st -> arm k sp st [] s = (Ok (st', []), s') ->
  exists o, spells k sp s o s' /\ R (os ++ [o]) st'.
Hypothesis AC : forall os k sp st s o s', R os st -> spells k sp s o s' -> inc (os ++ [o]) ->
  exists st', arm k sp st [] s = (Ok (st', []), s') /\ R (os ++ [o]) st'.
Hypothesis IP : forall a b, inc (a ++ b) -> inc a.

Let func (k : string) (sp : span) (q : St * errors) (s : stream) : res unit * (St * errors) * stream :=
  match arm k sp (fst q) (snd q) s with
  | (Ok q1, s1) => (Ok tt, q1, s1)
  | (Err e, s1) => (Err e, q, s1)
  | (Bad b, s1) => (Bad b, q, s1)
  end.
Lemma func_keeps k sp (q : St * errors) s r q' s' : func k sp q s = (r, q', s') -> snd q' = [] -> snd q = [].
Proof.
  unfold func. destruct (arm k sp (fst q) (snd q) s) as [[[st1 es1]|e|b] s1] eqn:A; intro H; injection H as <- <- <-; cbn [snd]; auto.
  intros ->. eauto.
Qed.
Lemma comma_ok s r : parse_comma s = r -> forall u s3, r = (Ok u, s3) ->
  exists c t, toks s = c :: t /\ comma_tok c /\ s3 = set_toks s t.
Proof.
  intros <- u s3 H. destruct (toks s) as [|c t] eqn:T.
  - unfold parse_comma, parse_punct in H. rewrite T in H. cbn in H. discriminate H.
  - destruct (is_comma c) eqn:C.
    + rewrite (parse_comma_cons s c t T C) in H. injection H as _ <-. exists c, t. split; auto. split; auto. now apply comma_true.
    + destruct (parse_comma_not s c t T C) as [e E]. rewrite E in H. discriminate H.
Qed.
Lemma loop_sound : forall n os st es s u st' s', R os st ->
  struct_loop func n (st, es) s = (Ok u, (st', []), s') ->
  es = [] /\ exists os', opts_in spells s os' s' /\ R (os ++ os') st'.
Proof.
  induction n as [|n IH]; intros os st es s u st' s' HR; cbn [struct_loop]; [discriminate|].
  destruct (is_empty s) eqn:EM.
  - intro H. injection H as <- <- -> <-. split; auto. exists []. rewrite app_nil_r. split; auto. constructor.
    unfold is_empty in EM. destruct (toks s); [auto|discriminate].
  - assert (NE : toks s <> []) by (intro X; unfold is_empty in EM; rewrite X in EM; discriminate).
    destruct (parse_any_path s) as [[p|e|b] s1] eqn:P; try discriminate.
    destruct (func (path_key p) (p_span p) (st, es) s1) as [[[u1|e|b] [st1 es1]] s2] eqn:F; try discriminate.
    assert (KS : forall x y z w, struct_loop func n (st1, es1) x = (y, (z, []), w) -> es1 = []).
    { intros x y z w L. pose proof (struct_loop_inv (fun q : St * errors => snd q = []) func (func_keeps) n (st1, es1) x) as Y.
      rewrite L in Y. cbn [fst snd] in Y. auto. }
    assert (FS : es1 = [] -> es = [] /\ exists o, spells (path_key p) (p_span p) s1 o s2 /\ R (os ++ [o]) st1).
    { intros ->. pose proof (func_keeps _ _ _ _ _ _ _ F eq_refl) as Z. cbn [snd] in Z. subst es. split; auto.
      unfold func in F. cbn [fst snd] in F. destruct (arm (path_key p) (p_span p) st [] s1) as [[[st2 es2]|e|b] s3] eqn:A; try discriminate.
      injection F as _ -> -> ->. eapply AS; eauto. }
    assert (AT : at_key s (path_key p) (p_span p) s1) by (exists p; auto).
    destruct (is_empty s2) eqn:E2.
    + intro H. injection H as <- <- -> <-. destruct (FS eq_refl) as [-> [o [SP HR1]]]. split; auto. exists [o]. split; auto.
      eapply W_last; eauto. unfold is_empty in E2. destruct (toks s2); [auto|discriminate].
    + destruct (parse_comma s2) as [[u2|e|b] s3] eqn:C; try discriminate. intro H.
      destruct (comma_ok s2 _ C _ _ eq_refl) as [c [t [T [CT ->]]]].
      pose proof (KS _ _ _ _ H) as ->. destruct (FS eq_refl) as [-> [o [SP HR1]]]. split; auto.
      destruct (IH _ _ _ _ _ _ _ HR1 H) as [_ [os' [W HR2]]]. exists (o :: os').
      rewrite <- app_assoc in HR2. split; [|exact HR2]. eapply W_more; eauto.
Qed.
Lemma spells_len os k sp st s o s' : R os st -> spells k sp s o s' -> inc (os ++ [o]) -> length (toks s') <= length (toks s).
Proof.
  intros HR SP I. destruct (AC _ _ _ _ _ _ _ HR SP I) as [st' [A _]]. destruct (AW k sp st [] s) as [_ [pre H]]. rewrite A in H. cbn [snd] in H.
  rewrite H, app_length. lia.
Qed.
Lemma written_loop s os' s' : opts_in spells s os' s' -> forall n os st, R os st -> inc (os ++ os') -> length (toks s) < n ->
  exists st', struct_loop func n (st, []) s = (Ok tt, (st', []), s') /\ R (os ++ os') st'.
Proof.
  induction 1 as [s E|s k sp s1 o s2 NE AT SP E|s k sp s1 o s2 c r os' s3 NE AT SP E CT W IH]; intros n os st HR I L; (destruct n as [|n]; [lia|]); cbn [struct_loop].
  - unfold is_empty. rewrite E. exists st. rewrite app_nil_r. auto.
  - assert (EM : is_empty s = false) by (unfold is_empty; destruct (toks s); congruence). rewrite EM.
    destruct AT as [p [P [<- <-]]]. rewrite P. unfold func at 1. cbn [fst snd].
    destruct (AC _ _ _ _ _ _ _ HR SP I) as [st' [A HR2]]. rewrite A. unfold is_empty. rewrite E. eauto.
  - assert (EM : is_empty s = false) by (unfold is_empty; destruct (toks s); congruence). rewrite EM.
    destruct AT as [p [P [<- <-]]]. rewrite P. unfold func at 1. cbn [fst snd].
    assert (I1 : inc (os ++ [o])) by (apply (IP _ os'); now rewrite <- app_assoc).
    destruct (AC _ _ _ _ _ _ _ HR SP I1) as [st1 [A HR2]]. rewrite A.
    assert (E2 : is_empty s2 = false) by (unfold is_empty; rewrite E; auto). rewrite E2.
    rewrite (parse_comma_cons s2 c r E) by (now apply comma_true).
    assert (LL : length (toks (set_toks s2 r)) < n).
    { pose proof (spells_len _ _ _ _ _ _ _ HR SP I1) as LS. rewrite E in LS. cbn [length] in LS.
      pose proof (wb_path s) as [_ [pre PP]]. rewrite P in PP. cbn [snd] in PP. rewrite PP, app_length in L. cbn [toks set_toks]. lia. }
    specialize (IH n (os ++ [o]) st1 HR2). rewrite <- app_assoc in IH. destruct (IH I LL) as [st' [SL HR3]]. exists st'. auto.
Qed.
Lemma writtens_sound : forall l os st es u st' l', R os st ->
  parse_struct func (st, es) l = (Ok u, (st', []), l') ->
  es = [] /\ exists os', opts_in_all spells l os' l' /\ R (os ++ os') st'.
Proof.
  induction l as [|s l IH]; intros os st es u st' l' HR; cbn [parse_struct].
  - intro H. injection H as _ <- -> <-. split; auto. exists []. rewrite app_nil_r. split; auto. constructor.
  - destruct (struct_loop func (S (length (toks s))) (st, es) s) as [[[u1|e|b] [st1 es1]] s1] eqn:L; try discriminate.
    destruct (parse_struct func (st1, es1) l) as [[r [st2 es2]] l2] eqn:PS. intro H. injection H as -> -> -> <-.
    pose proof (parse_struct_inv (fun q : St * errors => snd q = []) func (func_keeps) l (st1, es1)) as Y.
    rewrite PS in Y. cbn [fst snd] in Y. specialize (Y eq_refl). subst es1.
    destruct (loop_sound _ _ _ _ _ _ _ _ HR L) as [-> [os1 [W HR1]]]. split; auto.
    destruct (IH _ _ _ _ _ _ HR1 PS) as [_ [os2 [Ws HR2]]]. exists (os1 ++ os2). rewrite app_assoc. split; auto. constructor; auto.
Qed.
Lemma writtens_complete l os' l' : opts_in_all spells l os' l' -> forall os st, R os st -> inc (os ++ os') ->
  exists st', parse_struct func (st, []) l = (Ok tt, (st', []), l') /\ R (os ++ os') st'.
Proof.
  induction 1 as [|s os1 s' l os2 l' W Ws IH]; intros os st HR I; cbn [parse_struct].
  - exists st. rewrite app_nil_r. auto.
  - rewrite app_assoc in I. destruct (written_loop _ _ _ W (S (length (toks s))) os st HR (IP _ _ I) ltac:(lia)) as [st1 [L HR1]].
    rewrite L. destruct (IH _ _ HR1 I) as [st2 [PS HR2]]. rewrite PS. exists st2. rewrite app_assoc. auto.
Qed.
Lemma read_sound os st es l st' l' : R os st -> read_items arm st es l = (Ok (st', []), l') ->
  es = [] /\ exists os', opts_in_all spells l os' l' /\ R (os ++ os') st'.
Proof.
  intros HR. unfold read_items. fold func. destruct (parse_struct func (st, es) l) as [[[u|e|b] [st1 es1]] l1] eqn:PS; try discriminate.
  - intro H. injection H as <- -> <-. eapply writtens_sound; eauto.
  - cbn [fst snd]. intro H. injection H as _ H _. apply push_syn_nil in H. contradiction.
Qed.
Lemma read_complete os st l os' l' : R os st -> opts_in_all spells l os' l' -> inc (os ++ os') ->
  exists st', read_items arm st [] l = (Ok (st', []), l') /\ R (os ++ os') st'.
Proof.
  intros HR Ws I. destruct (writtens_complete _ _ _ Ws _ _ HR I) as [st' [PS HR2]]. exists st'. split; auto.
  unfold read_items.
  match goal with |- context [parse_struct ?f ?q l] => replace (parse_struct f q l) with (Ok tt, (st', @nil err : errors), l') by (symmetry; exact PS) end.
  reflexivity.
Qed.
End G.
