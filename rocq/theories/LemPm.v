(** Proofs about the token types of proc_macro (C96). *)
From Verif Require Export SpecPm LemSmall.

Lemma raw_spec s : raw_text s = true <-> raw s.
Proof.
  split.
  - destruct s as [|a [|b x]]; try discriminate.
    + cbn. destruct a as [[] [] [] [] [] [] [] []]; discriminate.
    + cbn. destruct a as [[] [] [] [] [] [] [] []]; try discriminate. destruct b as [[] [] [] [] [] [] [] []]; try discriminate.
      intros _. exists x. reflexivity.
  - intros [x ->]. reflexivity.
Qed.

Section P.
Context {env : Env}.
Variable relex : lit -> lit + string.
Hypothesis faithful : forall l l', relex l = inl l' -> l' = l.

Lemma convert_spec t u : convert_token_tree relex t = Ok u <-> becomes relex t u.
Proof.
  split.
  - destruct t as [s sp|c j sp|l sp|d ts sp]; cbn [convert_token_tree]; intro H.
    + unfold pm_ident_new in H. destruct (raw_text s) eqn:R; [discriminate H|]. injection H as <-. constructor.
      intro W. apply raw_spec in W. congruence.
    + injection H as <-. constructor.
    + destruct (relex l) as [l'|m] eqn:E; [|discriminate H]. injection H as <-. apply faithful in E as F. subst l'. now constructor.
    + injection H as <-. constructor.
  - intros [s sp N|l sp R|c j sp|d ts sp]; cbn [convert_token_tree].
    + unfold pm_ident_new. destruct (raw_text s) eqn:R; [|reflexivity]. apply raw_spec in R. contradiction.
    + now rewrite R.
    + reflexivity.
    + reflexivity.
Qed.
Lemma convert_bad t b : convert_token_tree relex t = Bad b <-> b = Panic /\ exists s sp, t = TIdent s sp /\ raw s.
Proof.
  split.
  - destruct t as [s sp|c j sp|l sp|d ts sp]; cbn [convert_token_tree]; intro H; try discriminate H.
    + unfold pm_ident_new in H. destruct (raw_text s) eqn:R; [|discriminate H]. injection H as <-. split; [reflexivity|].
      exists s, sp. split; [reflexivity|]. now apply raw_spec.
    + destruct (relex l); discriminate H.
  - intros [-> (s & sp & -> & R)]. cbn. unfold pm_ident_new. apply raw_spec in R. now rewrite R.
Qed.
Lemma convert_kind t u : convert_token_tree relex t = Ok u ->
  is_lit u = is_lit t /\ is_punct u = is_punct t /\ is_group u = is_group t /\ is_ident u = is_ident t.
Proof. intro H. apply convert_spec in H. destruct H; auto. Qed.

(** what syn's parser for the type accepts *)
Definition for_tokens (p : parser token) (q : token -> Prop) : Prop := forall s t s',
  p s = (Ok t, s') <-> q t /\ toks s = t :: toks s' /\ scope s' = scope s /\ cell s' = cell s.
Definition no_bad (p : parser token) : Prop := forall s b s', p s <> (Bad b, s').

Lemma pack (s s' : stream) r : toks s' = r -> scope s' = scope s -> cell s' = cell s -> s' = set_toks s r.
Proof. destruct s, s'. cbn. intros -> -> ->. reflexivity. Qed.
Lemma token_for what pick q : (forall t, pick t = true <-> q t) -> for_tokens (parse_token what pick) q.
Proof.
  intros Q s t s'. unfold parse_token. split.
  - destruct (toks s) as [|t0 r] eqn:T; [discriminate|]. destruct (pick t0) eqn:P; [|discriminate]. intro H. injection H as <- <-.
    apply Q in P. auto.
  - intros (P & T & S & C). rewrite T. apply Q in P. rewrite P. f_equal. symmetry. now apply pack.
Qed.
Lemma ident_for : for_tokens parse_ident (fun t => exists s sp, t = TIdent s sp /\ ~ In s keywords).
Proof.
  intros s t s'. unfold parse_ident. split.
  - destruct (toks s) as [|[i sp| | |] r] eqn:T; try discriminate. destruct (mem_str i keywords) eqn:M; [discriminate|].
    intro H. injection H as <- <-. split; [|auto]. exists i, sp. split; [reflexivity|]. intro I. apply mem_str_In in I. congruence.
  - intros ((i & sp & -> & N) & T & S & C). rewrite T. destruct (mem_str i keywords) eqn:M; [apply mem_str_In in M; contradiction|].
    f_equal. symmetry. now apply pack.
Qed.
Lemma token_no_bad what pick : no_bad (parse_token what pick).
Proof. intros s b s'. unfold parse_token. destruct (toks s) as [|t r]; [discriminate|]. destruct (pick t); discriminate. Qed.
Lemma ident_no_bad : no_bad parse_ident.
Proof. intros s b s'. unfold parse_ident. destruct (toks s) as [|[i sp| | |] r]; try discriminate. destruct (mem_str i keywords); discriminate. Qed.

Lemma converted_ok p q kind : for_tokens p q -> (forall t u, q t -> becomes relex t u -> kind u = true) ->
  forall m s u s', d_item (converted relex p kind) m s = (Ok u, s') <->
  exists t, q t /\ toks s = t :: toks s' /\ scope s' = scope s /\ cell s' = cell s /\ becomes relex t u.
Proof.
  intros F K m s u s'. cbn [d_item converted dict_item]. split.
  - destruct (p s) as [[t|e|b] s1] eqn:E; cbn [rbind]; try discriminate. intro H.
    destruct (convert_token_tree relex t) as [u'|e|b] eqn:V; cbn [rbind] in H; try discriminate H. apply F in E as (Q & T & S & C).
    destruct (kind u'); [|discriminate H]. injection H as <- <-. apply convert_spec in V. exists t. auto.
  - intros (t & Q & T & S & C & B). rewrite (proj2 (F s t s')) by auto. cbn [rbind]. rewrite (proj2 (convert_spec t u) B). cbn [rbind].
    now rewrite (K t u Q B).
Qed.
Lemma converted_bad p q kind : for_tokens p q -> no_bad p -> (forall t u, q t -> becomes relex t u -> kind u = true) ->
  forall m s b, fst (d_item (converted relex p kind) m s) = Bad b <->
  b = Panic /\ exists t i sp r, q t /\ toks s = t :: r /\ t = TIdent i sp /\ raw i.
Proof.
  intros F N K m s b. cbn [d_item converted dict_item]. split.
  - destruct (p s) as [[t|e|b'] s1] eqn:E; cbn [rbind fst]; [|discriminate|destruct (N _ _ _ E)]. apply F in E as (Q & T & S & C).
    destruct (convert_token_tree relex t) as [u'|e|b'] eqn:V; cbn [rbind].
    + apply convert_spec in V. rewrite (K t u' Q V). discriminate.
    + discriminate.
    + intro H. injection H as <-. apply convert_bad in V as (-> & i & sp & -> & R). split; [reflexivity|]. exists (TIdent i sp), i, sp, (toks s1). auto.
  - intros (-> & t & i & sp & r & Q & T & -> & R). rewrite (proj2 (F s (TIdent i sp) (set_toks s r))) by auto. cbn [rbind fst].
    rewrite (proj2 (convert_bad (TIdent i sp) Panic)); [reflexivity|]. split; [reflexivity|]. eauto.
Qed.

Definition made (d : dict token) (q : token -> Prop) : Prop := exists p kind, d = converted relex p kind /\
  for_tokens p q /\ no_bad p /\ (forall t u, q t -> becomes relex t u -> kind u = true).
Lemma types_made d q : pm_type relex d q -> made d q.
Proof.
  intros [].
  - eexists _, _. split; [reflexivity|]. split; [apply token_for; tauto|]. split; [apply token_no_bad|]. reflexivity.
  - eexists _, _. split; [reflexivity|]. split; [apply token_for|split; [apply token_no_bad|]].
    + intros [ | | | ]; cbn; split; try discriminate; eauto; intros (? & ? & E); discriminate E.
    + intros t u (l & sp & ->) B. now inversion B.
  - eexists _, _. split; [reflexivity|]. split; [apply token_for|split; [apply token_no_bad|]].
    + intros [s sp|c j sp|l sp|d0 ts sp]; split; try discriminate; try (intros (c' & j' & sp' & E & _); discriminate E).
      * intro H. exists c, j, sp. split; [reflexivity|]. intros ->. discriminate H.
      * intros (c' & j' & sp' & E & N). injection E as -> _ _. apply negb_true_iff. now apply Ascii.eqb_neq.
    + intros t u (c & j & sp & -> & _) B. now inversion B.
  - eexists _, _. split; [reflexivity|]. split; [apply token_for|split; [apply token_no_bad|]].
    + intros [ | | | ]; cbn; split; try discriminate; eauto; intros (? & ? & ? & E); discriminate E.
    + intros t u (d0 & ts & sp & ->) B. now inversion B.
  - eexists _, _. split; [reflexivity|]. split; [apply ident_for|split; [apply ident_no_bad|]].
    intros t u (i & sp & -> & _) B. now inversion B.
Qed.

Lemma l_pm_reads d q : pm_type relex d q -> forall m s u s',
  d_item d m s = (Ok u, s') <->
  exists t, q t /\ toks s = t :: toks s' /\ scope s' = scope s /\ cell s' = cell s /\ becomes relex t u.
Proof. intros T. destruct (types_made d q T) as (p & kind & -> & F & N & K). now apply converted_ok. Qed.
Lemma l_pm_panics d q : pm_type relex d q -> forall m s b,
  fst (d_item d m s) = Bad b <->
  b = Panic /\ exists t i sp r, q t /\ toks s = t :: r /\ t = TIdent i sp /\ raw i.
Proof. intros T. destruct (types_made d q T) as (p & kind & -> & F & N & K). now apply converted_bad. Qed.
End P.

