(** Append fields. *)
From Verif Require Export LemSplit.

Section A.
Context {env : Env}.
Section Step.
Context {St : Type} (func : string -> span -> St -> stream -> res unit * St * stream).
Definition key_step (st : St) (s : stream) : res St * stream :=
  match parse_any_path s with
  | (Ok p, s1) =>
    match func (path_key p) (p_span p) st s1 with
    | (Ok _, st1, s2) => (Ok st1, s2)
    | (Err e, _, s2) => (Err e, s2)
    | (Bad b, _, s2) => (Bad b, s2)
    end
  | (Err e, s1) => (Err e, s1)
  | (Bad b, s1) => (Bad b, s1)
  end.
Lemma struct_loop_comma : forall fuel st s,
  match struct_loop func fuel st s with
  | (Ok _, st', s') => comma_loop key_step fuel st s = (Ok st', s')
  | (Err e, _, s') => comma_loop key_step fuel st s = (Err e, s')
  | (Bad b, _, s') => comma_loop key_step fuel st s = (Bad b, s')
  end.
Proof.
  induction fuel as [|n IH]; intros st s; cbn [struct_loop comma_loop]; auto.
  destruct (is_empty s); auto. unfold key_step at 1 3 5. destruct (parse_any_path s) as [[p|e|b] s1]; auto.
  destruct (func (path_key p) (p_span p) st s1) as [[[u|e|b] st1] s2]; auto.
  destruct (is_empty s2); auto. destruct (parse_comma s2) as [[u2|e|b] s3]; auto. apply IH.
Qed.
Lemma parse_struct_over : forall l st,
  match parse_struct func st l with
  | (Ok _, st', l') => over_streams (comma_stream key_step) st l = (Ok st', l')
  | (Err e, _, l') => over_streams (comma_stream key_step) st l = (Err e, l')
  | (Bad b, _, l') => over_streams (comma_stream key_step) st l = (Bad b, l')
  end.
Proof.
  induction l as [|s l IH]; intros st; cbn [parse_struct over_streams]; auto.
  unfold comma_stream at 1 3 5. pose proof (struct_loop_comma (S (length (toks s))) st s) as H.
  destruct (struct_loop func (S (length (toks s))) st s) as [[[u|e|b] st1] s1]; rewrite H; auto.
  specialize (IH st1). destruct (parse_struct func st1 l) as [[[u2|e|b] st2] l1]; now rewrite IH.
Qed.
Lemma parse_struct_steps l st st' : ustep key_step -> (forall st, stays (key_step st)) ->
  (forall st s, scope (snd (key_step st s)) = scope s) ->
  (fst (fst (parse_struct func st l)) = Ok tt /\ snd (fst (parse_struct func st l)) = st') <-> steps key_step st (elems l) st'.
Proof.
  intros U S K. rewrite <- (over_steps key_step U S K). pose proof (parse_struct_over l st) as H.
  destruct (parse_struct func st l) as [[[[]|e|b] st2] l2]; rewrite H; cbn [fst snd].
  - split; [intros [_ ->]; auto|]. intro E. injection E as ->. auto.
  - split; [intros [X _]|intro X]; discriminate.
  - split; [intros [X _]|intro X]; discriminate.
Qed.
Lemma ks_u : ufunc func -> ustep key_step.
Proof.
  intros F st s s' E. unfold key_step. step1 (ub_path s s' E). destruct r; [|split; auto|split; auto].
  step2 (F (path_key a) (p_span a) st _ _ EQ). destruct r; split; auto.
Qed.
Lemma ks_st : (forall p sp st s, exists pre, toks s = pre ++ toks (snd (func p sp st s)) /\ no_comma pre) -> forall st, stays (key_step st).
Proof.
  intros F st s. unfold key_step. pose proof (st_path s) as P. destruct (parse_any_path s) as [[p|e|b] s1]; auto. cbn [snd] in P.
  specialize (F (path_key p) (p_span p) st s1). destruct (func (path_key p) (p_span p) st s1) as [[[u|e|b] st1] s2]; cbn [snd] in *; eapply st_comp; eauto.
Qed.
Lemma ks_kp : (forall p sp st s, scope (snd (func p sp st s)) = scope s) -> forall st s, scope (snd (key_step st s)) = scope s.
Proof.
  intros F st s. unfold key_step. pose proof (kp_path s) as P. destruct (parse_any_path s) as [[p|e|b] s1]; auto. cbn [snd] in P.
  specialize (F (path_key p) (p_span p) st s1). destruct (func (path_key p) (p_span p) st s1) as [[[u|e|b] st1] s2]; cbn [snd] in *; congruence.
Qed.
(** at an element *)
Lemma ks_at x st st1 : ends (el_after x) ->
  (fst (key_step st (at_elem x)) = Ok st1 /\ toks (snd (key_step st (at_elem x))) = el_after x) <->
  exists k ksp body, item_key (el_toks x) = Some (k, ksp, body) /\
    let y := func k ksp st (mkStream (body ++ el_after x) (el_scope x) None) in
    fst (fst y) = Ok tt /\ snd (fst y) = st1 /\ toks (snd y) = el_after x.
Proof.
  intro E. pose proof (path_item (el_toks x) (el_after x) (el_scope x) None E) as P. unfold key_step, item_key. unfold at_elem.
  destruct (parse_any_path (root_stream (el_toks x))) as [[p|e|b] s1].
  - rewrite P. split.
    + intros [H1 H2]. exists (path_key p), (p_span p), (toks s1). split; auto. cbv zeta.
      destruct (func (path_key p) (p_span p) st _) as [[[[]|e|b] st2] s2]; cbn [fst snd] in *; try discriminate. injection H1 as ->. auto.
    + intros [k [ksp [body [X Y]]]]. injection X as <- <- <-. cbv zeta in Y.
      destruct (func (path_key p) (p_span p) st _) as [[r st2] s2]; cbn [fst snd] in *. destruct Y as [-> [-> Y]]. auto.
  - destruct P as [e2 [s2 ->]]. split; [intros [X _]; discriminate|intros [k [ksp [body [X _]]]]; discriminate].
  - destruct P as [e2 [s2 ->]]. split; [intros [X _]; discriminate|intros [k [ksp [body [X _]]]]; discriminate].
Qed.
End Step.

Section Vec.
Context {A : Type} (d : dict A) (FD : fine d) (names : list string).
Let LD := fine_local d FD.
Local Notation vf := (vec_append_fn d names).
Lemma vf_u : ufunc vf.
Proof.
  intros p sp st s s' G. unfold vec_append_fn. destruct (mem_str p names).
  - step1 (ud_named d (fi_unaware d FD) p sp _ _ G). destruct r; split; simpl; auto using fork_skip.
  - split; simpl; auto using fork_skip.
Qed.
Lemma vf_st p sp st s : exists pre, toks s = pre ++ toks (snd (vf p sp st s)) /\ no_comma pre.
Proof.
  unfold vec_append_fn. destruct (mem_str p names); [|apply (stays_skip s)].
  pose proof (proj1 (ld_named d LD p sp) s) as H. destruct (d_named d p sp s) as [[v|e|b] s1]; cbn [snd] in *; auto.
  eapply st_comp; [exact H|]. apply (stays_skip s1).
Qed.
Lemma vf_kp p sp st s : scope (snd (vf p sp st s)) = scope s.
Proof.
  unfold vec_append_fn. destruct (mem_str p names); [|reflexivity].
  pose proof (fine_keeps_named d p sp FD s) as H. destruct (d_named d p sp s) as [[v|e|b] s1]; cbn [snd] in *; auto.
Qed.
Lemma local_accepts_at (p : parser A) body tl sc c v : local p -> no_comma body -> ends tl ->
  fst (p (mkStream (body ++ tl) sc c)) = Ok v -> toks (snd (p (mkStream (body ++ tl) sc c))) = tl -> accepts p body v.
Proof.
  intros [_ L] N E H1 H2. destruct (L body N) as [[w [rest G]]|G].
  - destruct (G tl sc c E) as [G1 G2]. assert (w = v) by congruence. subst w.
    assert (rest = []). { rewrite G2 in H2. apply (f_equal (@length token)) in H2. rewrite app_length in H2. destruct rest; auto. simpl in H2. lia. }
    subst rest. exact G.
  - destruct (G tl sc c E) as [e G1]. congruence.
Qed.
Lemma vec_append_steps xs : (forall x, In x xs -> no_comma (el_toks x) /\ ends (el_after x)) -> forall st st',
  (steps (key_step vf) st xs st' /\ snd st' = []) <-> (snd st = [] /\ snd st' = [] /\ exists vs, appended d names (map el_toks xs) vs /\ fst st' = fst st ++ vs).
Proof.
  intro W. induction xs as [|x xs IH]; intros st st'.
  - split.
    + intros [H Z]. inversion H; subst. split; auto. split; auto. exists []. rewrite app_nil_r. split; auto. constructor.
    + intros [Z [Z1 [vs [H E]]]]. inversion H; subst. rewrite app_nil_r in E. destruct st, st'. cbn [fst snd] in *. subst. split; auto. constructor.
  - destruct (W x (or_introl eq_refl)) as [N E]. specialize (IH (fun y I => W y (or_intror I))). split.
    + intros [H Z]. inversion H as [|? ? st1 ? ? H1 H2 H3]; subst. destruct (proj1 (IH st1 st') (conj H3 Z)) as [Z1 [_ [vs [AP F]]]].
      destruct (proj1 (ks_at vf x st st1 E) (conj H1 H2)) as [k [ksp [body [IK [Y1 [Y2 Y3]]]]]].
      assert (NB := key_no_comma _ _ _ _ IK N). unfold vec_append_fn in Y1, Y2, Y3. cbn [map].
      destruct (mem_str k names) eqn:M.
      * apply mem_In in M. destruct (d_named d k ksp _) as [[v|e|b] s1] eqn:D; cbn [fst snd] in *; try discriminate.
        -- subst st1. cbn [fst snd] in *. split; auto. split; auto. exists (v :: vs). rewrite <- app_assoc in F. split; auto.
           econstructor; eauto. eapply local_accepts_at; [apply (ld_named d LD)|auto|exact E|rewrite D; reflexivity|rewrite D; auto].
        -- subst st1. cbn [fst snd] in *. exfalso. unfold push_syn in Z1. destruct (snd st); discriminate.
      * cbn [fst snd] in *. subst st1. split; auto. split; auto. exists vs. split; auto.
        eapply Ap_other; eauto. intro I. apply mem_In in I. congruence.
    + intros [Z [Z1 [vs [AP F]]]]. split; auto. cbn [map] in AP. inversion AP as [|seg k ksp body v segs vs' IK I AC AP'|seg k ksp body segs vs' IK I AP']; subst.
      * assert (S : fst (key_step vf st (at_elem x)) = Ok (fst st ++ [v], snd st) /\ toks (snd (key_step vf st (at_elem x))) = el_after x).
        { apply (ks_at vf x st _ E). exists k, ksp, body. split; auto. cbv zeta. unfold vec_append_fn.
          apply mem_In in I. rewrite I. destruct (AC (el_after x) (el_scope x) None E) as [A1 A2].
          destruct (d_named d k ksp _) as [r s1]. cbn [fst snd] in *. subst r. auto. }
        destruct S as [S1 S2]. eapply St_more; [exact S1|exact S2|]. apply IH. cbn [fst snd]. split; auto. split; auto. exists vs'. split; auto.
        now rewrite <- app_assoc.
      * assert (S : fst (key_step vf st (at_elem x)) = Ok st /\ toks (snd (key_step vf st (at_elem x))) = el_after x).
        { apply (ks_at vf x st _ E). exists k, ksp, body. split; auto. cbv zeta. unfold vec_append_fn.
          destruct (mem_str k names) eqn:M; [exfalso; apply I; now apply mem_In|]. cbn [fst snd]. repeat split; auto.
          cbn. apply skip_toks_app; auto. now apply key_no_comma in IK. }
        destruct S as [S1 S2]. eapply St_more; [exact S1|exact S2|]. apply IH. split; auto. split; auto. exists vs. auto.
Qed.
Lemma vec_append_ok l vs : fst (vec_append d names l) = Ok vs <-> appended d names (items_of l) vs.
Proof.
  pose proof (parse_struct_steps vf l ([], []) (vs, []) (ks_u vf vf_u) (ks_st vf vf_st) (ks_kp vf vf_kp)) as X.
  pose proof (vec_append_steps (elems l) (fun x I => elem_of l x I) ([], []) (vs, [])) as Y. cbn [fst snd] in Y. rewrite elems_items in Y.
  transitivity (steps (key_step vf) ([], []) (elems l) (vs, [])).
  - rewrite <- X. unfold vec_append. destruct (parse_struct vf ([], []) l) as [[[[]|e|b] [ws es]] l1]; cbn [fst snd].
    + destruct es; cbn; split.
      * intro H. injection H as ->. auto.
      * intros [_ H]. injection H as ->. auto.
      * discriminate.
      * intros [_ H]. discriminate.
    + split; [|intros [H _]; discriminate]. unfold push_syn. destruct es, e; discriminate.
    + split; [|intros [H _]]; discriminate.
  - split.
    + intro H. destruct (proj1 Y (conj H eq_refl)) as [_ [_ [ws [AP E]]]]. cbn [app] in E. now subst.
    + intro H. apply Y. repeat split; auto. exists vs. auto.
Qed.
End Vec.

Section Set_.
Context {A : Type} (eqb : A -> A -> bool) (d : dict A) (FD : fine d) (names : list string).
Let LD := fine_local d FD.
Local Notation sf := (set_append_fn eqb d names).
Lemma sf_u : ufunc sf.
Proof.
  intros p sp st s s' G. unfold set_append_fn. destruct (mem_str p names); [|split; simpl; auto using fork_skip].
  rewrite (fork_in_span _ _ G).
  step1 (ud_named d (fi_unaware d FD) p sp _ _ G). destruct r; try (split; simpl; auto using fork_skip; fail).
  destruct (set_ins eqb a (fst st)). split; auto. simpl. now rewrite (fork_in_span _ _ EQ).
Qed.
Lemma sf_st p sp st s : exists pre, toks s = pre ++ toks (snd (sf p sp st s)) /\ no_comma pre.
Proof.
  unfold set_append_fn. destruct (mem_str p names); [|apply (stays_skip s)].
  pose proof (proj1 (ld_named d LD p sp) s) as H. destruct (d_named d p sp s) as [[v|e|b] s1]; cbn [snd] in *; auto.
  - destruct (set_ins eqb v (fst st)); auto.
  - eapply st_comp; [exact H|]. apply (stays_skip s1).
Qed.
Lemma sf_kp p sp st s : scope (snd (sf p sp st s)) = scope s.
Proof.
  unfold set_append_fn. destruct (mem_str p names); [|reflexivity].
  pose proof (fine_keeps_named d p sp FD s) as H. destruct (d_named d p sp s) as [[v|e|b] s1]; cbn [snd] in *; auto.
  destruct (set_ins eqb v (fst st)); auto.
Qed.
Lemma set_ins_cases v (l : list A) :
  (existsb (eqb v) l = false /\ set_ins eqb v l = (true, l ++ [v])) \/ (existsb (eqb v) l = true /\ set_ins eqb v l = (false, l)).
Proof. unfold set_ins. destruct (existsb (eqb v) l); auto. Qed.
Lemma set_append_steps xs : (forall x, In x xs -> no_comma (el_toks x) /\ ends (el_after x)) -> forall st st',
  (steps (key_step sf) st xs st' /\ snd st' = []) <->
  (snd st = [] /\ snd st' = [] /\ exists vs, appended d names (map el_toks xs) vs /\ fst st' = fst st ++ vs /\
     all_different eqb vs /\ Forall (fun v => existsb (eqb v) (fst st) = false) vs).
Proof.
  intro W. induction xs as [|x xs IH]; intros st st'.
  - split.
    + intros [H Z]. inversion H; subst. split; auto. split; auto. exists []. rewrite app_nil_r. repeat split; auto; constructor.
    + intros [Z [Z1 [vs [H [E _]]]]]. inversion H; subst. rewrite app_nil_r in E. destruct st, st'. cbn [fst snd] in *. subst. split; auto. constructor.
  - destruct (W x (or_introl eq_refl)) as [N E]. specialize (IH (fun y I => W y (or_intror I))). split.
    + intros [H Z]. inversion H as [|? ? st1 ? ? H1 H2 H3]; subst. destruct (proj1 (IH st1 st') (conj H3 Z)) as [Z1 [_ [vs [AP [F [AD NF]]]]]].
      destruct (proj1 (ks_at sf x st st1 E) (conj H1 H2)) as [k [ksp [body [IK [Y1 [Y2 Y3]]]]]].
      assert (NB := key_no_comma _ _ _ _ IK N). unfold set_append_fn in Y1, Y2, Y3. cbn [map].
      destruct (mem_str k names) eqn:M.
      * apply mem_In in M. destruct (d_named d k ksp _) as [[v|e|b] s1] eqn:D; cbn [fst snd] in *; try discriminate.
        -- destruct (set_ins_cases v (fst st)) as [[X1 X2]|[X1 X2]]; rewrite X2 in Y1, Y2, Y3; cbn [fst snd] in *; subst st1; cbn [fst snd] in *.
           ++ split; auto. split; auto. exists (v :: vs). rewrite <- app_assoc in F. split.
              { econstructor; eauto. eapply local_accepts_at; [apply (ld_named d LD)|auto|exact E|rewrite D; reflexivity|rewrite D; auto]. }
              split; auto. rewrite Forall_forall in NF. split.
              ** constructor; auto. rewrite Forall_forall. intros w I. specialize (NF w I). rewrite existsb_app in NF.
                 apply orb_false_iff in NF as [_ NF]. cbn in NF. now rewrite orb_false_r in NF.
              ** constructor; auto. rewrite Forall_forall. intros w I. specialize (NF w I). rewrite existsb_app in NF.
                 now apply orb_false_iff in NF as [NF _].
           ++ exfalso. unfold push in Z1. destruct (snd st); discriminate.
        -- subst st1. cbn [fst snd] in *. exfalso. unfold push_syn in Z1. destruct (snd st); discriminate.
      * cbn [fst snd] in *. subst st1. split; auto. split; auto. exists vs. split; auto.
        eapply Ap_other; eauto. intro I. apply mem_In in I. congruence.
    + intros [Z [Z1 [vs [AP [F [AD NF]]]]]]. split; auto. cbn [map] in AP. inversion AP as [|seg k ksp body v segs vs' IK I AC AP'|seg k ksp body segs vs' IK I AP']; subst.
      * inversion NF as [|? ? NF1 NF2]; subst. inversion AD as [|? ? AD1 AD2]; subst.
        assert (S : fst (key_step sf st (at_elem x)) = Ok (fst st ++ [v], snd st) /\ toks (snd (key_step sf st (at_elem x))) = el_after x).
        { apply (ks_at sf x st _ E). exists k, ksp, body. split; auto. cbv zeta. unfold set_append_fn.
          apply mem_In in I. rewrite I. destruct (AC (el_after x) (el_scope x) None E) as [A1 A2].
          destruct (d_named d k ksp _) as [r s1]. cbn [fst snd] in *. subst r. unfold set_ins. rewrite NF1. auto. }
        destruct S as [S1 S2]. eapply St_more; [exact S1|exact S2|]. apply IH. cbn [fst snd]. split; auto. split; auto. exists vs'. split; auto.
        split; [now rewrite <- app_assoc|]. split; auto. rewrite Forall_forall in *. intros w J. rewrite existsb_app. apply orb_false_iff. split; auto.
        cbn. rewrite orb_false_r. auto.
      * assert (S : fst (key_step sf st (at_elem x)) = Ok st /\ toks (snd (key_step sf st (at_elem x))) = el_after x).
        { apply (ks_at sf x st _ E). exists k, ksp, body. split; auto. cbv zeta. unfold set_append_fn.
          destruct (mem_str k names) eqn:M; [exfalso; apply I; now apply mem_In|]. cbn [fst snd]. repeat split; auto.
          cbn. apply skip_toks_app; auto. now apply key_no_comma in IK. }
        destruct S as [S1 S2]. eapply St_more; [exact S1|exact S2|]. apply IH. split; auto. split; auto. exists vs. auto.
Qed.
Lemma set_append_ok l vs : fst (set_append eqb d names l) = Ok vs <-> appended d names (items_of l) vs /\ all_different eqb vs.
Proof.
  pose proof (parse_struct_steps sf l ([], []) (vs, []) (ks_u sf sf_u) (ks_st sf sf_st) (ks_kp sf sf_kp)) as X.
  pose proof (set_append_steps (elems l) (fun x I => elem_of l x I) ([], []) (vs, [])) as Y. cbn [fst snd] in Y. rewrite elems_items in Y.
  transitivity (steps (key_step sf) ([], []) (elems l) (vs, [])).
  - rewrite <- X. unfold set_append. destruct (parse_struct sf ([], []) l) as [[[[]|e|b] [ws es]] l1]; cbn [fst snd].
    + destruct es; cbn; split.
      * intro H. injection H as ->. auto.
      * intros [_ H]. injection H as ->. auto.
      * discriminate.
      * intros [_ H]. discriminate.
    + split; [|intros [H _]]; discriminate.
    + split; [|intros [H _]]; discriminate.
  - split.
    + intro H. destruct (proj1 Y (conj H eq_refl)) as [_ [_ [ws [AP [E [AD _]]]]]]. cbn [app] in E. now subst.
    + intros [H AD]. apply Y. repeat split; auto. exists vs. repeat split; auto. rewrite Forall_forall. auto.
Qed.
End Set_.
End A.
