(** Append fields on any input. *)
From Verif Require Export LemDrop.
From Verif Require Import LemStop LemAppend.
Local Open Scope string_scope.
Local Open Scope list_scope.

Section S.
Context {env : Env}.
Section Halt.
Context {St : Type} (func : string -> span -> St -> stream -> res unit * St * stream).
Local Notation ks := (key_step func).
Hypothesis US : ustep ks.
Hypothesis SS : forall st, stays (ks st).
Hypothesis KS : forall st s, scope (snd (ks st s)) = scope s.
Inductive key_halts (st : St) (x : elem) : St -> err -> Prop :=
| KH_key e : no_key (el_scope x) (el_toks x ++ el_after x) e -> key_halts st x st e
| KH_left st1 t rest : fst (ks st (at_elem x)) = Ok st1 ->
    toks (snd (ks st (at_elem x))) = t :: rest ++ el_after x -> key_halts st x st1 (mkErr (tok_open_span t) "expected `,`").
Lemma struct_loop_halts : forall fuel st s a x b st1 st2 e, length (toks s) < fuel ->
  elems1 (scope s) (toks s) = a ++ x :: b -> steps ks st a st1 -> key_halts st1 x st2 e ->
  fst (struct_loop func fuel st s) = (Err (mkSyn e []), st2).
Proof.
  induction fuel as [|n IH]; intros st s a x b st1 st2 e L EQ ST HA; [lia|]. cbn [struct_loop].
  destruct (is_empty s) eqn:Z.
  { unfold is_empty in Z. destruct (toks s) eqn:T; [|discriminate]. cbn in EQ. destruct a; discriminate. }
  assert (TS : toks s <> []) by (unfold is_empty in Z; destruct (toks s); discriminate).
  destruct (cut_item (toks s)) as [seg [tl [T [N E]]]].
  rewrite T in TS. rewrite T, (elems1_cut _ _ _ N E TS) in EQ.
  destruct (step_at ks US st s seg tl T) as [A [B D]].
  assert (SC : scope (snd (ks st s)) = scope s) by apply KS.
  destruct a as [|y a]; cbn [app] in EQ; injection EQ as X0 EQ.
  - inversion ST; subst st1. clear ST. rewrite X0 in A, B. destruct HA as [e HA|st2 t rest HA HT].
    + assert (HA' : no_key (scope s) (toks s) e) by (subst x; cbn [el_scope el_toks el_after] in HA; now rewrite T).
      destruct (no_key_error _ (cell s) _ _ HA') as [s' PE].
      assert (Q : mkStream (toks s) (scope s) (cell s) = s) by (destruct s; reflexivity). rewrite Q in PE. rewrite PE. reflexivity.
    + destruct (stays_cut (ks st) seg tl (scope s) None (SS st) N E) as [rs [R [pre Q]]].
      change (mkStream (seg ++ tl) (scope s) None) with (at_elem (mkElem seg tl (scope s))) in R.
      rewrite X0 in R. assert (AF : el_after x = tl) by (subst x; reflexivity). rewrite AF in HT.
      assert (RS : rs = t :: rest).
      { rewrite R in HT. change (t :: rest ++ tl) with ((t :: rest) ++ tl) in HT. now apply app_inv_tail in HT. }
      assert (C : is_comma t = false).
      { rewrite Q, RS in N. apply nc_app in N as [_ N]. now apply nc_cons in N. }
      rewrite HA in A. rewrite HT in B. unfold key_step in A, B.
      destruct (parse_any_path s) as [[p|e0|b0] s1]; try discriminate A.
      destruct (func (path_key p) (p_span p) st s1) as [[[u|e0|b0] st3] s2]; try discriminate A. cbn [fst snd] in A, B. injection A as ->.
      unfold is_empty. rewrite B. rewrite (parse_comma_at _ _ _ B C). reflexivity.
  - inversion ST as [|? ? st3 ? ? H1 H2 H3]; subst. cbn [el_after] in H2.
    rewrite H1 in A. rewrite H2 in B. unfold key_step in A, B, SC.
    destruct (parse_any_path s) as [[p|e0|b0] s1]; try discriminate A.
    destruct (func (path_key p) (p_span p) st s1) as [[[u|e0|b0] st4] s2]; try discriminate A. cbn [fst snd] in A, B, SC. injection A as ->.
    destruct (is_empty s2) eqn:Z1.
    { unfold is_empty in Z1. rewrite B in Z1. destruct tl; [|discriminate]. destruct a; discriminate. }
    destruct tl as [|t r]; [unfold is_empty in Z1; rewrite B in Z1; discriminate|].
    apply ends_cons in E as C. rewrite (parse_comma_ok _ _ _ B C).
    eapply (IH st3 (set_toks s2 r) a x b st1); eauto.
    + cbn. rewrite T, app_length in L. cbn [length] in L. lia.
    + cbn [toks scope set_toks]. rewrite SC. exact EQ.
Qed.
Lemma parse_struct_halts : forall l st a x b st1 st2 e, elems l = a ++ x :: b -> steps ks st a st1 -> key_halts st1 x st2 e ->
  fst (parse_struct func st l) = (Err (mkSyn e []), st2).
Proof.
  induction l as [|s l IH]; intros st a x b st1 st2 e EQ ST HA; cbn [parse_struct].
  { destruct a; discriminate. }
  change (elems (s :: l)) with (elems1 (scope s) (toks s) ++ elems l) in EQ. symmetry in EQ.
  destruct (app_mid _ _ _ _ _ EQ) as [[c2 [E1 E2]]|[a2 [E1 E2]]].
  - pose proof (struct_loop_halts (S (length (toks s))) st s a x c2 st1 st2 e (Nat.lt_succ_diag_r _) E1 ST HA) as H.
    destruct (struct_loop func (S (length (toks s))) st s) as [[r st3] s1]. cbn [fst] in H. injection H as -> ->. reflexivity.
  - subst a. apply steps_app in ST as [st3 [S1 S2]].
    apply (comma_loop_steps ks US SS KS (S (length (toks s))) st s st3 (Nat.lt_succ_diag_r _)) in S1.
    pose proof (struct_loop_comma func (S (length (toks s))) st s) as SL.
    destruct (struct_loop func (S (length (toks s))) st s) as [[[u|e0|b0] st4] s1]; rewrite SL in S1; cbn [fst] in S1; try discriminate S1.
    injection S1 as ->.
    pose proof (IH st3 a2 x b st1 st2 e E2 S2 HA) as H.
    destruct (parse_struct func st3 l) as [[r st5] l1]. cbn [fst] in *. exact H.
Qed.
Lemma ks_eq x st k ksp body : ends (el_after x) -> item_key (el_toks x) = Some (k, ksp, body) ->
  ks st (at_elem x) = match func k ksp st (at_elem (mkElem body (el_after x) (el_scope x))) with
    | (Ok _, st1, s2) => (Ok st1, s2)
    | (Err e, _, s2) => (Err e, s2)
    | (Bad b, _, s2) => (Bad b, s2)
    end.
Proof.
  intros E IK. pose proof (path_item (el_toks x) (el_after x) (el_scope x) None E) as P. unfold key_step, at_elem. cbn [el_toks el_after el_scope].
  unfold item_key in IK. destruct (parse_any_path (root_stream (el_toks x))) as [[p|e|b] s1]; try discriminate IK.
  injection IK as <- <- <-. rewrite P. reflexivity.
Qed.
End Halt.

Lemma occ_in {A} (d : dict A) names x p y : occurrences d names [x] [(p, y)] ->
  exists k ksp body, item_key (el_toks x) = Some (k, ksp, body) /\ In k names /\ p = d_named d k ksp /\ y = mkElem body (el_after x) (el_scope x).
Proof.
  intro H. inversion H as [|? k ksp body ? ? IK I H1|? k ksp body ? ? IK I H1]; subst; [eauto 8|inversion H1].
Qed.
Section App.
Context {A : Type} (eqb : A -> A -> bool) (d : dict A) (names : list string).
Hypothesis F : fine d.
Let LD := fine_local d F.
Local Notation vf := (vec_append_fn d names).
Local Notation sf := (set_append_fn eqb d names).
Let SN n sp : stays (d_named d n sp) := proj1 (ld_named d LD n sp).
Lemma gd_ret k ksp s : returns (fst (d_named d k ksp s)).
Proof. apply (gd_named d (fi_good d F)). Qed.
Lemma not_mem k : ~ In k names -> mem_str k names = false.
Proof. intro NI. destruct (mem_str k names) eqn:M; auto. now apply mem_In in M. Qed.
Lemma occ_steps xs ys : (forall x, In x xs -> no_comma (el_toks x) /\ ends (el_after x)) ->
  occurrences d names xs ys -> Forall clean_value ys -> forall st,
  steps (key_step vf) st xs (fst st ++ values_of ys, snd st ++ failures_of ys).
Proof.
  intros W O. induction O as [|x k ksp body xs ys IK I O IH|x k ksp body xs ys IK I O IH]; intros C st.
  - cbn [values_of failures_of flat_map]. rewrite !app_nil_r. destruct st. constructor.
  - destruct (W x (or_introl eq_refl)) as [N E]. inversion C as [|? ? C1 C2]; subst.
    specialize (IH (fun y J => W y (or_intror J)) C2). set (y := mkElem body (el_after x) (el_scope x)) in *.
    unfold clean_value, clean in C1. cbn [fst snd] in C1.
    assert (NB := key_no_comma _ _ _ _ IK N). pose proof (gd_ret k ksp (at_elem y)) as G.
    destruct (cut_rest (d_named d k ksp) y (SN k ksp) NB E) as [rest [NR R]]. change (el_after y) with (el_after x) in R, C1.
    pose proof (ks_eq vf x st k ksp body E IK) as X. fold y in X. unfold vec_append_fn at 2 in X. apply mem_In in I. rewrite I in X.
    cbn [values_of failures_of flat_map fst snd]. fold (values_of ys). fold (failures_of ys).
    destruct (d_named d k ksp (at_elem y)) as [[v|e|b] s1]; cbn [fst snd] in *; [| |destruct G].
    + eapply St_more; [rewrite X; reflexivity|rewrite X; now apply (C1 v)|].
      specialize (IH (fst st ++ [v], snd st)). cbn [fst snd] in IH. now rewrite <- app_assoc in IH.
    + eapply St_more; [rewrite X; reflexivity|rewrite X; cbn [snd skip_item set_toks toks]; rewrite R; now apply skip_toks_app|].
      specialize (IH (fst st, snd st ++ errs_of e)). cbn [fst snd] in IH. now rewrite <- app_assoc in IH.
  - destruct (W x (or_introl eq_refl)) as [N E]. specialize (IH (fun y J => W y (or_intror J)) C).
    assert (NB := key_no_comma _ _ _ _ IK N).
    pose proof (ks_eq vf x st k ksp body E IK) as X. unfold vec_append_fn at 2 in X. rewrite (not_mem k I) in X.
    eapply St_more; [rewrite X; reflexivity|rewrite X; cbn [snd skip_item set_toks toks at_elem el_toks el_after]; now apply skip_toks_app|apply IH].
Qed.
Lemma sf_steps xs ys : (forall x, In x xs -> no_comma (el_toks x) /\ ends (el_after x)) ->
  occurrences d names xs ys -> Forall clean_value ys -> forall st,
  steps (key_step sf) st xs (once eqb (fst st) (values_of ys), snd st ++ set_errors_of eqb (fst st) ys).
Proof.
  intros W O. induction O as [|x k ksp body xs ys IK I O IH|x k ksp body xs ys IK I O IH]; intros C st.
  - cbn [values_of set_errors_of flat_map once]. rewrite !app_nil_r. destruct st. constructor.
  - destruct (W x (or_introl eq_refl)) as [N E]. inversion C as [|? ? C1 C2]; subst.
    specialize (IH (fun y J => W y (or_intror J)) C2). set (y := mkElem body (el_after x) (el_scope x)) in *.
    unfold clean_value, clean in C1. cbn [fst snd] in C1.
    assert (NB := key_no_comma _ _ _ _ IK N). pose proof (gd_ret k ksp (at_elem y)) as G.
    destruct (cut_rest (d_named d k ksp) y (SN k ksp) NB E) as [rest [NR R]]. change (el_after y) with (el_after x) in R, C1.
    pose proof (ks_eq sf x st k ksp body E IK) as X. fold y in X. unfold set_append_fn at 2 in X. apply mem_In in I. rewrite I in X.
    cbn [values_of set_errors_of flat_map fst snd]. fold (values_of ys).
    destruct (d_named d k ksp (at_elem y)) as [[v|e|b] s1] eqn:DN; cbn [fst snd] in *; [| |destruct G].
    + cbn [app once]. unfold set_ins in X. destruct (existsb (eqb v) (fst st)) eqn:EX; cbv beta iota zeta in X.
      * eapply St_more; [rewrite X; reflexivity|rewrite X; now apply (C1 v)|].
        specialize (IH (fst st, snd st ++ [mkErr (span_upto y s1) "Duplicate key"])). cbn [fst snd] in IH. rewrite <- app_assoc in IH. exact IH.
      * eapply St_more; [rewrite X; reflexivity|rewrite X; now apply (C1 v)|].
        specialize (IH (fst st ++ [v], snd st)). cbn [fst snd] in IH. exact IH.
    + eapply St_more; [rewrite X; reflexivity|rewrite X; cbn [snd skip_item set_toks toks]; rewrite R; now apply skip_toks_app|].
      specialize (IH (fst st, snd st ++ errs_of e)). cbn [fst snd] in IH. now rewrite <- app_assoc in IH.
  - destruct (W x (or_introl eq_refl)) as [N E]. specialize (IH (fun y J => W y (or_intror J)) C).
    assert (NB := key_no_comma _ _ _ _ IK N).
    pose proof (ks_eq sf x st k ksp body E IK) as X. unfold set_append_fn at 2 in X. rewrite (not_mem k I) in X.
    eapply St_more; [rewrite X; reflexivity|rewrite X; cbn [snd skip_item set_toks toks at_elem el_toks el_after]; now apply skip_toks_app|apply IH].
Qed.
Lemma vf_left x p y t st : ends (el_after x) -> occurrences d names [x] [(p, y)] -> overrun p y t ->
  exists v, fst (p (at_elem y)) = Ok v /\ key_halts vf st x (fst st ++ [v], snd st) (mkErr (tok_open_span t) "expected `,`").
Proof.
  intros E O [v [rest [O1 O2]]]. exists v. split; auto. apply occ_in in O as (k & ksp & body & IK & I & -> & ->).
  pose proof (ks_eq vf x st k ksp body E IK) as X. unfold vec_append_fn at 2 in X. apply mem_In in I. rewrite I in X.
  destruct (d_named d k ksp (at_elem (mkElem body (el_after x) (el_scope x)))) as [r s1]. cbn [fst snd] in *. subst r.
  eapply KH_left with (rest := rest); rewrite X; [reflexivity|exact O2].
Qed.
Lemma sf_left x p y t st : ends (el_after x) -> occurrences d names [x] [(p, y)] -> overrun p y t ->
  exists st1, key_halts sf st x st1 (mkErr (tok_open_span t) "expected `,`").
Proof.
  intros E O [v [rest [O1 O2]]]. apply occ_in in O as (k & ksp & body & IK & I & -> & ->).
  pose proof (ks_eq sf x st k ksp body E IK) as X. unfold set_append_fn at 2 in X. apply mem_In in I. rewrite I in X.
  destruct (d_named d k ksp (at_elem (mkElem body (el_after x) (el_scope x)))) as [r s1]. cbn [fst snd] in *. subst r.
  destruct (set_ins eqb v (fst st)) as [fr l]. eexists.
  eapply KH_left with (rest := rest); rewrite X; [reflexivity|exact O2].
Qed.
Lemma values_app (a b : list (parser A * elem)) : values_of (a ++ b) = values_of a ++ values_of b.
Proof. apply flat_map_app. Qed.
Lemma failures_app (a b : list (parser A * elem)) : failures_of (a ++ b) = failures_of a ++ failures_of b.
Proof. apply flat_map_app. Qed.
Lemma append_reading_ex xs : (forall x, In x xs -> no_comma (el_toks x) /\ ends (el_after x)) ->
  exists ys stop, append_reading d names xs ys stop.
Proof.
  induction xs as [|x xs IH]; intro W.
  { exists [], []. apply AR_all; constructor. }
  destruct (W x (or_introl eq_refl)) as [N E]. destruct (IH (fun y I => W y (or_intror I))) as [ys [stop H]].
  destruct (key_or_not (el_toks x) (el_after x) (el_scope x) E) as [[[[k ksp] body] IK]|[e NK]].
  2:{ exists [], [e]. apply (AR_key d names (x :: xs) [] x xs [] e); auto; constructor. }
  destruct (mem_str k names) eqn:M.
  - apply mem_In in M. set (y := mkElem body (el_after x) (el_scope x)).
    assert (NB := key_no_comma _ _ _ _ IK N).
    assert (OX : occurrences d names [x] [(d_named d k ksp, y)]) by (eapply Oc_mine; eauto; constructor).
    destruct (cut_rest (d_named d k ksp) y (SN k ksp) NB E) as [rest [NR R]].
    assert (CL : clean (d_named d k ksp) y \/ exists t, overrun (d_named d k ksp) y t).
    { destruct (fst (d_named d k ksp (at_elem y))) as [v|e|b] eqn:DN; [|left; intros w HW; congruence..].
      destruct rest as [|t rest]; [left; intros w HW; exact R|]. right. exists t, v, rest. auto. }
    destruct CL as [CL|[t OV]].
    + destruct H as [ys O C|a x' b ys p y' t EQ O C O1 OV|a x' b ys e EQ O C NK].
      * exists ((d_named d k ksp, y) :: ys), []. apply AR_all; [eapply Oc_mine; eauto|constructor; auto].
      * exists (((d_named d k ksp, y) :: ys) ++ [(p, y')]), [mkErr (tok_open_span t) "expected `,`"]. subst xs.
        eapply (AR_left d names _ (x :: a) x' b); eauto; try (eapply Oc_mine; eauto; fail); constructor; auto.
      * exists ((d_named d k ksp, y) :: ys), [e]. subst xs.
        eapply (AR_key d names _ (x :: a) x' b); eauto; try (eapply Oc_mine; eauto; fail); constructor; auto.
    + exists ([] ++ [(d_named d k ksp, y)]), [mkErr (tok_open_span t) "expected `,`"].
      eapply (AR_left d names _ [] x xs []); eauto; constructor.
  - assert (NI : ~ In k names) by (rewrite <- mem_In; congruence).
    destruct H as [ys O C|a x' b ys p y' t EQ O C O1 OV|a x' b ys e EQ O C NK].
    + exists ys, []. apply AR_all; auto. eapply Oc_other; eauto.
    + exists (ys ++ [(p, y')]), [mkErr (tok_open_span t) "expected `,`"]. subst xs.
      eapply (AR_left d names _ (x :: a) x' b); eauto. eapply Oc_other; eauto.
    + exists ys, [e]. subst xs. eapply (AR_key d names _ (x :: a) x' b); eauto. eapply Oc_other; eauto.
Qed.
Lemma l_append_reading inputs : exists ys stop, append_reading d names (elems inputs) ys stop.
Proof. apply append_reading_ex. intros x I. now apply (elem_of inputs). Qed.
Lemma l_vec_append_any inputs ys stop : append_reading d names (elems inputs) ys stop ->
  fst (vec_append d names inputs) = outcome (failures_of ys ++ stop) (values_of ys).
Proof.
  pose proof (ks_u vf (vf_u d F names)) as U. pose proof (ks_st vf (vf_st d F names)) as S. pose proof (ks_kp vf (vf_kp d F names)) as K.
  unfold vec_append. intros [ys0 O C|a x b ys0 p y t EQ O C O1 OV|a x b ys0 e EQ O C NK].
  - pose proof (occ_steps _ _ (fun x I => elem_of inputs x I) O C ([], [])) as ST. cbn [fst snd app] in ST.
    apply (parse_struct_steps vf inputs ([], []) _ U S K) in ST. destruct ST as [S1 S2].
    destruct (parse_struct vf ([], []) inputs) as [[r st] l]. cbn [fst snd] in S1, S2. subst r st. cbn [fst snd]. rewrite app_nil_r. apply into_outcome.
  - assert (W : forall z, In z (a ++ [x]) -> no_comma (el_toks z) /\ ends (el_after z)).
    { intros z I. apply (elem_of inputs). rewrite EQ. apply in_app_or in I. apply in_or_app. cbn in *. tauto. }
    pose proof (occ_steps _ _ (fun z I => W z (in_or_app _ _ _ (or_introl I))) O C ([], [])) as ST. cbn [fst snd app] in ST.
    destruct (vf_left x p y t (values_of ys0, failures_of ys0) (proj2 (W x (in_elt x a []))) O1 OV) as [v [PV HA]].
    pose proof (parse_struct_halts vf U S K inputs _ a x b _ _ _ EQ ST HA) as H.
    destruct (parse_struct vf ([], []) inputs) as [[r st] l]. cbn [fst snd] in *. injection H as -> ->. cbn [fst snd].
    rewrite failures_app, values_app.
    assert (Q1 : failures_of [(p, y)] = []) by (cbn; now rewrite PV).
    assert (Q2 : values_of [(p, y)] = [v]) by (cbn; now rewrite PV).
    rewrite Q1, Q2, app_nil_r. apply into_outcome.
  - assert (W : forall z, In z a -> no_comma (el_toks z) /\ ends (el_after z)).
    { intros z I. apply (elem_of inputs). rewrite EQ. apply in_or_app. cbn. tauto. }
    pose proof (occ_steps _ _ W O C ([], [])) as ST. cbn [fst snd app] in ST.
    pose proof (parse_struct_halts vf U S K inputs _ a x b _ _ _ EQ ST (KH_key vf _ x e NK)) as H.
    destruct (parse_struct vf ([], []) inputs) as [[r st] l]. cbn [fst snd] in *. injection H as -> ->. cbn [fst snd].
    apply into_outcome.
Qed.
Lemma l_set_append_any inputs ys stop : append_reading d names (elems inputs) ys stop ->
  fst (set_append eqb d names inputs) =
  match stop with
  | [] => outcome (set_errors_of eqb [] ys) (once eqb [] (values_of ys))
  | e :: es => Err (mkSyn e es)
  end.
Proof.
  pose proof (ks_u sf (sf_u eqb d F names)) as U. pose proof (ks_st sf (sf_st eqb d F names)) as S. pose proof (ks_kp sf (sf_kp eqb d F names)) as K.
  unfold set_append. intros [ys0 O C|a x b ys0 p y t EQ O C O1 OV|a x b ys0 e EQ O C NK].
  - pose proof (sf_steps _ _ (fun x I => elem_of inputs x I) O C ([], [])) as ST. cbn [fst snd app] in ST.
    apply (parse_struct_steps sf inputs ([], []) _ U S K) in ST. destruct ST as [S1 S2].
    destruct (parse_struct sf ([], []) inputs) as [[r st] l]. cbn [fst snd] in S1, S2. subst r st. cbn [fst snd]. apply into_outcome.
  - assert (W : forall z, In z (a ++ [x]) -> no_comma (el_toks z) /\ ends (el_after z)).
    { intros z I. apply (elem_of inputs). rewrite EQ. apply in_app_or in I. apply in_or_app. cbn in *. tauto. }
    pose proof (sf_steps _ _ (fun z I => W z (in_or_app _ _ _ (or_introl I))) O C ([], [])) as ST. cbn [fst snd app] in ST.
    match type of ST with steps _ _ _ ?st0 =>
      destruct (sf_left x p y t st0 (proj2 (W x (in_elt x a []))) O1 OV) as [st1 HA] end.
    pose proof (parse_struct_halts sf U S K inputs _ a x b _ _ _ EQ ST HA) as H.
    destruct (parse_struct sf ([], []) inputs) as [[r st] l]. cbn [fst snd] in *. injection H as -> ->. reflexivity.
  - assert (W : forall z, In z a -> no_comma (el_toks z) /\ ends (el_after z)).
    { intros z I. apply (elem_of inputs). rewrite EQ. apply in_or_app. cbn. tauto. }
    pose proof (sf_steps _ _ W O C ([], [])) as ST. cbn [fst snd app] in ST.
    pose proof (parse_struct_halts sf U S K inputs _ a x b _ _ _ EQ ST (KH_key sf _ x e NK)) as H.
    destruct (parse_struct sf ([], []) inputs) as [[r st] l]. cbn [fst snd] in *. injection H as -> ->. reflexivity.
Qed.
End App.
End S.
