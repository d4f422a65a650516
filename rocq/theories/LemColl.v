(** Comma separated lists. *)
From Verif Require Export SpecColl LemLocalD.

Section C.
Context {env : Env}.
Section Steps.
Context {St : Type} (step : St -> stream -> res St * stream).
(** reading the elements one after the other *)
Inductive steps : St -> list elem -> St -> Prop :=
| St_done st : steps st [] st
| St_more st x st1 xs st2 : fst (step st (at_elem x)) = Ok st1 ->
    toks (snd (step st (at_elem x))) = el_after x -> steps st1 xs st2 -> steps st (x :: xs) st2.
Hypothesis US : ustep step.
Hypothesis SS : forall st, stays (step st).
Definition elems1 (sc : span) (ts : list token) : list elem := map (fun pc => mkElem (fst pc) (snd pc) sc) (pieces ts).
Lemma elems1_cut seg tl sc : no_comma seg -> ends tl -> seg ++ tl <> [] ->
  elems1 sc (seg ++ tl) = mkElem seg tl sc :: match tl with [] => [] | _ :: r => elems1 sc r end.
Proof.
  intros N E Z. unfold elems1. rewrite (pieces_app _ _ N E Z). cbn [map fst snd]. f_equal. destruct tl; reflexivity.
Qed.
Lemma step_at st s seg tl : toks s = seg ++ tl ->
  fst (step st s) = fst (step st (at_elem (mkElem seg tl (scope s)))) /\
  toks (snd (step st s)) = toks (snd (step st (at_elem (mkElem seg tl (scope s))))) /\
  scope (snd (step st s)) = scope (snd (step st (at_elem (mkElem seg tl (scope s))))).
Proof.
  intro T. destruct (US st s (at_elem (mkElem seg tl (scope s)))) as [A B].
  { unfold fork, at_elem. cbn. now rewrite T. }
  apply fork_eq in B. tauto.
Qed.
Hypothesis KS : forall st s, scope (snd (step st s)) = scope s.
Lemma parse_comma_ok s t r : toks s = t :: r -> is_comma t = true -> parse_comma s = (Ok tt, set_toks s r).
Proof. apply parse_comma_cons. Qed.
Lemma comma_loop_steps : forall fuel st s st', length (toks s) < fuel ->
  fst (comma_loop step fuel st s) = Ok st' <-> steps st (elems1 (scope s) (toks s)) st'.
Proof.
  induction fuel as [|n IH]; intros st s st' L; [lia|]. cbn [comma_loop].
  destruct (is_empty s) eqn:Z.
  { unfold is_empty in Z. destruct (toks s) eqn:T; [|discriminate]. cbn. split; [intro H; injection H as <-; constructor|].
    intro H. inversion H. reflexivity. }
  assert (TS : toks s <> []) by (unfold is_empty in Z; destruct (toks s); discriminate).
  destruct (cut_item (toks s)) as [seg [tl [T [N E]]]].
  rewrite T in TS. rewrite T, (elems1_cut _ _ _ N E TS).
  destruct (step_at st s seg tl T) as [A [B D]].
  destruct (SS st (at_elem (mkElem seg tl (scope s)))) as [pre _].
  destruct (stays_cut (step st) seg tl (scope s) None (SS st) N E) as [rest [R _]].
  change (mkStream (seg ++ tl) (scope s) None) with (at_elem (mkElem seg tl (scope s))) in R.
  assert (SC : scope (snd (step st s)) = scope s) by apply KS.
  set (x := mkElem seg tl (scope s)) in *.
  destruct (step st s) as [r s1]. cbn [fst snd] in A, B, SC.
  destruct r as [st1|e|b].
  2,3: split; [discriminate|]; intro H; inversion H; subst; congruence.
  destruct (is_empty s1) eqn:Z1.
  { unfold is_empty in Z1. destruct (toks s1) eqn:T1; [|discriminate]. rewrite R in B. symmetry in B. apply app_eq_nil in B as [-> TL0].
    subst tl. cbn [fst]. split.
    - intro H. injection H as <-. econstructor; [symmetry; exact A|exact R|constructor].
    - intro H. inversion H; subst. match goal with H : steps _ [] _ |- _ => inversion H; subst end. congruence. }
  assert (T1 : toks s1 = rest ++ tl) by congruence.
  destruct rest as [|t rest].
  - cbn [app] in T1. destruct tl as [|t r]; [unfold is_empty in Z1; rewrite T1 in Z1; discriminate|].
    apply ends_cons in E as C. rewrite (parse_comma_ok _ _ _ T1 C).
    assert (L2 : length (toks (set_toks s1 r)) < n).
    { cbn. rewrite T, app_length in L. cbn [length] in L. lia. }
    rewrite (IH st1 (set_toks s1 r) st' L2). cbn [toks scope set_toks]. rewrite SC. split.
    + intro H. econstructor; [symmetry; exact A|exact R|exact H].
    + intro H. inversion H; subst. congruence.
  - assert (C : is_comma t = false).
    { assert (NR : no_comma (t :: rest)).
      { apply (suffix_nc seg tl (t :: rest) (snd (step st (at_elem x))) N); [|exact R].
        apply (SS st (at_elem x)). }
      now apply nc_cons in NR. }
    cbn [app] in T1. destruct (parse_comma_not s1 t (rest ++ tl) T1 C) as [e PC]. rewrite PC. split; [discriminate|].
    intro H. inversion H; subst. cbn [el_after x] in *. rewrite R in *.
    match goal with H : (t :: rest) ++ tl = tl |- _ => apply (f_equal (@length token)) in H; rewrite app_length in H; simpl in H; lia end.
Qed.
Lemma steps_app st a b st' : steps st (a ++ b) st' <-> exists st1, steps st a st1 /\ steps st1 b st'.
Proof.
  split.
  - revert st. induction a as [|x a IH]; intros st H; cbn [app] in *.
    + exists st. split; [constructor|auto].
    + inversion H; subst. destruct (IH _ H6) as [st2 [A B]]. exists st2. split; auto. econstructor; eauto.
  - intros [st1 [A B]]. induction A; cbn [app]; auto. econstructor; eauto.
Qed.
Lemma over_steps : forall l st st',
  fst (over_streams (comma_stream step) st l) = Ok st' <-> steps st (elems l) st'.
Proof.
  induction l as [|s l IH]; intros st st'; cbn [over_streams].
  { cbn. split; [intro H; injection H as <-; constructor|]. intro H. inversion H. reflexivity. }
  change (elems (s :: l)) with (elems1 (scope s) (toks s) ++ elems l). rewrite steps_app.
  unfold comma_stream at 1. pose proof (fun st1 => comma_loop_steps (S (length (toks s))) st s st1 (Nat.lt_succ_diag_r _)) as H.
  destruct (comma_loop step (S (length (toks s))) st s) as [r s1]. cbn [fst] in H.
  destruct r as [st1|e|b].
  - specialize (IH st1 st'). destruct (over_streams (comma_stream step) st1 l) as [r l1]. cbn [fst].
    cbn [fst] in IH. split.
    + intro E. exists st1. split; [now apply H|now apply IH].
    + intros [st2 [A B]]. apply H in A. injection A as <-. now apply IH.
  - split; [discriminate|]. intros [st2 [A B]]. apply H in A. discriminate.
  - split; [discriminate|]. intros [st2 [A B]]. apply H in A. discriminate.
Qed.
End Steps.

Lemma into_outcome {A} es (v : A) : into_result es v = outcome es v.
Proof. destruct es; reflexivity. Qed.
Lemma finish_steps {A} step (l : list stream) (r : list A * errors) : ustep step -> (forall st, stays (step st)) ->
  (forall st s, scope (snd (step st s)) = scope s) ->
  steps step ([], []) (elems l) r ->
  fst (finish fst snd (over_streams (comma_stream step) ([], []) l)) = outcome (snd r) (fst r).
Proof.
  intros U S K H. apply (over_steps step U S K) in H. unfold finish.
  destruct (over_streams (comma_stream step) ([], []) l) as [x l1]. cbn [fst] in H. subst. cbn. apply into_outcome.
Qed.
Lemma finish_steps_ok {A} step (l : list stream) (v : list A) : ustep step -> (forall st, stays (step st)) ->
  (forall st s, scope (snd (step st s)) = scope s) ->
  fst (finish fst snd (over_streams (comma_stream step) ([], []) l)) = Ok v <-> steps step ([], []) (elems l) (v, []).
Proof.
  intros U S K. rewrite <- (over_steps step U S K). unfold finish.
  destruct (over_streams (comma_stream step) ([], []) l) as [x l1]. cbn [fst]. destruct x as [[w es]|e|b]; cbn.
  - destruct es; cbn; split; intro H; try discriminate; injection H as <-; reflexivity.
  - split; discriminate.
  - split; discriminate.
Qed.

Lemma elem_of l x : In x (elems l) -> no_comma (el_toks x) /\ ends (el_after x).
Proof.
  unfold elems. rewrite in_flat_map. intros [s [_ H]]. rewrite in_map_iff in H. destruct H as [[seg tl] [<- H]]. cbn [el_toks el_after fst snd].
  revert H. generalize (toks s). intro ts. remember (length ts) as n eqn:L. assert (L2 : length ts <= n) by lia. clear L.
  revert ts L2. induction n as [|n IH]; intros ts L H.
  - destruct ts; [destruct H|simpl in L; lia].
  - destruct ts as [|t r]; [destruct H|]. destruct (cut_item (t :: r)) as [sg [tl0 [T [N E]]]].
    assert (Z : sg ++ tl0 <> []) by (rewrite <- T; discriminate).
    rewrite T, (pieces_app _ _ N E Z) in H. destruct H as [H|H]; [injection H as <- <-; auto|].
    destruct tl0 as [|c r0]; [destruct H|]. apply (IH r0); auto.
    apply (f_equal (@length token)) in T. rewrite app_length in T. simpl in T, L. lia.
Qed.
Lemma elems_items l : map el_toks (elems l) = items_of l.
Proof.
  unfold elems, items_of, all_pieces. induction l as [|s l IH]; [reflexivity|]. cbn [flat_map]. rewrite !map_app, IH, map_map. reflexivity.
Qed.

(** *** Vec *)
Section Vec.
Context {A : Type} (d : dict A).
Hypothesis U : unaware_dict d.
Hypothesis SP : forall m, stays (d_item d m).
Hypothesis KP : forall m, keeps (d_item d m).
Lemma vec_u : ustep (vec_step d).
Proof.
  intros st s s' E. unfold vec_step. step1 (ud_item d U Unnamed _ _ E). destruct r; split; cbn [fst snd]; auto using fork_skip.
Qed.
Lemma st_after {B C} (p : parser B) (f : res B -> res C) (g : res B -> bool) : stays p ->
  stays (fun s => let (r, s1) := p s in (f r, if g r then skip_item s1 else s1)).
Proof.
  intros H s. destruct (H s) as [a [E N]]. destruct (p s) as [r s1]. cbn [snd] in *.
  destruct (stays_skip s1) as [b [E2 N2]]. cbn [snd] in E2. destruct (g r).
  - exists (a ++ b). split; [rewrite E at 1; rewrite E2 at 1; now rewrite app_assoc|apply nc_app; auto].
  - exists a. auto.
Qed.
Lemma vec_st st : stays (vec_step d st).
Proof.
  apply (st_eqv _ (fun s => let (r, s1) := d_item d Unnamed s in
     (match r with Ok v => Ok (fst st ++ [v], snd st) | Err e => Ok (fst st, push_syn (snd st) e) | Bad b => Bad b end,
      if match r with Err _ => true | _ => false end then skip_item s1 else s1))).
  { intro s. unfold vec_step. destruct (d_item d Unnamed s) as [[]]; reflexivity. }
  apply (st_after (d_item d Unnamed) (fun r => match r with Ok v => Ok (fst st ++ [v], snd st) | Err e => Ok (fst st, push_syn (snd st) e) | Bad b => Bad b end)
   (fun r => match r with Err _ => true | _ => false end)), SP.
Qed.
Lemma vec_kp st s : scope (snd (vec_step d st s)) = scope s.
Proof. unfold vec_step. specialize (KP Unnamed s). destruct (d_item d Unnamed s) as [[] s1]; exact KP. Qed.
Lemma vec_step_err st x e : no_comma (el_toks x) -> ends (el_after x) -> fst (d_item d Unnamed (at_elem x)) = Err e ->
  fst (vec_step d st (at_elem x)) = Ok (fst st, snd st ++ errs_of e) /\ toks (snd (vec_step d st (at_elem x))) = el_after x.
Proof.
  intros N E H. unfold vec_step.
  destruct (stays_cut (d_item d Unnamed) (el_toks x) (el_after x) (el_scope x) None (SP Unnamed) N E) as [rest [R [pre Q]]].
  change (mkStream (el_toks x ++ el_after x) (el_scope x) None) with (at_elem x) in R.
  destruct (d_item d Unnamed (at_elem x)) as [r s1]. cbn [fst snd] in *. subst r. cbn. split; auto.
  rewrite R. apply skip_toks_app; auto. rewrite Q in N. now apply nc_app in N.
Qed.
Lemma vec_step_ok st x v : fst (d_item d Unnamed (at_elem x)) = Ok v -> toks (snd (d_item d Unnamed (at_elem x))) = el_after x ->
  fst (vec_step d st (at_elem x)) = Ok (fst st ++ [v], snd st) /\ toks (snd (vec_step d st (at_elem x))) = el_after x.
Proof. intros H R. unfold vec_step. destruct (d_item d Unnamed (at_elem x)) as [r s1]. cbn [fst snd] in *. subst r. auto. Qed.
Hypothesis GR : forall s, returns (fst (d_item d Unnamed s)).
Lemma vec_steps xs : (forall x, In x xs -> no_comma (el_toks x) /\ ends (el_after x)) ->
  Forall (clean (d_item d Unnamed)) xs -> forall vs es,
  steps (vec_step d) (vs, es) xs (vs ++ values (d_item d Unnamed) xs, es ++ failures (d_item d Unnamed) xs).
Proof.
  intros W C. induction C as [|x xs H C IH]; intros vs es; cbn [values failures flat_map].
  { rewrite !app_nil_r. constructor. }
  destruct (W x (or_introl eq_refl)) as [N E]. specialize (IH (fun y I => W y (or_intror I))).
  unfold clean in H. pose proof (GR (at_elem x)) as G. fold (values (d_item d Unnamed) xs). fold (failures (d_item d Unnamed) xs).
  destruct (fst (d_item d Unnamed (at_elem x))) as [v|e|b] eqn:R; [| |destruct G].
  - destruct (vec_step_ok (vs, es) x v R (H v eq_refl)) as [A1 A2]. econstructor; [exact A1|exact A2|]. cbn [fst snd].
    specialize (IH (vs ++ [v]) es). now rewrite <- app_assoc in IH.
  - destruct (vec_step_err (vs, es) x e N E R) as [A1 A2]. econstructor; [exact A1|exact A2|]. cbn [fst snd].
    specialize (IH vs (es ++ errs_of e)). now rewrite <- app_assoc in IH.
Qed.
Lemma vec_exact l : Forall (clean (d_item d Unnamed)) (elems l) ->
  fst (vec_flat d l) = outcome (failures (d_item d Unnamed) (elems l)) (values (d_item d Unnamed) (elems l)).
Proof.
  intro C. unfold vec_flat. pose proof (vec_steps (elems l) (fun x I => elem_of l x I) C [] []) as H.
  exact (finish_steps (vec_step d) l _ vec_u vec_st vec_kp H).
Qed.
Lemma vec_steps_inv xs : forall st st', steps (vec_step d) st xs st' -> snd st' = [] ->
  snd st = [] /\ exists vs, fst st' = fst st ++ vs /\
   Forall2 (fun x v => fst (d_item d Unnamed (at_elem x)) = Ok v /\ toks (snd (d_item d Unnamed (at_elem x))) = el_after x) xs vs.
Proof.
  intros st st' H. induction H as [st|st x st1 xs st2 H1 H2 H IH]; intro Z.
  - split; auto. exists []. rewrite app_nil_r. auto.
  - destruct (IH Z) as [Z1 [vs [E F]]]. unfold vec_step in H1, H2. destruct (d_item d Unnamed (at_elem x)) as [[v|e|b] s1] eqn:D; cbn [fst snd] in *.
    + injection H1 as <-. cbn [fst snd] in *. split; auto. exists (v :: vs). split; [now rewrite E, <- app_assoc|].
      constructor; auto. rewrite D. auto.
    + injection H1 as <-. cbn [snd] in Z1. unfold push_syn in Z1. destruct (snd st); discriminate.
    + discriminate.
Qed.
Lemma vec_ok l vs : (forall m, local (d_item d m)) ->
  fst (vec_flat d l) = Ok vs <-> Forall2 (accepts (d_item d Unnamed)) (items_of l) vs.
Proof.
  intro LC. unfold vec_flat. rewrite (finish_steps_ok _ _ _ vec_u vec_st vec_kp). rewrite <- elems_items.
  pose proof (fun x I => elem_of l x I) as W. revert W. generalize (elems l) as xs. intros xs W. split.
  - intro H. destruct (vec_steps_inv _ _ _ H eq_refl) as [_ [ws [E F]]]. cbn [fst app] in E. subst ws. clear H.
    induction F as [|x v xs vs [H1 H2] F IH]; cbn [map]; constructor; [|apply IH; intros y I; apply W; now right].
    destruct (W x (or_introl eq_refl)) as [N E]. destruct (LC Unnamed) as [_ L].
    destruct (L (el_toks x) N) as [[w [rest G]]|G].
    + destruct (G (el_after x) (el_scope x) None E) as [G1 G2]. change (mkStream (el_toks x ++ el_after x) (el_scope x) None) with (at_elem x) in G1, G2.
      assert (w = v) by congruence. subst w. rewrite G2 in H2. assert (rest = []).
      { apply (f_equal (@length token)) in H2. rewrite app_length in H2. destruct rest; auto. simpl in H2. lia. }
      subst rest. intros tl sc c E2. apply (G tl sc c E2).
    + destruct (G (el_after x) (el_scope x) None E) as [e G1]. change (mkStream (el_toks x ++ el_after x) (el_scope x) None) with (at_elem x) in G1. congruence.
  - intro F. enough (X : forall a, steps (vec_step d) (a, []) xs (a ++ vs, [])) by apply (X []).
    revert vs F W. induction xs as [|x xs IH]; intros vs F W a; inversion F; subst.
    { rewrite app_nil_r. constructor. }
    destruct (W x (or_introl eq_refl)) as [N E]. destruct (H1 (el_after x) (el_scope x) None E) as [G1 G2].
    destruct (vec_step_ok (a, []) x y G1 G2) as [A1 A2]. econstructor; [exact A1|exact A2|]. cbn [fst snd].
    specialize (IH l' H3 (fun z I => W z (or_intror I)) (a ++ [y])). now rewrite <- app_assoc in IH.
Qed.
End Vec.
End C.
