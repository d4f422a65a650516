(** Collections on any input. *)
From Verif Require Export SpecDrop LemColl2.
Local Open Scope string_scope.
Local Open Scope list_scope.

Lemma parse_comma_at s t r : toks s = t :: r -> is_comma t = false ->
  parse_comma s = (Err (comma_expected t), s).
Proof.
  intros T C. assert (I : in_span s = tok_open_span t) by (unfold in_span; now rewrite T).
  unfold parse_comma, parse_punct. rewrite T. cbn [punct_rest].
  destruct t; cbn [is_comma] in C; rewrite ?(Ascii.eqb_sym comma_c), ?C; cbn [andb]; rewrite I; reflexivity.
Qed.
Section S.
Context {env : Env}.
Section Steps.
Context {St : Type} (step : St -> stream -> res St * stream).
Hypothesis US : ustep step.
Hypothesis SS : forall st, stays (step st).
Hypothesis KS : forall st s, scope (snd (step st s)) = scope s.
Inductive halts (st : St) (x : elem) : synerr -> Prop :=
| Ha_err e : fst (step st (at_elem x)) = Err e -> halts st x e
| Ha_left st1 t rest : fst (step st (at_elem x)) = Ok st1 ->
    toks (snd (step st (at_elem x))) = t :: rest ++ el_after x -> halts st x (comma_expected t).
Lemma comma_loop_halts : forall fuel st s a x b st1 e, length (toks s) < fuel ->
  elems1 (scope s) (toks s) = a ++ x :: b -> steps step st a st1 -> halts st1 x e ->
  fst (comma_loop step fuel st s) = Err e.
Proof.
  induction fuel as [|n IH]; intros st s a x b st1 e L EQ ST HA; [lia|]. cbn [comma_loop].
  destruct (is_empty s) eqn:Z.
  { unfold is_empty in Z. destruct (toks s) eqn:T; [|discriminate]. cbn in EQ. destruct a; discriminate. }
  assert (TS : toks s <> []) by (unfold is_empty in Z; destruct (toks s); discriminate).
  destruct (cut_item (toks s)) as [seg [tl [T [N E]]]].
  rewrite T in TS. rewrite T, (elems1_cut _ _ _ N E TS) in EQ.
  destruct (step_at step US st s seg tl T) as [A [B D]].
  assert (SC : scope (snd (step st s)) = scope s) by apply KS.
  destruct a as [|y a]; cbn [app] in EQ; injection EQ as X0 EQ.
  - (* the halting element *)
    inversion ST; subst st1. clear ST. rewrite X0 in A, B. destruct HA as [e HA|st2 t rest HA HT].
    + destruct (step st s) as [r s1]. cbn [fst] in A. rewrite HA in A. subst r. reflexivity.
    + destruct (stays_cut (step st) seg tl (scope s) None (SS st) N E) as [rs [R [pre Q]]].
      change (mkStream (seg ++ tl) (scope s) None) with (at_elem (mkElem seg tl (scope s))) in R.
      rewrite X0 in R. assert (AF : el_after x = tl) by (subst x; reflexivity). rewrite AF in HT.
      assert (RS : rs = t :: rest).
      { rewrite R in HT. change (t :: rest ++ tl) with ((t :: rest) ++ tl) in HT. now apply app_inv_tail in HT. }
      assert (C : is_comma t = false).
      { rewrite Q, RS in N. apply nc_app in N as [_ N]. now apply nc_cons in N. }
      destruct (step st s) as [r s1]. cbn [fst snd] in A, B. rewrite HA in A. rewrite HT in B. subst r.
      unfold is_empty. rewrite B. rewrite (parse_comma_at _ _ _ B C). reflexivity.
  - inversion ST as [|? ? st2 ? ? H1 H2 H3]; subst. cbn [el_after] in H2.
    destruct (step st s) as [r s1]. cbn [fst snd] in A, B, SC. rewrite H1 in A. rewrite H2 in B. subst r.
    destruct (is_empty s1) eqn:Z1.
    { unfold is_empty in Z1. rewrite B in Z1. destruct tl; [|discriminate]. destruct a; discriminate. }
    destruct tl as [|t r]; [unfold is_empty in Z1; rewrite B in Z1; discriminate|].
    apply ends_cons in E as C. rewrite (parse_comma_ok _ _ _ B C).
    eapply (IH st2 (set_toks s1 r) a x b st1 e); eauto.
    + cbn. rewrite T, app_length in L. cbn [length] in L. lia.
    + cbn [toks scope set_toks]. rewrite SC. exact EQ.
Qed.
Lemma app_mid {T} (x : T) (b c d : list T) : forall a, a ++ x :: b = c ++ d ->
  (exists c2, c = a ++ x :: c2 /\ b = c2 ++ d) \/ (exists a2, a = c ++ a2 /\ d = a2 ++ x :: b).
Proof.
  induction c as [|y c IH]; intros a H; cbn [app] in H.
  - right. exists a. auto.
  - destruct a as [|z a]; cbn [app] in H; injection H as -> H.
    + left. exists c. auto.
    + destruct (IH a H) as [[c2 [-> ->]]|[a2 [-> ->]]]; [left|right]; eexists; split; reflexivity.
Qed.
Lemma over_halts : forall l st a x b st1 e, elems l = a ++ x :: b -> steps step st a st1 -> halts st1 x e ->
  fst (over_streams (comma_stream step) st l) = Err e.
Proof.
  induction l as [|s l IH]; intros st a x b st1 e EQ ST HA; cbn [over_streams].
  { destruct a; discriminate. }
  change (elems (s :: l)) with (elems1 (scope s) (toks s) ++ elems l) in EQ. symmetry in EQ.
  unfold comma_stream at 1. destruct (app_mid _ _ _ _ _ EQ) as [[c2 [E1 E2]]|[a2 [E1 E2]]].
  - pose proof (comma_loop_halts (S (length (toks s))) st s a x c2 st1 e (Nat.lt_succ_diag_r _) E1 ST HA) as H.
    destruct (comma_loop step (S (length (toks s))) st s) as [r s1]. cbn [fst] in H. subst r. reflexivity.
  - subst a. apply steps_app in ST as [st2 [S1 S2]].
    apply (comma_loop_steps step US SS KS (S (length (toks s))) st s st2 (Nat.lt_succ_diag_r _)) in S1.
    destruct (comma_loop step (S (length (toks s))) st s) as [r s1]. cbn [fst] in S1. subst r.
    pose proof (IH st2 a2 x b st1 e E2 S2 HA) as H.
    destruct (over_streams (comma_stream step) st2 l) as [r l1]. cbn [fst] in *. exact H.
Qed.
End Steps.
Lemma finish_halts {A} step (l : list stream) a x b st1 e : ustep step -> (forall st, stays (step st)) ->
  (forall st s, scope (snd (step st s)) = scope s) ->
  elems l = a ++ x :: b -> steps step ([], []) a st1 -> halts step st1 x e ->
  fst (finish (@fst (list A) errors) snd (over_streams (comma_stream step) ([], []) l)) = Err e.
Proof.
  intros U S K EQ ST HA. pose proof (over_halts step U S K l _ a x b st1 e EQ ST HA) as H. unfold finish.
  destruct (over_streams (comma_stream step) ([], []) l) as [r l1]. cbn [fst] in H. subst. reflexivity.
Qed.
(** every list is clean or has a first element that is not *)
Lemma clean_or {A} (p : parser A) : stays p -> forall xs,
  (forall x, In x xs -> no_comma (el_toks x) /\ ends (el_after x)) ->
  Forall (clean p) xs \/ exists a x b t, xs = a ++ x :: b /\ Forall (clean p) a /\ overrun p x t.
Proof.
  intros SP. induction xs as [|x xs IH]; intro W; [left; constructor|].
  destruct (W x (or_introl eq_refl)) as [N E].
  destruct (cut_rest p x SP N E) as [rest [NR R]].
  destruct (fst (p (at_elem x))) as [v|e|b] eqn:P.
  2,3: assert (C : clean p x) by (intros w H; congruence);
    destruct (IH (fun y I => W y (or_intror I))) as [H|[a [y [b' [t [-> [H O]]]]]]];
    [left; constructor; auto|right; exists (x :: a), y, b', t; repeat split; auto].
  destruct rest as [|t rest].
  - assert (C : clean p x) by (intros w H; exact R).
    destruct (IH (fun y I => W y (or_intror I))) as [H|[a [y [b' [t [-> [H O]]]]]]];
    [left; constructor; auto|right; exists (x :: a), y, b', t; repeat split; auto].
  - right. exists [], x, xs, t. repeat split; auto. exists v, rest. auto.
Qed.

Section V.
Context {A : Type} (d : dict A) (F : fine d).
Local Notation p := (d_item d Unnamed).
Let SP : stays p := proj1 (fi_item d F Unnamed).
Lemma vec_left l a x b t : elems l = a ++ x :: b -> Forall (clean p) a -> overrun p x t ->
  fst (vec_flat d l) = Err (comma_expected t).
Proof.
  intros EQ C [v [rest [O1 O2]]]. unfold vec_flat.
  assert (W : forall y, In y a -> no_comma (el_toks y) /\ ends (el_after y)).
  { intros y I. apply (elem_of l). rewrite EQ. apply in_or_app. auto. }
  eapply (finish_halts (vec_step d) l a x b); eauto.
  - apply vec_u, F.
  - intro st. apply vec_st. intro m. apply (fi_item d F m).
  - apply vec_kp, F.
  - apply vec_steps; auto; [intro m; apply (fi_item d F m)|intro s; apply (gd_item d (fi_good d F) Unnamed)].
  - eapply Ha_left with (rest := rest); unfold vec_step; destruct (p (at_elem x)) as [r s1]; cbn [fst snd] in *; subst r; [reflexivity|exact O2].
Qed.
Lemma set_halts eqb st x t : overrun p x t -> halts (set_step eqb d) st x (comma_expected t).
Proof.
  intros [v [rest [O1 O2]]].
  assert (X : exists st1, set_step eqb d st (at_elem x) = (Ok st1, snd (p (at_elem x)))).
  { unfold set_step. destruct (p (at_elem x)) as [r s1]. cbn [fst snd] in *. subst r.
    destruct (set_ins eqb v (fst st)). eauto. }
  destruct X as [st1 X]. eapply Ha_left with (rest := rest); rewrite X; [reflexivity|exact O2].
Qed.
Lemma set_left eqb l a x b t : elems l = a ++ x :: b -> Forall (clean p) a -> overrun p x t ->
  fst (set_flat eqb d l) = Err (comma_expected t).
Proof.
  intros EQ C [v [rest [O1 O2]]]. unfold set_flat.
  assert (W : forall y, In y a -> no_comma (el_toks y) /\ ends (el_after y)).
  { intros y I. apply (elem_of l). rewrite EQ. apply in_or_app. auto. }
  eapply (finish_halts (set_step eqb d) l a x b); eauto.
  - now apply set_u.
  - intro st. now apply set_st.
  - intros st s. now apply set_kp.
  - apply set_steps; auto.
  - apply set_halts. exists v, rest. auto.
Qed.
End V.
Section M.
Context {K V : Type} (eqb : K -> K -> bool) (kstr : K -> string) (dk : dict K) (dv : dict V).
Hypothesis FK : fine dk.
Hypothesis FV : fine dv.
Local Notation pk := (d_item dk Unnamed).
Local Notation me := (map_entry kstr dk dv).
Lemma map_halts l a x b e : elems l = a ++ x :: b -> Forall (clean me) a ->
  Forall (fun x => exists k, fst (pk (at_elem x)) = Ok k) a ->
  (forall st, halts (map_step eqb kstr dk dv) st x e) ->
  fst (map_flat eqb kstr dk dv l) = Err e.
Proof.
  intros EQ C KY HA. unfold map_flat.
  assert (W : forall y, In y a -> no_comma (el_toks y) /\ ends (el_after y)).
  { intros y I. apply (elem_of l). rewrite EQ. apply in_or_app. auto. }
  destruct (map_steps eqb kstr dk dv FK FV a W C KY [] []) as [l' [S _]].
  eapply (finish_halts (map_step eqb kstr dk dv) l a x b); eauto.
  - now apply map_u.
  - intro st. now apply map_st.
  - intros st s. now apply map_kp.
Qed.
Lemma map_left x t st : overrun me x t -> halts (map_step eqb kstr dk dv) st x (comma_expected t).
Proof.
  intros [[k v] [rest [O1 O2]]]. destruct (me (at_elem x)) as [r s2] eqn:M. cbn [fst snd] in *. subst r.
  eapply Ha_left with (rest := rest); rewrite (map_step_ok eqb kstr dk dv FK FV st x k v s2 M); [reflexivity|exact O2].
Qed.
Lemma map_key x e st : fst (pk (at_elem x)) = Err e -> halts (map_step eqb kstr dk dv) st x e.
Proof.
  intro H. apply Ha_err. unfold map_step. destruct (pk (at_elem x)) as [r s1]. cbn [fst] in H. subst r. reflexivity.
Qed.
Lemma keys_or : forall xs, Forall (fun x => exists k, fst (pk (at_elem x)) = Ok k) xs \/
  exists a x b e, xs = a ++ x :: b /\ Forall (fun x => exists k, fst (pk (at_elem x)) = Ok k) a /\ fst (pk (at_elem x)) = Err e.
Proof.
  induction xs as [|x xs IH]; [left; constructor|]. pose proof (proj1 (gd_item dk (fi_good dk FK) Unnamed (at_elem x))) as G.
  destruct (fst (pk (at_elem x))) as [k|e|b] eqn:P; [| |destruct G].
  - destruct IH as [IH|[a [y [b [e [-> [IH H]]]]]]].
    + left. constructor; eauto.
    + right. exists (x :: a), y, b, e. repeat split; auto. constructor; eauto.
  - right. exists [], x, xs, e. repeat split; auto.
Qed.
End M.
Lemma l_vec_any A (d : dict A) p inputs r : fine d -> vec_parser d p ->
  fst (p inputs) = r <-> vec_result d (elems inputs) r.
Proof.
  intros F P. assert (D : forall r, vec_result d (elems inputs) r -> fst (p inputs) = r).
  { intros r0 [C|a x b t EQ C O].
    - now apply l_vec_errors.
    - rewrite (vec_parser_eq d p P). eapply vec_left; eauto. }
  split; [|apply D]. intros <-.
  assert (E : exists r, vec_result d (elems inputs) r).
  { destruct (clean_or (d_item d Unnamed) (proj1 (fi_item d F Unnamed)) (elems inputs) (fun x I => elem_of inputs x I)) as [C|[a [x [b [t [EQ [C O]]]]]]].
    - eexists. now apply VR_all.
    - eexists. eapply VR_left; eauto. }
  destruct E as [r0 E]. now rewrite (D r0 E).
Qed.
Lemma l_set_any A eqb (d : dict A) p inputs r : fine d -> set_parser eqb d p ->
  fst (p inputs) = r <-> set_result eqb d (elems inputs) r.
Proof.
  intros F P. assert (D : forall r, set_result eqb d (elems inputs) r -> fst (p inputs) = r).
  { intros r0 [C|a x b t EQ C O].
    - now apply l_set_errors.
    - rewrite (set_parser_eq eqb d p P). eapply set_left; eauto. }
  split; [|apply D]. intros <-.
  assert (E : exists r, set_result eqb d (elems inputs) r).
  { destruct (clean_or (d_item d Unnamed) (proj1 (fi_item d F Unnamed)) (elems inputs) (fun x I => elem_of inputs x I)) as [C|[a [x [b [t [EQ [C O]]]]]]].
    - eexists. now apply SR_all.
    - eexists. eapply SR_left; eauto. }
  destruct E as [r0 E]. now rewrite (D r0 E).
Qed.
Lemma l_map_any K A eqb (kstr : K -> string) dk (dv : dict A) p inputs r : fine dk -> fine dv ->
  map_parser eqb kstr dk dv p ->
  fst (p inputs) = r <-> map_result eqb kstr dk dv (elems inputs) r.
Proof.
  intros FK FV P. assert (D : forall r, map_result eqb kstr dk dv (elems inputs) r -> fst (p inputs) = r).
  { intros r0 [C KY|a x b t EQ C KY O|a x b e EQ C KY O].
    - now apply l_map_errors.
    - rewrite (map_parser_eq _ _ _ _ p P). eapply map_halts; eauto. intro. now apply map_left.
    - rewrite (map_parser_eq _ _ _ _ p P). eapply map_halts; eauto. intro. now apply map_key. }
  split; [|apply D]. intros <-.
  assert (E : exists r, map_result eqb kstr dk dv (elems inputs) r).
  { pose proof (fun x I => elem_of inputs x I) as W.
    destruct (keys_or dk FK (elems inputs)) as [KY|[a [x [b [e [EQ [KY H]]]]]]].
    - destruct (clean_or (map_entry kstr dk dv) (me_st kstr dk dv FK FV) (elems inputs) W) as [C|[a [x [b [t [EQ [C O]]]]]]].
      + eexists. now apply MR_all.
      + eexists. eapply MR_left; eauto. rewrite EQ in KY. now apply Forall_app in KY.
    - assert (W2 : forall y, In y a -> no_comma (el_toks y) /\ ends (el_after y)).
      { intros y I. apply W. rewrite EQ. apply in_or_app. auto. }
      destruct (clean_or (map_entry kstr dk dv) (me_st kstr dk dv FK FV) a W2) as [C|[a1 [y [b1 [t [EQ1 [C O]]]]]]].
      + eexists. eapply MR_key; eauto.
      + eexists. eapply (MR_left _ _ _ _ _ a1 y (b1 ++ x :: b)); eauto.
        * rewrite EQ, EQ1, <- app_assoc. reflexivity.
        * rewrite EQ1 in KY. now apply Forall_app in KY. }
  destruct E as [r0 E]. now rewrite (D r0 E).
Qed.
Section R.
Context {K V : Type} (eqb : K -> K -> bool) (kstr : K -> string) (dk : dict K) (dv : dict V) (ex : list string).
Hypothesis FK : fine dk.
Hypothesis FV : fine dv.
Local Notation pk := (d_item dk Unnamed).
Local Notation me := (map_entry kstr dk dv).
Local Notation rs := (rest_step eqb kstr dk dv ex).
Lemma rest_skip st x k : no_comma (el_toks x) -> ends (el_after x) -> fst (pk (at_elem x)) = Ok k -> In (kstr k) ex ->
  fst (rs st (at_elem x)) = Ok st /\ toks (snd (rs st (at_elem x))) = el_after x.
Proof.
  intros N E H I. destruct (cut_rest pk x (proj1 (fi_item dk FK Unnamed)) N E) as [rest [NR R]].
  unfold rest_step. destruct (pk (at_elem x)) as [r s1]. cbn [fst snd] in *. subst r. apply mem_In in I. rewrite I.
  cbn. split; auto. rewrite R. now apply skip_toks_app.
Qed.
Lemma rest_ok_step st x k v s2 : ~ In (kstr k) ex -> me (at_elem x) = (Ok (k, v), s2) ->
  rs st (at_elem x) =
  (Ok (snd (map_ins eqb k v (fst st)),
       if fst (map_ins eqb k v (fst st)) then snd st
       else snd st ++ [mkErr (span_upto x (snd (pk (at_elem x)))) "Duplicate key"]), s2).
Proof.
  intros NI H. assert (M : mem_str (kstr k) ex = false) by (destruct (mem_str (kstr k) ex) eqn:M; auto; now apply mem_In in M).
  destruct (me_cases kstr dk dv FK FV (at_elem x)) as [[k' [s1 [v' [s2' [A [B D]]]]]]|[[k' [s1 [e [s2' [A [B D]]]]]]|[e [s1 [A D]]]]].
  - rewrite D in H. injection H as -> -> ->. unfold rest_step. rewrite A, M, B. cbn [snd].
    destruct (map_ins eqb k v (fst st)) as [fr l]. reflexivity.
  - congruence.
  - congruence.
Qed.
Lemma rest_err_step st x k e s2 : fst (pk (at_elem x)) = Ok k -> ~ In (kstr k) ex -> me (at_elem x) = (Err e, s2) ->
  rs st (at_elem x) = (Ok (fst st, snd st ++ errs_of e), s2).
Proof.
  intros KY NI H. assert (M : mem_str (kstr k) ex = false) by (destruct (mem_str (kstr k) ex) eqn:M; auto; now apply mem_In in M).
  destruct (me_cases kstr dk dv FK FV (at_elem x)) as [[k' [s1 [v' [s2' [A [B D]]]]]]|[[k' [s1 [e' [s2' [A [B D]]]]]]|[e' [s1 [A D]]]]].
  - congruence.
  - rewrite D in H. injection H as -> ->. rewrite A in KY. injection KY as ->. unfold rest_step. rewrite A, M, B. reflexivity.
  - rewrite A in KY. discriminate.
Qed.
Lemma me_key x k v : fst (me (at_elem x)) = Ok (k, v) -> fst (pk (at_elem x)) = Ok k.
Proof.
  destruct (me_cases kstr dk dv FK FV (at_elem x)) as [[k' [s1 [v' [s2' [A [B D]]]]]]|[[k' [s1 [e' [s2' [A [B D]]]]]]|[e' [s1 [A D]]]]];
  rewrite D, A; cbn [fst]; congruence.
Qed.
Lemma rest_picked xs ys : (forall x, In x xs -> no_comma (el_toks x) /\ ends (el_after x)) ->
  picked kstr dk ex xs ys -> Forall (uses_up me) ys -> forall l es,
  exists l', steps rs (l, es) xs (l', es ++ map_errors eqb kstr dk dv (map fst l) ys) /\
    (map_errors eqb kstr dk dv (map fst l) ys = [] -> l' = l ++ values me ys).
Proof.
  intros W P. induction P as [|x k xs ys KY I P IH|x k0 xs ys KY I P IH]; intros C l es.
  { exists l. cbn [map_errors values flat_map]. rewrite !app_nil_r. split; auto. constructor. }
  { destruct (IH (fun y J => W y (or_intror J)) C l es) as [l' [S T]]. exists l'. split; auto.
    destruct (W x (or_introl eq_refl)) as [N E]. destruct (rest_skip (l, es) x k N E KY I). econstructor; eauto. }
  inversion C as [|? ? H C']; subst. specialize (IH (fun y I => W y (or_intror I)) C').
  unfold uses_up in H.
  cbn [map_errors values flat_map]. fold (values me ys).
  destruct (me (at_elem x)) as [[[k v]|e|b] s2] eqn:M; cbn [fst snd] in *.
  - assert (k0 = k) by (enough (fst (pk (at_elem x)) = Ok k) by congruence; apply (me_key x k v); now rewrite M). subst k0.
    pose proof (rest_ok_step (l, es) x k v s2 I M) as X. cbn [fst snd] in X.
    destruct (map_ins_fresh eqb k v l) as [I1 [I2 I3]]. rewrite I1 in X. destruct (existsb (eqb k) (map fst l)) eqn:B; cbn [negb] in X.
    + specialize (I3 eq_refl). destruct (IH (snd (map_ins eqb k v l)) (es ++ [mkErr (span_upto x (snd (pk (at_elem x)))) "Duplicate key"])) as [l' [S _]].
      rewrite I3, <- app_assoc in S. exists l'. split; [|discriminate]. eapply St_more; [rewrite X; reflexivity|rewrite X; exact H|exact S].
    + rewrite (I2 eq_refl) in X. destruct (IH (l ++ [(k, v)]) es) as [l' [S T]]. rewrite map_app in S, T. cbn [map fst] in S, T.
      exists l'. split; [eapply St_more; [rewrite X; reflexivity|rewrite X; exact H|exact S]|].
      intro Z. rewrite (T Z), <- app_assoc. reflexivity.
  - pose proof (rest_err_step (l, es) x k0 e s2 KY I M) as X. cbn [fst snd] in X. destruct (IH l (es ++ errs_of e)) as [l' [S T]].
    rewrite <- app_assoc in S. exists l'. split; [|destruct e; discriminate].
    eapply St_more; [rewrite X; reflexivity|rewrite X; exact H|exact S].
  - exfalso. destruct (me_cases kstr dk dv FK FV (at_elem x)) as [[k' [s1 [v' [s2' [A [B D]]]]]]|[[k' [s1 [e' [s2' [A [B D]]]]]]|[e' [s1 [A D]]]]]; congruence.
Qed.
Lemma rest_halts l a x b ys e : elems l = a ++ x :: b -> picked kstr dk ex a ys -> Forall (uses_up me) ys ->
  (forall st, halts rs st x e) -> fst (map_rest eqb kstr dk dv ex l) = Err e.
Proof.
  intros EQ P C HA. unfold map_rest.
  assert (W : forall y, In y a -> no_comma (el_toks y) /\ ends (el_after y)).
  { intros y I. apply (elem_of l). rewrite EQ. apply in_or_app. auto. }
  destruct (rest_picked a ys W P C [] []) as [l' [S _]].
  eapply (finish_halts rs l a x b); eauto.
  - now apply rest_u.
  - intro st. now apply rest_st.
  - intros st s. now apply rest_kp.
Qed.
Lemma rest_cases xs : (forall x, In x xs -> no_comma (el_toks x) /\ ends (el_after x)) ->
  (exists ys, picked kstr dk ex xs ys /\ Forall (uses_up me) ys) \/
  (exists a x b ys, xs = a ++ x :: b /\ picked kstr dk ex a ys /\ Forall (uses_up me) ys /\
    ((exists e, fst (pk (at_elem x)) = Err e) \/
     (exists t rest, picked kstr dk ex [x] [x] /\ toks (snd (me (at_elem x))) = t :: rest ++ el_after x))).
Proof.
  induction xs as [|x xs IH]; intro W.
  { left. exists []. split; constructor. }
  destruct (W x (or_introl eq_refl)) as [N E]. specialize (IH (fun y I => W y (or_intror I))).
  pose proof (proj1 (gd_item dk (fi_good dk FK) Unnamed (at_elem x))) as G.
  destruct (fst (pk (at_elem x))) as [k|e|bb] eqn:KY; [|right; exists [], x, xs, []; repeat split; eauto; constructor|destruct G].
  destruct (mem_str (kstr k) ex) eqn:M.
  - apply mem_In in M. destruct IH as [[ys [P C]]|[a [y [b [ys [-> [P [C R]]]]]]]].
    + left. exists ys. split; auto. econstructor; eauto.
    + right. exists (x :: a), y, b, ys. repeat split; auto. econstructor; eauto.
  - assert (NI : ~ In (kstr k) ex) by (rewrite <- mem_In; congruence).
    destruct (cut_rest me x (me_st kstr dk dv FK FV) N E) as [rest [NR R]]. destruct rest as [|t rest].
    + assert (UX : uses_up me x) by exact R. destruct IH as [[ys [P C]]|[a [y [b [ys [-> [P [C RR]]]]]]]].
      * left. exists (x :: ys). split; auto. eapply Pk_take; eauto.
      * right. exists (x :: a), y, b, (x :: ys). repeat split; auto. eapply Pk_take; eauto.
    + right. exists [], x, xs, []. split; [reflexivity|]. split; [constructor|]. split; [constructor|]. right. exists t, rest. split; auto.
      eapply Pk_take; eauto. constructor.
Qed.
Lemma l_rest_any inputs r :
  fst (map_rest eqb kstr dk dv ex inputs) = r <-> rest_result eqb kstr dk dv ex (elems inputs) r.
Proof.
  assert (D : forall r, rest_result eqb kstr dk dv ex (elems inputs) r -> fst (map_rest eqb kstr dk dv ex inputs) = r).
  { intros r0 [ys P C|a x b ys t rest EQ P C PX O|a x b ys e EQ P C O].
    - unfold map_rest. destruct (rest_picked (elems inputs) ys (fun x I => elem_of inputs x I) P C [] []) as [l' [H T]].
      cbn [map app] in H, T. etransitivity; [exact (finish_steps rs inputs _ (rest_u eqb kstr dk dv FK FV ex) (rest_st eqb kstr dk dv FK FV ex) (rest_kp eqb kstr dk dv FK FV ex) H)|].
      cbn [fst snd]. destruct (map_errors eqb kstr dk dv [] ys) as [|e es]; [now rewrite (T eq_refl)|reflexivity].
    - eapply rest_halts; eauto. intro st. inversion PX as [|? ? ? ? KY I P2|? k ? ? KY I P2]; subst; [inversion P2|].
      destruct (me (at_elem x)) as [[[k' v]|e|bb] s2] eqn:M; cbn [snd] in O.
      + assert (k = k') by (enough (fst (pk (at_elem x)) = Ok k') by congruence; apply (me_key x k' v); now rewrite M). subst k'.
        eapply Ha_left with (rest := rest); rewrite (rest_ok_step st x k v s2 I M); [reflexivity|exact O].
      + eapply Ha_left with (rest := rest); rewrite (rest_err_step st x k e s2 KY I M); [reflexivity|exact O].
      + exfalso. destruct (me_cases kstr dk dv FK FV (at_elem x)) as [[k' [s1 [v' [s2' [A [B D]]]]]]|[[k' [s1 [e' [s2' [A [B D]]]]]]|[e' [s1 [A D]]]]]; congruence.
    - eapply rest_halts; eauto. intro st. apply Ha_err. unfold rest_step. destruct (pk (at_elem x)) as [r1 s1]. cbn [fst] in O. subst r1. reflexivity. }
  split; [|apply D]. intros <-.
  assert (E : exists r, rest_result eqb kstr dk dv ex (elems inputs) r).
  { destruct (rest_cases (elems inputs) (fun x I => elem_of inputs x I)) as [[ys [P C]]|[a [x [b [ys [EQ [P [C [[e H]|[t [rest [PX H]]]]]]]]]]]].
    - eexists. eapply RR_all; eauto.
    - eexists. eapply RR_key; eauto.
    - eexists. eapply RR_left; eauto. }
  destruct E as [r0 E]. now rewrite (D r0 E).
Qed.
End R.
End S.
