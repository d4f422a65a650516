(** Maps and rest fields. *)
From Verif Require Export LemSet.

Section C.
Context {env : Env} {K V : Type} (eqb : K -> K -> bool) (kstr : K -> string) (dk : dict K) (dv : dict V).
Hypothesis FK : fine dk.
Hypothesis FV : fine dv.
Local Notation pk := (d_item dk Unnamed).
Local Notation me := (map_entry kstr dk dv).
Let LV := fine_local dv FV.
Let SK : stays pk := proj1 (fi_item dk FK Unnamed).
Let SV n sp : stays (d_named dv n sp) := proj1 (ld_named dv LV n sp).

Lemma me_cases s :
  (exists k s1 v s2, pk s = (Ok k, s1) /\ d_named dv (kstr k) (in_span s) s1 = (Ok v, s2) /\ me s = (Ok (k, v), s2)) \/
  (exists k s1 e s2, pk s = (Ok k, s1) /\ d_named dv (kstr k) (in_span s) s1 = (Err e, s2) /\ me s = (Err e, s2)) \/
  (exists e s1, pk s = (Err e, s1) /\ me s = (Err e, s1)).
Proof.
  unfold map_entry, pbind. pose proof (proj1 (gd_item dk (fi_good dk FK) Unnamed s)) as G.
  destruct (pk s) as [[k|e|b] s1]; [|right; right; eauto|destruct G].
  pose proof (proj1 (gd_named dv (fi_good dv FV) (kstr k) (in_span s) s1)) as G2.
  destruct (d_named dv (kstr k) (in_span s) s1) as [[v|e|b] s2] eqn:D; [left|right; left|destruct G2].
  - exists k, s1, v, s2. auto.
  - exists k, s1, e, s2. auto.
Qed.
Lemma me_st : stays me.
Proof.
  intro s. unfold map_entry. apply (st_bind pk (fun k => v <- d_named dv (kstr k) (in_span s) ;; pret (k, v)) SK).
  intro k. apply st_bind; [apply SV|]. intro. apply st_ret.
Qed.
Lemma me_local : nonempty_keys dk -> local me.
Proof.
  intro NE. split; [apply me_st|]. intros body N. destruct body as [|t body].
  - right. intros tl sc c E. unfold map_entry, pbind. destruct (NE tl sc c E) as [e H]. cbn [app].
    destruct (pk (mkStream tl sc c)) as [r s1]. cbn [fst] in H. subst. exists e. reflexivity.
  - assert (L : local (k <- pk ;; v <- d_named dv (kstr k) (in_span (mkStream [t] SCall None)) ;; pret (k, v))).
    { apply lc_bind; [apply (fi_item dk FK)|]. intro k. apply lc_bind; [apply (ld_named dv LV)|]. intro. apply lc_ret. }
    destruct L as [_ L]. exact (L (t :: body) N).
Qed.

(** the step of a map in terms of the entry parser *)
Lemma map_step_ok st x k v s2 : me (at_elem x) = (Ok (k, v), s2) ->
  map_step eqb kstr dk dv st (at_elem x) =
  (Ok (snd (map_ins eqb k v (fst st)),
       if fst (map_ins eqb k v (fst st)) then snd st
       else snd st ++ [mkErr (span_upto x (snd (pk (at_elem x)))) "Duplicate key"]), s2).
Proof.
  intro H. destruct (me_cases (at_elem x)) as [[k' [s1 [v' [s2' [A [B D]]]]]]|[[k' [s1 [e [s2' [A [B D]]]]]]|[e [s1 [A D]]]]].
  - rewrite D in H. injection H as -> -> ->. unfold map_step. rewrite A, B. cbn [snd].
    destruct (map_ins eqb k v (fst st)) as [fr l]. reflexivity.
  - congruence.
  - congruence.
Qed.
Lemma map_step_err st x k e s2 : fst (pk (at_elem x)) = Ok k -> me (at_elem x) = (Err e, s2) ->
  map_step eqb kstr dk dv st (at_elem x) = (Ok (fst st, snd st ++ errs_of e), skip_item s2).
Proof.
  intros KY H. destruct (me_cases (at_elem x)) as [[k' [s1 [v' [s2' [A [B D]]]]]]|[[k' [s1 [e' [s2' [A [B D]]]]]]|[e' [s1 [A D]]]]].
  - congruence.
  - rewrite D in H. injection H as -> ->. unfold map_step. rewrite A, B. reflexivity.
  - rewrite A in KY. discriminate.
Qed.
Lemma map_u : ustep (map_step eqb kstr dk dv).
Proof.
  intros st s s' E. unfold map_step. rewrite (fork_in_span _ _ E).
  step1 (ud_item dk (fi_unaware dk FK) Unnamed _ _ E). destruct r as [k| |]; [|split; auto|split; auto].
  rewrite (fork_in_span _ _ EQ). step1 (ud_named dv (fi_unaware dv FV) (kstr k) (in_span s') _ _ EQ).
  destruct r; try (split; cbn [fst snd]; auto using fork_skip; fail). destruct (map_ins eqb k a (fst st)). split; auto.
Qed.
Lemma st_comp (s s1 s2 : stream) : (exists a, toks s = a ++ toks s1 /\ no_comma a) ->
  (exists b, toks s1 = b ++ toks s2 /\ no_comma b) -> exists c, toks s = c ++ toks s2 /\ no_comma c.
Proof.
  intros [a [E N]] [b [E2 N2]]. exists (a ++ b). split; [|apply nc_app; auto]. rewrite E, E2. now rewrite app_assoc.
Qed.
Lemma map_st st : stays (map_step eqb kstr dk dv st).
Proof.
  intro s. unfold map_step. pose proof (SK s) as H. destruct (pk s) as [[k|e|b] s1]; auto. cbn [snd] in H.
  pose proof (SV (kstr k) (in_span s) s1) as H2.
  destruct (d_named dv (kstr k) (in_span s) s1) as [[v|e|b] s2]; cbn [snd] in H2.
  - destruct (map_ins eqb k v (fst st)). eapply st_comp; eauto.
  - eapply st_comp; [exact H|]. eapply st_comp; [exact H2|]. apply (stays_skip s2).
  - eapply st_comp; eauto.
Qed.
Lemma map_kp st s : scope (snd (map_step eqb kstr dk dv st s)) = scope s.
Proof.
  unfold map_step. pose proof (fi_keeps dk FK Unnamed s) as H. destruct (pk s) as [[k|e|b] s1]; auto. cbn [snd] in H.
  pose proof (fine_keeps_named dv (kstr k) (in_span s) FV s1) as H2.
  destruct (d_named dv (kstr k) (in_span s) s1) as [[v|e|b] s2]; cbn [snd] in H2.
  - destruct (map_ins eqb k v (fst st)). cbn [snd]. congruence.
  - cbn. congruence.
  - cbn. congruence.
Qed.
Lemma map_ins_fresh k v (l : list (K * V)) :
  fst (map_ins eqb k v l) = negb (existsb (eqb k) (map fst l)) /\
  (existsb (eqb k) (map fst l) = false -> snd (map_ins eqb k v l) = l ++ [(k, v)]) /\
  (existsb (eqb k) (map fst l) = true -> map fst (snd (map_ins eqb k v l)) = map fst l).
Proof.
  induction l as [|[k' v'] l [IH1 [IH2 IH3]]]; cbn [map_ins map existsb fst]; [repeat split; auto; discriminate|].
  destruct (eqb k k') eqn:E; cbn [orb].
  - repeat split; auto. discriminate.
  - destruct (map_ins eqb k v l) as [f l1]. cbn [fst snd] in *. repeat split; auto.
    + intro H. now rewrite IH2.
    + intro H. cbn [map fst]. now rewrite IH3.
Qed.
Lemma map_steps xs : (forall x, In x xs -> no_comma (el_toks x) /\ ends (el_after x)) ->
  Forall (clean me) xs -> Forall (fun x => exists k, fst (pk (at_elem x)) = Ok k) xs -> forall l es,
  exists l', steps (map_step eqb kstr dk dv) (l, es) xs (l', es ++ map_errors eqb kstr dk dv (map fst l) xs) /\
    (map_errors eqb kstr dk dv (map fst l) xs = [] -> l' = l ++ values me xs).
Proof.
  intros W C KY. induction xs as [|x xs IH]; intros l es.
  { exists l. cbn [map_errors values flat_map]. rewrite !app_nil_r. split; auto. constructor. }
  inversion C as [|? ? H C']; subst. inversion KY as [|? ? [k0 K0] KY']; subst.
  destruct (W x (or_introl eq_refl)) as [N E]. specialize (IH (fun y I => W y (or_intror I)) C' KY').
  unfold clean in H. destruct (cut_rest me x me_st N E) as [rest [NR R]].
  cbn [map_errors values flat_map]. fold (values me xs).
  destruct (me (at_elem x)) as [[[k v]|e|b] s2] eqn:M; cbn [fst snd] in *.
  - pose proof (map_step_ok (l, es) x k v s2 M) as X. cbn [fst snd] in X.
    destruct (map_ins_fresh k v l) as [I1 [I2 I3]]. rewrite I1 in X. destruct (existsb (eqb k) (map fst l)) eqn:B; cbn [negb] in X.
    + specialize (I3 eq_refl). destruct (IH (snd (map_ins eqb k v l)) (es ++ [mkErr (span_upto x (snd (pk (at_elem x)))) "Duplicate key"])) as [l' [S _]].
      rewrite I3, <- app_assoc in S. exists l'. split; [|discriminate]. eapply St_more; [rewrite X; reflexivity|rewrite X; now apply (H (k, v))|exact S].
    + rewrite (I2 eq_refl) in X. destruct (IH (l ++ [(k, v)]) es) as [l' [S T]]. rewrite map_app in S, T. cbn [map fst] in S, T.
      exists l'. split; [eapply St_more; [rewrite X; reflexivity|rewrite X; now apply (H (k, v))|exact S]|].
      intro Z. rewrite (T Z), <- app_assoc. reflexivity.
  - pose proof (map_step_err (l, es) x k0 e s2 K0 M) as X. cbn [fst snd] in X. destruct (IH l (es ++ errs_of e)) as [l' [S T]].
    rewrite <- app_assoc in S. exists l'. split; [|destruct e; discriminate].
    eapply St_more; [rewrite X; reflexivity|rewrite X; cbn [snd skip_item set_toks toks]; rewrite R; now apply skip_toks_app|exact S].
  - exfalso. destruct (me_cases (at_elem x)) as [[k' [s1 [v' [s2' [A [B D]]]]]]|[[k' [s1 [e' [s2' [A [B D]]]]]]|[e' [s1 [A D]]]]]; congruence.
Qed.
Lemma map_exact l : Forall (clean me) (elems l) -> Forall (fun x => exists k, fst (pk (at_elem x)) = Ok k) (elems l) ->
  fst (map_flat eqb kstr dk dv l) = outcome (map_errors eqb kstr dk dv [] (elems l)) (values me (elems l)).
Proof.
  intros C KY. unfold map_flat. destruct (map_steps (elems l) (fun x I => elem_of l x I) C KY [] []) as [l' [H T]].
  cbn [map app] in H, T. etransitivity; [exact (finish_steps (map_step eqb kstr dk dv) l _ map_u map_st map_kp H)|]. cbn [fst snd].
  destruct (map_errors eqb kstr dk dv [] (elems l)) as [|e es]; [now rewrite (T eq_refl)|reflexivity].
Qed.
Lemma map_steps_inv xs : forall st st', steps (map_step eqb kstr dk dv) st xs st' -> snd st' = [] ->
  snd st = [] /\ exists vs, fst st' = fst st ++ vs /\
   Forall2 (fun x v => fst (me (at_elem x)) = Ok v /\ toks (snd (me (at_elem x))) = el_after x) xs vs /\
   all_different eqb (map fst vs) /\ Forall (fun k => existsb (eqb k) (map fst (fst st)) = false) (map fst vs).
Proof.
  intros st st' H. induction H as [st|st x st1 xs st2 H1 H2 H IH]; intro Z.
  - split; auto. exists []. rewrite app_nil_r. cbn [map]. repeat split; auto; constructor.
  - destruct (IH Z) as [Z1 [vs [E [G [AD NF]]]]].
    destruct (me_cases (at_elem x)) as [[k [s1 [v [s2 [A [B D]]]]]]|[[k [s1 [e [s2 [A [B D]]]]]]|[e [s1 [A D]]]]].
    + rewrite (map_step_ok st x k v s2 D) in H1, H2. cbn [fst snd] in H1, H2. injection H1 as <-. cbn [fst snd] in *.
      destruct (map_ins_fresh k v (fst st)) as [I1 [I2 I3]]. rewrite I1 in Z1. destruct (existsb (eqb k) (map fst (fst st))) eqn:X; cbn [negb] in Z1.
      { destruct (snd st); discriminate. }
      rewrite (I2 eq_refl) in E, NF. split; auto. exists ((k, v) :: vs). split; [now rewrite E, <- app_assoc|]. split; [constructor; auto; rewrite D; auto|].
      rewrite map_app in NF. cbn [map fst] in *. rewrite Forall_forall in NF. split.
      * constructor; auto. rewrite Forall_forall. intros w I. specialize (NF w I). rewrite existsb_app in NF.
        apply orb_false_iff in NF as [_ NF]. cbn in NF. now rewrite orb_false_r in NF.
      * constructor; auto. rewrite Forall_forall. intros w I. specialize (NF w I). rewrite existsb_app in NF.
        now apply orb_false_iff in NF as [NF _].
    + exfalso. rewrite (map_step_err st x k e s2) in H1; auto; [|now rewrite A]. cbn [fst] in H1. injection H1 as <-. cbn [snd] in Z1.
      destruct (snd st), e; discriminate.
    + exfalso. unfold map_step in H1. rewrite A in H1. discriminate.
Qed.
Lemma map_errors_none xs : forall vs seen, Forall2 (fun x v => fst (me (at_elem x)) = Ok v) xs vs ->
  all_different eqb (map fst vs) -> Forall (fun k => existsb (eqb k) seen = false) (map fst vs) ->
  map_errors eqb kstr dk dv seen xs = [].
Proof.
  induction xs as [|x xs IH]; intros vs seen G AD NF; [reflexivity|]. inversion G; subst. cbn [map_errors].
  rewrite H1. destruct y as [k v]. cbn [map fst] in *. inversion NF as [|? ? N1 NF']; subst. rewrite N1.
  inversion AD as [|? ? HD AD']; subst. apply (IH l'); auto. rewrite Forall_forall in *. intros w I. rewrite existsb_app. apply orb_false_iff.
  split; auto. cbn. rewrite orb_false_r. auto.
Qed.
Lemma accepted_elems {A} (p : parser A) (l : list stream) vs : local p ->
  Forall2 (accepts p) (items_of l) vs <->
  Forall2 (fun x v => fst (p (at_elem x)) = Ok v /\ toks (snd (p (at_elem x))) = el_after x) (elems l) vs.
Proof.
  intro L. rewrite <- elems_items. pose proof (fun x I => elem_of l x I) as W. revert W vs. generalize (elems l). intro xs.
  induction xs as [|x xs IH]; intros W vs.
  - cbn [map]. split; intro H; inversion H; constructor.
  - specialize (IH (fun y I => W y (or_intror I))). destruct (W x (or_introl eq_refl)) as [N E]. cbn [map].
    split; intro H; inversion H; subst; constructor.
    + now apply accepts_at.
    + now apply IH.
    + apply local_accepts; tauto.
    + now apply IH.
Qed.
Lemma accepted_values {A} (p : parser A) xs vs :
  Forall2 (fun x v => fst (p (at_elem x)) = Ok v /\ toks (snd (p (at_elem x))) = el_after x) xs vs ->
  values p xs = vs /\ Forall (clean p) xs.
Proof.
  induction 1 as [|x v xs vs [H1 H2] X [IH1 IH2]]; [split; constructor|]. cbn [values flat_map]. rewrite H1. fold (values p xs).
  rewrite IH1. split; auto. constructor; auto. intros w _. exact H2.
Qed.
Lemma map_ok l kvs : nonempty_keys dk ->
  fst (map_flat eqb kstr dk dv l) = Ok kvs <->
  Forall2 (accepts me) (items_of l) kvs /\ all_different eqb (map fst kvs).
Proof.
  intro NE. rewrite (accepted_elems me l kvs (me_local NE)). split.
  - unfold map_flat. rewrite (finish_steps_ok _ _ _ map_u map_st map_kp). intro H.
    destruct (map_steps_inv _ _ _ H eq_refl) as [_ [ws [E [G [AD _]]]]]. cbn [fst app] in E. subst ws. auto.
  - intros [G AD]. destruct (accepted_values me _ _ G) as [VS C]. rewrite map_exact; auto.
    + rewrite VS, (map_errors_none _ kvs []); auto; [|rewrite Forall_forall; auto].
      clear -G. induction G; constructor; tauto.
    + clear -G FK FV. induction G as [|x v xs vs [H1 H2] G IH]; constructor; auto.
      destruct (me_cases (at_elem x)) as [[k [s1 [w [s2 [A [B D]]]]]]|[[k [s1 [e [s2 [A [B D]]]]]]|[e [s1 [A D]]]]].
      * exists k. now rewrite A.
      * exists k. now rewrite A.
      * rewrite D in H1. discriminate.
Qed.

(** *** rest fields *)
Lemma key_at x k : no_comma (el_toks x) -> ends (el_after x) -> fst (pk (at_elem x)) = Ok k ->
  exists body, no_comma body /\ key_of dk (el_toks x) k body.
Proof.
  intros N E H. pose proof (proj2 (fi_item dk FK Unnamed)) as L. destruct (stays_cut pk (el_toks x) (el_after x) (el_scope x) None SK N E) as [rest0 [R0 [pre Q]]].
  destruct (L (el_toks x) N) as [[w [rest G]]|G].
  - destruct (G (el_after x) (el_scope x) None E) as [G1 G2]. rewrite ends_at in G1, G2, R0. assert (w = k) by congruence. subst w.
    exists rest. split.
    + rewrite R0 in G2. apply app_inv_tail in G2. subst rest0. rewrite Q in N. now apply nc_app in N.
    + intros tl sc c E2. apply (G tl sc c E2).
  - destruct (G (el_after x) (el_scope x) None E) as [e G1]. rewrite ends_at in G1. congruence.
Qed.
Lemma mem_In n l : mem_str n l = true <-> In n l.
Proof.
  unfold mem_str. rewrite existsb_exists. split.
  - intros [y [I E]]. apply String.eqb_eq in E. now subst.
  - intro I. exists n. split; auto. apply String.eqb_refl.
Qed.
Lemma rest_u ex : ustep (rest_step eqb kstr dk dv ex).
Proof.
  intros st s s' E. unfold rest_step. rewrite (fork_in_span _ _ E).
  step1 (ud_item dk (fi_unaware dk FK) Unnamed _ _ E). destruct r as [k| |]; [|split; auto|split; auto].
  destruct (mem_str (kstr k) ex); [split; cbn [fst snd]; auto using fork_skip|].
  rewrite (fork_in_span _ _ EQ). step1 (ud_named dv (fi_unaware dv FV) (kstr k) (in_span s') _ _ EQ).
  destruct r; try (split; cbn [fst snd]; auto using fork_skip; fail). destruct (map_ins eqb k a (fst st)). split; auto.
Qed.
Lemma rest_st ex st : stays (rest_step eqb kstr dk dv ex st).
Proof.
  intro s. unfold rest_step. pose proof (SK s) as H. destruct (pk s) as [[k|e|b] s1]; auto. cbn [snd] in H.
  destruct (mem_str (kstr k) ex). { eapply st_comp; [exact H|]. apply (stays_skip s1). }
  pose proof (SV (kstr k) (in_span s) s1) as H2.
  destruct (d_named dv (kstr k) (in_span s) s1) as [[v|e|b] s2]; cbn [snd] in H2.
  - destruct (map_ins eqb k v (fst st)). eapply st_comp; eauto.
  - eapply st_comp; eauto.
  - eapply st_comp; eauto.
Qed.
Lemma rest_kp ex st s : scope (snd (rest_step eqb kstr dk dv ex st s)) = scope s.
Proof.
  unfold rest_step. pose proof (fi_keeps dk FK Unnamed s) as H. destruct (pk s) as [[k|e|b] s1]; auto. cbn [snd] in H.
  destruct (mem_str (kstr k) ex); [exact H|].
  pose proof (fine_keeps_named dv (kstr k) (in_span s) FV s1) as H2.
  destruct (d_named dv (kstr k) (in_span s) s1) as [[v|e|b] s2]; cbn [snd] in H2.
  - destruct (map_ins eqb k v (fst st)). cbn [snd]. congruence.
  - cbn. congruence.
  - cbn. congruence.
Qed.
Lemma rest_steps_inv ex xs : nonempty_keys dk -> (forall x, In x xs -> no_comma (el_toks x) /\ ends (el_after x)) ->
  forall st st', steps (rest_step eqb kstr dk dv ex) st xs st' -> snd st' = [] ->
  snd st = [] /\ exists sel vs, selected kstr dk ex (map el_toks xs) sel /\ fst st' = fst st ++ vs /\
   Forall2 (accepts me) sel vs /\
   all_different eqb (map fst vs) /\ Forall (fun k => existsb (eqb k) (map fst (fst st)) = false) (map fst vs).
Proof.
  intros NE W st st' H. induction H as [st|st x st1 xs st2 H1 H2 H IH]; intro Z.
  - split; auto. exists [], []. rewrite app_nil_r. cbn [map]. repeat split; auto; constructor.
  - destruct (IH (fun y I => W y (or_intror I)) Z) as [Z1 [sel [vs [SL [E [G [AD NF]]]]]]]. clear IH.
    destruct (W x (or_introl eq_refl)) as [N EN]. unfold rest_step in H1, H2.
    destruct (pk (at_elem x)) as [[k|e|b] s1] eqn:A; [|discriminate|discriminate].
    destruct (key_at x k N EN) as [body [_ KO]]; [now rewrite A|].
    destruct (mem_str (kstr k) ex) eqn:M.
    { injection H1 as <-. split; auto. exists sel, vs. split; auto. cbn [map]. eapply Sel_skip; eauto. now apply mem_In. }
    assert (NI : ~ In (kstr k) ex) by (rewrite <- mem_In; congruence).
    destruct (d_named dv (kstr k) (in_span (at_elem x)) s1) as [[v|e|b] s2] eqn:B; [| |discriminate].
    + destruct (map_ins_fresh k v (fst st)) as [I1 [I2 I3]].
      destruct (map_ins eqb k v (fst st)) as [fr l] eqn:MI. cbn [fst snd] in *. injection H1 as <-. cbn [fst snd] in *.
      rewrite I1 in Z1. destruct (existsb (eqb k) (map fst (fst st))) eqn:X; cbn [negb] in Z1.
      { unfold push in Z1. destruct (snd st); discriminate. }
      specialize (I2 eq_refl). subst l. split; auto. exists (el_toks x :: sel), ((k, v) :: vs).
      split; [cbn [map]; eapply Sel_take; eauto|]. split; [now rewrite E, <- app_assoc|].
      split; [constructor; auto; apply local_accepts; auto; [now apply me_local| |]; unfold map_entry, pbind; rewrite A, B; auto|].
      rewrite map_app in NF. cbn [map fst] in *. rewrite Forall_forall in NF. split.
      * constructor; auto. rewrite Forall_forall. intros w I. specialize (NF w I). rewrite existsb_app in NF.
        apply orb_false_iff in NF as [_ NF]. cbn in NF. now rewrite orb_false_r in NF.
      * constructor; auto. rewrite Forall_forall. intros w I. specialize (NF w I). rewrite existsb_app in NF.
        now apply orb_false_iff in NF as [NF _].
    + injection H1 as <-. cbn [snd] in Z1. unfold push_syn in Z1. destruct (snd st); discriminate.
Qed.
Lemma rest_steps ex xs : (forall x, In x xs -> no_comma (el_toks x) /\ ends (el_after x)) ->
  forall sel vs l, selected kstr dk ex (map el_toks xs) sel -> Forall2 (accepts me) sel vs ->
  all_different eqb (map fst vs) -> Forall (fun k => existsb (eqb k) (map fst l) = false) (map fst vs) ->
  steps (rest_step eqb kstr dk dv ex) (l, []) xs (l ++ vs, []).
Proof.
  intro W. induction xs as [|x xs IH]; intros sel vs l SL G AD NF.
  { inversion SL; subst. inversion G; subst. rewrite app_nil_r. constructor. }
  specialize (IH (fun y I => W y (or_intror I))). destruct (W x (or_introl eq_refl)) as [N E].
  cbn [map] in SL. inversion SL as [|seg k body l1 l2 KO I SL' Q1 Q2|seg k body l1 l2 KO I SL' Q1 Q2]; subst.
  - destruct (KO (el_after x) (el_scope x) None E) as [K1 K2]. rewrite ends_at in K1, K2.
    assert (NB : no_comma body).
    { destruct (stays_cut pk (el_toks x) (el_after x) (el_scope x) None SK N E) as [rest0 [R0 [pre Q]]].
      rewrite ends_at in R0. rewrite K2 in R0. apply app_inv_tail in R0. subst rest0. rewrite Q in N. now apply nc_app in N. }
    apply mem_In in I.
    apply St_more with (st1 := (l, [])); [| |now apply (IH sel)]; unfold rest_step; destruct (pk (at_elem x)) as [r s1]; cbn [fst snd] in *; subst r; rewrite I; auto.
    cbn [snd skip_item set_toks toks]. rewrite K2. now apply skip_toks_app.
  - inversion G as [|? [k1 v] ? vs' AC G']; subst. destruct (accepts_at me x (k1, v) E AC) as [G1 G2].
    destruct (KO (el_after x) (el_scope x) None E) as [K1 _]. rewrite ends_at in K1.
    assert (M : mem_str (kstr k) ex = false) by (destruct (mem_str (kstr k) ex) eqn:M; auto; now apply mem_In in M).
    destruct (me_cases (at_elem x)) as [[k' [s1 [v' [s2 [A [B D]]]]]]|[[k' [s1 [e [s2 [A [B D]]]]]]|[e [s1 [A D]]]]]; rewrite D in G1; try discriminate.
    rewrite D in G2. cbn [fst snd] in G1, G2. injection G1 as -> ->. assert (k1 = k) by (rewrite A in K1; cbn [fst] in K1; congruence). subst k1.
    cbn [map fst] in *. inversion AD as [|? ? HD AD']; subst. inversion NF as [|? ? N1 NF']; subst.
    destruct (map_ins_fresh k v l) as [I1 [I2 _]]. rewrite N1 in I1. specialize (I2 N1).
    assert (X : rest_step eqb kstr dk dv ex (l, []) (at_elem x) = (Ok (l ++ [(k, v)], []), s2)).
    { unfold rest_step. rewrite A, M, B. cbn [fst snd]. destruct (map_ins eqb k v l) as [fr l0]. cbn [fst snd] in *. now subst. }
    eapply St_more; [rewrite X; reflexivity|rewrite X; exact G2|].
    specialize (IH l2 vs' (l ++ [(k, v)]) SL' G' AD'). rewrite <- app_assoc in IH. apply IH.
    rewrite Forall_forall in *. intros w I0. rewrite map_app, existsb_app. apply orb_false_iff. split; auto. cbn. rewrite orb_false_r. auto.
Qed.
Lemma rest_ok ex l kvs : nonempty_keys dk ->
  fst (map_rest eqb kstr dk dv ex l) = Ok kvs <->
  exists sel, selected kstr dk ex (items_of l) sel /\ Forall2 (accepts me) sel kvs /\ all_different eqb (map fst kvs).
Proof.
  intro NE. unfold map_rest. rewrite (finish_steps_ok _ _ _ (rest_u ex) (rest_st ex) (rest_kp ex)). rewrite <- elems_items.
  pose proof (fun x I => elem_of l x I) as W. split.
  - intro H. destruct (rest_steps_inv ex _ NE W _ _ H eq_refl) as [_ [sel [vs [SL [E [G [AD _]]]]]]]. cbn [fst app] in E. subst vs. eauto.
  - intros [sel [SL [G AD]]]. apply (rest_steps ex _ W sel kvs []); auto. rewrite Forall_forall. auto.
Qed.
Lemma selected_det ex items : forall s1 s2, selected kstr dk ex items s1 -> selected kstr dk ex items s2 -> s1 = s2.
Proof.
  intros s1 s2 H. revert s2. induction H as [|seg k body l l' KO I SL IH|seg k body l l' KO I SL IH]; intros s2 H2; inversion H2; subst; auto;
  repeat match goal with H : key_of _ _ _ _ |- _ => specialize (H [] SCall None (or_introl eq_refl)); destruct H as [? _] end;
  match goal with A : ?x = Ok ?a, B : ?x = Ok ?b |- _ => rewrite A in B; injection B as <- end; try tauto.
  f_equal. auto.
Qed.
End C.
