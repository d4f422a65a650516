(** Arrays and tuples. *)
From Verif Require Export LemTuple.

Section C.
Context {env : Env}.
Section Arr.
Context {A : Type} (N : nat) (d : dict A).
Hypothesis F : fine d.
Local Notation p := (d_item d Unnamed).
Definition arr_step (_ : nat) (st : arr_st A) (s : stream) : res (arr_st A) * stream :=
  match p s with
  | (Ok v, s1) => (if Nat.ltb (length (ar_vals st)) N
                   then Ok (LibColl.mkArr (ar_vals st ++ [v]) (ar_errs st) (ar_failed st)) else Bad Panic, s1)
  | (Err e, s1) => (Ok (LibColl.mkArr (ar_vals st) (push_syn (ar_errs st) e) (S (ar_failed st))), skip_item s1)
  | (Bad b, s1) => (Bad b, s1)
  end.
Lemma arr_fo c st s rest st1 s1 : c < N -> arr_step c st s = (Ok st1, s1) -> arr_fn N d c st (s :: rest) = (Ok tt, st1, s1 :: rest).
Proof.
  intros _. unfold arr_step, arr_fn. destruct (p s) as [[v|e|b] s2]; [|intro H; injection H as <- <-; auto|discriminate].
  destruct (Nat.ltb (length (ar_vals st)) N); [intro H; injection H as <- <-; auto|discriminate].
Qed.
Lemma arr_fe c st s rest : c < N -> (forall st1, fst (arr_step c st s) <> Ok st1) -> fst (fst (arr_fn N d c st (s :: rest))) <> Ok tt.
Proof.
  intros _. unfold arr_step, arr_fn. destruct (p s) as [[v|e|b] s2]; cbn [fst].
  - destruct (Nat.ltb (length (ar_vals st)) N); cbn; [|discriminate]. intros H. exfalso. eapply H. reflexivity.
  - intros H. exfalso. eapply H. reflexivity.
  - discriminate.
Qed.
Lemma arr_us c : ustep (arr_step c).
Proof.
  intros st s s' E. unfold arr_step. step1 (ud_item d (fi_unaware d F) Unnamed _ _ E).
  destruct r; split; cbn [fst snd]; auto using fork_skip.
Qed.
Lemma arr_ss c st : stays (arr_step c st).
Proof.
  intro s. unfold arr_step. pose proof (proj1 (fi_item d F Unnamed) s) as H. destruct (p s) as [[v|e|b] s1]; auto.
  cbn [snd] in *. eapply st_comp; [exact H|apply (stays_skip s1)].
Qed.
Lemma arr_ks c st s : scope (snd (arr_step c st s)) = scope s.
Proof. unfold arr_step. pose proof (fi_keeps d F Unnamed s) as H. destruct (p s) as [[v|e|b] s1]; exact H. Qed.
Lemma arr_psteps_inv c st xs st' : psteps arr_step c st xs st' ->
  length (ar_vals st') + ar_failed st' = length (ar_vals st) + ar_failed st + length xs /\
  (ar_errs st' = [] -> ar_errs st = [] /\ ar_failed st' = ar_failed st /\ exists vs, ar_vals st' = ar_vals st ++ vs /\
   Forall2 (fun x v => fst (p (at_elem x)) = Ok v /\ toks (snd (p (at_elem x))) = el_after x) xs vs).
Proof.
  induction 1 as [c st|c st x st1 xs st2 H1 H2 H [IH1 IH2]].
  - simpl. split; [lia|]. intro Z. split; auto. split; auto. exists []. rewrite app_nil_r. auto.
  - unfold arr_step in H1, H2. destruct (p (at_elem x)) as [[v|e|b] s1] eqn:D; cbn [fst snd] in *; [| |discriminate].
    + destruct (Nat.ltb (length (ar_vals st)) N); [|discriminate]. injection H1 as <-. cbn [ar_vals ar_errs ar_failed] in *.
      rewrite app_length in IH1. simpl in *. split; [lia|]. intro Z. destruct (IH2 Z) as [Z1 [Z2 [vs [E G]]]]. split; auto. split; auto.
      exists (v :: vs). split; [now rewrite E, <- app_assoc|]. constructor; auto. rewrite D. auto.
    + injection H1 as <-. cbn [ar_vals ar_errs ar_failed] in *. simpl in *. split; [lia|]. intro Z. destruct (IH2 Z) as [Z1 _].
      unfold push_syn in Z1. apply app_eq_nil in Z1 as [_ Z1]. now apply errs_of_ne in Z1.
Qed.
Lemma arr_psteps xs vs : Forall2 (fun x v => fst (p (at_elem x)) = Ok v /\ toks (snd (p (at_elem x))) = el_after x) xs vs ->
  forall c ws, length ws + length vs <= N -> psteps arr_step c (LibColl.mkArr ws [] 0) xs (LibColl.mkArr (ws ++ vs) [] 0).
Proof.
  induction 1 as [|x v xs vs [H1 H2] G IH]; intros c ws L; [rewrite app_nil_r; constructor|].
  simpl in L. assert (LT : Nat.ltb (length ws) N = true) by (apply Nat.ltb_lt; lia).
  destruct (p (at_elem x)) as [r s1] eqn:D. cbn [fst snd] in *. subst r.
  assert (X : arr_step c (LibColl.mkArr ws [] 0) (at_elem x) = (Ok (LibColl.mkArr (ws ++ [v]) [] 0), s1)).
  { unfold arr_step. rewrite D. cbn [ar_vals ar_errs ar_failed]. now rewrite LT. }
  eapply Ps_more; [rewrite X; reflexivity|rewrite X; exact H2|]. specialize (IH (S c) (ws ++ [v])). rewrite <- app_assoc in IH. apply IH.
  rewrite app_length. simpl. lia.
Qed.
Lemma array_ok l vs index :
  (fst (array_flat N d index l) = Ok vs /\ Forall used_up (snd (array_flat N d index l))) <->
  exists l1, supplies N 0 l l1 /\ Forall2 (accepts p) (items_of l1) vs /\ length vs = N.
Proof.
  pose proof (tuple_loop_reads arr_step N (arr_fn N d) arr_fo arr_fe arr_us arr_ss arr_ks (S (N + length l)) 0 (LibColl.mkArr [] [] 0) l) as T.
  unfold array_flat, parse_tuple_struct.
  destruct (tuple_loop N (arr_fn N d) (S (N + length l)) 0 (LibColl.mkArr [] [] 0) l) as [[r st] l'] eqn:TL. split.
  - intros [H1 H2]. destruct r as [n|e|b]; cbn [fst snd push_result] in *; [| |discriminate].
    2: { exfalso. destruct (Nat.eqb (length (ar_vals st) + ar_failed st) N), (ar_errs st); discriminate. }
    assert (T' := proj1 (T n st (Nat.le_0_l _) ltac:(lia)) (conj eq_refl H2)). destruct T' as [l1 [SU [P Q]]].
    destruct (arr_psteps_inv _ _ _ _ P) as [L1 L2]. simpl in L1. destruct (Nat.eqb (length (ar_vals st) + ar_failed st) N) eqn:EQ; [|destruct (ar_errs st); discriminate].
    apply Nat.eqb_eq in EQ. destruct (ar_errs st) as [|e es] eqn:ES; [|discriminate]. cbn in H1.
    destruct (L2 eq_refl) as [_ [Z [ws [E G]]]]. simpl in E, Z. destruct (Nat.eqb (length (ar_vals st)) N) eqn:EQ2; [|discriminate].
    injection H1 as <-. exists l1. split; auto. rewrite accepted_elems; [|apply (fi_item d F)]. rewrite E in *. split; auto. now apply Nat.eqb_eq.
  - intros [l1 [SU [G L]]]. rewrite accepted_elems in G; [|apply (fi_item d F)].
    assert (P := arr_psteps _ _ G 0 [] ltac:(simpl; lia)). cbn [app] in P.
    assert (LE : length (elems l1) = N). { rewrite <- L. clear -G. induction G; simpl; auto. }
    destruct (proj2 (T N (LibColl.mkArr vs [] 0) (Nat.le_0_l _) ltac:(lia))) as [K1 K2].
    { exists l1. split; auto. }
    cbn [fst snd] in K1, K2. injection K1 as -> ->. cbn [ar_vals ar_errs ar_failed push_result fst snd].
    rewrite Nat.add_0_r, L, Nat.eqb_refl. cbn. auto.
Qed.
End Arr.

(** *** positional values in slots *)
Section Slots.
Context {A St : Type} (len : nat) (look : nat -> option (nat * dict A))
  (gs : St -> list (fstatus A) * errors) (ps : St -> list (fstatus A) * errors -> St).
Hypothesis L1 : forall st x, gs (ps st x) = x.
Hypothesis L2 : forall st x y, ps (ps st x) y = ps st y.
Hypothesis L3 : forall st, ps st (gs st) = st.
Hypothesis LF : forall c ri d, look c = Some (ri, d) -> fine d.
Definition gstep (c : nat) (st : St) (s : stream) : res St * stream :=
  match look c with
  | Some (ri, d) =>
    match d_item d Unnamed s with
    | (Ok v, s1) => (Ok (ps st (upd_nth ri (FSome v) (fst (gs st)), snd (gs st))), s1)
    | (Err e, s1) => (Ok (ps st (upd_nth ri FParseError (fst (gs st)), push_syn (snd (gs st)) e)), skip_item s1)
    | (Bad b, s1) => (Bad b, s1)
    end
  | None => (Bad Panic, s)
  end.
Lemma gs_us c : ustep (gstep c).
Proof.
  intros st s s' E. unfold gstep. destruct (look c) as [[ri d]|] eqn:LK; [|split; auto].
  step1 (ud_item d (fi_unaware d (LF _ _ _ LK)) Unnamed _ _ E).
  destruct r; split; cbn [fst snd]; auto using fork_skip.
Qed.
Lemma gs_ss c st : stays (gstep c st).
Proof.
  intro s. unfold gstep. destruct (look c) as [[ri d]|] eqn:LK; [|exists []; split; [reflexivity|constructor]].
  pose proof (proj1 (fi_item d (LF _ _ _ LK) Unnamed) s) as H. destruct (d_item d Unnamed s) as [[v|e|b] s1]; auto.
  cbn [snd] in *. eapply st_comp; [exact H|apply (stays_skip s1)].
Qed.
Lemma gs_ks c st s : scope (snd (gstep c st s)) = scope s.
Proof.
  unfold gstep. destruct (look c) as [[ri d]|] eqn:LK; auto. pose proof (fi_keeps d (LF _ _ _ LK) Unnamed s) as H.
  destruct (d_item d Unnamed s) as [[v|e|b] s1]; exact H.
Qed.
Fixpoint fill (c : nat) (vs : list A) (sl : list (fstatus A)) : list (fstatus A) :=
  match vs with
  | [] => sl
  | v :: vs' => fill (S c) vs' (match look c with Some (ri, _) => upd_nth ri (FSome v) sl | None => sl end)
  end.
Inductive rl : nat -> list elem -> list A -> Prop :=
| RL_nil c : rl c [] []
| RL_cons c ri d x v xs vs : look c = Some (ri, d) -> fst (d_item d Unnamed (at_elem x)) = Ok v ->
    toks (snd (d_item d Unnamed (at_elem x))) = el_after x -> rl (S c) xs vs -> rl c (x :: xs) (v :: vs).
Lemma g_inv c st xs st' : psteps gstep c st xs st' -> snd (gs st') = [] ->
  snd (gs st) = [] /\ exists vs, rl c xs vs /\ st' = ps st (fill c vs (fst (gs st)), []).
Proof.
  induction 1 as [c st|c st x st1 xs st2 H1 H2 H IH]; intro Z.
  - split; auto. exists []. split; [constructor|]. cbn [fill]. rewrite <- Z, <- surjective_pairing. now rewrite L3.
  - destruct (IH Z) as [Z1 [vs [R E]]]. unfold gstep in H1, H2. destruct (look c) as [[ri d]|] eqn:LK; [|discriminate].
    destruct (d_item d Unnamed (at_elem x)) as [[v|e|b] s1] eqn:D; cbn [fst snd] in *; [| |discriminate]; injection H1 as <-; rewrite L1 in *; cbn [fst snd] in *.
    + split; auto. exists (v :: vs). split; [eapply RL_cons; eauto; rewrite D; auto|]. cbn [fill]. rewrite LK, E. now rewrite L2.
    + unfold push_syn in Z1. apply app_eq_nil in Z1 as [_ Z1]. now apply errs_of_ne in Z1.
Qed.
Lemma g_conv c xs vs : rl c xs vs -> forall st, snd (gs st) = [] -> psteps gstep c st xs (ps st (fill c vs (fst (gs st)), [])).
Proof.
  induction 1 as [c|c ri d x v xs vs LK H1 H2 R IH]; intros st Z.
  - cbn [fill]. rewrite <- Z, <- surjective_pairing, L3. constructor.
  - destruct (d_item d Unnamed (at_elem x)) as [r s1] eqn:D. cbn [fst snd] in *. subst r.
    assert (X : gstep c st (at_elem x) = (Ok (ps st (upd_nth ri (FSome v) (fst (gs st)), snd (gs st))), s1)).
    { unfold gstep. now rewrite LK, D. }
    eapply Ps_more; [rewrite X; reflexivity|rewrite X; exact H2|]. cbn [fill]. rewrite LK.
    specialize (IH (ps st (upd_nth ri (FSome v) (fst (gs st)), snd (gs st)))). rewrite L1, L2 in IH. cbn [fst snd] in IH. auto.
Qed.
(** the items are read by the dictionaries, one by one *)
Lemma rl_accepts ds : forall c xs vs, (forall x, In x xs -> no_comma (el_toks x) /\ ends (el_after x)) ->
  length ds = length xs -> (forall j d, nth_error ds j = Some d -> exists ri, look (c + j) = Some (ri, d)) ->
  rl c xs vs <-> each_accepts ds (map el_toks xs) vs.
Proof.
  induction ds as [|d ds IH]; intros c xs vs W LN LK; destruct xs as [|x xs]; try discriminate; cbn [map].
  { split; intro H; inversion H; constructor. }
  assert (LK' : forall j e, nth_error ds j = Some e -> exists ri, look (S c + j) = Some (ri, e)).
  { intros j e H. rewrite Nat.add_succ_comm. exact (LK (S j) e H). }
  injection LN as LN. specialize (IH (S c) xs). destruct (LK 0 d eq_refl) as [ri K]. rewrite Nat.add_0_r in K. destruct (W x (or_introl eq_refl)) as [N E].
  split; intro H; [inversion H; subst|inversion H as [|? ? ? ? v ws AC EA]; subst].
  - match goal with X : look c = Some _ |- _ => rewrite K in X; injection X as <- <- end. constructor.
    + apply local_accepts; auto. apply (fi_item d (LF _ _ _ K)).
    + apply IH; auto. intros y I. apply W. now right.
  - destruct (accepts_at _ x v E AC) as [G1 G2]. eapply RL_cons; eauto. apply IH; auto. intros y I. apply W. now right.
Qed.
End Slots.

Section Tup.
Context {A : Type} (ds : list (dict A)).
Hypothesis F : Forall fine ds.
Definition tup_look (c : nat) : option (nat * dict A) := option_map (pair c) (nth_error ds c).
Local Notation st0 := (list (fstatus A) * errors)%type.
Definition tstep := @gstep A st0 tup_look (fun st => st) (fun _ x => x).
Lemma tup_lf c ri d : tup_look c = Some (ri, d) -> fine d.
Proof.
  unfold tup_look. destruct (nth_error ds c) eqn:E; [|discriminate]. cbn. intro H. injection H as <- <-. rewrite Forall_forall in F. apply F. eapply nth_error_In; eauto.
Qed.
Lemma tup_fo c st s rest st1 s1 : c < length ds -> tstep c st s = (Ok st1, s1) -> tup_fn ds c st (s :: rest) = (Ok tt, st1, s1 :: rest).
Proof.
  intros _. unfold tstep, gstep, tup_fn, tup_look, fs_parse_unnamed. destruct (nth_error ds c) as [d|]; [|discriminate]. cbn [option_map].
  destruct (d_item d Unnamed s) as [[v|e|b] s2]; intro H; try discriminate; injection H as <- <-; reflexivity.
Qed.
Lemma tup_fe c st s rest : c < length ds -> (forall st1, fst (tstep c st s) <> Ok st1) -> fst (fst (tup_fn ds c st (s :: rest))) <> Ok tt.
Proof.
  intros _. unfold tstep, gstep, tup_fn, tup_look, fs_parse_unnamed. destruct (nth_error ds c) as [d|]; [|discriminate]. cbn [option_map].
  destruct (d_item d Unnamed s) as [[v|e|b] s2]; cbn [fst]; intro H; try discriminate; exfalso; eapply H; reflexivity.
Qed.
Lemma tup_fill vs : forall c pre sl, c = length pre -> c + length vs = length ds -> length sl = length vs ->
  fill tup_look c vs (pre ++ sl) = pre ++ map FSome vs.
Proof.
  induction vs as [|v vs IH]; intros c pre sl E1 E2 E3; cbn [fill map].
  { destruct sl; [reflexivity|discriminate]. }
  destruct sl as [|a sl]; [discriminate|]. simpl in E2, E3.
  assert (LK : exists d, tup_look c = Some (c, d)).
  { unfold tup_look. destruct (nth_error ds c) as [d|] eqn:X; [exists d; reflexivity|]. apply nth_error_None in X. lia. }
  destruct LK as [d LK]. rewrite LK.
  assert (X : upd_nth c (FSome v) (pre ++ a :: sl) = (pre ++ [FSome v]) ++ sl).
  { subst c. clear. induction pre as [|b pre IH]; cbn; auto. now rewrite IH. }
  rewrite X. rewrite (IH (S c) (pre ++ [FSome v]) sl); [now rewrite <- app_assoc|rewrite app_length; simpl; lia|lia|lia].
Qed.
Lemma first_none_some vs : forall i, first_none i (map (@FSome A) vs) = None.
Proof. induction vs; intro i; cbn; auto. Qed.
Lemma unwrap_some vs : unwrap_all (map (@FSome A) vs) = Ok vs.
Proof. induction vs as [|v vs IH]; cbn [map unwrap_all]; auto. now rewrite IH. Qed.
Lemma rl_len (look : nat -> option (nat * dict A)) c xs vs : rl look c xs vs -> length vs = length xs.
Proof. induction 1; simpl; auto. Qed.
Lemma first_none_none : forall (sl : list (fstatus A)) i, first_none i sl = None -> Forall (fun st => st <> FNone) sl.
Proof. induction sl as [|[| |v] sl IH]; intros i H; cbn in H; try discriminate; constructor; try discriminate; eauto. Qed.
Lemma unwrap_all_ok : forall (sl : list (fstatus A)) vs, unwrap_all sl = Ok vs -> sl = map FSome vs.
Proof.
  induction sl as [|st sl IH]; intros vs H; cbn in H; [injection H as <-; auto|]. destruct st; try discriminate.
  destruct (unwrap_all sl) as [ws| |] eqn:U; try discriminate. cbn in H. injection H as <-. cbn. f_equal. auto.
Qed.
Lemma fill_unset vs : forall c sl j, (forall k ri d, tup_look k = Some (ri, d) -> ri = k) -> c + length vs <= j ->
  nth_error (fill tup_look c vs sl) j = nth_error sl j.
Proof.
  induction vs as [|v vs IH]; intros c sl j K L; cbn [fill]; auto. simpl in L. rewrite IH; auto; [|lia].
  destruct (tup_look c) as [[ri d]|] eqn:LK; auto. apply K in LK. subst ri. rewrite upd_nth_nth.
  destruct (Nat.eqb c j) eqn:Q; auto. apply Nat.eqb_eq in Q. lia.
Qed.
Lemma tuple_ok l vs :
  (fst (tuple_flat ds l) = Ok vs /\ Forall used_up (snd (tuple_flat ds l))) <->
  exists l1, supplies (length ds) 0 l l1 /\ each_accepts ds (items_of l1) vs.
Proof.
  set (i0 := (map (fun _ => FNone) ds, []) : st0).
  pose proof (tuple_loop_reads tstep (length ds) (tup_fn ds) tup_fo tup_fe (gs_us tup_look _ _ tup_lf) (gs_ss tup_look _ _ tup_lf) (gs_ks tup_look _ _ tup_lf)
    (S (length ds + length l)) 0 i0 l) as T.
  unfold tuple_flat, parse_tuple_struct. fold i0.
  assert (LK : forall j d, nth_error ds j = Some d -> exists ri, tup_look (0 + j) = Some (ri, d)).
  { intros j d H. exists j. unfold tup_look. cbn [Nat.add]. now rewrite H. }
  assert (ID : forall k ri d, tup_look k = Some (ri, d) -> ri = k).
  { unfold tup_look. intros k ri d. destruct (nth_error ds k); [|discriminate]. cbn. intro H. now injection H as <- <-. }
  destruct (tuple_loop (length ds) (tup_fn ds) (S (length ds + length l)) 0 i0 l) as [[r st] l'] eqn:TL. split.
  - intros [H1 H2]. destruct r as [n|e|b]; cbn [fst snd push_result] in *; [| |discriminate].
    2: { exfalso. destruct (first_none 0 (fst st)); cbn [fst] in H1; destruct (snd st); discriminate. }
    destruct (first_none 0 (fst st)) eqn:FN; cbn [fst snd] in *; [destruct (snd st); discriminate|].
    destruct (snd st) eqn:ES; [|discriminate]. cbn in H1. apply unwrap_all_ok in H1.
    assert (T' := proj1 (T n st (Nat.le_0_l _) ltac:(lia)) (conj eq_refl H2)). destruct T' as [l1 [SU [P Q]]].
    destruct (g_inv tup_look (fun st => st) (fun _ x => x) ltac:(auto) ltac:(auto) ltac:(auto) 0 i0 (elems l1) st P ES) as [_ [ws [R E]]]. subst st.
    cbn [fst] in H1, FN. assert (LW := rl_len _ _ _ _ R).
    assert (LE : length (elems l1) = length ds).
    { destruct SU as [l2 [_ [LE _]]]. destruct (Nat.lt_ge_cases (length (elems l1)) (length ds)) as [LT|]; [|simpl in LE; lia].
      exfalso. apply first_none_none in FN. rewrite Forall_forall in FN. apply (FN FNone); auto.
      apply nth_error_In with (n := length ws). rewrite fill_unset by (auto; lia). cbn [i0 fst]. rewrite nth_map.
      destruct (nth_error ds (length ws)) eqn:X; auto. apply nth_error_None in X. lia. }
    exists l1. split; auto. rewrite <- elems_items. apply (rl_accepts tup_look tup_lf ds 0 (elems l1) vs); auto.
    { intros x I. eapply elem_of; eauto. }
    assert (X := tup_fill ws 0 [] (map (fun _ => FNone) ds) eq_refl ltac:(simpl; lia) ltac:(rewrite map_length; lia)). cbn [app] in X.
    cbn [i0 fst] in H1. rewrite X in H1. clear X.
    assert (ws = vs). { clear -H1. revert vs H1. induction ws as [|w ws IH]; intros [|v vs] H1; cbn in H1; try discriminate; auto. injection H1 as -> H1. f_equal. auto. }
    now subst.
  - intros [l1 [SU G]]. rewrite <- elems_items in G.
    assert (LE : length ds = length (elems l1) /\ length vs = length ds).
    { clear -G. rewrite <- (map_length el_toks (elems l1)). induction G; simpl in *; lia. }
    destruct LE as [LE LV]. apply (rl_accepts tup_look tup_lf ds 0 (elems l1) vs) in G; auto; [|intros x I; eapply elem_of; eauto].
    assert (P := g_conv tup_look (fun st => st) (fun _ x => x) ltac:(auto) ltac:(auto) ltac:(auto) _ _ _ G i0 eq_refl).
    destruct (proj2 (T (length ds) (fill tup_look 0 vs (fst i0), []) (Nat.le_0_l _) ltac:(lia))) as [K1 K2].
    { exists l1. split; auto. }
    cbn [fst snd] in K1, K2. injection K1 as -> ->. cbn [fst snd push_result i0].
    assert (X := tup_fill vs 0 [] (map (fun _ => FNone) ds) eq_refl ltac:(simpl; lia) ltac:(rewrite map_length; lia)). cbn [app] in X.
    rewrite X.
    rewrite first_none_some. cbn [fst snd check push_result]. rewrite unwrap_some. auto.
Qed.
End Tup.
End C.
