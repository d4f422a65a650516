(** The exact result of arrays and tuples on any stream. *)
From Verif Require Export LemDrop3 LemTuple2.
Local Open Scope string_scope.
Local Open Scope list_scope.

Section S.
Context {env : Env}.
Lemma values_app {A} (a b : list (parser A * elem)) : values_of (a ++ b) = values_of a ++ values_of b.
Proof. apply flat_map_app. Qed.
Lemma failures_app {A} (a b : list (parser A * elem)) : failures_of (a ++ b) = failures_of a ++ failures_of b.
Proof. apply flat_map_app. Qed.
Lemma values_one {A} (p : parser A) x : values_of [(p, x)] = match fst (p (at_elem x)) with Ok v => [v] | _ => [] end.
Proof. apply app_nil_r. Qed.
Lemma failures_one {A} (p : parser A) x : failures_of [(p, x)] = match fst (p (at_elem x)) with Err e => errs_of e | _ => [] end.
Proof. apply app_nil_r. Qed.
Lemma values_le {A} (ys : list (parser A * elem)) : length (values_of ys) <= length ys.
Proof.
  unfold values_of. induction ys as [|[p x] ys IH]; cbn [flat_map length fst snd]; auto. rewrite app_length.
  destruct (fst (p (at_elem x))); cbn [length]; lia.
Qed.

Section Arr.
Context {A : Type} (N : nat) (d : dict A) (F : fine d) (index : nat).
Local Notation ds := (repeat d N).
Definition arr_sum (ys : list (parser A * elem)) : arr_st A :=
  LibColl.mkArr (values_of ys) (failures_of ys) (length ys - length (values_of ys)).
Lemma arr_st ys d' x : nth_error ds (length ys) = Some d' ->
  arr_step N d (length ys) (arr_sum ys) (at_elem x) =
  match d_item d' Unnamed (at_elem x) with
  | (Ok v, s1) => (Ok (arr_sum (ys ++ [(d_item d' Unnamed, x)])), s1)
  | (Err e, s1) => (Ok (arr_sum (ys ++ [(d_item d' Unnamed, x)])), skip_item s1)
  | (Bad b, s1) => (Bad b, s1)
  end.
Proof.
  intro H. assert (d' = d) as -> by (apply nth_error_In in H; now apply repeat_spec in H).
  assert (L : length ys < N) by (rewrite <- (repeat_length d N); apply nth_error_Some; congruence).
  pose proof (values_le ys) as V. unfold arr_step, arr_sum. rewrite values_app, failures_app, !app_length, values_one, failures_one. cbn [ar_vals ar_errs ar_failed].
  destruct (d_item d Unnamed (at_elem x)) as [[v|e|b] s1]; cbn [fst app]; auto.
  - assert (Nat.ltb (length (values_of ys)) N = true) as -> by (apply Nat.ltb_lt; lia). rewrite app_nil_r. cbn [length].
    do 3 f_equal. lia.
  - rewrite app_nil_r. cbn [length]. unfold push_syn. do 3 f_equal. lia.
Qed.
Lemma arr_full_len xs : length (arr_sum (positions ds xs)).(ar_vals) + (arr_sum (positions ds xs)).(ar_failed) = Nat.min N (length xs).
Proof.
  pose proof (values_le (positions ds xs)) as V. cbn [arr_sum ar_vals ar_failed].
  rewrite pos_len, repeat_length in *. lia.
Qed.
Lemma values_full (ys : list (parser A * elem)) : (forall y, In y ys -> fst y = d_item d Unnamed) -> failures_of ys = [] -> length (values_of ys) = length ys.
Proof.
  intros W. unfold failures_of, values_of. induction ys as [|[p x] ys IH]; cbn [flat_map length fst snd]; auto. intro H. apply app_eq_nil in H as [H1 H2]. rewrite app_length.
  pose proof (W (p, x) (or_introl eq_refl)) as E. cbn [fst] in E. subst p. pose proof (proj1 (gd_item d (fi_good d F) Unnamed (at_elem x))) as G.
  destruct (fst (d_item d Unnamed (at_elem x))); [|now apply errs_of_ne in H1|destruct G]. cbn. f_equal. apply IH; auto. intros z I. apply W. now right.
Qed.
Lemma pos_fst xs y : In y (positions ds xs) -> fst y = d_item d Unnamed.
Proof.
  unfold positions. intro I. destruct y as [p x]. apply in_combine_l in I. apply in_map_iff in I as [d' [<- I]]. apply repeat_spec in I. now subst.
Qed.
Lemma row_pos {B} (ds : list (dict B)) inputs ys stop sp : row_read ds inputs ys stop sp -> exists xs, ys = positions ds xs /\ length ys = Nat.min (length ds) (length xs).
Proof. intros [sp' L C|L C|ins1 s ins2 a x b d' t EI EQ L C ND OV]; (eexists; split; [reflexivity|apply pos_len]). Qed.
Lemma array_row inputs ys stop sp : row_read ds inputs ys stop sp ->
  fst (array_flat N d index inputs) = row_result N (arr_len_msg index N) ys stop sp.
Proof.
  intro H. assert (FD : Forall fine ds) by (apply Forall_forall; intros d' I; apply repeat_spec in I; now subst).
  assert (FO : forall c st s rest st1 s1, c < length ds -> arr_step N d c st s = (Ok st1, s1) -> arr_fn N d c st (s :: rest) = (Ok tt, st1, s1 :: rest)).
  { intros c st s0 rest st1 s1 L. rewrite repeat_length in L. now apply arr_fo. }
  destruct (row_pos _ _ _ _ _ H) as [xs [EY LY]].
  destruct (row_run ds (arr_step N d) (arr_fn N d) arr_sum FD FO (arr_us N d F) (arr_ss N d F) (arr_ks N d F) arr_st inputs ys stop sp H) as (r & l & X & RR & LE & SP & SE).
  rewrite repeat_length in *. unfold array_flat. change (LibColl.mkArr [] [] 0) with (arr_sum []). rewrite X. clear X.
  assert (AL : length (ar_vals (arr_sum ys)) + ar_failed (arr_sum ys) = length ys).
  { rewrite EY, arr_full_len, <- LY, EY. reflexivity. }
  unfold row_result. destruct (Nat.eqb (length ys) N) eqn:Q.
  - apply Nat.eqb_eq in Q. specialize (SE Q). subst stop. destruct r as [n|e|b]; [|now symmetry in RR; apply errs_of_ne in RR|destruct RR].
    rewrite AL, Q, Nat.eqb_refl. cbn [push_result arr_sum ar_vals ar_errs fst]. destruct (failures_of ys) eqn:FE; cbn [check outcome]; [|reflexivity].
    assert (VF : length (values_of ys) = length ys) by (apply values_full; auto; rewrite EY; apply pos_fst).
    rewrite VF, Q, Nat.eqb_refl. reflexivity.
  - apply Nat.eqb_neq in Q as Q'. rewrite SP in * by lia. destruct r as [n|e|b]; [..|destruct RR]; rewrite AL, Q; cbn [push_result arr_sum ar_vals ar_errs fst]; rewrite ?SP by lia; unfold push, push_syn.
    + subst stop. cbn [app errs_of]. destruct (failures_of ys); reflexivity.
    + subst stop. rewrite <- app_assoc. cbn [app errs_of]. destruct (failures_of ys); reflexivity.
Qed.
End Arr.

Section Tup.
Context {A : Type} (ds : list (dict A)) (FD : Forall fine ds).
Definition status_of (y : parser A * elem) : fstatus A :=
  match fst (fst y (at_elem (snd y))) with Ok v => FSome v | _ => FParseError end.
Definition tup_sum (ys : list (parser A * elem)) : list (fstatus A) * errors :=
  (map status_of ys ++ repeat FNone (length ds - length ys), failures_of ys).
Lemma tup_st ys d x : nth_error ds (length ys) = Some d ->
  tstep ds (length ys) (tup_sum ys) (at_elem x) =
  match d_item d Unnamed (at_elem x) with
  | (Ok v, s1) => (Ok (tup_sum (ys ++ [(d_item d Unnamed, x)])), s1)
  | (Err e, s1) => (Ok (tup_sum (ys ++ [(d_item d Unnamed, x)])), skip_item s1)
  | (Bad b, s1) => (Bad b, s1)
  end.
Proof.
  intro H. assert (L : length ys < length ds) by (apply nth_error_Some; congruence).
  assert (R : exists n, length ds - length ys = S n /\ length ds - length (ys ++ [(d_item d Unnamed, x)]) = n).
  { exists (length ds - S (length ys)). rewrite app_length. cbn [length]. lia. }
  destruct R as [n [R1 R2]].
  unfold tstep, gstep, tup_look. rewrite H. cbn [option_map]. unfold tup_sum. rewrite R1, R2, map_app, failures_app, failures_one. cbn [map repeat fst snd].
  assert (SX : status_of (d_item d Unnamed, x) = match fst (d_item d Unnamed (at_elem x)) with Ok v => FSome v | _ => FParseError end) by reflexivity.
  rewrite SX. clear SX.
  assert (U : forall v, upd_nth (length ys) v (map status_of ys ++ FNone :: repeat FNone n) = map status_of ys ++ v :: repeat FNone n).
  { intro v. rewrite <- (map_length status_of ys) at 1. apply upd_app. }
  destruct (d_item d Unnamed (at_elem x)) as [[v|e|b] s1]; cbn [fst app]; auto; rewrite U, <- app_assoc, ?app_nil_r; reflexivity.
Qed.
Lemma first_none_at (l : list (parser A * elem)) n : forall i, first_none i (map status_of l ++ repeat FNone n) = match n with O => None | S _ => Some (i + length l) end.
Proof.
  induction l as [|y l IH]; intro i; cbn [map app length].
  - rewrite Nat.add_0_r. destruct n; reflexivity.
  - unfold status_of at 1. rewrite <- Nat.add_succ_comm, <- IH. destruct (fst (fst y (at_elem (snd y)))); reflexivity.
Qed.
Lemma tup_values ys : (forall y, In y ys -> exists d, fine d /\ fst y = d_item d Unnamed) -> failures_of ys = [] -> unwrap_all (map status_of ys) = Ok (values_of ys).
Proof.
  intro W. unfold failures_of, values_of. induction ys as [|[p x] ys IH]; cbn [map unwrap_all flat_map fst snd]; auto. intro H. apply app_eq_nil in H as [H1 H2].
  unfold status_of at 1. destruct (W (p, x) (or_introl eq_refl)) as [d [F E]]. cbn [fst snd] in *. subst p.
  pose proof (proj1 (gd_item d (fi_good d F) Unnamed (at_elem x))) as G.
  destruct (fst (d_item d Unnamed (at_elem x))); [|now apply errs_of_ne in H1|destruct G]. cbn [app]. rewrite IH; auto. intros z I. apply W. now right.
Qed.
Lemma pos_fine xs y : In y (positions ds xs) -> exists d, fine d /\ fst y = d_item d Unnamed.
Proof.
  unfold positions. intro I. destruct y as [p x]. apply in_combine_l in I. apply in_map_iff in I as [d' [<- I]]. exists d'. split; auto.
  rewrite Forall_forall in FD. auto.
Qed.
Lemma tuple_row inputs ys stop sp : row_read ds inputs ys stop sp ->
  fst (tuple_flat ds inputs) = row_result (length ds) (tup_len_msg (length ds)) ys stop sp.
Proof.
  intro H. destruct (row_pos _ _ _ _ _ H) as [xs [EY LY]].
  pose proof (gs_us (tup_look ds) (fun st => st) (fun _ x => x) (tup_lf ds FD)) as US.
  pose proof (gs_ss (tup_look ds) (fun st => st) (fun _ x => x) (tup_lf ds FD)) as SS.
  pose proof (gs_ks (tup_look ds) (fun st => st) (fun _ x => x) (tup_lf ds FD)) as KS.
  assert (I0 : (map (fun _ => FNone) ds, []) = tup_sum []).
  { unfold tup_sum. cbn. rewrite Nat.sub_0_r. f_equal. clear. induction ds; cbn; congruence. }
  destruct (row_run ds (tstep ds) (tup_fn ds) tup_sum FD (tup_fo ds) US SS KS tup_st inputs ys stop sp H) as (r & l & X & RR & LE & SP & SE).
  unfold tuple_flat. rewrite I0, X. clear X. unfold tup_sum, row_result. cbn [fst snd]. rewrite first_none_at.
  destruct (Nat.eqb (length ys) (length ds)) eqn:Q.
  - apply Nat.eqb_eq in Q. specialize (SE Q). subst stop. destruct r as [n|e|b]; [|now symmetry in RR; apply errs_of_ne in RR|destruct RR].
    rewrite Q, Nat.sub_diag. cbn [push_result fst repeat]. rewrite app_nil_r.
    destruct (failures_of ys) eqn:FE; cbn [check outcome rbind]; [|reflexivity].
    apply tup_values; auto. rewrite EY. apply pos_fine.
  - apply Nat.eqb_neq in Q. destruct (length ds - length ys) eqn:Z; [lia|]. cbn [Nat.add].
    destruct r as [n0|e|b]; [..|destruct RR]; cbn [push_result fst]; rewrite SP by lia; unfold push, push_syn; subst stop.
    + cbn [app errs_of]. destruct (failures_of ys); reflexivity.
    + rewrite <- app_assoc. cbn [app errs_of]. destruct (failures_of ys); reflexivity.
Qed.
End Tup.
Lemma l_row A (ds : list (dict A)) inputs : Forall fine ds -> exists ys stop sp, row_read ds inputs ys stop sp.
Proof. apply row_ex. Qed.
Lemma l_array_any A N (d : dict A) index p inputs ys stop sp : fine d -> array_parser_at N d index p ->
  row_read (repeat d N) inputs ys stop sp ->
  fst (p inputs) =
  row_result N (fun k => ("Expected array at index " ++ show_nat index ++ " of length " ++ show_nat N ++ ", got " ++ show_nat k)%string) ys stop sp.
Proof. intros F []; now apply array_row. Qed.
Lemma l_tuple_any A (ds : list (dict A)) p inputs ys stop sp : Forall fine ds -> tuple_parser ds p ->
  row_read ds inputs ys stop sp ->
  fst (p inputs) =
  row_result (length ds) (fun k => ("Expected tuple of length " ++ show_nat (length ds) ++ ", got " ++ show_nat k)%string) ys stop sp.
Proof. intros F []; now apply tuple_row. Qed.
End S.

(** An element that is not accepted is reported. *)
Section Report.
Context {env : Env}.
Lemma outcome_incl {A} e es (v : A) : incl (errs_of e) es -> exists e', outcome es v = Err e' /\ incl (errs_of e) (errs_of e').
Proof. destruct es as [|e0 es]; intro K; [exfalso; exact (K (se_hd e) (or_introl eq_refl))|exists (mkSyn e0 es); auto]. Qed.
Lemma failures_in {A} (ys : list (parser A * elem)) p x e : In (p, x) ys -> fst (p (at_elem x)) = Err e -> incl (errs_of e) (failures_of ys).
Proof. intros I E z Z. unfold failures_of. apply in_flat_map. exists (p, x). split; auto. cbn [fst snd]. now rewrite E. Qed.
Lemma l_append_reported A (d : dict A) names inputs ys stop p x e : fine d ->
  append_reading d names (elems inputs) ys stop -> In (p, x) ys -> fst (p (at_elem x)) = Err e ->
  exists e', fst (vec_append d names inputs) = Err e' /\ incl (errs_of e) (errs_of e').
Proof.
  intros F R I E. rewrite (l_vec_append_any d names F inputs ys stop R). apply outcome_incl.
  apply incl_appl. eapply failures_in; eauto.
Qed.
Lemma pos_in {A} (ds : list (dict A)) : forall i xs d x, nth_error ds i = Some d -> nth_error xs i = Some x -> In (d_item d Unnamed, x) (positions ds xs).
Proof.
  unfold positions. induction ds as [|d0 ds IH]; intros [|i] [|x0 xs] d x; cbn [nth_error map combine]; try discriminate.
  - intros H1 H2. injection H1 as ->. injection H2 as ->. now left.
  - intros H1 H2. right. eapply IH; eauto.
Qed.
Lemma row_reported {A} (ds : list (dict A)) n msg inputs ys stop sp i d x e : row_read ds inputs ys stop sp ->
  nth_error ds i = Some d -> nth_error (elems inputs) i = Some x -> fst (d_item d Unnamed (at_elem x)) = Err e ->
  (forall j d' x', j < i -> nth_error ds j = Some d' -> nth_error (elems inputs) j = Some x' -> clean (d_item d' Unnamed) x') ->
  exists e', row_result n msg ys stop sp = Err e' /\ incl (errs_of e) (errs_of e').
Proof.
  intros R ND NX E C.
  assert (I : In (d_item d Unnamed, x) ys).
  { destruct R as [sp' L1 C1|L1 C1|ins1 s ins2 a x0 b0 d' t EI EQ L1 C1 ND' OV]; [eauto using pos_in..|].
    assert (EL : elems inputs = (elems ins1 ++ a) ++ x0 :: (b0 ++ elems ins2)).
    { rewrite EI. unfold elems. rewrite flat_map_app. fold (elems ins1). fold (elems (s :: ins2)). change (s :: ins2) with ([s] ++ ins2).
      unfold elems at 2. rewrite flat_map_app. fold (elems [s]). fold (elems ins2). rewrite EQ. rewrite <- !app_assoc. reflexivity. }
    set (a' := elems ins1 ++ a) in *.
    assert (LI : i < length a').
    { destruct (Nat.lt_ge_cases i (length a')) as [LI|LI]; auto. exfalso.
      assert (NX0 : nth_error (elems inputs) (length a') = Some x0) by (rewrite EL, nth_error_app2, Nat.sub_diag by lia; reflexivity).
      destruct OV as [v0 [rs [O1 O2]]]. destruct (Nat.eq_dec i (length a')) as [EI'|NE].
      - rewrite EI' in *. congruence.
      - pose proof (C (length a') d' x0 ltac:(lia) ND' NX0 v0 O1) as CC. rewrite O2 in CC.
        apply (f_equal (@length token)) in CC. cbn in CC. rewrite app_length in CC. lia. }
    rewrite EL, nth_error_app1 in NX by auto. eapply pos_in; eauto. rewrite app_assoc. fold a'. rewrite nth_error_app1; auto. }
  unfold row_result. destruct (Nat.eqb (length ys) n); apply outcome_incl; [|apply incl_appl]; eapply failures_in; eauto.
Qed.
Lemma l_tuple_reported A (ds : list (dict A)) p inputs i d x e : Forall fine ds -> tuple_parser ds p ->
  nth_error ds i = Some d -> nth_error (elems inputs) i = Some x -> fst (d_item d Unnamed (at_elem x)) = Err e ->
  (forall j d' x', j < i -> nth_error ds j = Some d' -> nth_error (elems inputs) j = Some x' -> clean (d_item d' Unnamed) x') ->
  exists e', fst (p inputs) = Err e' /\ incl (errs_of e) (errs_of e').
Proof.
  intros F P ND NX E C. destruct (l_row A ds inputs F) as (ys & stop & sp & R). rewrite (l_tuple_any A ds p inputs ys stop sp F P R).
  eapply row_reported; eauto.
Qed.
Lemma l_array_reported A N (d : dict A) p inputs i x e : fine d -> array_parser N d p ->
  i < N -> nth_error (elems inputs) i = Some x -> fst (d_item d Unnamed (at_elem x)) = Err e ->
  (forall j x', j < i -> nth_error (elems inputs) j = Some x' -> clean (d_item d Unnamed) x') ->
  exists e', fst (p inputs) = Err e' /\ incl (errs_of e) (errs_of e').
Proof.
  intros F P L NX E C. assert (Q : exists k, array_parser_at N d k p) by (destruct P; eexists; constructor). destruct Q as [k Q].
  assert (ND : forall j, j < N -> nth_error (repeat d N) j = Some d).
  { intros j Lj. destruct (nth_error (repeat d N) j) eqn:X; [apply nth_error_In, repeat_spec in X; congruence|].
    apply nth_error_None in X. rewrite repeat_length in X. lia. }
  assert (FD : Forall fine (repeat d N)) by (apply Forall_forall; intros d' I; apply repeat_spec in I; now subst).
  destruct (l_row A (repeat d N) inputs FD) as (ys & stop & sp & R). rewrite (l_array_any A N d k p inputs ys stop sp F Q R).
  eapply row_reported; eauto.
  intros j d' x' Lj Nd' Nx'. apply nth_error_In, repeat_spec in Nd' as ->. eauto.
Qed.
Lemma l_vec_reported A (d : dict A) p inputs a x b e : fine d -> vec_parser d p -> elems inputs = a ++ x :: b ->
  fst (d_item d Unnamed (at_elem x)) = Err e -> Forall (clean (d_item d Unnamed)) (elems inputs) ->
  exists e', fst (p inputs) = Err e' /\ incl (errs_of e) (errs_of e').
Proof.
  intros F P EQ E C. rewrite (proj2 (l_vec_any A d p inputs _ F P) (VR_all d _ C)). apply outcome_incl.
  intros z Z. unfold failures. apply in_flat_map. exists x. rewrite EQ, E. split; auto. apply in_or_app. right. now left.
Qed.
End Report.
