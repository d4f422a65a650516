(** The exact result of tuple structs on any input. *)
From Verif Require Export SpecRow LemDrop4 LemTStruct LemStop LemRefuse.
Local Open Scope string_scope.
Local Open Scope list_scope.

Section S.
Context {env : Env} {V : Type}.
Local Notation field := (field V).
Lemma row_dicts (fs : list field) : row_types fs = dicts fs.
Proof. apply flat_map_ext. intro f. destruct (f_kind f), (is_parsable f); reflexivity. Qed.
Definition rst_of (o : option (res V)) : fstatus V :=
  match o with None => FNone | Some (Ok v) => FSome v | Some _ => FParseError end.

(** *** the items *)
Lemma given_nil (fs : list field) : row_given fs [] = map (fun _ => None) fs.
Proof. induction fs as [|f fs IH]; cbn [row_given map]; auto. rewrite IH. destruct (is_parsable f); reflexivity. Qed.
Lemma given_len (fs : list field) : forall ys, length (row_given fs ys) = length fs.
Proof. induction fs as [|f fs IH]; intro ys; auto. cbn [row_given]. destruct (is_parsable f), ys as [|[p x] ys]; cbn; now rewrite IH. Qed.
Lemma given_more fs : plain fs -> forall k (ys : list (parser V * elem)) ri d (p : parser V) x, tlook fs k (length ys) = Some (ri, d) ->
  exists j, ri = k + j /\
    upd_nth j (rst_of (Some (fst (p (at_elem x))))) (map rst_of (row_given fs ys)) = map rst_of (row_given fs (ys ++ [(p, x)])).
Proof.
  unfold tlook. induction 1 as [|f fs H P IH]; intros k ys ri d p x L; [destruct ys; discriminate L|].
  destruct (is_parsable f) eqn:PF.
  - destruct (H eq_refl) as [e [K _]]. rewrite (tf_take f e fs k PF K) in L. destruct ys as [|[q z] ys]; cbn [length nth_error] in L.
    + rewrite K in L. injection L as <- <-. exists 0. split; [lia|]. cbn [row_given app map upd_nth]. rewrite PF. cbn [map upd_nth rst_of]. reflexivity.
    + destruct (IH (S k) ys ri d p x L) as [j [-> E]]. exists (S j). split; [lia|]. cbn [row_given app map]. rewrite PF. cbn [map upd_nth]. now rewrite E.
  - rewrite (tf_skip f fs k PF) in L. destruct (IH (S k) ys ri d p x L) as [j [-> E]]. exists (S j). split; [lia|].
    cbn [row_given]. rewrite PF. cbn [map upd_nth]. now rewrite E.
Qed.
Section Sum.
Variable fs : list field.
Hypothesis PL : plain fs.
Variable index : nat.
Definition row_sum (ys : list (parser V * elem)) : list (fstatus V) * errors * nat := (map rst_of (row_given fs ys), failures_of ys, index).
Lemma row_st ys d x : nth_error (dicts fs) (length ys) = Some d ->
  sstep fs (length ys) (row_sum ys) (at_elem x) =
  match d_item d Unnamed (at_elem x) with
  | (Ok v, s1) => (Ok (row_sum (ys ++ [(d_item d Unnamed, x)])), s1)
  | (Err e, s1) => (Ok (row_sum (ys ++ [(d_item d Unnamed, x)])), skip_item s1)
  | (Bad b, s1) => (Bad b, s1)
  end.
Proof.
  intro H. destruct (tlook_dicts fs PL 0 _ _ H) as [ri L]. destruct (given_more fs PL 0 ys ri d (d_item d Unnamed) x L) as [j [-> E]].
  unfold sstep, gstep, row_sum. rewrite L, <- E, failures_app, failures_one. cbn [fst snd Nat.add].
  destruct (d_item d Unnamed (at_elem x)) as [[v|e|b] s1]; cbn [fst]; rewrite ?app_nil_r; reflexivity.
Qed.
Lemma row_ran inputs ys stop sp : row_read (dicts fs) inputs ys stop sp ->
  exists r l, parse_tuple_struct (length (filter is_parsable fs)) (tuple_closure fs) (init_slots fs, [], index) inputs = (r, row_sum ys, l) /\
    match r with Ok _ => stop = [] | Err e => stop = errs_of e | Bad _ => False end /\
    (length ys < length (dicts fs) -> inputs_span l = sp) /\ row_end (dicts fs) inputs ys stop l.
Proof.
  intro R. assert (FD : Forall fine (dicts fs)).
  { apply Forall_forall. intros d I. apply In_nth_error in I as [c N]. destruct (tlook_dicts fs PL 0 c d N) as [ri L]. eapply tlook_fine; eauto. }
  assert (FO : forall c st s rest st1 s1, c < length (dicts fs) -> sstep fs c st s = (Ok st1, s1) -> tuple_closure fs c st (s :: rest) = (Ok tt, st1, s1 :: rest)).
  { intros c st s rest st1 s1 L. rewrite (dicts_len fs PL) in L. now apply s_fo. }
  destruct (row_run_end (dicts fs) (sstep fs) (tuple_closure fs) row_sum FD FO (gs_us _ _ _ (tlook_fine fs 0 PL)) (gs_ss _ _ _ (tlook_fine fs 0 PL))
      (gs_ks _ _ _ (tlook_fine fs 0 PL)) row_st inputs ys stop sp R) as (r & l & X & A & _ & B & _ & D).
  assert (E : row_sum [] = (init_slots fs, [], index)).
  { unfold row_sum, init_slots. rewrite given_nil, map_map. reflexivity. }
  rewrite E, (dicts_len fs PL) in X. rewrite X. eauto 7.
Qed.
End Sum.

(** *** after the loop *)
Definition wants (vt : bool) (f : field) (st : fstatus V) : bool := wants_error vt f && fs_is_none st.
Definition m_res (tm : tmode V) (vt : bool) (sp : span) (n : nat) (f : field) (st : fstatus V) : option (res V) :=
  if wants vt f st then match f_kind f with KItem d => Some (d_missing d (missing_name_unnamed tm n) sp) | _ => None end else None.
Definition m_slot (o : option (res V)) (st : fstatus V) : fstatus V := match o with Some (Ok v) => FSome v | _ => st end.
Definition m_errs (o : option (res V)) : errors := match o with Some (Err e) => errs_of e | _ => [] end.
Definition bef (fs : list field) (i : nat) : nat := list_sum (map places_of (firstn i fs)).
Lemma um_exact tm vt variant m sp ins : forall fs g i es index cur ex,
  Forall (fun f => wants_error vt f = true -> exists d, f_kind f = KItem d /\ forall n sp, returns (d_missing d n sp)) fs ->
  let mr j f := m_res tm vt (to_full_span m ins) (index + cur + ex + bef fs (j - i)) f (g j f) in
  unnamed_missing tm vt variant m sp ins fs (mapi g i fs) es index cur ex =
  Ok (mapi (fun j f => m_slot (mr j f) (g j f)) i fs, es ++ flat_mapi (fun j f => m_errs (mr j f)) i fs).
Proof.
  induction fs as [|f fs IH]; intros g i es index cur ex G mr; cbn [mapi unnamed_missing].
  { unfold flat_mapi. cbn. now rewrite app_nil_r. }
  inversion G as [|? ? GF G']; subst.
  set (cur' := if f_container f then cur else if is_flatten f then cur else S cur).
  set (ex' := if f_container f then ex else match f_kind f with KFlatU u => ex + fu_count0 u | _ => ex end).
  assert (CE : cur' + ex' = cur + ex + places_of f).
  { unfold cur', ex', places_of, is_flatten, fu_count0. destruct (f_container f); [lia|]. destruct (f_kind f); lia. }
  assert (NX : forall st' es',
    match unnamed_missing tm vt variant m sp ins fs (mapi g (S i) fs) es' index cur' ex' with
    | Ok (sl2, es2) => Ok (st' :: sl2, es2) | Err e => Err e | Bad b => Bad b end =
    Ok (st' :: mapi (fun j f => m_slot (mr j f) (g j f)) (S i) fs, es' ++ flat_mapi (fun j f => m_errs (mr j f)) (S i) fs)).
  { intros st' es'. rewrite (IH g (S i) es' index cur' ex' G').
    assert (X : forall j f', m_res tm vt (to_full_span m ins) (index + cur' + ex' + bef fs (S i + j - S i)) f' (g (S i + j) f') = mr (S i + j) f').
    { intros j f'. unfold mr. replace (index + cur' + ex' + bef fs (S i + j - S i)) with (index + cur + ex + bef (f :: fs) (S i + j - i)); [reflexivity|].
      replace (S i + j - S i) with j by lia. replace (S i + j - i) with (S j) by lia.
      unfold bef, list_sum. cbn [firstn map fold_right]. lia. }
    unfold flat_mapi. do 2 f_equal; [f_equal|do 2 f_equal]; apply mapi_ext; intros j f' _; now rewrite X. }
  unfold flat_mapi. cbn [mapi concat].
  assert (M0 : mr i f = m_res tm vt (to_full_span m ins) (index + cur + ex) f (g i f)).
  { unfold mr. rewrite Nat.sub_diag. unfold bef. cbn [firstn map list_sum fold_right]. now rewrite Nat.add_0_r. }
  rewrite M0. unfold m_res, wants. destruct (wants_error vt f && fs_is_none (g i f)) eqn:W.
  - apply andb_true_iff in W as [W1 _]. destruct (GF W1) as [d [K RT]]. rewrite K. specialize (RT (missing_name_unnamed tm (index + cur + ex)) (to_full_span m ins)).
    destruct (d_missing d _ _) as [w|e|b]; [| |destruct RT]; rewrite NX; cbn [m_slot m_errs app]; auto. unfold push_syn. now rewrite <- app_assoc.
  - rewrite NX. reflexivity.
Qed.
Lemma post_exact tm target variant m sp ins fs g es index :
  Forall (fun f => wants_error (has_target target) f = true -> exists d, f_kind f = KItem d /\ forall n sp, returns (d_missing d n sp)) fs ->
  let st j f := after_container tm f (g j f) in
  let mr j f := m_res tm (has_target target) (to_full_span m ins) (index + bef fs j) f (st j f) in
  let sf j f := set_field f (m_slot (mr j f) (st j f)) [] in
  unnamed_post fs tm target variant m sp ins (mapi g 0 fs) es index =
  rbind (check (es ++ flat_mapi (fun j f => m_errs (mr j f)) 0 fs ++ flat_mapi (fun j f => snd (sf j f)) 0 fs))
        (fun _ => post_ret target (mapi (fun j f => fst (sf j f)) 0 fs)).
Proof.
  intros G st mr sf. unfold unnamed_post. rewrite containers_exact. change (mapi (fun j f => after_container tm f (g j f)) 0 fs) with (mapi st 0 fs).
  clearbody st. pose proof (um_exact tm (has_target target) variant m sp ins fs st 0 es index 0 0 G) as U. cbv zeta in U. rewrite U. clear U.
  cbn [rbind]. unfold post_finish.
  assert (X : forall j f, m_res tm (has_target target) (to_full_span m ins) (index + 0 + 0 + bef fs (j - 0)) f (st j f) = mr j f).
  { intros j f. unfold mr. rewrite !Nat.add_0_r, Nat.sub_0_r. reflexivity. }
  rewrite field_sets_exact, <- app_assoc. unfold flat_mapi.
  assert (E1 : mapi (B := list err) (fun j f => m_errs (m_res tm (has_target target) (to_full_span m ins) (index + 0 + 0 + bef fs (j - 0)) f (st j f))) 0 fs = mapi (fun j f => m_errs (mr j f)) 0 fs).
  { apply mapi_ext. intros j f _. now rewrite X. }
  rewrite E1.
  assert (E2 : forall A (h : fstatus V * errors -> A), mapi (fun j f => h (set_field f (m_slot (m_res tm (has_target target) (to_full_span m ins) (index + 0 + 0 + bef fs (j - 0)) f (st j f)) (st j f)) [])) 0 fs = mapi (fun j f => h (sf j f)) 0 fs).
  { intros A h. apply mapi_ext. intros j f _. now rewrite X. }
  rewrite (E2 _ fst). rewrite (E2 (list err) snd). reflexivity.
Qed.

(** *** one field *)
Section One.
Context (s : sdef V) (tm : tmode V) (m : mode) (ins : list stream) (index : nat) (sp : span) (os : list (option (res V))).
Definition os_st (i : nat) (g : field) : fstatus V := after_container tm g (rst_of (nth i os None)).
Definition os_mr (i : nat) (g : field) : option (res V) :=
  m_res tm (has_target (s_default s)) (to_full_span m ins) (index + bef (s_fields tm s) i) g (os_st i g).
Definition os_sf (i : nat) (g : field) := set_field g (m_slot (os_mr i g) (os_st i g)) [].
Lemma bef_eff i : bef (s_fields tm s) i = list_sum (map places_of (firstn i (s_raw s))).
Proof.
  unfold bef. f_equal. assert (L := s_fields_len tm s). assert (E := s_fields_eff tm s). revert i L E. generalize (s_fields tm s) (s_raw s).
  induction l as [|g gs IH]; intros [|f fs] i L E; try discriminate; auto. destruct i as [|i]; auto. cbn [firstn map]. f_equal.
  - destruct (E 0 f eq_refl) as [g' [N [_ [K [_ [C _]]]]]]. cbn in N. injection N as <-. unfold places_of. now rewrite K, C.
  - apply IH; [now injection L|]. intros j f' N. exact (E (S j) f' N).
Qed.
Lemma field_row i f g :
  nth_error (s_raw s) i = Some f -> nth_error (s_fields tm s) i = Some g ->
  (nth i os None <> None -> is_parsable f = true) ->
  (nth i os None = None -> is_parsable f = true -> to_full_span m ins = sp) ->
  (is_parsable f = true -> exists d, f_kind f = KItem d /\ forall n sp, returns (d_missing d n sp)) ->
  (forall b, nth i os None <> Some (Bad b)) ->
  m_errs (os_mr i g) = match nth i os None, row_base s tm index sp os i f with None, Some (Err e) => errs_of e | _, _ => [] end /\
  snd (os_sf i g) = match row_base s tm index sp os i f with Some (Ok v) => failing (f_transforms f) v | _ => [] end /\
  match row_base s tm index sp os i f with
  | Some (Ok w) => failing (f_transforms f) w = [] -> exists v, fst (os_sf i g) = FSome v /\ transformed (f_transforms f) w v
  | Some (Err e) => True
  | Some (Bad _) => False
  | None => fst (os_sf i g) = FNone /\ s_default s <> None
  end.
Proof.
  intros Nf Ng PO SP GM NB. destruct (s_fields_eff tm s i f Nf) as [g' [Ng' [FD [FK [FT [FC _]]]]]]. assert (g' = g) by congruence. subst g'.
  assert (TF : forall x, snd (run_transforms (f_transforms f) (FSome x) []) = failing (f_transforms f) x).
  { intro x. destruct (run_transforms_failing (f_transforms f) x []) as [st ->]. reflexivity. }
  assert (TV : forall x, failing (f_transforms f) x = [] -> exists v, fst (run_transforms (f_transforms f) (FSome x) []) = FSome v /\ transformed (f_transforms f) x v).
  { intros x F. rewrite <- TF in F. destruct (run_transformed _ _ F) as [w [T E]]. exists w. rewrite E. auto. }
  assert (TP : snd (run_transforms (f_transforms f) (FParseError (A := V)) []) = []) by (apply LemRun.run_transforms_none; discriminate).
  assert (SS : forall x, set_field g (FSome x) [] = run_transforms (f_transforms f) (FSome x) []).
  { intro x. unfold set_field. rewrite FD, FT. destruct (field_default s tm f); reflexivity. }
  unfold os_sf, os_mr, os_st, row_base.
  destruct (nth i os None) as [r|] eqn:O.
  - specialize (PO ltac:(discriminate)). assert (NC : f_container f = false) by (unfold is_parsable in PO; destruct (f_container f); auto).
    assert (AC : after_container tm g (rst_of (Some r)) = rst_of (Some r)) by (unfold after_container; destruct tm; auto; now rewrite FC, NC).
    rewrite AC. assert (MR : m_res tm (has_target (s_default s)) (to_full_span m ins) (index + bef (s_fields tm s) i) g (rst_of (Some r)) = None).
    { unfold m_res, wants. destruct r; cbn [rst_of fs_is_none]; now rewrite andb_false_r. }
    rewrite MR. cbn [m_errs m_slot]. split; [reflexivity|]. destruct r as [v|e|b]; [| |destruct (NB b eq_refl)]; cbn [rst_of].
    + rewrite SS. auto.
    + split; auto. unfold set_field. rewrite FD, FT. destruct (field_default s tm f); cbn [fs_or_else]; auto.
  - cbn [rst_of]. destruct (match tm with TAttrs _ _ => f_container f | TMeta => false end) eqn:CT.
    + destruct tm as [|pn obj]; [discriminate|]. cbn [after_container]. rewrite FC, CT.
      assert (MR : m_res (TAttrs pn obj) (has_target (s_default s)) (to_full_span m ins) (index + bef (s_fields (TAttrs pn obj) s) i) g (FSome obj) = None).
      { unfold m_res, wants. cbn [fs_is_none]. now rewrite andb_false_r. }
      rewrite MR. cbn [m_errs m_slot]. rewrite SS. auto.
    + assert (AC : after_container tm g FNone = FNone) by (unfold after_container; destruct tm; auto; now rewrite FC, CT).
      rewrite AC. unfold m_res, wants, wants_error. cbn [fs_is_none]. rewrite andb_true_r, FD, FC, FK.
      assert (BE : match tm, f_container f with TAttrs _ obj, true => Some (Ok obj) | _, _ =>
        match field_default s tm f, s_default s, f_kind f with
        | Some w, _, _ => Some (Ok w)
        | None, None, KItem d => Some (d_missing d (numbered tm (number_of index (s_raw s) i)) sp)
        | None, _, _ => None
        end end = match field_default s tm f, s_default s, f_kind f with
        | Some w, _, _ => Some (Ok w)
        | None, None, KItem d => Some (d_missing d (numbered tm (number_of index (s_raw s) i)) sp)
        | None, _, _ => None
        end).
      { destruct tm; auto. destruct (f_container f); [discriminate|reflexivity]. }
      rewrite BE. clear BE. destruct (field_default s tm f) as [w|] eqn:DF.
      * rewrite andb_false_r. cbn [andb m_errs m_slot]. split; auto.
        assert (SN : set_field g FNone [] = run_transforms (f_transforms f) (FSome w) []) by (unfold set_field; rewrite FD, FT; reflexivity).
        rewrite SN. auto.
      * assert (PF : f_container f = false /\ (s_default s = None -> f_skip f = false)).
        { unfold field_default in DF. destruct (f_default f); [discriminate|]. split.
          - destruct (f_skip f && negb (has_target (s_default s))); [discriminate|]. destruct tm; [|exact CT]. destruct (f_container f); [discriminate|reflexivity].
          - intro SD. rewrite SD in DF. destruct (f_skip f); [discriminate|reflexivity]. }
        destruct PF as [FCF FSK]. rewrite FCF. cbn [negb andb]. assert (SN : set_field g FNone [] = (FNone, [])).
        { unfold set_field. rewrite FD. apply LemStruct.run_transforms_none. }
        destruct (s_default s) as [t|] eqn:SD; cbn [has_target negb].
        -- cbn [m_errs m_slot]. rewrite SN. repeat split; auto. discriminate.
        -- assert (PF : is_parsable f = true) by (unfold is_parsable; rewrite FCF, FSK; auto).
           destruct (GM PF) as [d [K RT]]. rewrite K, (SP eq_refl PF).
           change (missing_name_unnamed tm (index + bef (s_fields tm s) i)) with (numbered tm (index + bef (s_fields tm s) i)).
           rewrite bef_eff. fold (number_of index (s_raw s) i). specialize (RT (numbered tm (number_of index (s_raw s) i)) sp).
           destruct (d_missing d _ sp) as [w|e|b]; [| |destruct RT]; cbn [m_errs m_slot].
           ++ rewrite SS. auto.
           ++ rewrite SN. auto.
Qed.
End One.

(** *** the struct *)
Lemma raw_plain (s : sdef V) : tuple_struct s -> fine_items s -> plain (s_raw s).
Proof.
  intros [AS [SH [NF LT]]] FI. unfold plain. apply Forall_forall. intros f I P. unfold fine_items in FI. rewrite Forall_forall in FI. specialize (FI f I).
  assert (GF := proj1 AS). rewrite Forall_forall in GF. specialize (GF f I P). rewrite SH in GF.
  assert (PF : pflat f = false).
  { unfold no_flat in NF. destruct (pflat f) eqn:E; auto. rewrite <- NF. symmetry. apply existsb_exists. eauto. }
  unfold pflat in PF. rewrite P in PF. unfold is_flat in PF. destruct (f_kind f) as [d| | | |]; try discriminate; try contradiction. eauto.
Qed.
Lemma fields_same (s : sdef V) tm : Forall2 (fun f g => is_parsable g = is_parsable f /\ f_kind g = f_kind f) (s_raw s) (s_fields tm s).
Proof.
  assert (L := s_fields_len tm s). assert (E := s_fields_eff tm s). revert L E. generalize (s_fields tm s) (s_raw s).
  intros gs fs. revert gs. induction fs as [|f fs IH]; intros [|g gs] L E; try discriminate; constructor.
  - destruct (E 0 f eq_refl) as [g' [N [_ [K [_ [C [P1 [P2 _]]]]]]]]. cbn in N. injection N as <-. split; auto.
    unfold pitem, pflat, is_parsable, is_flat in *. rewrite K in *. destruct (f_kind f); cbn in *; rewrite ?andb_true_r, ?andb_false_r in *; congruence.
  - apply IH; [now injection L|]. intros i f' N. exact (E (S i) f' N).
Qed.
Lemma same_rows (fs gs : list field) : Forall2 (fun f g => is_parsable g = is_parsable f /\ f_kind g = f_kind f) fs gs ->
  dicts gs = dicts fs /\ existsb is_parsable gs = existsb is_parsable fs /\ forall ys, row_given gs ys = row_given fs ys.
Proof.
  induction 1 as [|f g fs gs [E1 E2] H [IH1 [IH2 IH3]]]; [auto|]. split; [|split].
  - unfold dicts in *. cbn [flat_map]. now rewrite E1, E2, IH1.
  - cbn [existsb]. now rewrite E1, IH2.
  - intro ys. cbn [row_given]. rewrite E1. destruct (is_parsable f), ys as [|[p x] ys]; now rewrite IH3.
Qed.
Lemma given_parsed (fs : list field) : forall ys i f, nth_error fs i = Some f -> nth i (row_given fs ys) None <> None -> is_parsable f = true.
Proof.
  induction fs as [|f0 fs IH]; intros ys i f N H; [destruct i; discriminate N|]. cbn [row_given] in H.
  destruct (is_parsable f0) eqn:P, ys as [|[p x] ys], i as [|i]; cbn [nth nth_error] in *; try (injection N as ->; congruence); eauto.
Qed.
Lemma given_short (fs : list field) : plain fs -> forall ys i f, nth_error fs i = Some f -> nth i (row_given fs ys) None = None -> is_parsable f = true -> length ys < length (dicts fs).
Proof.
  induction 1 as [|f0 fs H P IH]; intros ys i f N E PF; [destruct i; discriminate N|]. cbn [row_given dicts flat_map] in *.
  destruct (is_parsable f0) eqn:P0.
  - destruct (H eq_refl) as [d [K _]]. rewrite K. cbn [app length]. destruct ys as [|[p x] ys]; [cbn; lia|]. cbn [length].
    destruct i as [|i]; cbn [nth nth_error] in *; [discriminate|]. apply -> Nat.succ_lt_mono. eapply IH; eauto.
  - destruct i as [|i]; cbn [nth nth_error] in *; [injection N as ->; congruence|]. cbn [app]. eapply IH; eauto.
Qed.
Lemma given_fails (fs : list field) : forall ys i e, nth i (row_given fs ys) None = Some (Err e) -> failures_of ys <> [].
Proof.
  induction fs as [|f fs IH]; intros ys i e H; [destruct i; discriminate H|]. cbn [row_given] in H.
  destruct (is_parsable f), ys as [|[p x] ys], i as [|i]; cbn [nth] in H; try discriminate; try (eapply IH; exact H).
  - injection H as H. unfold failures_of. cbn [flat_map fst snd]. rewrite H. intro X. apply app_eq_nil in X as [X _]. now apply errs_of_ne in X.
  - apply IH in H. unfold failures_of in *. cbn [flat_map]. intro X. apply app_eq_nil in X as [_ X]. auto.
Qed.
Lemma given_from (fs : list field) : forall ys i r, nth i (row_given fs ys) None = Some r -> exists p x, In (p, x) ys /\ r = fst (p (at_elem x)).
Proof.
  induction fs as [|f fs IH]; intros ys i r H; [destruct i; discriminate H|]. cbn [row_given] in H.
  destruct (is_parsable f), ys as [|[p x] ys], i as [|i]; cbn [nth] in H; try discriminate.
  - destruct (IH _ _ _ H) as [p [x [[] _]]].
  - injection H as <-. exists p, x. split; [now left|auto].
  - destruct (IH _ _ _ H) as [q [z [I E]]]. exists q, z. split; [now right|auto].
  - destruct (IH _ _ _ H) as [p [x [[] _]]].
  - destruct (IH _ _ _ H) as [q [z [I E]]]. eauto.
Qed.
Lemma mapi_given (fs : list field) os : length os = length fs -> map rst_of os = mapi (fun j _ => rst_of (nth j os None)) 0 fs.
Proof.
  intro L. assert (X : forall pre os fs, length os = length fs -> map rst_of os = mapi (fun j (_ : field) => rst_of (nth j (pre ++ os) None)) (length pre) fs).
  { clear. intros pre os fs. revert pre os. induction fs as [|f fs IH]; intros pre [|o os] L; try discriminate; auto. cbn [map mapi]. f_equal.
    - rewrite app_nth2, Nat.sub_diag by lia. reflexivity.
    - specialize (IH (pre ++ [o]) os ltac:(now injection L)). rewrite app_length, Nat.add_1_r, <- app_assoc in IH. exact IH. }
  exact (X [] os fs L).
Qed.
Lemma ret_given target (fs : list field) (h : nat -> field -> fstatus V) (B : nat -> V -> Prop) :
  (forall t, target = Some t -> length t = length fs) ->
  (forall i f, nth_error fs i = Some f ->
     (exists v, h i f = FSome v /\ B i v) \/ (h i f = FNone /\ exists t, target = Some t /\ forall v, nth_error t i = Some v -> B i v)) ->
  exists vs, post_ret target (mapi h 0 fs) = Ok vs /\ length vs = length fs /\ forall i v, nth_error vs i = Some v -> B i v.
Proof.
  intros LT H. unfold post_ret. destruct target as [t|].
  - specialize (LT t eq_refl). exists (overwrite t (mapi h 0 fs)). split; [reflexivity|]. split; [rewrite overwrite_len; auto|].
    assert (X : forall k t fs, length t = length fs -> forall i v, nth_error (overwrite t (mapi h k fs)) i = Some v ->
      exists f tv, nth_error fs i = Some f /\ nth_error t i = Some tv /\ v = fs_unwrap_or (h (k + i) f) tv).
    { clear. intros k t. revert k. induction t as [|tv t IH]; intros k [|f fs] L [|i] v N; try discriminate; cbn [mapi overwrite nth_error] in *.
      - injection N as <-. exists f, tv. rewrite Nat.add_0_r. auto.
      - destruct (IH (S k) fs ltac:(now injection L) i v N) as [f' [tv' [A [B ->]]]]. exists f', tv'. rewrite <- Nat.add_succ_comm. auto. }
    intros i v N. destruct (X 0 t fs LT i v N) as [f [tv [Nf [Nt ->]]]]. cbn [Nat.add]. destruct (H i f Nf) as [[w [E Bw]]|[E [t' [E1 Bt]]]]; rewrite E; cbn [fs_unwrap_or]; auto.
    injection E1 as <-. auto.
  - assert (X : forall k fs, (forall i f, nth_error fs i = Some f -> exists v, h (k + i) f = FSome v /\ B (k + i) v) ->
      exists vs, unwrap_slots (mapi h k fs) = Ok vs /\ length vs = length fs /\ forall i v, nth_error vs i = Some v -> B (k + i) v).
    { clear. intros k fs. revert k. induction fs as [|f fs IH]; intros k H; cbn [mapi unwrap_slots].
      - exists []. split; auto. split; auto. intros [|i]; discriminate.
      - destruct (H 0 f eq_refl) as [v [E Bv]]. rewrite Nat.add_0_r in E, Bv. rewrite E. destruct (IH (S k)) as [vs [U [L W]]].
        { intros i f' N. destruct (H (S i) f' N) as [w [E' B']]. rewrite Nat.add_succ_r in E', B'. eauto. }
        rewrite U. cbn [rmap]. exists (v :: vs). split; auto. split; [cbn; auto|]. intros [|i] w N; cbn in N.
        + injection N as <-. now rewrite Nat.add_0_r.
        + rewrite Nat.add_succ_r. exact (W i w N). }
    apply (X 0). intros i f N. destruct (H i f N) as [?|[_ [t [E _]]]]; [auto|discriminate].
Qed.
(** where the streams are after the loop *)
Definition read_end (s : sdef V) (inputs : list stream) (ys : list (parser V * elem)) (stop : list err) (l : list stream) : Prop :=
  (row_types (s_raw s) <> [] /\ row_end (dicts (s_raw s)) inputs ys stop l) \/
  (row_types (s_raw s) = [] /\ Forall used_up l).
Lemma body_rows (s : sdef V) tm m sp0 variant index inputs ys stop sp : tuple_struct s -> fine_items s -> struct_read s inputs ys stop sp ->
  let os := row_given (s_raw s) ys in let q := reported_at m sp in
  let out := unnamed_body (s_fields tm s) tm (s_default s) variant m sp0 index inputs in
  let r := after_and_thens (s_and_thens s) (fst out) in
  read_end s inputs ys stop (snd out) /\
  match failures_of ys ++ stop ++ row_lacking s tm index q os ++ row_refused s tm index q os with
  | [] => exists vs, row_values s tm index q os vs /\
      ((exists ws, chained (s_and_thens s) vs ws /\ r = Ok ws) \/ (exists e, chain_fails (s_and_thens s) vs e /\ r = Err e))
  | x :: xs => r = Err (mkSyn x xs)
  end.
Proof.
  intros TS FI SR os q out r. pose proof (raw_plain s TS FI) as PR. pose proof (fields_same s tm) as FS.
  destruct (same_plain _ _ FS) as [PL [CN _]]. specialize (PL PR). destruct (same_rows _ _ FS) as [SD [SE SG]].
  destruct TS as [AS [SH [NF LT]]].
  assert (GM : forall f, In f (s_raw s) -> is_parsable f = true -> exists d, f_kind f = KItem d /\ forall n sp, returns (d_missing d n sp)).
  { intros f I P. unfold plain in PR. rewrite Forall_forall in PR. destruct (PR f I P) as [d [K F]]. exists d. split; auto. apply (gd_missing d (fi_good d F)). }
  assert (WE : Forall (fun g => wants_error (has_target (s_default s)) g = true -> exists d, f_kind g = KItem d /\ forall n sp, returns (d_missing d n sp)) (s_fields tm s)).
  { apply Forall_forall. intros g I W. apply In_nth_error in I as [i N].
    assert (X : exists f, nth_error (s_raw s) i = Some f).
    { destruct (nth_error (s_raw s) i) eqn:E; eauto. apply nth_error_None in E. rewrite <- (s_fields_len tm s) in E. apply nth_error_None in E. congruence. }
    destruct X as [f NR]. destruct (s_fields_eff tm s i f NR) as [g' [N' [FD [K [_ [C _]]]]]]. assert (g' = g) by congruence. subst g'.
    rewrite K. apply GM; [eapply nth_error_In; eauto|].
    unfold wants_error in W. apply andb_true_iff in W as [W W3]. apply andb_true_iff in W as [W1 W2]. rewrite FD in W2. rewrite C in W1.
    unfold is_parsable. rewrite W1. cbn. destruct (f_skip f) eqn:FSK; auto. unfold field_default in W2. destruct (f_default f); [discriminate|]. rewrite FSK, W3 in W2. discriminate. }
  assert (RUN : exists l, fst (unnamed_body (s_fields tm s) tm (s_default s) variant m sp0 index inputs) =
      unnamed_post (s_fields tm s) tm (s_default s) variant m sp0 l (map rst_of os) (failures_of ys ++ stop) index /\
      (length ys < length (dicts (s_raw s)) -> inputs_span l = sp) /\ snd out = l /\ read_end s inputs ys stop l).
  { unfold out, unnamed_body. rewrite SE. destruct SR as [ys stop sp NE RR|sp NE UU]; rewrite row_dicts in NE.
    - assert (EX : existsb is_parsable (s_raw s) = true).
      { destruct (existsb is_parsable (s_raw s)) eqn:E; auto. exfalso. apply NE. destruct (dicts (s_raw s)) eqn:D; auto.
        pose proof (dicts_len _ PR) as L. rewrite D in L. cbn in L. destruct (filter is_parsable (s_raw s)) as [|f l0] eqn:F; [discriminate|].
        assert (I : In f (filter is_parsable (s_raw s))) by (rewrite F; now left). apply filter_In in I as [I P].
        assert (existsb is_parsable (s_raw s) = true) by (apply existsb_exists; eauto). congruence. }
      rewrite EX. rewrite row_dicts in RR. rewrite <- SD in RR. destruct (row_ran _ PL index inputs ys stop sp RR) as (r0 & l & X & A & B & RE).
      rewrite X. unfold row_sum. rewrite SG. fold os. exists l. rewrite SD in RE. rewrite <- SD.
      assert (RE' : read_end s inputs ys stop l) by (left; split; [rewrite row_dicts; exact NE|exact RE]).
      destruct r0 as [n|e|b]; [| |destruct A]; subst stop; cbn [fst snd push_result]; unfold push_syn; rewrite ?app_nil_r; auto.
    - assert (EX : existsb is_parsable (s_raw s) = false).
      { destruct (existsb is_parsable (s_raw s)) eqn:E; auto. exfalso. apply existsb_exists in E as [f [I P]]. pose proof (dicts_len _ PR) as L. rewrite NE in L. cbn in L.
        assert (X : In f (filter is_parsable (s_raw s))) by (apply filter_In; auto). destruct (filter is_parsable (s_raw s)); [destruct X|discriminate]. }
      rewrite EX. destruct (each_eof inputs) as [r0 l] eqn:EE. pose proof (proj2 (each_eof_ok inputs) UU) as E. rewrite EE in E. cbn [fst] in E. subst r0.
      exists l. cbn [fst snd failures_of flat_map app]. split; [|split; [rewrite NE; cbn; lia|split; [reflexivity|]]].
      2: { right. rewrite row_dicts. split; [exact NE|]. eapply each_eof_after; exact EE. }
      f_equal. unfold init_slots, os. rewrite <- SG, given_nil, map_map. reflexivity. }
  destruct RUN as [l [RUN [SPL [SL RE]]]]. rewrite SL. split; [exact RE|]. clear SL RE.
  assert (LO : length os = length (s_fields tm s)) by (unfold os; now rewrite given_len, s_fields_len).
  unfold r, out. rewrite RUN. clear r out RUN. rewrite (mapi_given _ _ LO).
  pose proof (post_exact tm (s_default s) variant m sp0 l (s_fields tm s) (fun j _ => rst_of (nth j os None)) (failures_of ys ++ stop) index WE) as PE.
  cbv zeta in PE. rewrite PE. clear PE.
  assert (YB : forall i b, nth i os None <> Some (Bad b)).
  { intros i b H. destruct (given_from _ _ _ _ H) as [p [x [I E]]].
    assert (Y : exists d, fine d /\ p = d_item d Unnamed).
    { destruct SR as [ys stop sp NE RR|]; [|destruct I]. destruct (row_pos _ _ _ _ _ RR) as [xs [EY _]]. rewrite EY in I. unfold positions in I. apply in_combine_l in I.
      apply in_map_iff in I as [d [<- I]]. exists d. split; auto. rewrite row_dicts in I. apply In_nth_error in I as [c N].
      destruct (tlook_dicts _ PR 0 c d N) as [ri Lk]. eapply tlook_fine; [exact PR|exact Lk]. }
    destruct Y as [d [F ->]]. pose proof (proj1 (gd_item d (fi_good d F) Unnamed (at_elem x))) as G. rewrite <- E in G. destruct G. }
  assert (ONE : forall i f g, nth_error (s_raw s) i = Some f -> nth_error (s_fields tm s) i = Some g ->
    m_errs (os_mr s tm m l index os i g) = match nth i os None, row_base s tm index q os i f with None, Some (Err e) => errs_of e | _, _ => [] end /\
    snd (os_sf s tm m l index os i g) = match row_base s tm index q os i f with Some (Ok v) => failing (f_transforms f) v | _ => [] end /\
    match row_base s tm index q os i f with
    | Some (Ok w) => failing (f_transforms f) w = [] -> exists v, fst (os_sf s tm m l index os i g) = FSome v /\ transformed (f_transforms f) w v
    | Some (Err e) => True
    | Some (Bad _) => False
    | None => fst (os_sf s tm m l index os i g) = FNone /\ s_default s <> None
    end).
  { intros i f g Nf Ng. apply field_row; auto.
    - intro O. exact (given_parsed _ _ _ _ Nf O).
    - intros O PF. unfold to_full_span, named_span, q, reported_at. destruct m; auto. apply SPL. eapply given_short; eauto.
    - apply GM. eapply nth_error_In; eauto. }
  set (E2 := flat_mapi (fun j f => m_errs (m_res tm (has_target (s_default s)) (to_full_span m l) (index + bef (s_fields tm s) j) f (after_container tm f (rst_of (nth j os None))))) 0 (s_fields tm s)).
  set (E3 := flat_mapi (fun j f => snd (set_field f (m_slot (m_res tm (has_target (s_default s)) (to_full_span m l) (index + bef (s_fields tm s) j) f (after_container tm f (rst_of (nth j os None)))) (after_container tm f (rst_of (nth j os None)))) [])) 0 (s_fields tm s)).
  assert (Q2 : E2 = row_lacking s tm index q os).
  { apply flat_mapi_two; [apply s_fields_len|]. intros j g f Ng Nf. apply (ONE j f g Nf Ng). }
  assert (Q3 : E3 = row_refused s tm index q os).
  { apply flat_mapi_two; [apply s_fields_len|]. intros j g f Ng Nf. apply (ONE j f g Nf Ng). }
  rewrite Q2, Q3, <- app_assoc. destruct (failures_of ys ++ stop ++ row_lacking s tm index q os ++ row_refused s tm index q os) as [|x xs] eqn:ALL; cbn [check rbind].
  2: { destruct (s_and_thens s); reflexivity. }
  apply app_eq_nil in ALL as [F1 ALL]. apply app_eq_nil in ALL as [_ ALL]. apply app_eq_nil in ALL as [L1 R1].
  destruct (ret_given (s_default s) (s_fields tm s) (fun j g => fst (os_sf s tm m l index os j g))
     (fun i v => forall f, nth_error (s_raw s) i = Some f -> match row_base s tm index q os i f with
        | Some (Ok w) => transformed (f_transforms f) w v | Some _ => False | None => exists t, s_default s = Some t /\ nth_error t i = Some v end)) as [vs [PV [LV BV]]].
  { intros t E. rewrite s_fields_len. auto. }
  { intros i g Ng. assert (X : exists f, nth_error (s_raw s) i = Some f).
    { destruct (nth_error (s_raw s) i) eqn:E; eauto. apply nth_error_None in E. rewrite <- (s_fields_len tm s) in E. apply nth_error_None in E. congruence. }
    destruct X as [f Nf]. destruct (ONE i f g Nf Ng) as [_ [_ T]].
    pose proof (proj1 (flat_mapi_nil _ _ 0) L1 i f Nf) as L1i. pose proof (proj1 (flat_mapi_nil _ _ 0) R1 i f Nf) as R1i. cbn [Nat.add] in L1i, R1i.
    destruct (row_base s tm index q os i f) as [[w|e|b]|] eqn:BE.
    - destruct (T R1i) as [u [E Tv]]. left. exists u. split; auto. intros f' N. assert (f' = f) by congruence. subst f'. now rewrite BE.
    - exfalso. destruct (nth i os None) as [r0|] eqn:O.
      + unfold row_base in BE. rewrite O in BE. assert (r0 = Err e) by congruence. subst r0. exact (given_fails _ _ _ _ O F1).
      + now apply errs_of_ne in L1i.
    - destruct T.
    - destruct T as [E NN]. right. split; auto. destruct (s_default s) as [t|] eqn:SDF; [|congruence]. exists t. split; auto. intros u N f' N'. assert (f' = f) by congruence. subst f'. rewrite BE. eauto. }
  change (mapi (fun j f => fst (set_field f _ [])) 0 (s_fields tm s)) with (mapi (fun j g => fst (os_sf s tm m l index os j g)) 0 (s_fields tm s)).
  rewrite PV. exists vs. match goal with |- context [after_and_thens (s_and_thens s) ?X] => change X with (Ok vs) end. split; [|destruct (chain_result (s_and_thens s) vs) as [[w [C Q]]|[e [C Q]]]; rewrite Q; eauto].
  split; [rewrite LV; apply s_fields_len|]. intros i f v0 Nf Nv. exact (BV i v0 Nv f Nf).
Qed.
Lemma body_row (s : sdef V) tm m sp0 prefix v index inputs ys stop sp : tuple_struct s -> fine_items s -> struct_read s inputs ys stop sp ->
  let os := row_given (s_raw s) ys in let q := reported_at m sp in
  let r := fst (s_body s tm m sp0 prefix v index inputs) in
  match failures_of ys ++ stop ++ row_lacking s tm index q os ++ row_refused s tm index q os with
  | [] => exists vs, row_values s tm index q os vs /\
      ((exists ws, chained (s_and_thens s) vs ws /\ r = Ok ws) \/ (exists e, chain_fails (s_and_thens s) vs e /\ r = Err e))
  | x :: xs => r = Err (mkSyn x xs)
  end.
Proof.
  intros TS FI SR os q r. pose proof (body_rows s tm m sp0 false index inputs ys stop sp TS FI SR) as [_ X]. fold os q in X.
  assert (RB : r = after_and_thens (s_and_thens s) (fst (unnamed_body (s_fields tm s) tm (s_default s) false m sp0 index inputs))).
  { unfold r, s_body. rewrite (proj1 (proj2 TS)). unfold p_and_thens. now destruct (unnamed_body _ _ _ _ _ _ _ inputs). }
  rewrite RB. exact X.
Qed.
Lemma run_at_body (s : sdef V) tm m index p : run_at s tm m index p -> s_shape s = ShUnnamed -> exists sp0 prefix v, forall inputs, p inputs = s_body s tm m sp0 prefix v index inputs.
Proof.
  intros [m' NT|m' i|obj spans pn sp NT AB] SH.
  - exists SCall, "", false. intro inputs. unfold struct_dict, s_inline, struct_fu. rewrite NT, SH. reflexivity.
  - exists SCall, "", false. intro inputs. unfold struct_fu. rewrite SH. reflexivity.
  - exists sp, "", (negb (s_accepts_all s)). intro inputs. unfold struct_attr_body. rewrite NT.
    destruct AB as [p0 sp1 others|path others E|E]; cbn [first_span attr_path_name]; rewrite ?E; reflexivity.
Qed.
Lemma l_struct_row (s : sdef V) tm m index p inputs ys stop sp : run_at s tm m index p -> tuple_struct s -> fine_items s -> struct_read s inputs ys stop sp ->
  let os := row_given (s_raw s) ys in let q := reported_at m sp in
  match failures_of ys ++ stop ++ row_lacking s tm index q os ++ row_refused s tm index q os with
  | [] => exists vs, row_values s tm index q os vs /\
      ((exists ws, chained (s_and_thens s) vs ws /\ fst (p inputs) = Ok ws) \/ (exists e, chain_fails (s_and_thens s) vs e /\ fst (p inputs) = Err e))
  | x :: xs => fst (p inputs) = Err (mkSyn x xs)
  end.
Proof.
  intros R TS FI SR. destruct (run_at_body s tm m index p R (proj1 (proj2 TS))) as (sp0 & prefix & v & E). rewrite E. now apply body_row.
Qed.
Lemma eof_surplus : forall l, Forall used_up l \/ exists ins1 st ins2 t, l = ins1 ++ st :: ins2 /\ Forall used_up ins1 /\ left_over (toks st) t /\
  fst (each_eof l) = Err (mkSyn (mkErr (tok_span t) ("unexpected token `" ++ env_show t ++ "`")%string) []).
Proof.
  induction l as [|s l IH]; [auto|]. destruct (eof_left s) as [[U E]|[t [LO E]]].
  - assert (US : used_up s) by (destruct U as [U|[k [K U]]]; [now left|right; exists k; split; auto; now apply is_comma_spec]).
    destruct IH as [IH|(ins1 & st & ins2 & t & -> & A & B & C)]; [auto|]. right. exists (s :: ins1), st, ins2, t. split; [reflexivity|]. split; [auto|]. split; auto.
    cbn [each_eof]. destruct (parse_eof s) as [r s1]. cbn [fst] in E. subst r. destruct (each_eof _) as [r l1]. exact C.
  - right. exists [], s, l, t. split; [reflexivity|]. split; auto. split; auto. cbn [each_eof]. destruct (parse_eof s) as [r s1]. cbn [fst] in E. subst r. reflexivity.
Qed.
Lemma l_struct_reads (s : sdef V) inputs : tuple_struct s -> fine_items s ->
  (exists ys stop sp, struct_read s inputs ys stop sp) \/ exists t, too_much s inputs t.
Proof.
  intros TS FI. destruct (row_types (s_raw s)) as [|d ds] eqn:RT.
  - destruct (eof_surplus inputs) as [U|(ins1 & st & ins2 & t & E & A & B & C)].
    + left. exists [], [], SCall. now apply SR_none.
    + right. exists t. econstructor; eauto.
  - left. destruct (row_ex (row_types (s_raw s)) inputs) as (ys & stop & sp & R).
    { rewrite row_dicts. pose proof (raw_plain s TS FI) as PR. apply Forall_forall. intros d' I. apply In_nth_error in I as [c N].
      destruct (tlook_dicts _ PR 0 c d' N) as [ri Lk]. eapply tlook_fine; [exact PR|exact Lk]. }
    exists ys, stop, sp. apply SR_items; auto. congruence.
Qed.
Lemma left_over_fun ts t t' : left_over ts t -> left_over ts t' -> t = t'.
Proof.
  intros [r [[E N]|[k [K E]]]] [r' [[E' N']|[k' [K' E']]]]; subst; try congruence; injection E'; intros; subst; try congruence; contradiction.
Qed.
Lemma left_not_used (st : stream) t : left_over (toks st) t -> ~ used_up st.
Proof.
  intros [r [[E N]|[k [K E]]]] [U|[c [U C]]]; rewrite E in U; try discriminate. injection U as -> ->. apply N. now apply is_comma_spec.
Qed.
Lemma l_struct_surplus (s : sdef V) tm m index p inputs t : run_at s tm m index p -> tuple_struct s -> fine_items s -> too_much s inputs t ->
  fst (p inputs) = Err (mkSyn (mkErr (tok_span t) ("unexpected token `" ++ env_show t ++ "`")%string) []).
Proof.
  intros R TS FI [ins1 st ins2 t' RT E U LO]. destruct (run_at_body s tm m index p R (proj1 (proj2 TS))) as (sp0 & prefix & v & B). rewrite B.
  pose proof (raw_plain s TS FI) as PR. destruct (same_rows _ _ (fields_same s tm)) as [_ [SE _]]. rewrite row_dicts in RT.
  assert (EX : existsb is_parsable (s_raw s) = false).
  { destruct (existsb is_parsable (s_raw s)) eqn:X; auto. exfalso. apply existsb_exists in X as [f [I P]]. pose proof (dicts_len _ PR) as L. rewrite RT in L. cbn in L.
    assert (X : In f (filter is_parsable (s_raw s))) by (apply filter_In; auto). destruct (filter is_parsable (s_raw s)); [destruct X|discriminate]. }
  unfold s_body. rewrite (proj1 (proj2 TS)). unfold p_and_thens, unnamed_body. rewrite SE, EX.
  assert (X : fst (each_eof inputs) = Err (mkSyn (mkErr (tok_span t') ("unexpected token `" ++ env_show t' ++ "`")%string) [])).
  { destruct (eof_surplus inputs) as [A|(a & st2 & b & t2 & E2 & U2 & LO2 & X)].
    - exfalso. subst inputs. apply Forall_app in A as [_ A]. inversion A; subst. eapply left_not_used; eauto.
    - rewrite X. assert (Q : st = st2); [|subst st2; now rewrite (left_over_fun _ _ _ LO LO2)].
      rewrite E in E2. clear -U U2 LO LO2 E2. revert a E2 U2. induction U as [|x ins1 Ux U IH]; intros [|y a] E2 U2; cbn [app] in E2; injection E2; intros; subst; auto.
      + inversion U2; subst. exfalso. eapply (left_not_used y); eauto.
      + exfalso. eapply (left_not_used st2); eauto.
      + inversion U2; subst. eapply IH; eauto. }
  destruct (each_eof inputs) as [r0 l]. cbn [fst] in X. subst r0. cbn [fst]. destruct (s_and_thens s); reflexivity.
Qed.
End S.
