(** The exact result of the items of tuple structs and of variants on any input. *)
From Verif Require Export SpecVItem LemRow LemEFlat LemVariant.
From Verif Require Import LemTight LemBare LemEnum5 LemNamed LemStruct LemStructP LemWf LemWfD LemWfE LemWalk LemSmall.
Local Open Scope string_scope.
Local Open Scope list_scope.

Section S.
Context {env : Env} {V : Type}.
Lemma left_not_blank ts t : left_over ts t -> ~ blank ts.
Proof.
  intros [r [[-> N]|[k [K ->]]]] [B|[c [C B]]]; try discriminate.
  injection B as -> ->. contradiction.
Qed.
Lemma used_blank (c : stream) : used_up c -> blank (toks c).
Proof. intros [U|[t [U C]]]; [now left|]. right. exists t. split; auto. now apply comma_tok_is. Qed.

(** *** tuple structs *)
(** what is left behind the items decides *)
Lemma row_last (s : sdef V) st c0 ys stop sp : tuple_struct s -> fine_items s -> struct_read s [st] ys stop sp -> failures_of ys = [] -> stop = [] ->
  read_end s [st] ys stop [c0] ->
  (blank (toks c0) -> forall t, ~ after_last s ys t) /\ (forall t, left_over (toks c0) t -> after_last s ys t) /\
  (forall t, after_last s ys t -> left_over (toks c0) t).
Proof.
  intros TS FI SR FY ST RE. destruct RE as [[NE [_ [SH LAST]]]|[NE US]].
  - rewrite row_dicts in NE. destruct (Nat.lt_ge_cases (length ys) (length (dicts (s_raw s)))) as [L|L].
    + specialize (SH L ST). inversion SH as [|? ? B _]; subst.
      assert (AN : forall t, ~ after_last s ys t).
      { intros t [ys' q x v t' E LE _ _]. rewrite row_dicts in LE. lia. }
      split; auto. split; [|intros t H; destruct (AN t H)]. intros t LO. exfalso; apply (left_not_blank _ _ LO). rewrite B. now left.
    + assert (LE : length ys = length (dicts (s_raw s))).
      { destruct SR as [ys stop sp NE' RD|sp NE' _]; [|rewrite row_dicts in NE'; contradiction]. destruct (row_pos _ _ _ _ _ RD) as [xs [_ LY]]. rewrite row_dicts in LY. lia. }
      assert (Q : forall q x, In (q, x) ys -> exists d, fine d /\ q = d_item d Unnamed).
      { intros q x I. destruct SR as [ys stop sp NE' RD|]; [|destruct I]. destruct (row_pos _ _ _ _ _ RD) as [xs [EY _]]. rewrite EY in I.
        unfold positions in I. apply in_combine_l in I. apply in_map_iff in I as [d [<- I]]. exists d. split; auto. rewrite row_dicts in I. apply In_nth_error in I as [c N].
        destruct (tlook_dicts _ (raw_plain s TS FI) 0 c d N) as [ri Lk]. eapply tlook_fine; [exact (raw_plain s TS FI)|exact Lk]. }
      destruct ys as [|[q x] ys' _] using rev_ind; [exfalso; apply NE; now destruct (dicts (s_raw s))|].
      assert (VX : exists v, fst (q (at_elem x)) = Ok v).
      { rewrite failures_app in FY. apply app_eq_nil in FY as [_ FY]. rewrite failures_one in FY.
        destruct (Q q x) as [d [F ->]]; [apply in_or_app; right; now left|]. pose proof (proj1 (gd_item d (fi_good d F) Unnamed (at_elem x))) as G.
        destruct (fst (d_item d Unnamed (at_elem x))) as [v|e|b]; [eauto| |destruct G]. now apply errs_of_ne in FY. }
      destruct VX as [v VX]. destruct (LAST ys' q x v st eq_refl LE VX eq_refl) as [s1 [E1 T1]]. injection E1 as <-.
      assert (K : forall t, after_last s (ys' ++ [(q, x)]) t -> left_over (toks c0) t).
      { intros t [ys2 q2 x2 v2 t2 E2 _ _ LO]. apply app_inj_tail in E2 as [_ E2]. injection E2 as <- <-. now rewrite T1. }
      split; [|split; auto].
      * intros B t H. exact (left_not_blank _ _ (K t H) B).
      * intros t LO. econstructor; eauto; [now rewrite row_dicts|]. now rewrite <- T1.
  - inversion US as [|? ? U _]; subst. assert (AN : forall t, ~ after_last s ys t).
    { intros t [ys' q x v t' E LE _ _]. rewrite NE, E, app_length in LE. cbn in LE. lia. }
    split; auto. split; [|intros t H; destruct (AN t H)]. intros t LO. exfalso; apply (left_not_blank _ _ LO). now apply used_blank.
Qed.
Lemma row_values_same (s : sdef V) tm index sp os vs vs' : row_values s tm index sp os vs -> row_values s tm index sp os vs' -> vs = vs'.
Proof.
  intros [L A] [L' A'].
  assert (K : forall (l : list V) l', length l = length l' -> (forall i v v', nth_error l i = Some v -> nth_error l' i = Some v' -> v = v') -> l = l').
  { clear. induction l as [|x l IH]; intros [|y l'] H X; try discriminate; auto. f_equal; [apply (X 0); reflexivity|]. apply IH; [now injection H|]. intros i. apply (X (S i)). }
  apply K; [congruence|]. intros i v v' N N'.
  destruct (nth_error (s_raw s) i) as [f|] eqn:F.
  2: { apply nth_error_None in F. assert (i < length vs) by (apply nth_error_Some; congruence). lia. }
  specialize (A i f v F N). specialize (A' i f v' F N'). destruct (row_base s tm index sp os i f) as [[w|e|b]|]; try contradiction.
  - eapply transformed_fun; eauto.
  - destruct A as [t [T T1]], A' as [t' [T' T1']]. congruence.
Qed.
Lemma chained_after {A} (gs : list (A -> A + synerr)) v w : chained gs v w -> after_and_thens gs (Ok v) = Ok w.
Proof.
  intro C. destruct (chain_result gs v) as [[w' [C' E]]|[x [F E]]]; rewrite E; clear E.
  - f_equal. revert w' C'. induction C; intros w' C'; inversion C'; subst; auto. assert (u0 = u) by congruence. subst. eauto.
  - exfalso. revert w C. induction F; intros w C; inversion C; subst; [congruence|]. assert (u0 = u) by congruence. subst. eauto.
Qed.
Lemma row_content_iff (s : sdef V) tm m sp0 variant index st (p : mparser (list V)) r : tuple_struct s -> fine_items s -> well_behaved_m p ->
  (forall inputs, p inputs = (after_and_thens (s_and_thens s) (fst (unnamed_body (s_fields tm s) tm (s_default s) variant m sp0 index inputs)),
                              snd (unnamed_body (s_fields tm s) tm (s_default s) variant m sp0 index inputs))) ->
  content_result (on_single p) st r -> forall r', row_content s tm m index st r' <-> r' = r.
Proof.
  intros TS FI WB PE CR.
  assert (ONE : exists c, snd (p [st]) = [c]).
  { pose proof (proj2 (WB [st])) as F. inversion F as [|? c ? l _ F2]; subst. inversion F2; subst. eauto. }
  destruct ONE as [c0 SC].
  assert (OS : on_single p st = (fst (p [st]), c0)).
  { unfold on_single. destruct (p [st]) as [r0 l]. cbn [fst snd] in *. now subst l. }
  assert (ER : forall e, fst (p [st]) = Err e -> r = Err e).
  { intros e H. rewrite H in OS. destruct CR as [v c X|v c t X|e' c X|b c X]; congruence. }
  assert (OKR : forall ws, fst (p [st]) = Ok ws -> (r = Ok ws /\ blank (toks c0)) \/ exists t, r = Err (unexpected t) /\ left_over (toks c0) t).
  { intros ws PO. rewrite PO in OS. destruct CR as [v c X B|v c t X LO|e' c X|b c X]; rewrite OS in X; inversion X; subst; [left; split; [reflexivity|exact B]|right; exists t; split; [reflexivity|exact LO]]. }
  assert (SUR : forall t, too_much s [st] t -> r = Err (unexpected t)).
  { intros t TM. apply ER. rewrite PE. cbn [fst]. unfold unnamed_body. destruct TM as [ins1 st' ins2 t NE EI U LO].
    rewrite (proj1 (proj2 (same_rows _ _ (fields_same s tm)))).
    pose proof (raw_plain s TS FI) as PR. rewrite row_dicts in NE.
    assert (EX : existsb is_parsable (s_raw s) = false).
    { destruct (existsb is_parsable (s_raw s)) eqn:E; auto. exfalso. apply existsb_exists in E as [f [I P]]. pose proof (dicts_len _ PR) as L. rewrite NE in L. cbn in L.
      assert (X : In f (filter is_parsable (s_raw s))) by (apply filter_In; auto). destruct (filter is_parsable (s_raw s)); [destruct X|discriminate]. }
    rewrite EX. destruct ins1 as [|i1 ins1]; [|destruct ins1; discriminate EI]. cbn [app] in EI. injection EI as <- <-. cbn [each_eof].
    destruct (eof_left st) as [[B _]|[t' [LO' F]]]; [exfalso; exact (left_not_blank _ _ LO B)|].
    assert (t' = t) by (eapply left_over_fun; eauto).
    subst t'. destruct (parse_eof st) as [r0 s1]. cbn [fst] in F. subst r0. cbn [fst]. destruct (s_and_thens s); reflexivity. }
  assert (RD : forall ys stop sp, struct_read s [st] ys stop sp -> read_end s [st] ys stop [c0] /\
    match row_errors s tm m index ys stop sp with
    | [] => failures_of ys = [] /\ stop = [] /\ exists vs, row_values s tm index (reported_at m sp) (row_given (s_raw s) ys) vs /\
      ((exists ws, chained (s_and_thens s) vs ws /\ fst (p [st]) = Ok ws) \/ (exists e, chain_fails (s_and_thens s) vs e /\ fst (p [st]) = Err e))
    | x :: xs => fst (p [st]) = Err (mkSyn x xs) end).
  { intros ys stop sp SR. pose proof (body_rows s tm m sp0 variant index [st] ys stop sp TS FI SR) as X. cbv zeta in X. destruct X as [RE X].
    fold (row_errors s tm m index ys stop sp) in X.
    assert (FP : fst (p [st]) = after_and_thens (s_and_thens s) (fst (unnamed_body (s_fields tm s) tm (s_default s) variant m sp0 index [st]))) by (rewrite PE; reflexivity).
    assert (SP : snd (p [st]) = snd (unnamed_body (s_fields tm s) tm (s_default s) variant m sp0 index [st])) by (rewrite PE; reflexivity).
    rewrite <- FP in X. rewrite <- SP, SC in RE. split; auto. destruct (row_errors s tm m index ys stop sp) eqn:RR; auto.
    unfold row_errors in RR. apply app_eq_nil in RR as [A RR]. apply app_eq_nil in RR as [B _]. auto. }
  intro r'. split.
  - intro RC. destruct RC as [ys stop sp x xs SR RR|ys stop sp vs e SR RR RV CF|ys stop sp vs ws t SR RR RV CH AL|ys stop sp vs ws SR RR RV CH AL|t TM].
    5: { symmetry. auto. }
    all: destruct (RD ys stop sp SR) as [RE X]; rewrite RR in X.
    + symmetry. auto.
    + destruct X as (_ & _ & vs' & RV' & X). rewrite (row_values_same _ _ _ _ _ _ _ RV' RV) in X. symmetry. apply ER.
      apply chain_both in CF. destruct X as [[ws [C E]]|[e' [C E]]]; [apply chained_after in C|apply chain_both in C]; congruence.
    + destruct X as (FY & ST & vs' & RV' & X). rewrite (row_values_same _ _ _ _ _ _ _ RV' RV) in X. apply chained_after in CH.
      assert (PO : fst (p [st]) = Ok ws) by (destruct X as [[ws' [C E]]|[e' [C E]]]; [apply chained_after in C|apply chain_both in C]; congruence).
      destruct (row_last s st c0 ys stop sp TS FI SR FY ST RE) as [_ [_ K]]. specialize (K t AL).
      destruct (OKR ws PO) as [[-> B]|[t' [-> LO]]]; [exfalso; exact (left_not_blank _ _ K B)|]. now rewrite (left_over_fun _ _ _ K LO).
    + destruct X as (FY & ST & vs' & RV' & X). rewrite (row_values_same _ _ _ _ _ _ _ RV' RV) in X. apply chained_after in CH.
      assert (PO : fst (p [st]) = Ok ws) by (destruct X as [[ws' [C E]]|[e' [C E]]]; [apply chained_after in C|apply chain_both in C]; congruence).
      destruct (row_last s st c0 ys stop sp TS FI SR FY ST RE) as [_ [K _]].
      destruct (OKR ws PO) as [[-> B]|[t' [-> LO]]]; auto. exfalso. exact (AL t' (K t' LO)).
  - intros ->. destruct (l_struct_reads s [st] TS FI) as [(ys & stop & sp & SR)|[t TM]]; [|rewrite (SUR t TM); now apply RC_surplus].
    destruct (RD ys stop sp SR) as [RE X]. destruct (row_errors s tm m index ys stop sp) as [|x xs] eqn:RR; [|rewrite (ER _ X); eapply RC_errors; eauto].
    destruct X as (FY & ST & vs & RV & [[ws [CH PO]]|[e [CF PO]]]); [|rewrite (ER _ PO); eapply RC_refused; eauto].
    destruct (row_last s st c0 ys stop sp TS FI SR FY ST RE) as [K1 [K2 _]].
    destruct (OKR ws PO) as [[-> B]|[t [-> LO]]]; [eapply RC_values; eauto|eapply RC_left; eauto].
Qed.
Lemma l_row_item (s : sdef V) m st ts gsp rest : tuple_struct s -> fine_items s -> s_is_transparent s = false -> toks st = TGroup Paren ts gsp :: rest ->
  (forall r, row_content s TMeta m 0 (mkStream ts (SClose gsp) (cell st)) r <-> r = fst (d_item (struct_dict s) m st)) /\ toks (snd (d_item (struct_dict s) m st)) = rest.
Proof.
  intros TS FI NT E. assert (SH : s_shape s = ShUnnamed) by apply TS.
  destruct (l_content Paren _ (struct_dict s) m st ts gsp rest) as [CR T]; auto.
  { apply HC_unnamed; auto. congruence. }
  split; auto. refine (row_content_iff s TMeta m SCall false 0 _ (d_inline (struct_dict s) m) _ TS FI _ _ CR).
  - apply (gd_inline _ (good_struct_dict s (proj1 TS))).
  - intro inputs. unfold struct_dict, s_inline. rewrite NT, SH. unfold struct_fu. rewrite ?SH. cbn [d_inline fu_parse]. unfold s_body. rewrite SH. unfold p_and_thens.
    now destruct (unnamed_body _ _ _ _ _ _ _ inputs).
Qed.

(** *** variants *)
Lemma variant_fields_named (v : vdef V) tm prefix check sp inputs : accepted_variant tm v -> v_shape v = ShNamed ->
  Forall local_field (v_raw v) -> Forall keeps_field (v_raw v) ->
  fields_result v tm prefix check sp inputs (fst (named_body (v_fields v) tm None (v_unknown_ok v) (v_allowed v) sp prefix check inputs)).
Proof.
  intros AV SH LF KF. set (w := mkVariant (v_ident v) (v_names v) (v_shape v) (v_raw v) true false (v_skip v) (v_unknown_ok v)).
  change (fields_result w tm prefix check sp inputs (fst (named_body (v_fields w) tm None (v_unknown_ok w) (v_allowed w) sp prefix check inputs))).
  apply fields_result_body; auto. destruct AV as [A [B _]]. split; [exact A|]. split; [exact B|]. split; [auto|discriminate].
Qed.
Lemma content_whole (p : mparser (list V)) st r : well_behaved_m p ->
  (forall x, fst (p [st]) = Ok x -> Forall used_up (snd (p [st]))) -> content_result (on_single p) st r -> r = fst (p [st]).
Proof.
  intros WB U CR. unfold on_single in CR. pose proof (proj1 (WB [st])) as RT. pose proof (proj2 (WB [st])) as F.
  destruct CR as [x c X B|x c t X LO|e c X|b c X]; destruct (p [st]) as [r0 l]; cbn [fst snd] in *; injection X as -> E; auto.
  exfalso. specialize (U x eq_refl). inversion F as [|? c0 ? l0 _ F2]; subst. inversion F2; subst. cbn [hd] in *. inversion U as [|? ? U1 _]; subst.
  exact (left_not_blank _ _ LO (used_blank _ U1)).
Qed.
Lemma named_used tm (v : vdef V) prefix sp m st x : plain_variant tm v -> v_shape v = ShNamed -> Forall local_field (v_raw v) ->
  fst (v_inline v tm prefix sp m [st]) = Ok x -> Forall used_up (snd (v_inline v tm prefix sp m [st])).
Proof.
  intros PV SH LF H. assert (NS : named_struct (as_struct v)).
  { split; [eapply as_struct_accepted; eauto|]. split; auto. discriminate. }
  destruct (struct_returns (as_struct v) tm prefix true sp NS) as [A [B [D E]]]. cbn [as_struct s_default] in D, E.
  assert (FE : s_fields tm (as_struct v) = v_fields v) by (apply as_struct_fields, PV).
  assert (NF : existsb pflat (v_fields v) = false) by (rewrite <- FE, flat_fields_same; exact (as_struct_flat tm v PV)).
  assert (NM : s_names (as_struct v) = v_allowed v) by (rewrite v_allowed_names; reflexivity).
  set (R := struct_reader (as_struct v) tm prefix true) in *.
  assert (BODY : v_inline v tm prefix sp m = named_body (r_fields R) tm None (v_unknown_ok v) (r_allowed R) sp (r_prefix R) (negb (v_unknown_ok v))).
  { unfold v_inline. rewrite SH, (plain_accepts_all tm v PV). cbn [R r_fields r_allowed r_prefix struct_reader]. now rewrite FE, NM. }
  assert (CH : r_check R = negb (v_unknown_ok v) && negb (v_unknown_ok v)) by (cbn; now destruct (v_unknown_ok v)).
  assert (NF' : existsb pflat (r_fields R) = false) by (cbn [R r_fields struct_reader]; now rewrite FE).
  rewrite BODY in *. rewrite named_rest by auto. apply blank_ends. apply parse_struct_empties.
  pose proof (named_body_exact _ (v_unknown_ok v) (negb (v_unknown_ok v)) tm None sp [st] A B D CH) as X. cbv zeta in X. rewrite NF' in X.
  rewrite (parse_struct_walk _ (upd_named R) (eat_named R) (closure_walk _ _ _ A CH) (eat_named_adv _ A)). cbn [fst].
  destruct (walks (eat_named R) [st]) as [[l stop] ins1]. cbn [fst snd] in *.
  destruct stop as [e|]; auto. exfalso. rewrite H in X. unfold all_errors in X. unfold errs_of in X.
  destruct (entries_errors R [] l); cbn [app] in X; discriminate.
Qed.
Lemma variant_content_of tm (v : vdef V) prefix sp m st r : known_variant tm v ->
  content_result (on_single (v_inline v tm prefix sp m)) st r -> variant_content v tm prefix sp m st r.
Proof.
  intros [PV KV] CR. pose proof (v_inline_good tm v prefix sp m (proj1 PV)) as WB. destruct (v_shape v) eqn:SH.
  - destruct KV as [LF KF]. apply content_whole in CR; auto; [|intros x; now apply (named_used tm v prefix sp m st x)]. subst r.
    apply VC_named; auto. unfold v_inline. rewrite SH. rewrite (plain_accepts_all tm v PV).
    pose proof (variant_fields_named v tm prefix (negb (v_unknown_ok v)) sp [st] (proj1 PV) SH LF KF) as X.
    assert (RE : struct_reader (variant_struct v) tm prefix (negb (v_unknown_ok v)) = struct_reader (variant_struct v) tm prefix true).
    { unfold struct_reader. cbn [variant_struct s_unknown_ok]. f_equal. now destruct (v_unknown_ok v). }
    unfold fields_result in *. cbv zeta in *. rewrite RE in X. exact X.
  - apply VC_tuple; auto. assert (TS : tuple_struct (as_struct v)).
    { split; [eapply as_struct_accepted; eauto|]. split; auto. split; [eapply as_struct_flat; eauto|discriminate]. }
    refine (proj2 (row_content_iff (as_struct v) tm m sp true 0 st (v_inline v tm prefix sp m) r TS KV WB _ CR r) eq_refl).
    intro inputs. unfold v_inline. rewrite SH, (as_struct_fields tm v (proj1 PV)). cbn [as_struct s_and_thens s_default after_and_thens].
    now destruct (unnamed_body _ _ _ _ _ _ _ inputs).
  - assert (E : on_single (v_inline v tm prefix sp m) st = (Ok [], st)).
    { unfold on_single, v_inline. rewrite SH. reflexivity. }
    destruct CR as [x c X B|x c t X LO|e c X|b c X]; rewrite E in X; inversion X; subst; [apply VC_unit|apply VC_unit_left]; auto.
Qed.

Lemma nothing_content tm (v : vdef V) prefix sp m : known_variant tm v ->
  exists r, variant_content v tm prefix sp m (mkStream [] SCall None) r /\ parse_empty sp (on_single (v_inline v tm prefix sp m)) = at_name sp r.
Proof.
  intro KV. pose proof (inline_empty tm v prefix sp m (root_stream []) (proj1 KV) eq_refl) as X.
  exists (fst (v_inline v tm prefix sp m [root_stream []])).
  assert (OS : on_single (v_inline v tm prefix sp m) (root_stream []) = (fst (v_inline v tm prefix sp m [root_stream []]), root_stream [])).
  { unfold on_single. destruct (v_inline v tm prefix sp m [root_stream []]) as [r l]. cbn [fst snd] in *. now subst l. }
  split.
  - apply variant_content_of; auto. change (mkStream [] SCall None) with (root_stream []).
    destruct (fst (v_inline v tm prefix sp m [root_stream []])) as [x|e|b].
    + eapply CR_value; eauto; now left.
    + eapply CR_error; eauto.
    + eapply CR_bad; eauto.
  - unfold parse_empty, parse2. rewrite OS. cbn [root_stream cell toks].
    now destruct (fst (v_inline v tm prefix sp m [root_stream []])) as [x|[]|b].
Qed.
Lemma l_variant_any tm (v : vdef V) prefix ksp s : known_variant tm v ->
  variant_item v tm prefix ksp s (fst (v_named v tm prefix ksp s)).
Proof.
  intro KV. pose proof (proj1 KV) as PV.
  assert (CASES : (exists j esp rest, toks s = TPunct "=" j esp :: rest) \/ (exists ts gsp rest, toks s = TGroup Paren ts gsp :: rest) \/ name_only (toks s)).
  { destruct (toks s) as [|[n x|ch j x|l x|[] l x] ts]; cbn [name_only]; eauto 6.
    destruct (Ascii.ascii_dec ch "="%char) as [->|N]; eauto 6. }
  destruct CASES as [(j & esp & rest & E)|[(ts & gsp & rest & E)|N]].
  - unfold v_named. rewrite (named_eq_case _ _ _ _ _ _ _ _ _ _ E). unfold v_item. fold (variant_delim v).
    assert (C : (exists ts gsp rest', rest = TGroup (variant_delim v) ts gsp :: rest') \/ (forall ts gsp rest', rest <> TGroup (variant_delim v) ts gsp :: rest')).
    { destruct rest as [|[| | |dl ts gsp] rest]; try (right; discriminate).
      assert (DE : {dl = variant_delim v} + {dl <> variant_delim v}) by decide equality. destruct DE as [->|NE]; eauto 6. right. intros ? ? ? H. injection H as -> _. contradiction. }
    destruct C as [(ts & gsp & rest' & ->)|C].
    + eapply VI_equals; eauto. apply variant_content_of; auto.
      exact (proj1 (delimited_content (variant_delim v) _ (mkStream (TGroup (variant_delim v) ts gsp :: rest') (scope s) (cell s)) ts gsp rest' eq_refl)).
    + assert (G : fst (parse_delimited_with (variant_delim v) (on_single (v_inline v tm prefix ksp (Named ksp))) (mkStream rest (scope s) (cell s))) =
        Err (mkSyn (not_a_group (variant_delim v) (mkStream rest (scope s) (cell s))) [])).
      { unfold parse_delimited_with, with_group, not_a_group, error_at, err1. cbn [toks scope]. destruct rest as [|[ | | |d' ts gsp] rest]; try (destruct (variant_delim v); reflexivity).
        destruct (delim_eqb (variant_delim v) d') eqn:Q; [|destruct (variant_delim v); reflexivity]. exfalso.
        assert (QE : variant_delim v = d') by (destruct (variant_delim v), d'; try discriminate; reflexivity). exact (C ts gsp rest (f_equal (fun d => TGroup d ts gsp :: rest) (eq_sym QE))). }
      rewrite G. now apply (VI_no_group v tm prefix ksp s j esp rest).
  - eapply VI_parens; eauto. apply variant_content_of; auto. exact (proj1 (l_parens _ _ _ _ _ _ _ _ _ E)).
  - assert (E : fst (v_named v tm prefix ksp s) = v_flag v tm prefix ksp).
    { unfold v_named. rewrite named_flag_case; auto; intros; intro Q; rewrite Q in N; cbn in N; congruence. }
    rewrite E. unfold v_flag. destruct (v_shape v) eqn:SH.
    + destruct (nothing_content tm v prefix ksp (Named ksp) KV) as [r [C ->]]. now apply VI_name.
    + destruct (allows_empty None (v_fields v)) eqn:AE.
      * destruct (nothing_content tm v prefix ksp Unnamed KV) as [r [C ->]]. apply VI_name_tuple; auto. now apply (allows_default tm v PV).
      * apply VI_name_refused; auto. rewrite <- (allows_default tm v PV). congruence.
    + now apply VI_name_unit.
Qed.
End S.
