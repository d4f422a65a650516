(** What a bare name means *)
From Verif Require Export SpecBare LemMore2 LemStop.
Local Open Scope string_scope.
Local Open Scope list_scope.

Section L.
Context {env : Env}.

Lemma of_nothing_is {A} (p : parser A) sp r : of_nothing p sp r <-> parse_empty sp p = r.
Proof.
  unfold parse_empty. split.
  - intros [x E|w t m E|b E]; rewrite E; reflexivity.
  - intros <-. destruct (parse2 p []) as [x|[[w t] m]|b] eqn:E; [now constructor|eapply ON_error; eauto|now constructor].
Qed.
Lemma all_optional_is {V} (fs : list (field V)) :
  all_optional fs <-> forallb (fun f => is_flat f || match f_default f with Some _ => true | None => false end) (filter is_parsable fs) = true.
Proof.
  rewrite forallb_forall. split.
  - intros H f I. apply filter_In in I as [I P]. destruct (H f I P) as [F|D]; [now rewrite F|]. apply orb_true_iff. right.
    destruct (f_default f); congruence.
  - intros H f I P. specialize (H f (proj2 (filter_In _ _ _) (conj I P))). apply orb_true_iff in H as [H|H]; [now left|right].
    intro Z. rewrite Z in H. discriminate.
Qed.
Lemma tuple_optional_is {V} (s : sdef V) : tuple_optional s <-> allows_empty (s_default s) (s_fields_meta s) = true.
Proof.
  unfold tuple_optional, allows_empty. rewrite orb_true_iff, <- all_optional_is. unfold has_target.
  destruct (s_default s); split; intros [H|H]; auto; try congruence; left; congruence.
Qed.
Lemma needs_flag A (d : dict A) sp : needs_value A d -> d_flag d sp = Err (no_value sp).
Proof.
  intro H. destruct H as [| | | | | | | | | | | | | | | | | | | | |V s T S NO]; try reflexivity. unfold struct_dict. rewrite T, S. cbn [d_flag].
  destruct (allows_empty (s_default s) (s_fields_meta s)) eqn:Q; [|reflexivity]. now apply tuple_optional_is in Q.
Qed.
Lemma flag_struct {V} (s : sdef V) sp : s_is_transparent s = false ->
  d_flag (struct_dict s) sp =
  match s_shape s with
  | ShNamed => parse_empty sp (on_single (d_inline (struct_dict s) (Named sp)))
  | ShUnnamed => if allows_empty (s_default s) (s_fields_meta s)
                 then parse_empty sp (on_single (d_inline (struct_dict s) Unnamed)) else Err (no_value sp)
  | ShUnit => after_and_thens (s_and_thens s) (Ok [])
  end.
Proof.
  intro T. unfold struct_dict. rewrite T. cbn [d_flag d_inline].
  destruct (s_shape s); try reflexivity. destruct (allows_empty _ _); reflexivity.
Qed.
Lemma flag_inner {V} (s : sdef V) j d sp : transparent_struct s -> inner_field s j d ->
  match d_flag d sp with
  | Ok x => exists ws, built s TMeta j x ws /\ d_flag (struct_dict s) sp = after_and_thens (s_and_thens s) (Ok ws) /\
      forall ws', built s TMeta j x ws' -> ws' = ws
  | Err e => d_flag (struct_dict s) sp = Err e
  | Bad b => d_flag (struct_dict s) sp = Bad b
  end.
Proof.
  intros TS IF. destruct (inner_is s j d TS IF) as [SI _]. assert (TT : s_is_transparent s = true) by apply TS.
  unfold struct_dict. rewrite TT, SI. cbn [d_flag]. unfold s_transparent_with, p_and_thens, pbind.
  destruct (d_flag d sp) as [x|e|b]; cbn [fst].
  - destruct (post_built s TMeta j d x TS IF) as [B [w W]]. exists w. split; [now apply B|]. split; [now rewrite W|].
    intros ws' H. apply B in H. congruence.
  - apply after_and_thens_err.
  - unfold after_and_thens. destruct (s_and_thens s); reflexivity.
Qed.
Lemma chain_both {A} (gs : list (A -> A + synerr)) v e : chain_fails gs v e -> after_and_thens gs (Ok v) = Err e.
Proof.
  intro F. destruct (chain_result gs v) as [[w [C E]]|[x [C E]]]; rewrite E; clear E.
  - exfalso. revert w C. induction F; intros w C; inversion C; subst; [congruence|]. assert (u0 = u) by congruence. subst. eauto.
  - f_equal. revert x C. induction F; intros x C; inversion C; subst; try congruence. assert (u0 = u) by congruence. subst. eauto.
Qed.
Lemma l_bare_sound A (d : dict A) sp own r : bare A d sp own r -> d_flag d sp = r.
Proof.
  intro H. induction H; try reflexivity; try (now apply needs_flag);
    try (cbn [d_flag option_dict wrapper_dict spanned_dict quoted_dict maybe_quoted_dict identity_dict dict_map dict_item_flag dict_item_flag_missing]; now rewrite IHbare).
  - now apply of_nothing_is.
  - now apply of_nothing_is.
  - rewrite flag_struct by assumption. rewrite H0. now apply of_nothing_is.
  - rewrite flag_struct by assumption. rewrite H0. apply tuple_optional_is in H1. rewrite H1. now apply of_nothing_is.
  - now apply of_nothing_is in H.
  - rewrite flag_struct by assumption. rewrite H0. apply after_and_thens_ok. eauto.
  - rewrite flag_struct by assumption. rewrite H0. now apply chain_both.
  - pose proof (flag_inner s j d sp H H0) as F. rewrite IHbare in F. exact F.
  - pose proof (flag_inner s j d sp H H0) as F. rewrite IHbare in F. exact F.
  - pose proof (flag_inner s j d sp H H0) as F. rewrite IHbare in F. destruct F as [w [_ [-> U]]]. rewrite <- (U ws H2). apply after_and_thens_ok. eauto.
  - pose proof (flag_inner s j d sp H H0) as F. rewrite IHbare in F. destruct F as [w [_ [-> U]]]. rewrite <- (U ws H2).
    now apply chain_both.
Qed.
Lemma l_bare_total A (d : dict A) sp : has_answer A d -> exists own r, bare A d sp own r.
Proof.
  intro H. induction H;
    try (destruct IHhas_answer as [own [r BB]]; do 2 eexists; first
      [eapply Ba_option; exact BB|eapply Ba_wrapper; exact BB|eapply Ba_spanned; exact BB|eapply Ba_quoted; exact BB
      |eapply Ba_maybe_quoted; exact BB|eapply Ba_identity; exact BB|eapply Ba_convert; exact BB]);
    try (do 2 eexists; first [eapply Ba_refused; assumption|apply Ba_bool|apply Ba_unit|apply Ba_tokens|apply Ba_flag
      |apply Ba_from_str|apply Ba_with_optional|apply Ba_with_vec|apply Ba_with_map
      |eapply Ba_syn; apply of_nothing_is; reflexivity|eapply Ba_syn_quoted; apply of_nothing_is; reflexivity
      |eapply Ba_enum; apply of_nothing_is; reflexivity]; fail).
  - destruct (s_shape s) eqn:S.
    + do 2 eexists. eapply Ba_struct; auto. apply of_nothing_is. reflexivity.
    + destruct (allows_empty (s_default s) (s_fields_meta s)) eqn:Q.
      * do 2 eexists. eapply Ba_tuple; auto; [now apply tuple_optional_is|]. apply of_nothing_is. reflexivity.
      * do 2 eexists. eapply Ba_refused. constructor; auto. rewrite tuple_optional_is. congruence.
    + destruct (chain_result (s_and_thens s) []) as [[w [C E]]|[x [C E]]]; do 2 eexists; [eapply Ba_no_fields|eapply Ba_no_fields_fails]; eauto.
  - destruct IHhas_answer as [own [r B]]. pose proof (l_bare_sound _ _ _ _ _ B) as E. pose proof (flag_inner s j d sp H H0) as F. rewrite E in F.
    destruct r as [x|e|b].
    + destruct F as [ws [BU _]]. destruct (chain_result (s_and_thens s) ws) as [[w [C _]]|[y [C _]]]; do 2 eexists; [eapply Ba_inner|eapply Ba_inner_fails]; eauto.
    + do 2 eexists. eapply Ba_inner_error; eauto.
    + do 2 eexists. eapply Ba_inner_bad; eauto.
Qed.
Lemma l_bare_any A (d : dict A) sp : has_answer A d -> exists own, bare A d sp own (d_flag d sp).
Proof. intro H. destruct (l_bare_total A d sp H) as [own [r B]]. exists own. now rewrite (l_bare_sound _ _ _ _ _ B). Qed.
Lemma l_bare_at A (d : dict A) sp e : bare A d sp true (Err e) -> e_span (se_hd e) = sp.
Proof.
  intro H. remember true as own eqn:O. remember (Err e) as r eqn:R. revert e R.
  induction H; intros e' R; subst; try discriminate;
    try (match goal with H : rmap _ ?r = Err _ |- _ => destruct r as [?|?|?]; try discriminate H; injection H as <- end; now apply IHbare);
    try (now apply IHbare); try (match goal with H : of_nothing _ _ _ |- _ => inversion H; reflexivity end).
  - injection R as <-. reflexivity.
  - injection R as <-. now apply IHbare.
Qed.

(** variants *)
Lemma l_bare_variant {V} (v : vdef V) tm prefix sp s r : name_only (toks s) ->
  v_named v tm prefix sp s = (r, s) <-> bare_variant v tm prefix sp r.
Proof.
  intro N.
  assert (E : v_named v tm prefix sp s = (v_flag v tm prefix sp, s)).
  { unfold v_named, parse_named_with, peek_eq, peek_punct, peek_group. destruct s as [ts sc c]. cbn [toks] in *.
    destruct ts as [|[n x|ch j x|l x|[] l x] ts]; try reflexivity; [|destruct N]. cbn [name_only] in N. cbn [punct_rest].
    change eq_c with "="%char. destruct (Ascii.eqb_spec "="%char ch); [congruence|]. reflexivity. }
  rewrite E. clear E. unfold v_flag. split.
  - intro H. injection H as <-. destruct (v_shape v) eqn:S.
    + apply Bv_named; auto. apply of_nothing_is. reflexivity.
    + unfold allows_empty. cbn [has_target orb]. destruct (forallb _ _) eqn:Q.
      * apply Bv_tuple; [auto|now apply all_optional_is|]. apply of_nothing_is. reflexivity.
      * apply Bv_refused; auto. rewrite all_optional_is. congruence.
    + now apply Bv_unit.
  - intro B. f_equal. destruct B as [S|r S O|r S AO O|S AO]; rewrite S; auto.
    + now apply of_nothing_is.
    + unfold allows_empty. cbn [has_target orb]. apply all_optional_is in AO. rewrite AO. now apply of_nothing_is.
    + unfold allows_empty. cbn [has_target orb]. destruct (forallb _ _) eqn:Q; [|reflexivity]. now apply all_optional_is in Q.
Qed.
Lemma l_bare_spelled A (d : dict A) n sp s : regular A d -> name_only (toks s) -> d_named d n sp s = (d_flag d sp, s).
Proof.
  intros R N.
  assert (X : forall B (item : mode -> parser B) inline flag, def_named item inline flag n sp s = (flag sp, s)).
  { intros B item inline flag. unfold def_named, parse_named_with, peek_eq, peek_punct, peek_group. destruct s as [ts sc c]. cbn [toks] in *.
    destruct ts as [|[nn x|ch j x|l x|[] l x] ts]; try reflexivity; [|destruct N]. cbn [name_only] in N. cbn [punct_rest].
    change eq_c with "="%char. destruct (Ascii.eqb_spec "="%char ch); [congruence|]. reflexivity. }
  induction R; try (apply X).
  - cbn [dict_map d_named d_flag]. unfold pmap. rewrite IHR. reflexivity.
  - unfold struct_dict. destruct (s_is_transparent s0); [destruct (s_inner s0)|]; apply X.
Qed.
End L.
