(** Proofs for PropsWider.v: sets, maps, rest fields, arrays, tuples *)
From Verif Require Import LemWf LemNamed LemSchema2 LemRun.
From Verif Require Export LemWider3.
Local Open Scope string_scope.
Local Open Scope list_scope.

Section L.
Context {env : Env}.
Lemma push_not (es : errors) sp m : push es sp m = [] -> False.
Proof. unfold push. intro H. symmetry in H. apply app_cons_not_nil in H. exact H. Qed.
Lemma loop_more {A} (f g : list A * errors -> stream -> res (list A * errors) * stream) :
  (forall q s q' s', f q s = (Ok q', s') -> snd q' = [] -> snd q = [] /\ g q s = (Ok q', s')) ->
  at_least (fun ins => finish fst snd (over_streams (comma_stream f) ([], []) ins)) (fun ins => finish fst snd (over_streams (comma_stream g) ([], []) ins)).
Proof.
  intros H l a l'. unfold finish. destruct (over_streams (comma_stream f) ([], []) l) as [[st|x|x] l1] eqn:O; try discriminate. cbn [rbind]. intro X. injection X as X <-.
  assert (E : snd st = []) by (destruct (snd st); [auto|discriminate]).
  eapply (over_more _ (comma_stream g)) in O as [_ O]; [| |exact E].
  - now rewrite O, <- X.
  - intros q s q' s'. unfold comma_stream. apply comma_more, H.
Qed.
Lemma inline_more {A} d (f g : mparser A) : at_least f g ->
  reads_more (dict_inline (fun _ => parse_delimited_with d (on_single f)) (fun _ => f)) (dict_inline (fun _ => parse_delimited_with d (on_single g)) (fun _ => g)).
Proof.
  intro F. assert (I : at_least (parse_delimited_with d (on_single f)) (parse_delimited_with d (on_single g))).
  { exact (below_delimited d _ _ (below_single _ _ F)). }
  constructor; cbn [dict_inline d_item d_inline d_flag d_named d_missing]; auto. intros n sp. apply below_def_named; auto.
Qed.
Lemma fresh_more (b : bool) (es : errors) sp m : (if b then es else push es sp m) = [] -> es = [].
Proof. destruct b; auto. intro H. apply push_not in H. contradiction. Qed.
Lemma set_flat_more {A} eqb (d d' : dict A) : reads_more d d' -> at_least (set_flat eqb d) (set_flat eqb d').
Proof.
  intro R. apply loop_more. intros q s q' s'. unfold set_step. destruct (d_item d Unnamed s) as [[x|x|x] s1] eqn:D; try discriminate.
  - rewrite (rm_item _ _ R _ _ _ _ D). destruct (set_ins eqb x (fst q)) as [b l]. intros X E. injection X as <- <-. cbn [snd] in E. split; auto. now apply fresh_more in E.
  - intros X E. injection X as <- <-. cbn [snd] in E. apply push_syn_nil in E. contradiction.
Qed.
Lemma l_more_set {A} eqb (d d' : dict A) : reads_more d d' -> reads_more (set_dict eqb d) (set_dict eqb d').
Proof. intro R. apply inline_more, set_flat_more, R. Qed.
Lemma set_append_step {A} eqb (d d' : dict A) ps : reads_more d d' -> forall k sp q s r q' s', set_append_fn eqb d ps k sp q s = (r, q', s') -> snd q' = [] ->
  snd q = [] /\ (not_bad r -> set_append_fn eqb d' ps k sp q s = (r, q', s')).
Proof.
  intros R k sp q s r q' s'. unfold set_append_fn. destruct (mem_str k ps); [|intros H E; injection H as <- <- <-; auto].
  destruct (d_named d k sp s) as [[x|x|x] s1] eqn:D.
  - rewrite (rm_named _ _ R _ _ _ _ _ D). destruct (set_ins eqb x (fst q)) as [b l]. intros X E. injection X as <- <- <-. cbn [snd] in E. split; auto. now apply fresh_more in E.
  - intros X E. injection X as <- <- <-. cbn [snd] in E. apply push_syn_nil in E. contradiction.
  - intros X E. injection X as <- <- <-. split; auto. intros [].
Qed.
Lemma l_more_set_append {A} eqb (d d' : dict A) ps : reads_more d d' -> at_least (set_append eqb d ps) (set_append eqb d' ps).
Proof.
  intros R l a l'. unfold set_append.
  pose proof (struct_agree (fun q : list A * errors => snd q = []) (set_append_fn eqb d ps) (set_append_fn eqb d' ps)
    (fun k sp q s r q' s' H E => proj1 (set_append_step eqb d d' ps R k sp q s r q' s' H E))
    (fun k sp q s r q' s' H E => proj2 (set_append_step eqb d d' ps R k sp q s r q' s' H E)) l ([], [])) as X.
  destruct (parse_struct (set_append_fn eqb d ps) ([], []) l) as [[r st] l1]. cbn [fst snd] in X. destruct r as [t|x|x]; [|discriminate|discriminate].
  destruct (snd st) eqn:E; [|discriminate]. intro H. rewrite X; auto; [|exact Logic.I]. now rewrite E.
Qed.
Lemma l_more_map {K V} eqb kstr (dk dk' : dict K) (dv dv' : dict V) : reads_more dk dk' -> reads_more dv dv' ->
  reads_more (map_dict eqb kstr dk dv) (map_dict eqb kstr dk' dv').
Proof.
  intros RK RV. apply inline_more, loop_more. intros q s q' s'. unfold map_step. destruct (d_item dk Unnamed s) as [[k|x|x] s1] eqn:D; try discriminate.
  rewrite (rm_item _ _ RK _ _ _ _ D). destruct (d_named dv (kstr k) (in_span s) s1) as [[v|x|x] s2] eqn:N; try discriminate.
  - rewrite (rm_named _ _ RV _ _ _ _ _ N). destruct (map_ins eqb k v (fst q)) as [b l]. intros X E. injection X as <- <-. cbn [snd] in E. split; auto. now apply fresh_more in E.
  - intros X E. injection X as <- <-. cbn [snd] in E. apply push_syn_nil in E. contradiction.
Qed.
Lemma l_more_rest {K V} eqb kstr (dk dk' : dict K) (dv dv' : dict V) exclude : reads_more dk dk' -> reads_more dv dv' ->
  at_least (map_rest eqb kstr dk dv exclude) (map_rest eqb kstr dk' dv' exclude).
Proof.
  intros RK RV. apply loop_more. intros q s q' s'. unfold rest_step. destruct (d_item dk Unnamed s) as [[k|x|x] s1] eqn:D; try discriminate.
  rewrite (rm_item _ _ RK _ _ _ _ D). destruct (mem_str (kstr k) exclude); [intros X E; injection X as <- <-; auto|]. destruct (d_named dv (kstr k) (in_span s) s1) as [[v|x|x] s2] eqn:N; try discriminate.
  - rewrite (rm_named _ _ RV _ _ _ _ _ N). destruct (map_ins eqb k v (fst q)) as [b l]. intros X E. injection X as <- <-. cbn [snd] in E. split; auto. now apply fresh_more in E.
  - intros X E. injection X as <- <-. cbn [snd] in E. apply push_syn_nil in E. contradiction.
Qed.
Lemma arr_step {A} n (d d' : dict A) : reads_more d d' -> forall k q ins r q' ins', arr_fn n d k q ins = (r, q', ins') -> ar_errs q' = [] ->
  ar_errs q = [] /\ (not_bad r -> arr_fn n d' k q ins = (r, q', ins')).
Proof.
  intros R k q ins r q' ins'. unfold arr_fn. destruct ins as [|s rest]; [intros X E; injection X as <- <- <-; split; [exact E|intros []]|].
  destruct (d_item d Unnamed s) as [[x|x|x] s1] eqn:D.
  - rewrite (rm_item _ _ R _ _ _ _ D). intros X E. split; [|auto]. destruct (Nat.ltb (length (ar_vals q)) n); injection X as <- <- <-; exact E.
  - intros X E. injection X as <- <- <-. cbn [ar_errs] in E. apply push_syn_nil in E. contradiction.
  - intros X E. injection X as <- <- <-. split; [exact E|intros []].
Qed.
Lemma array_flat_more {A} n (d d' : dict A) i : reads_more d d' -> at_least (array_flat n d i) (array_flat n d' i).
Proof.
  intros R ins vs ins'. unfold array_flat, parse_tuple_struct. set (m := S _).
  pose proof (tuple_agree n (fun q : arr_st A => ar_errs q = []) (arr_fn n d) (arr_fn n d')
    (fun k q s r q' s' H E => proj1 (arr_step n d d' R k q s r q' s' H E))
    (fun k q s r q' s' H E => proj2 (arr_step n d d' R k q s r q' s' H E)) m 0 (LibColl.mkArr [] [] 0) ins) as T.
  destruct (tuple_loop n (arr_fn n d) m 0 (LibColl.mkArr [] [] 0) ins) as [[r st] ins1]. specialize (T _ _ _ eq_refl). destruct r as [x|x|x]; [| |discriminate]; cbv zeta; cbn [push_result]; intro H.
  - rewrite T; [exact H| |exact Logic.I]. injection H as H _. destruct (Nat.eqb (length (ar_vals st) + ar_failed st) n).
    + destruct (ar_errs st); [auto|discriminate].
    + destruct (push (ar_errs st) (inputs_span ins1) (arr_len_msg i n (length (ar_vals st) + ar_failed st))) eqn:P; [apply push_not in P; contradiction|discriminate].
  - exfalso. injection H as H _. destruct (Nat.eqb (length (ar_vals st) + ar_failed st) n).
    + destruct (push_syn (ar_errs st) x) eqn:P; [apply push_syn_nil in P; contradiction|discriminate].
    + match type of H with context [push ?a ?b ?c] => destruct (push a b c) eqn:P end; [apply push_not in P; contradiction|discriminate].
Qed.
Lemma l_more_array {A} n (d d' : dict A) : reads_more d d' -> reads_more (array_dict n d) (array_dict n d').
Proof. intro R. apply inline_more, array_flat_more, R. Qed.
Lemma tup_step {A} (ds ds' : list (dict A)) : Forall2 reads_more ds ds' -> forall k q ins r q' ins', tup_fn ds k q ins = (r, q', ins') -> snd q' = [] ->
  snd q = [] /\ (not_bad r -> tup_fn ds' k q ins = (r, q', ins')).
Proof.
  intros R k q ins r q' ins'. unfold tup_fn. destruct ins as [|s rest]; [intros X E; injection X as <- <- <-; split; [exact E|intros []]|].
  pose proof (forall2_nth _ _ _ R k) as N. destruct (nth_error ds k) as [d|]; [|intros X E; injection X as <- <- <-; split; [exact E|intros []]].
  destruct N as [d' [-> G]]. unfold fs_parse_unnamed. destruct (d_item d Unnamed s) as [[x|x|x] s1] eqn:D.
  - rewrite (rm_item _ _ G _ _ _ _ D). intros X E. split; [|auto]. injection X as <- <- <-. exact E.
  - intros X E. injection X as <- <- <-. cbn [snd] in E. apply push_syn_nil in E. contradiction.
  - intros X E. injection X as <- <- <-. split; [exact E|intros []].
Qed.
Lemma tuple_flat_more {A} (ds ds' : list (dict A)) : Forall2 reads_more ds ds' -> at_least (tuple_flat ds) (tuple_flat ds').
Proof.
  intros R ins vs ins'. unfold tuple_flat, parse_tuple_struct. cbv zeta.
  assert (L : length ds' = length ds) by (clear -R; induction R; cbn; auto). assert (M : map (fun _ => FNone) ds' = map (fun _ => @FNone A) ds) by (clear -R; induction R; cbn; congruence). rewrite L, M.
  set (m := S _).
  pose proof (tuple_agree (length ds) (fun q : list (fstatus A) * errors => snd q = []) (tup_fn ds) (tup_fn ds')
    (fun k q s r q' s' H E => proj1 (tup_step ds ds' R k q s r q' s' H E))
    (fun k q s r q' s' H E => proj2 (tup_step ds ds' R k q s r q' s' H E)) m 0 (map (fun _ => FNone) ds, []) ins) as T.
  destruct (tuple_loop (length ds) (tup_fn ds) m 0 (map (fun _ => FNone) ds, []) ins) as [[r [sl es]] ins1]. specialize (T _ _ _ eq_refl). cbn [fst snd] in *.
  assert (B : forall es' (o : list stream), match first_none 0 sl with Some i => (bail (push es' (inputs_span ins1) (tup_len_msg (length ds) i)), ins1) | None => (rbind (check es') (fun _ => unwrap_all sl), ins1) end = (Ok vs, o) -> es' = []).
  { intros es' o. destruct (first_none 0 sl) as [i|].
    - unfold bail. intro H. injection H as H _. destruct (push es' (inputs_span ins1) (tup_len_msg (length ds) i)); discriminate.
    - intro H. injection H as H _. destruct es'; [auto|discriminate]. }
  destruct r as [x|x|x]; [| |discriminate]; intro H.
  - rewrite T; [exact H|exact (B _ _ H)|exact Logic.I].
  - exfalso. apply B in H. cbn [push_result] in H. apply push_syn_nil in H. contradiction.
Qed.
Lemma l_more_tuple {A} (ds ds' : list (dict A)) : Forall2 reads_more ds ds' -> reads_more (tuple_dict ds) (tuple_dict ds').
Proof. intro R. apply inline_more, tuple_flat_more, R. Qed.
Lemma l_more_fus {A} eqb n (d d' : dict A) : reads_more d d' ->
  tuple_reads_more (vec_fu d) (vec_fu d') /\ tuple_reads_more (set_fu eqb d) (set_fu eqb d') /\ tuple_reads_more (array_fu n d) (array_fu n d').
Proof.
  intro R. split; [|split]; (constructor; [reflexivity|]); intros m i; cbn [vec_fu set_fu array_fu fu_parse].
  - now apply vec_flat_more.
  - now apply set_flat_more.
  - now apply array_flat_more.
Qed.
End L.
