(** Proofs for PropsWider.v: Punctuated and the types of core/with.rs *)
From Verif Require Import LemWf LemNamed LemSchema2 LemRun.
From Verif Require Export LemWider5 With.
Local Open Scope string_scope.
Local Open Scope list_scope.

Section L.
Context {env : Env}.
Lemma punct_more {A} pc (d d' : dict A) : reads_more d d' -> forall n q s q' s', punct_loop pc d n q s = (Ok q', s') -> snd q' = [] ->
  snd q = [] /\ punct_loop pc d' n q s = (Ok q', s').
Proof.
  intro R. induction n as [|n IH]; intros q s q' s'; cbn [punct_loop]; [discriminate|]. destruct (is_empty s); [intros X E; injection X as <- <-; auto|].
  destruct (d_item d Unnamed s) as [[x|x|x] s1] eqn:D; [| |discriminate].
  - rewrite (rm_item _ _ R _ _ _ _ D). cbv zeta. destruct (is_empty s1); [intros X E; destruct (IH _ _ _ _ X E); auto|]. destruct (parse_punct [pc] (String pc "") s1) as [[t|t|t] s2]; [|intros X E|discriminate].
    + intros X E. injection X as <- <-. auto.
    + destruct (IH _ _ _ _ X E) as [I _]. cbn [snd] in I. apply push_syn_nil in I. contradiction.
  - intros X E. destruct (IH _ _ _ _ X E) as [I _]. cbn [snd] in I. apply push_syn_nil in I. contradiction.
Qed.
Lemma l_more_punctuated {A} pc (d d' : dict A) : reads_more d d' -> reads_more (punctuated_dict pc d) (punctuated_dict pc d').
Proof.
  intro R. apply inline_more. intros l a l'. unfold punctuated_flat, finish.
  destruct (over_streams (fun st s => punct_loop pc d (S (S (length (toks s)))) st s) ([], []) l) as [[st|x|x] l1] eqn:O; try discriminate. cbn [rbind]. intro X. injection X as X <-.
  assert (E : snd st = []) by (destruct (snd st); [auto|discriminate]).
  eapply (over_more _ (fun st s => punct_loop pc d' (S (S (length (toks s)))) st s)) in O as [_ O]; [| |exact E].
  - now rewrite O, <- X.
  - intros q s q' s'. now apply punct_more.
Qed.
Lemma items_more {A} (item item' : mode -> parser A) flag flag' missing missing' : (forall m, at_least (item m) (item' m)) -> (forall sp a, flag sp = Ok a -> flag' sp = Ok a) ->
  (forall n sp a, missing n sp = Ok a -> missing' n sp = Ok a) ->
  reads_more (mkDict item (def_inline item) flag (def_named item (def_inline item) flag) missing) (mkDict item' (def_inline item') flag' (def_named item' (def_inline item') flag') missing').
Proof.
  intros H F M. assert (I : forall m, at_least (def_inline item m) (def_inline item' m)) by (intro m; unfold def_inline; now apply first_more).
  constructor; cbn [d_item d_inline d_flag d_named d_missing]; auto. intros n sp. now apply below_def_named.
Qed.
Lemma quoted_more {A} (d d' : dict A) m : reads_more d d' -> at_least (quoted_item d m) (quoted_item d' m).
Proof.
  intros R s a s'. unfold quoted_item, pbind. destruct (parse_lit_str s) as [[l|x|x] s1]; auto. destruct (env_lex (fst l)) as [ts|msg]; auto.
  unfold parse2. destruct (d_item d m (root_stream ts)) as [[x|x|x] c] eqn:D; [|discriminate|discriminate]. now rewrite (rm_item _ _ R _ _ _ _ D).
Qed.
Lemma l_more_quoted {A} (d d' : dict A) : reads_more d d' -> reads_more (quoted_dict d) (quoted_dict d') /\ reads_more (maybe_quoted_dict d) (maybe_quoted_dict d').
Proof.
  intro R. split; apply items_more; try apply R; intro m; [now apply quoted_more|]. intros s a s'. unfold maybe_quoted_item. destruct (peek_lit sel_str s); [now apply quoted_more|apply R].
Qed.
Lemma l_more_identity {A} (d d' : dict A) : reads_more d d' -> reads_more (identity_dict d) (identity_dict d').
Proof. intros [A1 A2 A3 A4 A5]. constructor; cbn [identity_dict d_item d_inline d_flag d_named d_missing]; auto. intros n sp. now apply below_def_named. Qed.
Lemma inner_more {A} (d d' : dict A) : reads_more d d' -> reads_more (inner_dict d) (inner_dict d').
Proof. intro R. apply items_more; auto. apply R. Qed.
(** a dictionary with another flag and missing method *)
Lemma again_more {A} (o o' : dict A) flag missing : reads_more o o' ->
  reads_more (mkDict (d_item o) (d_inline o) flag (def_named (d_item o) (d_inline o) flag) missing) (mkDict (d_item o') (d_inline o') flag (def_named (d_item o') (d_inline o') flag) missing).
Proof. intros [A1 A2 A3 A4 A5]. constructor; cbn [d_item d_inline d_flag d_named d_missing]; auto. intros n sp. now apply below_def_named. Qed.
Lemma l_more_with {A K V} eqb kstr (d d' : dict A) (dk dk' : dict K) (dv dv' : dict V) : reads_more d d' -> reads_more dk dk' -> reads_more dv dv' ->
  reads_more (with_optional_dict d) (with_optional_dict d') /\ reads_more (with_vec_dict d) (with_vec_dict d') /\
  (forall ps, at_least (with_vec_append d ps) (with_vec_append d' ps)) /\
  reads_more (with_map_dict eqb kstr dk dv) (with_map_dict eqb kstr dk' dv') /\
  (forall exclude, at_least (with_map_rest eqb kstr dk dv exclude) (with_map_rest eqb kstr dk' dv' exclude)).
Proof.
  intros R RK RV. apply inner_more in R, RK, RV. split; [apply again_more, l_more_option, R|]. split; [apply again_more, l_more_vec, R|]. split; [intro ps; apply l_more_append, R|].
  split; [apply again_more, l_more_map; auto|]. intro ex. apply l_more_rest; auto.
Qed.
End L.
