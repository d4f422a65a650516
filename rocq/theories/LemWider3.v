(** Proofs for PropsWider.v: types that read more *)
From Verif Require Import LemWf LemNamed LemSchema2 LemRun.
From Verif Require Export LemWider2.
Local Open Scope string_scope.
Local Open Scope list_scope.

Section L.
Context {env : Env} {V : Type}.
Notation sdef := (sdef V).

Lemma reads_refl {A} (d : dict A) : reads_more d d.
Proof. constructor; intros; auto; apply more_refl. Qed.
Lemma reads_trans {A} (d1 d2 d3 : dict A) : reads_more d1 d2 -> reads_more d2 d3 -> reads_more d1 d3.
Proof.
  intros [A1 A2 A3 A4 A5] [B1 B2 B3 B4 B5]. constructor; intros; auto.
  - intros x y z H. apply B1, A1, H.
  - intros x y z H. apply B2, A2, H.
  - intros x y z H. apply B4, A4, H.
Qed.
Lemma at_map {S A B} (f : A -> B) (p q : pm S A) : at_least p q -> at_least (pmap f p) (pmap f q).
Proof. intros H s b s'. unfold pmap. destruct (p s) as [[x|x|x] s1] eqn:E; try discriminate. now rewrite (H _ _ _ E). Qed.
Lemma r_map {A B} (f : A -> B) (r r' : res A) b : (forall a, r = Ok a -> r' = Ok a) -> rmap f r = Ok b -> rmap f r' = Ok b.
Proof. intro H. destruct r as [a|x|x]; try discriminate. now rewrite (H a eq_refl). Qed.
Lemma reads_map {A B} (f : A -> B) (d d' : dict A) : reads_more d d' -> reads_more (dict_map f d) (dict_map f d').
Proof. intros [A1 A2 A3 A4 A5]. constructor; cbn [dict_map d_item d_inline d_flag d_named d_missing]; intros; try now apply at_map.
  - eapply r_map; [|eassumption]. auto.
  - eapply r_map; [|eassumption]. auto.
Qed.
Lemma flat_reads_map {A B} (f : A -> B) (u u' : flat_named A) : flat_reads_more u u' -> flat_reads_more (fn_map f u) (fn_map f u').
Proof. intros [A1 A2 A3]. constructor; cbn [fn_map fn_names fn_accepts_all fn_parse]; auto. intros. now apply at_map. Qed.
Lemma tuple_reads_map {A B} (f : A -> B) (u u' : flat_unnamed A) : tuple_reads_more u u' -> tuple_reads_more (fu_map f u) (fu_map f u').
Proof. intros [A1 A2]. constructor; cbn [fu_map fu_count fu_parse]; auto. intros. now apply at_map. Qed.

(** *** Option, Box and the like, Vec *)
Lemma first_more {A} (f g : mode -> parser A) m : (forall n, at_least (f n) (g n)) -> at_least (parse_first m f) (parse_first m g).
Proof.
  intros H ins a ins'. unfold parse_first. destruct ins as [|s rest].
  - intro X. injection X as X <-. now rewrite (below_empty _ _ _ a (H m) X).
  - unfold pbind. destruct (f m s) as [[x|x|x] s1] eqn:E; try discriminate. now rewrite (H m _ _ _ E).
Qed.
Lemma flags_more {A} (item item' : mode -> parser A) flag flag' missing : (forall m, at_least (item m) (item' m)) -> (forall sp a, flag sp = Ok a -> flag' sp = Ok a) ->
  reads_more (dict_item_flag_missing item flag missing) (dict_item_flag_missing item' flag' missing).
Proof.
  intros H F. assert (I : forall m, at_least (def_inline item m) (def_inline item' m)) by (intro m; unfold def_inline; now apply first_more).
  constructor; cbn [dict_item_flag_missing d_item d_inline d_flag d_named d_missing]; auto. intros n sp. now apply below_def_named.
Qed.
Lemma l_more_option {A} (d d' : dict A) : reads_more d d' -> reads_more (option_dict d) (option_dict d').
Proof.
  intros [A1 A2 A3 A4 A5]. apply flags_more.
  - intros [sp|]; cbn [option_item]; [now apply at_map|]. intros s a s'. destruct (peek_kw "Some" s); [|auto]. unfold pbind. destruct (parse_kw "Some" s) as [[t|t|t] s1]; auto.
    apply at_map. exact (below_delimited Paren _ _ (below_single _ _ (A2 Unnamed))).
  - intros sp a. apply r_map. auto.
Qed.
Lemma l_more_wrapper {A} (d d' : dict A) : reads_more d d' -> reads_more (wrapper_dict d) (wrapper_dict d').
Proof. intros [A1 A2 A3 A4 A5]. apply flags_more; auto. Qed.
(** two loops over comma-separated items, as long as the first one reports nothing *)
Lemma comma_more {A} (f g : list A * errors -> stream -> res (list A * errors) * stream) :
  (forall q s q' s', f q s = (Ok q', s') -> snd q' = [] -> snd q = [] /\ g q s = (Ok q', s')) ->
  forall n q s q' s', comma_loop f n q s = (Ok q', s') -> snd q' = [] -> snd q = [] /\ comma_loop g n q s = (Ok q', s').
Proof.
  intros H. induction n as [|n IH]; intros q s q' s'; cbn [comma_loop]; [discriminate|]. destruct (is_empty s); [intros X E; injection X as <- <-; auto|].
  destruct (f q s) as [[q1|x|x] s1] eqn:F; try discriminate. pose proof (H _ _ _ _ F) as G. destruct (is_empty s1) eqn:E1.
  - intros X E. injection X as <- <-. destruct (G E) as [G1 G2]. split; auto. now rewrite G2, E1.
  - destruct (parse_comma s1) as [[t|t|t] s2] eqn:PC; try discriminate. intros X E. destruct (IH _ _ _ _ X E) as [I1 I2]. destruct (G I1) as [G1 G2]. split; auto. now rewrite G2, E1, PC.
Qed.
Lemma over_more {A} (f g : list A * errors -> stream -> res (list A * errors) * stream) :
  (forall q s q' s', f q s = (Ok q', s') -> snd q' = [] -> snd q = [] /\ g q s = (Ok q', s')) ->
  forall l q q' l', over_streams f q l = (Ok q', l') -> snd q' = [] -> snd q = [] /\ over_streams g q l = (Ok q', l').
Proof.
  intros H. induction l as [|s l IH]; intros q q' l'; cbn [over_streams]; [intros X E; injection X as <- <-; auto|].
  destruct (f q s) as [[q1|x|x] s1] eqn:F; try discriminate. destruct (over_streams f q1 l) as [r l1] eqn:O. intros X E. injection X as -> <-.
  destruct (IH _ _ _ O E) as [I1 I2]. destruct (H _ _ _ _ F I1) as [G1 G2]. split; auto. now rewrite G2, I2.
Qed.
Lemma vec_flat_more {A} (d d' : dict A) : reads_more d d' -> at_least (vec_flat d) (vec_flat d').
Proof.
  intros R l a l'. unfold vec_flat, finish. destruct (over_streams (comma_stream (vec_step d)) ([], []) l) as [[st|x|x] l1] eqn:O; try discriminate. cbn [rbind]. intro X. injection X as X <-.
  assert (E : snd st = []) by (destruct (snd st); [auto|discriminate]).
  eapply (over_more _ (comma_stream (vec_step d'))) in O as [_ O]; [| |exact E].
  - now rewrite O, <- X.
  - intros q s q' s'. unfold comma_stream. apply comma_more. clear - R. intros q s q' s'. unfold vec_step. destruct (d_item d Unnamed s) as [[x|x|x] s1] eqn:D; try discriminate; intros X E; injection X as <- <-; cbn [snd] in E.
    + split; auto. now rewrite (rm_item _ _ R _ _ _ _ D).
    + apply push_syn_nil in E. contradiction.
Qed.
Lemma l_more_vec {A} (d d' : dict A) : reads_more d d' -> reads_more (vec_dict d) (vec_dict d').
Proof.
  intros R. pose proof (vec_flat_more d d' R) as F. assert (I : at_least (parse_delimited_with Bracket (on_single (vec_flat d))) (parse_delimited_with Bracket (on_single (vec_flat d')))).
  { exact (below_delimited Bracket _ _ (below_single _ _ F)). }
  constructor; cbn [vec_dict dict_inline d_item d_inline d_flag d_named d_missing]; auto. intros n sp. apply below_def_named; auto.
Qed.
Lemma append_step {A} (d d' : dict A) ps : reads_more d d' -> forall k sp q s r q' s', vec_append_fn d ps k sp q s = (r, q', s') -> snd q' = [] ->
  snd q = [] /\ (not_bad r -> vec_append_fn d' ps k sp q s = (r, q', s')).
Proof.
  intros R k sp q s r q' s'. unfold vec_append_fn. destruct (mem_str k ps); [|intros H E; injection H as <- <- <-; auto].
  destruct (d_named d k sp s) as [[x|x|x] s1] eqn:D; intros H E; injection H as <- <- <-; cbn [snd] in E.
  - split; auto. now rewrite (rm_named _ _ R _ _ _ _ _ D).
  - apply push_syn_nil in E. contradiction.
  - split; auto. intros [].
Qed.
Lemma l_more_append {A} (d d' : dict A) ps : reads_more d d' -> at_least (vec_append d ps) (vec_append d' ps).
Proof.
  intros R l a l'. unfold vec_append.
  pose proof (struct_agree (fun q : list A * errors => snd q = []) (vec_append_fn d ps) (vec_append_fn d' ps)
    (fun k sp q s r q' s' H E => proj1 (append_step d d' ps R k sp q s r q' s' H E))
    (fun k sp q s r q' s' H E => proj2 (append_step d d' ps R k sp q s r q' s' H E)) l ([], [])) as X.
  destruct (parse_struct (vec_append_fn d ps) ([], []) l) as [[r st] l1]. cbn [fst snd] in X. destruct r as [t|x|x]; [| |discriminate].
  - destruct (snd st) eqn:E; [|discriminate]. intro H. rewrite X; auto; [|exact Logic.I]. now rewrite E.
  - unfold into_result. destruct (push_syn (snd st) x) eqn:E; [|discriminate]. apply push_syn_nil in E. contradiction.
Qed.
Section A.
Variable s : sdef.
Hypotheses (SH : s_shape s = ShNamed) (NT : s_is_transparent s = false).
Lemma al_fn m prefix v : at_least (fn_parse (struct_fn s) m prefix v) (fn_parse (struct_fn (allowing s)) m prefix false).
Proof.
  intros ins a ins'. cbn [fn_parse struct_fn]. unfold s_body. change (s_shape (allowing s)) with (s_shape s). rewrite SH.
  apply more_and_thens. intros x b x'. apply body_below.
Qed.
Lemma al_inline m : at_least (s_inline s m) (s_inline (allowing s) m).
Proof. unfold s_inline. change (s_shape (allowing s)) with (s_shape s). rewrite SH. apply al_fn. Qed.
Lemma l_more_allowing : reads_more (struct_dict s) (struct_dict (allowing s)).
Proof.
  unfold struct_dict. change (s_is_transparent (allowing s)) with (s_is_transparent s). change (s_shape (allowing s)) with (s_shape s). change (s_default (allowing s)) with (s_default s). rewrite SH, NT. cbv zeta.
  assert (IT : forall m, at_least (parse_delimited_with Brace (on_single (s_inline s m))) (parse_delimited_with Brace (on_single (s_inline (allowing s) m)))).
  { intro m. exact (below_delimited Brace _ _ (below_single _ _ (al_inline m))). }
  assert (F : forall sp a, parse_empty sp (on_single (s_inline s (Named sp))) = Ok a -> parse_empty sp (on_single (s_inline (allowing s) (Named sp))) = Ok a).
  { intros sp a. exact (below_empty sp _ _ a (below_single _ _ (al_inline (Named sp)))). }
  constructor; cbn [d_item d_inline d_flag d_named d_missing]; auto.
  - apply al_inline.
  - intros n sp. apply below_def_named; auto. apply al_inline.
Qed.
End A.
End L.
