(** Proofs for PropsWider.v: replacing the type of a field by one that accepts more *)
From Verif Require Import LemWf LemWfD LemWfE LemNamed LemSchema2 LemEnum2 LemEnum5 LemRun.
From Verif Require Export SpecWider LemAllow2.
Local Open Scope string_scope.
Local Open Scope list_scope.

Section L.
Context {env : Env} {V : Type}.
Notation edef := (edef V).
Notation vdef := (vdef V).
Notation sdef := (sdef V).
Notation slots := (list (fstatus V)).

Lemma more_refl {S A} (p : S -> res A * S) : at_least p p. Proof. intros s a s' H. exact H. Qed.
Lemma more_bind {S A B} (p q : pm S A) (k : A -> pm S B) : at_least p q -> at_least (pbind p k) (pbind q k).
Proof. intros H s a s'. unfold pbind. destruct (p s) as [[x|x|x] s1] eqn:E; try discriminate. now rewrite (H _ _ _ E). Qed.
Lemma more_and_thens {S A} (fs : list (A -> A + synerr)) (p q : pm S A) : at_least p q -> at_least (p_and_thens fs p) (p_and_thens fs q).
Proof.
  intros H s a s'. unfold p_and_thens. destruct (p s) as [[x|x|x] s1] eqn:E.
  - now rewrite (H _ _ _ E).
  - unfold after_and_thens. destruct fs; discriminate.
  - unfold after_and_thens. destruct fs; discriminate.
Qed.

(** *** Fields *)
Lemma fm_parsable (f f' : field V) : field_more f f' -> is_parsable f' = is_parsable f.
Proof. intros H. unfold is_parsable. now rewrite (fl_container _ _ H), (fl_skip _ _ H). Qed.
Lemma fm_flat (f f' : field V) : field_more f f' -> is_flat f' = is_flat f.
Proof. intros H. pose proof (fl_kind _ _ H) as K. unfold is_flat. destruct (f_kind f), (f_kind f'); cbn in K; tauto. Qed.
Lemma fm_pflat (f f' : field V) : field_more f f' -> pflat f' = pflat f.
Proof. intros H. unfold pflat. now rewrite (fm_parsable _ _ H), (fm_flat _ _ H). Qed.
Lemma fm_pitem (f f' : field V) : field_more f f' -> pitem f' = pitem f.
Proof. intros H. unfold pitem. now rewrite (fm_parsable _ _ H), (fm_flat _ _ H). Qed.
Lemma fm_skip_default (f f' : field V) : field_more f f' -> field_more (skip_default f) (skip_default f').
Proof.
  intros H. unfold skip_default. rewrite (fl_default _ _ H), (fl_skip _ _ H). destruct (f_default f) eqn:D; auto. destruct (f_skip f) eqn:S; auto.
  destruct H. constructor; cbn; auto; congruence.
Qed.
Lemma fm_container_default (f f' : field V) : field_more f f' -> field_more (container_default f) (container_default f').
Proof.
  intros H. unfold container_default. rewrite (fl_default _ _ H), (fl_container _ _ H). destruct (f_default f) eqn:D; auto. destruct (f_container f) eqn:S; auto.
  destruct H. constructor; cbn; auto; congruence.
Qed.
Lemma forall2_map {A B} (R : A -> A -> Prop) (Q : B -> B -> Prop) g l l' : (forall x y, R x y -> Q (g x) (g y)) -> Forall2 R l l' -> Forall2 Q (map g l) (map g l').
Proof. intros H. induction 1; constructor; auto. Qed.

Section F.
Variables (fs fs' : list (field V)).
Hypothesis (FM : Forall2 field_more fs fs').
Lemma fm_existsb (p : field V -> bool) : (forall f f', field_more f f' -> p f' = p f) -> existsb p fs' = existsb p fs.
Proof. intro H. induction FM; cbn; auto. now rewrite (H _ _ H0), IHf. Qed.
Lemma fm_flat_map {B} (p : field V -> list B) : (forall f f', field_more f f' -> p f' = p f) -> flat_map p fs' = flat_map p fs.
Proof. intro H. induction FM; cbn; auto. now rewrite (H _ _ H0), IHf. Qed.
Lemma fm_map {B} (p : field V -> B) : (forall f f', field_more f f' -> p f' = p f) -> map p fs' = map p fs.
Proof. intro H. induction FM; cbn; auto. now rewrite (H _ _ H0), IHf. Qed.
Lemma fm_init : init_slots fs' = init_slots fs.
Proof. apply fm_map. auto. Qed.
End F.
Lemma fm_key_names (f f' : field V) : field_more f f' -> field_key_names f' = field_key_names f.
Proof.
  intros H. pose proof (fl_kind _ _ H) as K. pose proof (fl_names _ _ H) as N. unfold field_key_names. destruct (f_kind f), (f_kind f'); cbn in K; try contradiction; auto.
  destruct K as [-> K]. now rewrite (fm_names _ _ K).
Qed.
Lemma fm_fields_names (fs fs' : list (field V)) : Forall2 field_more fs fs' -> fields_names fs' = fields_names fs.
Proof. intro H. apply fm_flat_map; auto. intros f f' F. now rewrite (fm_parsable _ _ F), (fm_key_names _ _ F). Qed.
Lemma fm_fields_all (fs fs' : list (field V)) : Forall2 field_more fs fs' -> fields_accepts_all fs' = fields_accepts_all fs.
Proof.
  intro H. unfold fields_accepts_all. rewrite (fm_existsb fs fs' H is_rest), (fm_existsb fs fs' H (fun f => match f_kind f with KFlatN _ u => fn_accepts_all u | _ => false end)); auto.
  - intros f f' F. pose proof (fl_kind _ _ F) as K. destruct (f_kind f), (f_kind f'); cbn in K; try contradiction; auto. apply K.
  - intros f f' F. pose proof (fl_kind _ _ F) as K. unfold is_rest. destruct (f_kind f), (f_kind f'); cbn in K; tauto.
Qed.
Lemma fm_find k : forall fs fs' : list (field V), Forall2 field_more fs fs' -> forall i, match find_field k fs i with
  | Some (j, g) => exists g', find_field k fs' i = Some (j, g') /\ field_more g g'
  | None => find_field k fs' i = None
  end.
Proof.
  induction 1 as [|g g' l l' G H IH]; intro i; cbn [find_field]; auto. rewrite (fm_pitem _ _ G), (fl_names _ _ G).
  destruct (pitem g && mem_str k (f_names g)); [eauto|apply IH].
Qed.
Lemma fm_item_named (f f' : field V) n sp : field_more f f' -> at_least (item_named f n sp) (item_named f' n sp).
Proof.
  intros H. pose proof (fl_kind _ _ H) as K. unfold item_named. destruct (f_kind f), (f_kind f'); cbn in K; try contradiction; try (intros ? ? ?; discriminate). apply K.
Qed.
Lemma fm_closure (fs fs' : list (field V)) : Forall2 field_more fs fs' -> forall u al prefix v k sp q s r q' s',
  named_closure fs u al prefix v k sp q s = (r, q', s') -> snd q' = [] ->
  snd q = [] /\ (not_bad r -> named_closure fs' u al prefix v k sp q s = (r, q', s')).
Proof.
  intros FM u al prefix v k sp [sl es] s r q' s'. unfold named_closure.
  assert (O : forall y, (Ok tt, (sl, if negb u && v then check_unknown k sp al es else es), y) = (r, q', s') -> snd q' = [] ->
    es = [] /\ (not_bad r -> (Ok tt, (sl, if negb u && v then check_unknown k sp al es else es), y) = (r, q', s'))).
  { intros y H E. split; auto. injection H as <- <- <-. cbn [snd] in E. destruct (negb u && v); [|exact E]. eapply grows_nil; [apply (check_unknown_grows k sp al)|exact E]. }
  destruct (strip_prefix prefix k) as [n|]; [|apply O]. pose proof (fm_find n fs fs' FM 0) as F.
  destruct (find_field n fs 0) as [[i f]|]; [destruct F as [g [-> G]]|rewrite F; apply O].
  assert (FN : first_name g = first_name f) by (unfold first_name; now rewrite (fl_names _ _ G)). rewrite FN.
  pose proof (fm_item_named f g (first_name f) sp G) as IN. unfold fs_parse_named. cbv zeta. intros H E. cbn [snd].
  destruct (item_named f (first_name f) sp s) as [[a|e|b] s1] eqn:EI.
  - rewrite (IN _ _ _ EI). split; [|auto]. injection H as <- <- <-. cbn [snd] in E. destruct (fs_is_none (nth i sl FNone)); auto. apply push_nil in E; contradiction.
  - exfalso. injection H as <- <- <-. cbn [snd] in E. apply push_syn_nil in E; contradiction.
  - injection H as <- <- <-. cbn [snd] in E. split; auto. intros [].
Qed.
Lemma fm_flat_call (f f' : field V) prefix sp al : field_more f f' -> at_least (flat_call f prefix sp al) (flat_call f' prefix sp al).
Proof.
  intros H. pose proof (fl_kind _ _ H) as K. unfold flat_call. rewrite (fl_names _ _ H). destruct (f_kind f), (f_kind f'); cbn in K; try contradiction; try (intros ? ? ?; discriminate); try apply K.
  destruct K as [-> K]. apply (fm_parse _ _ K).
Qed.
Lemma fm_flat_fields prefix sp al : forall fs fs' : list (field V), Forall2 field_more fs fs' -> forall (sl : slots) es ins sl' ins',
  flat_fields prefix sp al fs sl es ins = (Ok (sl', []), ins') -> flat_fields prefix sp al fs' sl es ins = (Ok (sl', []), ins').
Proof.
  induction 1 as [|f f' l l' G H IH]; intros sl es ins sl' ins'; auto. cbn [flat_fields]. destruct sl as [|st sl]; auto.
  rewrite (fm_pflat _ _ G), (fm_existsb l l' H pflat) by apply fm_pflat. destruct (pflat f).
  - set (i0 := if negb (existsb pflat l) then ins else fork_inputs ins). pose proof (fm_flat_call f f' prefix sp al G i0) as FC.
    destruct (flat_call f prefix sp al i0) as [[v|e|b] ins1]; [| |discriminate].
    + rewrite (FC _ _ eq_refl). destruct (flat_fields prefix sp al l sl es _) as [[[sl2 es2]|x|x] ins3] eqn:E; try discriminate. intro X. injection X as <- -> <-. now rewrite (IH _ _ _ _ _ E).
    + destruct (flat_fields prefix sp al l sl (push_syn es e) _) as [[[sl2 es2]|x|x] ins3] eqn:E; try discriminate. intro X. injection X as _ -> _. exfalso.
      apply flat_fields_grow in E. apply grows_nil in E; [|reflexivity]. apply push_syn_nil in E. contradiction.
  - destruct (flat_fields prefix sp al l sl es _) as [[[sl2 es2]|x|x] ins3] eqn:E; try discriminate. intro X. injection X as <- -> <-. now rewrite (IH _ _ _ _ _ E).
Qed.
Lemma fm_containers tm : forall fs fs' : list (field V), Forall2 field_more fs fs' -> forall sl : slots, set_containers tm fs' sl = set_containers tm fs sl.
Proof.
  destruct tm as [|p obj]; [destruct 1; auto|]. induction 1 as [|f f' l l' G H IH]; intros [|st sl]; cbn [set_containers]; auto. now rewrite IH, (fl_container _ _ G).
Qed.
Lemma fm_wants vt (f f' : field V) : field_more f f' -> wants_error vt f' = wants_error vt f.
Proof. intros H. unfold wants_error. now rewrite (fl_container _ _ H), (fl_default _ _ H). Qed.
Lemma fm_missing tm vt prefix sp : forall fs fs' : list (field V), Forall2 field_more fs fs' -> forall (sl : slots) es sl2,
  named_missing tm vt prefix sp fs sl es = Ok (sl2, []) -> named_missing tm vt prefix sp fs' sl es = Ok (sl2, []).
Proof.
  induction 1 as [|f f' l l' G H IH]; intros sl es sl2; auto. cbn [named_missing]. destruct sl as [|st sl]; auto.
  assert (N : forall st' es0, match named_missing tm vt prefix sp l sl es0 with Ok (sl2, es2) => Ok (st' :: sl2, es2) | Err e => Err e | Bad z => Bad z end = Ok (sl2, []) ->
    match named_missing tm vt prefix sp l' sl es0 with Ok (sl2, es2) => Ok (st' :: sl2, es2) | Err e => Err e | Bad z => Bad z end = Ok (sl2, [])).
  { intros st' es0. destruct (named_missing tm vt prefix sp l sl es0) as [[sl1 es1]|x|x] eqn:E; try discriminate. intro X. injection X as <- ->. now rewrite (IH _ _ _ E). }
  pose proof (fl_kind _ _ G) as K. rewrite (fm_wants _ _ _ G). destruct (f_kind f), (f_kind f'); cbn in K; try contradiction; try apply N.
  destruct (wants_error vt f && fs_is_none st); [|apply N].
  assert (MN : missing_name_named tm prefix f' = missing_name_named tm prefix f) by (unfold missing_name_named; now rewrite (fl_ident _ _ G)). rewrite MN.
  destruct (d_missing d _ sp) as [v|e|z] eqn:E; [rewrite (rm_missing _ _ K _ _ _ E); apply N| |discriminate].
  intro X. exfalso. destruct (named_missing tm vt prefix sp l sl (push_syn es e)) as [[sl1 es1]|y|y] eqn:M; try discriminate. injection X as _ ->.
  apply named_missing_grow in M. apply grows_nil in M; [|reflexivity]. apply push_syn_nil in M. contradiction.
Qed.
Lemma fm_sets : forall fs fs' : list (field V), Forall2 field_more fs fs' -> forall (sl : slots) es, field_sets fs' sl es = field_sets fs sl es.
Proof.
  induction 1 as [|f f' l l' G H IH]; intros [|st sl] es; cbn [field_sets]; auto. unfold set_field. rewrite (fl_default _ _ G), (fl_transforms _ _ G).
  destruct (run_transforms _ _ _) as [st1 es1]. now rewrite IH.
Qed.
Lemma fm_finish target (fs fs' : list (field V)) (sl : slots) es : Forall2 field_more fs fs' -> post_finish target fs' sl es = post_finish target fs sl es.
Proof. intro H. unfold post_finish. now rewrite (fm_sets fs fs' H). Qed.
Lemma finish_clean target (fs : list (field V)) (sl : slots) es vs : post_finish target fs sl es = Ok vs -> es = [].
Proof.
  unfold post_finish. pose proof (field_sets_grow fs sl es) as G. destruct (field_sets fs sl es) as [sl1 es1]. cbn [snd] in G.
  destruct es1; [|discriminate]. intros _. eapply grows_nil; eauto.
Qed.
Lemma fm_body (fs fs' : list (field V)) tm target u al sp prefix v : Forall2 field_more fs fs' ->
  at_least (named_body fs tm target u al sp prefix v) (named_body fs' tm target u al sp prefix v).
Proof.
  intros FM ins vs ins'. unfold named_body. rewrite (fm_existsb fs fs' FM pflat) by apply fm_pflat. rewrite (fm_init fs fs' FM).
  set (src := if existsb pflat fs then fork_inputs ins else ins).
  pose proof (struct_agree (fun q : slots * errors => snd q = []) (named_closure fs u al prefix v) (named_closure fs' u al prefix v)
    (fun k sp q s r q' s' H E => proj1 (fm_closure fs fs' FM u al prefix v k sp q s r q' s' H E))
    (fun k sp q s r q' s' H E => proj2 (fm_closure fs fs' FM u al prefix v k sp q s r q' s' H E)) src (init_slots fs, [])) as A.
  destruct (parse_struct (named_closure fs u al prefix v) (init_slots fs, []) src) as [[r [sl1 es1]] src1]. cbn [fst snd] in A.
  destruct r as [t|x|x]; [| |discriminate]; intro H; pose proof (named_post_clean _ _ _ _ _ _ _ _ _ _ _ H) as N.
  - rewrite A; [|exact N|exact Logic.I]. revert H. unfold named_post.
    destruct (flat_fields prefix sp al fs sl1 _ _) as [[[sl2 es2]|x|x] ins1] eqn:F; try discriminate.
    destruct (named_missing tm (has_target target) prefix sp fs (set_containers tm fs sl2) es2) as [[sl3 es3]|x|x] eqn:M; try discriminate.
    cbn [rbind]. intro H. assert (es3 = []) as -> by (injection H as H _; eapply finish_clean; eauto).
    assert (es2 = []) as -> by (apply named_missing_grow in M; eapply grows_nil; eauto).
    rewrite (fm_flat_fields prefix sp al fs fs' FM _ _ _ _ _ F), (fm_containers tm fs fs' FM), (fm_missing tm _ prefix sp fs fs' FM _ _ _ M).
    cbn [rbind]. now rewrite (fm_finish target fs fs' _ _ FM).
  - apply push_syn_nil in N. contradiction.
Qed.

(** *** Tuples *)
Section PT.
Context {St : Type} (len : nat) (Q : St -> Prop) (f g : nat -> St -> list stream -> res unit * St * list stream).
Hypothesis FB : forall k q s r q' s', f k q s = (r, q', s') -> Q q' -> Q q.
Hypothesis FG : forall k q s r q' s', f k q s = (r, q', s') -> Q q' -> not_bad r -> g k q s = (r, q', s').
Lemma tuple_inv : forall n k st ins r st' ins', tuple_loop len f n k st ins = (r, st', ins') -> Q st' -> Q st.
Proof.
  induction n as [|n IH]; intros k st ins r st' ins'; cbn [tuple_loop]; [intro H; injection H as <- <- <-; auto|].
  destruct ins as [|s rest]; [intro H; injection H as <- <- <-; auto|]. destruct (is_empty s).
  - destruct (tuple_loop len f n k st rest) as [[r0 st1] rest1] eqn:E. intro H. injection H as <- <- <-. eauto.
  - destruct (Nat.leb len k); [intro H; injection H as <- <- <-; auto|]. destruct (f k st (s :: rest)) as [[[t|e|b] st1] ins1] eqn:E.
    + intros H X. eapply FB; [exact E|]. revert H X. destruct ins1 as [|s1 rest1]; [intro H; injection H as <- <- <-; auto|].
      destruct (negb (is_empty s1) && Nat.ltb (S k) len); [|eauto]. destruct (parse_comma s1) as [[t2|e|b] s2]; eauto; intro H; injection H as <- <- <-; auto.
    + intro H. injection H as <- <- <-. eauto.
    + intro H. injection H as <- <- <-. eauto.
Qed.
Lemma tuple_agree : forall n k st ins r st' ins', tuple_loop len f n k st ins = (r, st', ins') -> Q st' -> not_bad r -> tuple_loop len g n k st ins = (r, st', ins').
Proof.
  induction n as [|n IH]; intros k st ins r st' ins'; cbn [tuple_loop]; [auto|].
  destruct ins as [|s rest]; [auto|]. destruct (is_empty s).
  - destruct (tuple_loop len f n k st rest) as [[r0 st1] rest1] eqn:E. intros H X N. injection H as <- <- <-. now rewrite (IH _ _ _ _ _ _ E X N).
  - destruct (Nat.leb len k); [auto|]. destruct (f k st (s :: rest)) as [[[t|e|b] st1] ins1] eqn:E.
    + intros H X N. assert (Q1 : Q st1).
      { revert H X. destruct ins1 as [|s1 rest1]; [intro H; injection H as <- <- <-; auto|].
        destruct (negb (is_empty s1) && Nat.ltb (S k) len); [|intros; eapply tuple_inv; eauto]. destruct (parse_comma s1) as [[t2|e|b] s2]; [intros; eapply tuple_inv; eauto| |]; intro H; injection H as <- <- <-; auto. }
      rewrite (FG _ _ _ _ _ _ E Q1 Logic.I). revert H. destruct ins1 as [|s1 rest1]; auto. destruct (negb (is_empty s1) && Nat.ltb (S k) len); [|eauto].
      destruct (parse_comma s1) as [[t2|e|b] s2]; eauto.
    + intros H X N. injection H as <- <- <-. now rewrite (FG _ _ _ _ _ _ E X Logic.I).
    + intros H X N. injection H as <- <- <-. destruct N.
Qed.
End PT.
Lemma fm_tuple_fields : forall fs fs' : list (field V), Forall2 field_more fs fs' -> forall i,
  Forall2 (fun x y => fst y = fst x /\ field_more (snd x) (snd y)) (tuple_fields fs i) (tuple_fields fs' i).
Proof.
  induction 1 as [|f f' l l' G H IH]; intro i; cbn [tuple_fields]; [constructor|]. pose proof (fl_kind _ _ G) as K. rewrite (fm_parsable _ _ G).
  destruct (f_kind f), (f_kind f'); cbn in K; try contradiction; auto; destruct (is_parsable f); auto.
Qed.
Lemma forall2_nth {A} (R : A -> A -> Prop) : forall l l', Forall2 R l l' -> forall i, match nth_error l i with Some x => exists y, nth_error l' i = Some y /\ R x y | None => nth_error l' i = None end.
Proof. induction 1 as [|x y l l' G H IH]; intros [|i]; cbn; eauto. apply IH. Qed.
Lemma um_count0 (u u' : flat_unnamed V) : tuple_reads_more u u' -> fu_count0 u' = fu_count0 u.
Proof. intros H. unfold fu_count0. now rewrite (um_count _ _ H). Qed.
Lemma fm_tuple_closure (fs fs' : list (field V)) : Forall2 field_more fs fs' -> forall k q ins r q' ins',
  tuple_closure fs k q ins = (r, q', ins') -> snd (fst q') = [] ->
  snd (fst q) = [] /\ (not_bad r -> tuple_closure fs' k q ins = (r, q', ins')).
Proof.
  intros FM k [[sl es] index] ins r q' ins'. unfold tuple_closure. rewrite (fm_existsb fs fs' FM pflat) by apply fm_pflat. cbv zeta.
  pose proof (forall2_nth _ _ _ (fm_tuple_fields fs fs' FM 0) k) as N.
  destruct ins as [|s rest]; [intros H E; injection H as <- <- <-; cbn in *; split; [exact E|intros []]|].
  destruct (nth_error (tuple_fields fs 0) k) as [[ri f]|].
  2: { intros H E; injection H as <- <- <-; cbn in *; split; [exact E|intros []]. }
  destruct N as [[ri' f'] [-> [R G]]]. cbn [fst snd] in R, G. subst ri'. pose proof (fl_kind _ _ G) as K.
  destruct (f_kind f), (f_kind f'); cbn in K; try contradiction; try (intros H E; injection H as <- <- <-; cbn in *; split; [exact E|intros []]).
  - unfold fs_parse_unnamed. destruct (d_item d Unnamed s) as [[a|e|b] s1] eqn:E.
    + rewrite (rm_item _ _ K _ _ _ _ E). intros H X. split; [|auto]. injection H as <- <- <-. exact X.
    + intros H X. injection H as <- <- <-. cbn in X. apply push_syn_nil in X. contradiction.
    + intros H X. injection H as <- <- <-. cbn in *. split; [exact X|intros []].
  - rewrite (um_count0 _ _ K). destruct (fu_parse u Unnamed index (s :: rest)) as [[a|e|b] ins1] eqn:E.
    + rewrite (um_parse _ _ K _ _ _ _ _ E). intros H X. split; [|auto]. injection H as <- <- <-. exact X.
    + intros H X. injection H as <- <- <-. cbn in X. apply push_syn_nil in X. contradiction.
    + intros H X. injection H as <- <- <-. cbn in *. split; [exact X|intros []].
Qed.
Lemma empty_ok {A} sp (p q : parser A) a : (forall s s', p s = (Ok a, s') -> q s = (Ok a, s')) -> parse_empty sp p = Ok a -> parse_empty sp q = Ok a.
Proof.
  intros H. unfold parse_empty, parse2. destruct (p (root_stream [])) as [[x|x|x] c] eqn:E; try discriminate.
  intro X. assert (x = a) as -> by (destruct (cell c); [discriminate|]; destruct (toks c); [congruence|discriminate]). now rewrite (H _ _ E).
Qed.
Lemma empty_val {A} sp (p : parser A) a : parse_empty sp p = Ok a -> exists s s', p s = (Ok a, s').
Proof.
  unfold parse_empty, parse2. destruct (p (root_stream [])) as [[x|x|x] c] eqn:E; try discriminate.
  intro X. assert (x = a) as -> by (destruct (cell c); [discriminate|]; destruct (toks c); [congruence|discriminate]). eauto.
Qed.

Lemma unnamed_missing_grow tm vt variant m sp ins : forall (fs : list (field V)) sl es index cur extra sl' es',
  unnamed_missing tm vt variant m sp ins fs sl es index cur extra = Ok (sl', es') -> grows es es'.
Proof.
  induction fs as [|f fs IH]; intros sl es index cur extra sl' es'; cbn [unnamed_missing].
  { intro H. injection H as <- <-. apply grows_refl. }
  destruct sl as [|st sl]; [intro H; injection H as <- <-; apply grows_refl|]. cbv zeta.
  set (cur' := if f_container f then cur else _). set (extra' := if f_container f then extra else _).
  assert (N : forall st' es0 index', match unnamed_missing tm vt variant m sp ins fs sl es0 index' cur' extra' with Ok (sl2, es2) => Ok (st' :: sl2, es2) | Err e => Err e | Bad b => Bad b end = Ok (sl', es') ->
    grows es0 es').
  { intros st' es0 index'. destruct (unnamed_missing tm vt variant m sp ins fs sl es0 index' cur' extra') as [[sl2 es2]|x|x] eqn:E; try discriminate. intro H. injection H as <- <-. eauto. }
  destruct (wants_error vt f && fs_is_none st); [|apply N]. destruct (f_kind f); try discriminate.
  - destruct (d_missing _ _ _); [apply N| |discriminate]. intro H. eapply grows_trans; [apply grows_syn|]. eapply N; eauto.
  - destruct (parse_empty _ _) as [[st' es1]|x|x] eqn:E; try discriminate. intro H. eapply grows_trans; [|eapply N; exact H].
    apply empty_val in E as [s [s' E]]. destruct (fu_parse u Unnamed index [s]) as [[v|e|b] l]; [injection E as <- <- <-; apply grows_refl|injection E as <- <- <-; apply grows_syn|discriminate].
Qed.
Lemma fm_unnamed_missing tm vt variant m sp ins : forall fs fs' : list (field V), Forall2 field_more fs fs' -> forall (sl : slots) es index cur extra sl2,
  unnamed_missing tm vt variant m sp ins fs sl es index cur extra = Ok (sl2, []) -> unnamed_missing tm vt variant m sp ins fs' sl es index cur extra = Ok (sl2, []).
Proof.
  induction 1 as [|f f' l l' G H IH]; intros sl es index cur extra sl2; auto. cbn [unnamed_missing]. destruct sl as [|st sl]; auto. cbv zeta.
  pose proof (fl_kind _ _ G) as K. rewrite (fl_container _ _ G), (fm_wants _ _ _ G).
  assert (C : is_flatten f' = is_flatten f) by (unfold is_flatten; destruct (f_kind f), (f_kind f'); cbn in K; tauto). rewrite C.
  assert (X : match f_kind f' with KFlatU u => extra + fu_count0 u | _ => extra end = match f_kind f with KFlatU u => extra + fu_count0 u | _ => extra end).
  { destruct (f_kind f), (f_kind f'); cbn in K; try contradiction; auto. now rewrite (um_count0 _ _ K). }
  rewrite X. set (cur' := if f_container f then cur else _). set (extra' := if f_container f then extra else _).
  assert (N : forall st' es0 index', match unnamed_missing tm vt variant m sp ins l sl es0 index' cur' extra' with Ok (sl2, es2) => Ok (st' :: sl2, es2) | Err e => Err e | Bad z => Bad z end = Ok (sl2, []) ->
    match unnamed_missing tm vt variant m sp ins l' sl es0 index' cur' extra' with Ok (sl2, es2) => Ok (st' :: sl2, es2) | Err e => Err e | Bad z => Bad z end = Ok (sl2, []) /\ es0 = []).
  { intros st' es0 index'. destruct (unnamed_missing tm vt variant m sp ins l sl es0 index' cur' extra') as [[sl1 es1]|x|x] eqn:E; try discriminate. intro Y. injection Y as <- ->. rewrite (IH _ _ _ _ _ _ E).
    split; auto. apply unnamed_missing_grow in E. eapply grows_nil; eauto. }
  destruct (wants_error vt f && fs_is_none st); [|intro Y; apply N; exact Y]. destruct (f_kind f), (f_kind f'); cbn in K; try contradiction; try discriminate.
  - destruct (d_missing d _ _) as [v|e|z] eqn:E; [rewrite (rm_missing _ _ K _ _ _ E); intro Y; apply N; exact Y| |discriminate].
    intro Y. exfalso. apply N in Y as [_ Y]. apply push_syn_nil in Y. contradiction.
  - rewrite (um_count0 _ _ K).
    match goal with |- context [parse_empty ?y ?q] => match q with context [fu_parse u] => destruct (parse_empty y q) as [[st' es']|x|x] eqn:E end end; try discriminate.
    intro Y. apply N in Y as [Y ->]. eapply empty_ok in E; [rewrite E; exact Y|]. intros s s'. cbv beta.
    destruct (fu_parse u Unnamed index [s]) as [[v|e|b] l1] eqn:F; [rewrite (um_parse _ _ K _ _ _ _ _ F); auto| |discriminate].
    intro Z. injection Z as _ Z _. apply push_syn_nil in Z. contradiction.
Qed.
Lemma fm_filter (fs fs' : list (field V)) (p : field V -> bool) : Forall2 field_more fs fs' -> (forall f f', field_more f f' -> p f' = p f) -> Forall2 field_more (filter p fs) (filter p fs').
Proof. intros H P. induction H as [|f f' l l' G H IH]; cbn [filter]; [constructor|]. rewrite (P _ _ G). destruct (p f); auto. Qed.
Lemma fm_length (fs fs' : list (field V)) : Forall2 field_more fs fs' -> length fs' = length fs.
Proof. induction 1; cbn; auto. Qed.
Lemma fm_unnamed_post (fs fs' : list (field V)) tm target variant m sp ins (sl : slots) es index vs : Forall2 field_more fs fs' ->
  unnamed_post fs tm target variant m sp ins sl es index = Ok vs -> unnamed_post fs' tm target variant m sp ins sl es index = Ok vs /\ es = [].
Proof.
  intro FM. unfold unnamed_post. rewrite (fm_containers tm fs fs' FM).
  destruct (unnamed_missing tm (has_target target) variant m sp ins fs (set_containers tm fs sl) es index 0 0) as [[sl3 es3]|x|x] eqn:M; try discriminate. cbn [rbind]. intro H.
  assert (es3 = []) as -> by (eapply finish_clean; eauto). rewrite (fm_unnamed_missing tm _ variant m sp ins fs fs' FM _ _ _ _ _ _ M). cbn [rbind].
  rewrite (fm_finish target fs fs' _ _ FM). split; auto. apply unnamed_missing_grow in M. eapply grows_nil; eauto.
Qed.
Lemma fm_unnamed_body (fs fs' : list (field V)) tm target variant m sp index : Forall2 field_more fs fs' ->
  at_least (unnamed_body fs tm target variant m sp index) (unnamed_body fs' tm target variant m sp index).
Proof.
  intros FM ins vs ins'. unfold unnamed_body. rewrite (fm_existsb fs fs' FM is_parsable) by apply fm_parsable. rewrite (fm_init fs fs' FM).
  rewrite (fm_length _ _ (fm_filter fs fs' is_parsable FM fm_parsable)). destruct (existsb is_parsable fs).
  - cbv zeta. unfold parse_tuple_struct. set (n := S _).
    pose proof (tuple_agree (length (filter is_parsable fs)) (fun q : slots * errors * nat => snd (fst q) = []) (tuple_closure fs) (tuple_closure fs')
      (fun k q s r q' s' H E => proj1 (fm_tuple_closure fs fs' FM k q s r q' s' H E))
      (fun k q s r q' s' H E => proj2 (fm_tuple_closure fs fs' FM k q s r q' s' H E)) n 0 (init_slots fs, [], index) ins) as A.
    destruct (tuple_loop (length (filter is_parsable fs)) (tuple_closure fs) n 0 (init_slots fs, [], index) ins) as [[r [[sl1 es1] index1]] ins1].
    specialize (A _ _ _ eq_refl). cbn [fst snd] in A. destruct r as [x|x|x]; [| |discriminate]; intro H; injection H as H <-; apply (fm_unnamed_post fs fs' _ _ _ _ _ _ _ _ _ _ FM) in H as [H N].
    + rewrite (A N Logic.I). unfold push_result in *. now rewrite H.
    + cbn [push_result] in N. apply push_syn_nil in N. contradiction.
  - destruct (each_eof ins) as [[x|x|x] ins1]; try discriminate. intro H. injection H as H <-. apply (fm_unnamed_post fs fs' _ _ _ _ _ _ _ _ _ _ FM) in H as [H _]. now rewrite H.
Qed.

(** *** Structs *)
Section SD.
Variables (s s' : sdef).
Hypothesis (SM : struct_more s s').
Lemma sm_fields tm : Forall2 field_more (s_fields tm s) (s_fields tm s').
Proof.
  assert (A : Forall2 field_more (s_fields_attr s) (s_fields_attr s')).
  { unfold s_fields_attr. rewrite (sm_default _ _ SM). destruct (has_target (s_default s)); [apply SM|]. eapply forall2_map; [apply fm_skip_default|apply SM]. }
  destruct tm; [|exact A]. unfold s_fields, s_fields_meta. eapply forall2_map; [apply fm_container_default|exact A].
Qed.
Lemma sm_names : s_names s' = s_names s.
Proof. apply fm_fields_names, SM. Qed.
Lemma sm_all : s_accepts_all s' = s_accepts_all s.
Proof. unfold s_accepts_all. now rewrite (sm_unknown _ _ SM), (fm_fields_all _ _ (sm_raw _ _ SM)). Qed.
Lemma sm_body tm m sp prefix v index : at_least (s_body s tm m sp prefix v index) (s_body s' tm m sp prefix v index).
Proof.
  unfold s_body. rewrite (sm_and_thens _ _ SM), (sm_shape _ _ SM), (sm_default _ _ SM), (sm_unknown _ _ SM), sm_names. apply more_and_thens.
  destruct (s_shape s); [apply fm_body, sm_fields|apply fm_unnamed_body, sm_fields|destruct tm; apply more_refl].
Qed.
Lemma l_more_fn : flat_reads_more (struct_fn s) (struct_fn s').
Proof. constructor; [apply sm_names|apply sm_all|]. intros m p v ins a ins'. cbn [fn_parse struct_fn]. apply sm_body. Qed.
Lemma sm_count : s_count s' = s_count s.
Proof.
  unfold s_count. rewrite (fm_length _ _ (fm_filter _ _ (fun f => negb (is_flat f)) (sm_raw _ _ SM) (fun f f' H => f_equal negb (fm_flat f f' H)))).
  rewrite (fm_map _ _ (sm_raw _ _ SM) (fun f => match f_kind f with KFlatU u => fu_count0 u | _ => 0 end)); auto.
  intros f f' H. pose proof (fl_kind _ _ H) as K. destruct (f_kind f), (f_kind f'); cbn in K; try contradiction; auto. now apply um_count0.
Qed.
Lemma l_more_fu : tuple_reads_more (struct_fu s) (struct_fu s').
Proof.
  unfold struct_fu. rewrite (sm_shape _ _ SM), sm_count. destruct (s_shape s); constructor; auto; cbn [fu_parse].
  - intros m _. apply l_more_fn.
  - intros m i ins a ins'. apply sm_body.
  - intros m _. apply l_more_fn.
Qed.
Lemma sm_is_transparent : s_is_transparent s' = s_is_transparent s.
Proof. unfold s_is_transparent. now rewrite (sm_transparent _ _ SM), (fm_length _ _ (fm_filter _ _ pitem (sm_raw _ _ SM) fm_pitem)). Qed.
Lemma fm_transparent_field (fs fs' : list (field V)) : Forall2 field_more fs fs' -> match transparent_field fs with
  | Some (i, d) => exists d', transparent_field fs' = Some (i, d') /\ reads_more d d' | None => transparent_field fs' = None end.
Proof.
  intro H. unfold transparent_field. generalize 0. induction H as [|f f' l l' G H IH]; intro i; auto. pose proof (fl_kind _ _ G) as K. rewrite (fm_parsable _ _ G).
  destruct (f_kind f), (f_kind f'); cbn in K; try contradiction; try apply IH. destruct (is_parsable f); [eauto|apply IH].
Qed.
Lemma fm_transparent_post (fs fs' : list (field V)) tm target i v es : Forall2 field_more fs fs' -> transparent_post fs' tm target i v es = transparent_post fs tm target i v es.
Proof. intro H. unfold transparent_post. now rewrite (fm_init fs fs' H), (fm_containers tm fs fs' H), (fm_sets fs fs' H). Qed.
Lemma sm_transparent_with {S} tm (p q : pm S V) i : at_least p q -> at_least (s_transparent_with s tm p i) (s_transparent_with s' tm q i).
Proof.
  intros H st a st'. unfold s_transparent_with. rewrite (sm_and_thens _ _ SM), (sm_default _ _ SM). apply more_and_thens. intros x b x'. unfold pbind.
  destruct (p x) as [[v|e|z] x1] eqn:E; try discriminate. rewrite (H _ _ _ E). now rewrite (fm_transparent_post _ _ tm (s_default s) i v [] (sm_fields tm)).
Qed.
Lemma below_def_named {A} (item item' : mode -> parser A) inline inline' flag flag' n sp :
  (forall m, at_least (item m) (item' m)) -> (forall m, at_least (inline m) (inline' m)) -> (forall x a, flag x = Ok a -> flag' x = Ok a) ->
  at_least (def_named item inline flag n sp) (def_named item' inline' flag' n sp).
Proof. exact (below_spellings item item' inline inline' flag flag' sp). Qed.
Lemma sm_inline m : at_least (s_inline s m) (s_inline s' m).
Proof.
  unfold s_inline. rewrite (sm_shape _ _ SM), sm_all. destruct (s_shape s).
  - apply l_more_fn.
  - apply l_more_fu.
  - intros ins a ins'. apply sm_body.
Qed.
Lemma fm_allows_empty target (fs fs' : list (field V)) : Forall2 field_more fs fs' -> allows_empty target fs' = allows_empty target fs.
Proof.
  intro H. unfold allows_empty. f_equal. pose proof (fm_filter fs fs' is_parsable H fm_parsable) as F. induction F as [|f f' l l' G _ IH]; auto.
  cbn [forallb]. now rewrite IH, (fm_flat _ _ G), (fl_default _ _ G).
Qed.
Lemma l_more_struct : reads_more (struct_dict s) (struct_dict s').
Proof.
  unfold struct_dict. rewrite sm_is_transparent, (sm_default _ _ SM). destruct (s_is_transparent s).
  - unfold s_inner. pose proof (fm_transparent_field _ _ (sm_raw _ _ SM)) as T.
    assert (D : exists i d d', match transparent_field (s_raw s) with Some x => x | None => (0, mkDict (fun _ st => (Bad Panic, st)) (fun _ st => (Bad Panic, st)) (fun _ => Bad Panic) (fun _ _ st => (Bad Panic, st)) (fun _ _ => Bad Panic)) end = (i, d) /\
      match transparent_field (s_raw s') with Some x => x | None => (0, mkDict (fun _ st => (Bad Panic, st)) (fun _ st => (Bad Panic, st)) (fun _ => Bad Panic) (fun _ _ st => (Bad Panic, st)) (fun _ _ => Bad Panic)) end = (i, d') /\ reads_more d d').
    { destruct (transparent_field (s_raw s)) as [[i d]|]; [destruct T as [d' [-> R]]; eauto 6|rewrite T]. do 3 eexists. split; [reflexivity|]. split; [reflexivity|].
      constructor; intros; try discriminate; intros ? ? ?; discriminate. }
    destruct D as [i [d [d' [-> [-> R]]]]].
    assert (F : forall sp a, fst (s_transparent_with s TMeta (fun st : unit => (d_flag d sp, st)) i tt) = Ok a -> fst (s_transparent_with s' TMeta (fun st : unit => (d_flag d' sp, st)) i tt) = Ok a).
    { intros sp a H. destruct (s_transparent_with s TMeta (fun st : unit => (d_flag d sp, st)) i tt) as [r st] eqn:E. cbn [fst] in H. subst r.
      eapply (sm_transparent_with TMeta _ (fun st : unit => (d_flag d' sp, st))) in E; [now rewrite E|]. intros x b x' H. injection H as H <-. now rewrite (rm_flag _ _ R _ _ H). }
    constructor; cbn [d_item d_inline d_flag d_named d_missing]; auto.
    + intro m. apply sm_transparent_with, R.
    + intro m. apply sm_transparent_with, R.
    + intros n sp. apply below_def_named; auto; intro m; apply sm_transparent_with, R.
  - change (s_fields_meta s') with (s_fields TMeta s'). change (s_fields_meta s) with (s_fields TMeta s).
    rewrite (sm_shape _ _ SM), (sm_and_thens _ _ SM), (fm_allows_empty (s_default s) _ _ (sm_fields TMeta)). cbv zeta.
    assert (I : forall d m, at_least (parse_delimited_with d (on_single (s_inline s m))) (parse_delimited_with d (on_single (s_inline s' m)))).
    { intros d m. exact (below_delimited d _ _ (below_single _ _ (sm_inline m))). }
    assert (F : forall sp m a, parse_empty sp (on_single (s_inline s m)) = Ok a -> parse_empty sp (on_single (s_inline s' m)) = Ok a).
    { intros sp m a. exact (below_empty sp _ _ a (below_single _ _ (sm_inline m))). }
    destruct (s_shape s); [|destruct (allows_empty (s_default s) (s_fields TMeta s))|]; constructor; cbn [d_item d_inline d_flag d_named d_missing]; auto using sm_inline;
      intros n sp; apply below_def_named; auto using sm_inline.
Qed.
End SD.
End L.
