(** Proofs for PropsHold.v. *)
From Verif Require Export SpecHold.
From Verif Require Import LemNamed LemStruct LemTStruct LemEnum3 LemEnum4 LemSmall LemIdle2.
Local Open Scope list_scope.

Section H.
Context {env : Env} {V : Type}.
Implicit Types fs : list (field V).
Implicit Types sl : list (fstatus V).
(** the slots of the container fields *)
Definition slotted (X : fstatus V) fs sl : Prop := Forall2 (fun f st => f_container f = true -> st = X) fs sl.
Lemma slotted_len X fs sl : slotted X fs sl -> length sl = length fs.
Proof. induction 1; cbn; auto. Qed.
Lemma slotted_init fs : slotted FNone fs (init_slots fs).
Proof. induction fs; cbn; constructor; auto. Qed.
Lemma slotted_upd X fs sl : slotted X fs sl -> forall i f st, nth_error fs i = Some f -> f_container f = false -> slotted X fs (upd_nth i st sl).
Proof.
  induction 1 as [|g x fs sl H A IH]; intros i f st N C; destruct i; cbn in *; try discriminate.
  - injection N as ->. constructor; auto. congruence.
  - constructor; auto. eapply IH; eauto.
Qed.
Definition start (tm : tmode V) : fstatus V := match tm with TAttrs _ obj => FSome obj | TMeta => FNone end.
Lemma slotted_set tm fs sl : slotted FNone fs sl -> slotted (start tm) fs (set_containers tm fs sl).
Proof.
  destruct tm as [|pn obj]; cbn [start]; [intro H; now rewrite meta_containers|].
  induction 1 as [|g x fs sl H A IH]; [constructor|]. cbn [set_containers]. constructor; auto. intros ->. auto.
Qed.
Lemma slotted_named X tm vt pre sp fs : forall sl es sl2 es2, slotted X fs sl ->
  named_missing tm vt pre sp fs sl es = Ok (sl2, es2) -> slotted X fs sl2.
Proof.
  induction fs as [|f fs IH]; intros sl es sl2 es2 H E; inversion H as [|? st ? sl0 C H0]; subst; cbn [named_missing] in E.
  - injection E as <- <-. constructor.
  - assert (NX : forall st' es', (f_container f = true -> st' = st) ->
      match named_missing tm vt pre sp fs sl0 es' with Ok (s3, e3) => Ok (st' :: s3, e3) | Err e => Err e | Bad b => Bad b end = Ok (sl2, es2) ->
      slotted X (f :: fs) sl2).
    { intros st' es' HC Q. destruct (named_missing tm vt pre sp fs sl0 es') as [[s3 e3]| |] eqn:F; try discriminate. injection Q as <- <-.
      constructor; [intro K; rewrite HC; auto|eapply IH; eauto]. }
    destruct (f_kind f) as [d| | | |]; try (eapply NX; [|exact E]; auto).
    destruct (wants_error vt f && fs_is_none st) eqn:W; [|eapply NX; [|exact E]; auto].
    assert (NC : f_container f = false). { unfold wants_error in W. destruct (f_container f); auto; discriminate. }
    destruct (d_missing d _ sp); try discriminate; (eapply NX; [|exact E]; congruence).
Qed.
Lemma slotted_unnamed X tm vt va m sp ins fs : forall sl es i a b sl2 es2, slotted X fs sl ->
  unnamed_missing tm vt va m sp ins fs sl es i a b = Ok (sl2, es2) -> slotted X fs sl2.
Proof.
  induction fs as [|f fs IH]; intros sl es i a b sl2 es2 H E; inversion H as [|? st ? sl0 C H0]; subst; cbn [unnamed_missing] in E.
  - injection E as <- <-. constructor.
  - assert (NX : forall st' es' i' a' b', (f_container f = true -> st' = st) ->
      match unnamed_missing tm vt va m sp ins fs sl0 es' i' a' b' with Ok (s3, e3) => Ok (st' :: s3, e3) | Err e => Err e | Bad b => Bad b end = Ok (sl2, es2) ->
      slotted X (f :: fs) sl2).
    { intros st' es' i' a' b' HC Q. destruct (unnamed_missing tm vt va m sp ins fs sl0 es' i' a' b') as [[s3 e3]| |] eqn:F; try discriminate. injection Q as <- <-.
      constructor; [intro K; rewrite HC; auto|eapply IH; eauto]. }
    destruct (wants_error vt f && fs_is_none st) eqn:W; [|eapply NX; [|exact E]; auto].
    assert (NC : f_container f = false). { unfold wants_error in W. destruct (f_container f); auto; discriminate. }
    destruct (f_kind f) as [d| |u| |]; try discriminate.
    + destruct (d_missing d _ _); try discriminate; (eapply NX; [|exact E]; congruence).
    + destruct (parse_empty _ _) as [[st' es']| |]; try discriminate. eapply NX; [|exact E]; congruence.
Qed.
Lemma slotted_flat X pre sp al fs : forall sl es l sl2 es2 l2, slotted X fs sl ->
  flat_fields pre sp al fs sl es l = (Ok (sl2, es2), l2) -> slotted X fs sl2.
Proof.
  induction fs as [|f fs IH]; intros sl es l sl2 es2 l2 H E; inversion H as [|? st ? sl0 C H0]; subst; cbn [flat_fields] in E.
  - injection E as <- <- <-. constructor.
  - destruct (pflat f) eqn:P.
    + assert (NC : f_container f = false). { unfold pflat, is_parsable in P. destruct (f_container f); auto. }
      destruct (flat_call f pre sp al _) as [[v|e|b] l1]; [| |discriminate];
      (destruct (flat_fields pre sp al fs sl0 _ _) as [[[s3 e3]| |] l3] eqn:F; try discriminate; injection E as <- <- <-;
       constructor; [congruence|eapply IH; eauto]).
    + destruct (flat_fields pre sp al fs sl0 es l) as [[[s3 e3]| |] l3] eqn:F; try discriminate; injection E as <- <- <-.
      constructor; [auto|eapply IH; eauto].
Qed.
Lemma struct_keeps {St} (P : St -> Prop) (func : string -> span -> St -> stream -> res unit * St * stream) :
  (forall p sp st s, P st -> P (snd (fst (func p sp st s)))) ->
  forall l st, P st -> P (snd (fst (parse_struct func st l))).
Proof.
  intro H.
  assert (L : forall n st s, P st -> P (snd (fst (struct_loop func n st s)))).
  { induction n as [|n IH]; intros st s Q; [exact Q|]. cbn [struct_loop]. destruct (is_empty s); [exact Q|].
    destruct (parse_any_path s) as [[p|e|b] s1]; auto. specialize (H (path_key p) (p_span p) st s1 Q).
    destruct (func (path_key p) (p_span p) st s1) as [[[u|e|b] st1] s2]; cbn [fst snd] in *; auto.
    destruct (is_empty s2); auto. destruct (parse_comma s2) as [[u2|e|b] s3]; auto. }
  induction l as [|s l IH]; intros st Q; [exact Q|]. cbn [parse_struct]. specialize (L (S (length (toks s))) st s Q).
  destruct (struct_loop func (S (length (toks s))) st s) as [[[u|e|b] st1] s1]; cbn [fst snd] in *; auto.
  specialize (IH st1 L). destruct (parse_struct func st1 l) as [[r st2] l2]. exact IH.
Qed.
Lemma slotted_loop X fs u al pre v l sl es r sl1 es1 l1 : slotted X fs sl ->
  parse_struct (named_closure fs u al pre v) (sl, es) l = (r, (sl1, es1), l1) -> slotted X fs sl1.
Proof.
  intros H E. pose proof (struct_keeps (fun st => slotted X fs (fst st)) (named_closure fs u al pre v)) as I.
  assert (Q : slotted X fs (fst (snd (fst (parse_struct (named_closure fs u al pre v) (sl, es) l))))).
  { apply I; [|exact H]. intros p sp [sl0 es0] s H0. cbn [fst] in H0. unfold named_closure.
    destruct (strip_prefix pre p) as [k|]; [|exact H0]. destruct (find_field k fs 0) as [[i f]|] eqn:F; [|exact H0].
    apply find_field_spec in F as [_ [N [PI _]]]. rewrite Nat.sub_0_r in N.
    assert (NC : f_container f = false). { unfold pitem, is_parsable in PI. destruct (f_container f); auto. }
    destruct (fs_parse_named _ sp _ _ es0 s) as [[[x es2]| |] s2]; cbn [fst snd]; auto. eapply slotted_upd; eauto. }
  now rewrite E in Q.
Qed.
Lemma tuple_fields_in fs : forall i j k f, nth_error (tuple_fields fs i) j = Some (k, f) ->
  i <= k /\ nth_error fs (k - i) = Some f /\ f_container f = false.
Proof.
  induction fs as [|g fs IH]; intros i j k f H; cbn [tuple_fields] in H; [destruct j; discriminate|].
  assert (R : nth_error (tuple_fields fs (S i)) j = Some (k, f) -> i <= k /\ nth_error (g :: fs) (k - i) = Some f /\ f_container f = false).
  { intro Q. apply IH in Q as [A [B C]]. split; [lia|]. split; auto. replace (k - i) with (S (k - S i)) by lia. exact B. }
  assert (R2 : is_parsable g = true -> nth_error ((i, g) :: tuple_fields fs (S i)) j = Some (k, f) -> i <= k /\ nth_error (g :: fs) (k - i) = Some f /\ f_container f = false).
  { intros P Q. destruct j as [|j]; cbn in Q.
    - injection Q as <- <-. rewrite Nat.sub_diag. split; auto. split; auto. unfold is_parsable in P. destruct (f_container g); auto.
    - apply IH in Q as [A [B C]]. split; [lia|]. split; auto. replace (k - i) with (S (k - S i)) by lia. exact B. }
  destruct (f_kind g); auto; destruct (is_parsable g); auto.
Qed.
Lemma tuple_loop_keeps {St} (P : St -> Prop) len (func : nat -> St -> list stream -> res unit * St * list stream) :
  (forall i st l, P st -> P (snd (fst (func i st l)))) ->
  forall n c st l, P st -> P (snd (fst (tuple_loop len func n c st l))).
Proof.
  intro H. induction n as [|n IH]; intros c st l Q; cbn [tuple_loop]; [exact Q|].
  destruct l as [|s rest]; [exact Q|]. destruct (is_empty s).
  - specialize (IH c st rest Q). destruct (tuple_loop len func n c st rest) as [[r st1] l1]. exact IH.
  - destruct (Nat.leb len c); [exact Q|]. specialize (H c st (s :: rest) Q).
    destruct (func c st (s :: rest)) as [[[w|e|b] st1] l1]; cbn [fst snd] in *; auto.
    destruct l1 as [|s1 r1]; auto. destruct (_ && _); [|apply IH; auto].
    destruct (parse_comma s1) as [[w2|e|b] s2]; auto.
Qed.
Lemma slotted_tuple X fs n l sl es i r sl1 es1 i1 l1 : slotted X fs sl ->
  parse_tuple_struct n (tuple_closure fs) (sl, es, i) l = (r, (sl1, es1, i1), l1) -> slotted X fs sl1.
Proof.
  intros H E. unfold parse_tuple_struct in E.
  pose proof (tuple_loop_keeps (fun st => slotted X fs (fst (fst st))) n (tuple_closure fs)) as I.
  assert (Q : slotted X fs (fst (fst (snd (fst (tuple_loop n (tuple_closure fs) (S (n + length l)) 0 (sl, es, i) l)))))).
  { apply I; [|exact H]. intros j [[sl0 es0] i0] l0 H0. cbn [fst] in H0. unfold tuple_closure.
    destruct l0 as [|s rest]; [exact H0|]. destruct (nth_error (tuple_fields fs 0) j) as [[k f]|] eqn:F; [|exact H0].
    apply tuple_fields_in in F as [_ [N NC]]. rewrite Nat.sub_0_r in N.
    destruct (f_kind f) as [d| |u| |]; try exact H0.
    - destruct (fs_parse_unnamed _ es0 s) as [[[x es2]| |] s2]; cbn [fst snd]; auto. eapply slotted_upd; eauto.
    - destruct (fu_parse u Unnamed i0 (s :: rest)) as [[x|e|b] l2]; cbn [fst snd]; auto; eapply slotted_upd; eauto. }
  now rewrite E in Q.
Qed.
(** the transforms of one field *)
Lemma trans_some ts : forall (w : V) es st1, run_transforms ts (FSome w) es = (st1, []) -> exists v, st1 = FSome v /\ transformed ts w v.
Proof.
  induction ts as [|[g|g] ts IH]; intros w es st1 H; cbn [run_transforms fs_map] in H.
  - injection H as <- _. exists w. split; auto. constructor.
  - apply IH in H as [v [-> T]]. exists v. split; auto. now constructor.
  - destruct (g w) as [u|e] eqn:G.
    + apply IH in H as [v [-> T]]. exists v. split; auto. econstructor; eauto.
    + exfalso. rewrite run_transforms_es in H. injection H as _ H. apply app_eq_nil in H as [H _]. unfold push_syn in H.
      apply app_eq_nil in H as [_ H]. now apply errs_of_ne in H.
Qed.
Lemma trans_map ts : (forall g, ~ In (TAndThen g) ts) -> forall (w : V) es, exists v, run_transforms ts (FSome w) es = (FSome v, es) /\ transformed ts w v.
Proof.
  induction ts as [|[g|g] ts IH]; intros NC w es; cbn [run_transforms fs_map].
  - exists w. split; auto. constructor.
  - destruct (IH (fun g0 I => NC g0 (or_intror I)) (g w) es) as [v [E T]]. exists v. split; auto. now constructor.
  - exfalso. apply (NC g). now left.
Qed.
(** the default of the container fields, where there is no object *)
Definition ready (tm : tmode V) fs : Prop :=
  tm = TMeta -> Forall (fun f => f_container f = true -> f_default f <> None) fs.
Definition stored (tm : tmode V) fs sl : Prop :=
  Forall2 (fun f st => f_container f = true -> exists v, st = FSome v /\ transformed (f_transforms f) (object tm f) v) fs sl.
Lemma set_stored tm f es st1 : (tm = TMeta -> f_default f <> None) -> set_field f (start tm) es = (st1, []) ->
  exists v, st1 = FSome v /\ transformed (f_transforms f) (object tm f) v.
Proof.
  intros R H. unfold set_field in H. destruct tm as [|pn obj]; cbn [start] in H.
  - specialize (R eq_refl). cbn [object]. destruct (f_default f) as [d|]; [|congruence]. cbn [fs_or_else] in H. eapply trans_some; eauto.
  - cbn [object]. destruct (f_default f); cbn [fs_or_else] in H; eapply trans_some; eauto.
Qed.
Lemma sets_stored tm fs : forall sl es sl1, ready tm fs -> slotted (start tm) fs sl -> field_sets fs sl es = (sl1, []) -> stored tm fs sl1.
Proof.
  induction fs as [|f fs IH]; intros sl es sl1 R H E; inversion H as [|? st ? sl0 C H0]; subst; cbn [field_sets] in E.
  - injection E as <- _. constructor.
  - destruct (set_field f st es) as [st1 es1] eqn:S. destruct (field_sets fs sl0 es1) as [sl2 es2] eqn:F. injection E as <- ->.
    pose proof (sets_es _ _ _ _ F) as ->. constructor.
    + intro K. rewrite (C K) in S. eapply set_stored; [|exact S]. intro T. specialize (R T). inversion R; auto.
    + eapply IH; eauto. intro T. specialize (R T). now inversion R.
Qed.
Lemma stored_held tm target fs sl vs : stored tm fs sl -> (forall t, target = Some t -> length t = length fs) ->
  post_ret target sl = Ok vs -> held tm fs vs.
Proof.
  intros S L E i f N C.
  assert (NS : exists v, nth_error sl i = Some (FSome v) /\ transformed (f_transforms f) (object tm f) v).
  { clear E L. revert i N. induction S as [|g st fs sl H S IH]; intros [|i] N; cbn in *; try discriminate; eauto.
    injection N as ->. destruct (H C) as [v [-> T]]. eauto. }
  assert (LS : length sl = length fs) by (clear -S; induction S; cbn; auto).
  destruct NS as [v [NS T]]. exists v. split; auto.
  assert (LT : forall t, target = Some t -> length t = length sl) by (intros t X; rewrite LS; auto).
  apply (ret_ok target sl vs LT) in E. rewrite all3_nth in E. destruct E as [_ [LV E]].
  destruct (nth_error vs i) as [w|] eqn:NV.
  - specialize (E i _ _ w NS NS NV). cbn [Nat.add] in E. unfold value_of in E. destruct target; [|congruence]. destruct E as [tv [_ ->]]. reflexivity.
  - apply nth_error_None in NV. assert (i < length sl) by (apply nth_error_Some; congruence). lia.
Qed.
Lemma finish_held tm target fs sl es vs : ready tm fs -> slotted (start tm) fs sl ->
  (forall t, target = Some t -> length t = length fs) -> post_finish target fs sl es = Ok vs -> held tm fs vs.
Proof.
  intros R H L E. unfold post_finish in E. destruct (field_sets fs sl es) as [sl1 es1] eqn:F.
  destruct es1 as [|x es1]; [|discriminate]. exact (stored_held tm target fs sl1 vs (sets_stored tm fs sl es sl1 R H F) L E).
Qed.
Lemma named_held fs tm target u al sp pre v l vs l1 : ready tm fs -> (forall t, target = Some t -> length t = length fs) ->
  named_body fs tm target u al sp pre v l = (Ok vs, l1) -> held tm fs vs.
Proof.
  intros R L H. unfold named_body in H.
  destruct (parse_struct _ _ _) as [[r [sl1 es1]] src1] eqn:P. apply slotted_loop with (X := FNone) in P; [|apply slotted_init].
  assert (Q : forall es ins, named_post fs tm target al sp pre sl1 es ins = (Ok vs, l1) -> held tm fs vs).
  { intros es ins E. unfold named_post in E. destruct (flat_fields pre sp al fs sl1 es ins) as [[[sl2 es2]| |] ins1] eqn:F; try discriminate.
    apply slotted_flat with (X := FNone) in F; auto. injection E as E _.
    destruct (named_missing _ _ _ _ _ _ _) as [[sl3 es3]| |] eqn:M; try discriminate. apply slotted_named with (X := start tm) in M; [|now apply slotted_set].
    eapply finish_held; eauto. }
  destruct r; try discriminate; eauto.
Qed.
Lemma unnamed_held fs tm target va m sp i l vs l1 : ready tm fs -> (forall t, target = Some t -> length t = length fs) ->
  unnamed_body fs tm target va m sp i l = (Ok vs, l1) -> held tm fs vs.
Proof.
  intros R L H. unfold unnamed_body in H.
  assert (Q : forall sl es ins j, slotted FNone fs sl -> unnamed_post fs tm target va m sp ins sl es j = Ok vs -> held tm fs vs).
  { intros sl es ins j S E. unfold unnamed_post in E.
    destruct (unnamed_missing _ _ _ _ _ _ _ _ _ _ _ _) as [[sl3 es3]| |] eqn:M; try discriminate. apply slotted_unnamed with (X := start tm) in M; [|now apply slotted_set].
    eapply finish_held; eauto. }
  destruct (existsb is_parsable fs).
  - destruct (parse_tuple_struct _ _ _ _) as [[r [[sl1 es1] j]] ins1] eqn:P. apply slotted_tuple with (X := FNone) in P; [|apply slotted_init].
    destruct r; try discriminate; injection H as H _; eauto.
  - destruct (each_eof l) as [[w|e|b] ins1]; try discriminate. injection H as H _. eapply Q; eauto. apply slotted_init.
Qed.
Lemma trans_error ts : forall es, fst (run_transforms ts (FParseError : fstatus V) es) = FParseError.
Proof. induction ts as [|[g|g] ts IH]; intro es; cbn; auto. Qed.
Lemma trans_value ts : forall (w : V) es v es1, run_transforms ts (FSome w) es = (FSome v, es1) -> transformed ts w v.
Proof.
  induction ts as [|[g|g] ts IH]; intros w es v es1 H; cbn [run_transforms fs_map] in H.
  - injection H as <- _. constructor.
  - constructor. eapply IH; eauto.
  - destruct (g w) as [u|e] eqn:G; [econstructor; eauto|]. pose proof (trans_error ts (push_syn es e)) as X. rewrite H in X. discriminate.
Qed.
Lemma transparent_held fs tm target i x es vs es1 : ready tm fs -> (forall t, target = Some t -> length t = length fs) ->
  (forall f, nth_error fs i = Some f -> f_container f = false) ->
  (target <> None -> Forall (fun f => f_container f = true -> no_checks f) fs) ->
  transparent_post fs tm target i x es = (Ok vs, es1) -> held tm fs vs.
Proof.
  intros R L NI NC H. unfold transparent_post in H.
  assert (S : slotted (start tm) fs (set_containers tm fs (upd_nth i (FSome x) (init_slots fs)))).
  { apply slotted_set. destruct (nth_error fs i) as [f|] eqn:N; [eapply slotted_upd; eauto; apply slotted_init|].
    assert (U : forall A (y : A) l j, length l <= j -> upd_nth j y l = l).
    { intros A y l. induction l as [|z l IH]; intros [|j] Q; cbn in *; auto; try lia. f_equal. apply IH. lia. }
    rewrite U; [apply slotted_init|]. unfold init_slots. rewrite map_length. now apply nth_error_None. }
  destruct (field_sets fs _ es) as [sl1 es2] eqn:F. injection H as H _. 
  assert (ST : Forall (fun f => f_container f = true -> no_checks f) fs \/ (exists ws, sl1 = map FSome ws)).
  { destruct target; [left; apply NC; discriminate|right]. cbn in H. apply unwrap_slots_ok in H. eauto. }
  eapply stored_held; eauto. clear H L NI NC.
  revert es sl1 es2 F R ST. remember (set_containers tm fs (upd_nth i (FSome x) (init_slots fs))) as sl eqn:EQ. clear EQ. unfold slotted in S.
  induction S as [|f st fs sl C S IH]; intros es sl1 es2 F R NC; cbn [field_sets] in F.
  - injection F as <- _. constructor.
  - destruct (set_field f st es) as [st1 e1] eqn:Q. destruct (field_sets fs sl e1) as [s2 e2] eqn:G. injection F as <- _. constructor.
    + intro K. rewrite (C K) in Q. unfold set_field in Q.
      assert (Z : exists w, (match f_default f with Some v => fs_or_else (start tm) (fun _ => FSome v) | None => start tm end) = FSome w /\ w = object tm f).
      { destruct tm as [|pn obj]; cbn [start object].
        - specialize (R eq_refl). inversion R as [|? ? R1 R2]; subst. specialize (R1 K). destruct (f_default f); [cbn; eauto|congruence].
        - destruct (f_default f); cbn; eauto. }
      destruct Z as [w [Z ->]]. rewrite Z in Q. destruct NC as [NC|[ws NC]].
      * inversion NC as [|? ? NC1 NC2]; subst. destruct (trans_map _ (NC1 K) (object tm f) es) as [v [E T]]. rewrite E in Q. injection Q as <- _. eauto.
      * destruct ws as [|w ws]; [discriminate|]. cbn in NC. injection NC as -> _. exists w. split; auto. eapply trans_value; eauto.
    + eapply IH; eauto; [intro T; specialize (R T); now inversion R|]. destruct NC as [NC|[ws NC]]; [left; now inversion NC|right].
      destruct ws as [|w ws]; [discriminate|]. cbn in NC. injection NC as _ ->. eauto.
Qed.

(** *** Structs *)
Lemma raw_held tm fs gs vs : Forall2 (fun f g => f_container g = f_container f /\ f_transforms g = f_transforms f /\ (f_container f = true -> object tm g = object tm f)) fs gs ->
  held tm gs vs -> held tm fs vs.
Proof.
  intros F H i f N C.
  assert (G : exists g, nth_error gs i = Some g /\ f_container g = f_container f /\ f_transforms g = f_transforms f /\ (f_container f = true -> object tm g = object tm f)).
  { clear H. revert i N. induction F as [|x y fs gs Q F IH]; intros [|i] N; cbn in *; try discriminate; eauto. injection N as ->. eauto. }
  destruct G as [g [N2 [CE [TE OE]]]]. destruct (H i g N2 ltac:(congruence)) as [v [NV T]]. exists v. split; auto. rewrite <- TE, <- (OE C). exact T.
Qed.
Lemma map_fields tm fs (q : field V -> field V) :
  (forall f, f_container (q f) = f_container f /\ f_transforms (q f) = f_transforms f /\ (f_container f = true -> object tm (q f) = object tm f)) ->
  Forall2 (fun f g => f_container g = f_container f /\ f_transforms g = f_transforms f /\ (f_container f = true -> object tm g = object tm f)) fs (map q fs).
Proof. intro H. induction fs; cbn; constructor; auto. Qed.
Lemma skip_same tm (f : field V) : f_container (skip_default f) = f_container f /\ f_transforms (skip_default f) = f_transforms f /\ (f_container f = true -> object tm (skip_default f) = object tm f).
Proof. unfold skip_default, object. destruct f as [a b c [d|] e g [] h], tm; cbn; auto. Qed.
Lemma cont_same tm (f : field V) : f_container (container_default f) = f_container f /\ f_transforms (container_default f) = f_transforms f /\ (f_container f = true -> object tm (container_default f) = object tm f).
Proof. unfold container_default, object. destruct f as [a b c [d|] e g h []], tm; cbn; auto. Qed.
Lemma s_same tm (s : sdef V) : Forall2 (fun f g => f_container g = f_container f /\ f_transforms g = f_transforms f /\ (f_container f = true -> object tm g = object tm f)) (s_raw s) (s_fields tm s).
Proof.
  assert (A : Forall2 (fun f g => f_container g = f_container f /\ f_transforms g = f_transforms f /\ (f_container f = true -> object tm g = object tm f)) (s_raw s) (s_fields_attr s)).
  { unfold s_fields_attr. destruct (has_target _).
    - rewrite <- (map_id (s_raw s)) at 2. apply map_fields. auto.
    - apply map_fields, skip_same. }
  destruct tm as [|pn obj]; cbn [s_fields]; [|exact A]. unfold s_fields_meta.
  induction A as [|f g fs gs Q A IH]; cbn [map]; constructor; auto. destruct (cont_same TMeta g) as [X [Y Z]], Q as [X' [Y' Z']].
  rewrite X, Y, X', Y'. split; auto. split; auto. intro C. rewrite Z by congruence. auto.
Qed.
Lemma s_ready tm (s : sdef V) : ready tm (s_fields tm s).
Proof.
  intros ->. cbn [s_fields]. unfold s_fields_meta. apply Forall_map. apply Forall_forall. intros f _. unfold container_default.
  destruct (f_default f) eqn:D; [congruence|]. destruct (f_container f) eqn:C; cbn; congruence.
Qed.
Lemma s_len tm (s : sdef V) : length (s_fields tm s) = length (s_raw s).
Proof. pose proof (s_same tm s) as F. induction F; cbn; auto. Qed.
Lemma body_held (s : sdef V) tm m sp pre v i l vs l1 : fits s -> s_body s tm m sp pre v i l = (Ok vs, l1) ->
  exists ws, chained (s_and_thens s) ws vs /\ held tm (s_raw s) ws.
Proof.
  intros [FU [FD _]] H. unfold s_body, p_and_thens in H.
  assert (LT : forall t, s_default s = Some t -> length t = length (s_fields tm s)) by (intros t X; rewrite s_len; auto).
  destruct (s_shape s) eqn:SH.
  - destruct (named_body _ _ _ _ _ _ _ _ l) as [r l2] eqn:B. injection H as H _. apply after_and_thens_ok in H as [ws [-> C]].
    exists ws. split; auto. eapply raw_held; [apply s_same|]. eapply named_held; eauto. apply s_ready.
  - destruct (unnamed_body _ _ _ _ _ _ _ l) as [r l2] eqn:B. injection H as H _. apply after_and_thens_ok in H as [ws [-> C]].
    exists ws. split; auto. eapply raw_held; [apply s_same|]. eapply unnamed_held; eauto. apply s_ready.
  - match type of H with (let (_, _) := ?q in _) = _ => destruct q as [r l2] end. injection H as H _. apply after_and_thens_ok in H as [ws [-> C]].
    exists ws. split; auto. intros j f N. rewrite (FU eq_refl) in N. destruct j; discriminate.
Qed.
Lemma inner_spec fs : forall i d k, (fix go (l : list (field V)) i := match l with [] => None | f :: l' => match f_kind f with KItem d => if is_parsable f then Some (i, d) else go l' (S i) | _ => go l' (S i) end end) fs k = Some (i, d) ->
  k <= i /\ exists f, nth_error fs (i - k) = Some f /\ f_container f = false.
Proof.
  induction fs as [|f fs IH]; intros i d k H; [discriminate|].
  assert (R : forall q, q = Some (i, d) -> q = (fix go (l : list (field V)) i := match l with [] => None | f :: l' => match f_kind f with KItem d => if is_parsable f then Some (i, d) else go l' (S i) | _ => go l' (S i) end end) fs (S k) ->
     k <= i /\ exists g, nth_error (f :: fs) (i - k) = Some g /\ f_container g = false).
  { intros q E Q. rewrite Q in E. apply IH in E as [A [g [N C]]]. split; [lia|]. exists g. split; auto. replace (i - k) with (S (i - S k)) by lia. exact N. }
  destruct (f_kind f); try (eapply R; [exact H|reflexivity]). destruct (is_parsable f) eqn:P; [|eapply R; [exact H|reflexivity]].
  injection H as <- _. split; auto. exists f. rewrite Nat.sub_diag. split; auto. unfold is_parsable in P. destruct (f_container f); auto.
Qed.
Lemma with_held {S} (s : sdef V) tm (p : pm S V) i vs st st1 : fits s -> s_is_transparent s = true ->
  (forall f, nth_error (s_raw s) i = Some f -> f_container f = false) ->
  s_transparent_with s tm p i st = (Ok vs, st1) -> exists ws, chained (s_and_thens s) ws vs /\ held tm (s_raw s) ws.
Proof.
  intros [FU [FD FT]] T NI H. unfold s_transparent_with, p_and_thens, pbind in H.
  destruct (p st) as [[x|e|b] st2]; [|injection H as H _; apply after_and_thens_ok in H as [ws [H _]]; discriminate..].
  injection H as H _. apply after_and_thens_ok in H as [ws [H C]]. exists ws. split; auto.
  destruct (transparent_post _ _ _ _ _ _) as [r es1] eqn:TP. cbn [fst] in H. subst r.
  pose proof (s_same tm s) as SS. eapply raw_held; [exact SS|]. eapply transparent_held; [apply s_ready| | | |exact TP].
  - intros t X. rewrite s_len. auto.
  - intros g N. clear -SS N NI. revert i N NI. induction SS as [|x y fs gs Q SS IH]; intros [|i] N NI; cbn in *; try discriminate.
    + injection N as <-. destruct Q as [-> _]. apply NI. reflexivity.
    + eapply IH; eauto.
  - intro DN. specialize (FT T DN). clear -SS FT. induction SS as [|x y fs gs Q SS IH]; constructor; inversion FT as [|? ? F1 F2]; subst; auto.
    destruct Q as [QC [QT _]]. rewrite QC. unfold no_checks in *. rewrite QT. exact F1.
Qed.
Lemma inner_no fs : forall k, (fix go (l : list (field V)) i := match l with [] => None | f :: l' => match f_kind f with KItem d => if is_parsable f then Some (i, d) else go l' (S i) | _ => go l' (S i) end end) fs k = None ->
  filter pitem fs = [].
Proof.
  induction fs as [|g l IH]; intros k F; auto. cbn [filter].
  unfold pitem, is_flat. destruct (f_kind g) eqn:K; try (rewrite andb_false_r; eapply IH; exact F).
  destruct (is_parsable g); [discriminate|]. cbn. eapply IH; exact F.
Qed.
Lemma inner_none (s : sdef V) i f : i = fst (s_inner s) -> nth_error (s_raw s) i = Some f -> s_is_transparent s = true -> f_container f = false.
Proof.
  intros -> N T. unfold s_inner in N. destruct (transparent_field (s_raw s)) as [[i d]|] eqn:F.
  - unfold transparent_field in F. apply inner_spec in F as [_ [g [N2 C]]]. rewrite Nat.sub_0_r in N2. cbn in N. congruence.
  - exfalso. clear N. unfold s_is_transparent in T. apply andb_true_iff in T as [_ T]. apply Nat.eqb_eq in T.
    rewrite (inner_no _ _ F) in T. discriminate.
Qed.
Lemma attr_body_held (s : sdef V) obj spans l vs l1 : fits s -> struct_attr_body s obj spans l = (Ok vs, l1) ->
  exists pn ws, chained (s_and_thens s) ws vs /\ held (TAttrs pn obj) (s_raw s) ws.
Proof.
  intros FT H. unfold struct_attr_body in H. eexists. destruct (s_is_transparent s) eqn:T.
  - pose proof (inner_none s) as IN. destruct (s_inner s) as [i d]. eapply with_held; eauto.
  - eapply body_held; eauto.
Qed.
Lemma close_ok {R} (r : res R) root v : close_root r root = Ok v -> r = Ok v.
Proof.
  unfold close_root. destruct r as [w|e|b]; [| |discriminate]; destruct (parse_eof root) as [re root1]; destruct (cell root1); try discriminate; destruct (toks root1); try discriminate;
  destruct (check _); cbn; congruence.
Qed.
Lemma next_ok {R} (func : list (string * span) -> mparser R) l : forall bufs paths v, fst (parse_next l bufs paths func) = Ok v ->
  exists p b b1, func p b = (Ok v, b1).
Proof.
  induction l as [|[[ts name] sp] l IH]; intros bufs paths v H; cbn [parse_next] in H.
  - destruct (func paths bufs) as [r b1] eqn:F. destruct r as [w|e|b]; [|discriminate..]. destruct (each_eof b1) as [re b2]. cbn in H.
    destruct re; try discriminate. injection H as ->. eauto.
  - destruct ts as [|t ts].
    + destruct (parse_next l _ _ func) as [r b1] eqn:P. cbn [fst] in H. apply close_ok in H. subst r.
      apply (IH (bufs ++ [fork (root_stream [])]) (paths ++ [(name, sp)])). now rewrite P.
    + destruct t as [| | |[] c g]; try (cbn [fst] in H; apply close_ok in H; discriminate).
      destruct (parse_next l _ _ func) as [r b1] eqn:P. cbn [fst] in H. apply close_ok in H. subst r.
      eapply IH. rewrite P. reflexivity.
Qed.
Lemma l_hold_struct (s : sdef V) conv o vs : fits s -> struct_parse_attributes s conv o = Ok vs ->
  exists pn ws, chained (s_and_thens s) ws vs /\ held (TAttrs pn (conv o)) (s_raw s) ws.
Proof.
  intros FT H. unfold struct_parse_attributes, parse_struct_attr_tokens in H. apply next_ok in H as [p [b [b1 H]]]. eapply attr_body_held; eauto.
Qed.

(** *** What a parser can yield *)
Lemma yields_single {A} (p : mparser A) Q : yields p Q -> yields (on_single p) Q.
Proof. intros H s v s1 E. unfold on_single in E. destruct (p [s]) as [r l] eqn:P. injection E as -> _. eapply H; eauto. Qed.
Lemma yields_group {A} d (p : parser A) Q : yields p Q -> yields (parse_delimited_with d p) Q.
Proof.
  intros H s v s1 E. unfold parse_delimited_with, with_group in E. destruct (toks s) as [|[| | |d2 ts sp] rest]; try discriminate.
  destruct (delim_eqb d d2); [|discriminate]. unfold pbind, pret in E.
  destruct (p (group_content ts sp (cell s))) as [[a|e|b] c] eqn:P; try discriminate.
  destruct (parse_eof c) as [[u|e|b] c1]; try discriminate. injection E as <- _. eapply H; eauto.
Qed.
Lemma yields_empty {A} sp (p : parser A) (Q : A -> Prop) v : yields p Q -> parse_empty sp p = Ok v -> Q v.
Proof.
  intros H E. unfold parse_empty, parse2 in E. destruct (p (root_stream [])) as [[a|e|b] c] eqn:P; try discriminate.
  destruct (cell c); [discriminate|]. destruct (toks c); [|discriminate]. injection E as ->. eapply H; eauto.
Qed.
Lemma yields_named {A} (item : mode -> parser A) inline flag sp Q : yields (item (Named sp)) Q -> yields (inline (Named sp)) Q ->
  (forall v, flag sp = Ok v -> Q v) -> yields (parse_named_with item inline flag sp) Q.
Proof.
  intros H1 H2 H3 s v s1 E. unfold parse_named_with in E. destruct (peek_eq s).
  - unfold pbind in E. destruct (parse_eq s) as [[u|e|b] s2]; try discriminate. eapply H1; eauto.
  - destruct (peek_group Paren s); [|injection E as E _; auto]. eapply yields_group; [|exact E]. now apply yields_single.
Qed.

(** *** Extraction *)
Lemma l_hold_extract (s : sdef V) conv o o1 vs : fits s -> struct_extract_attributes s conv o = (Ok vs, o1) ->
  exists pn ws, chained (s_and_thens s) ws vs /\ held (TAttrs pn (conv o1)) (s_raw s) ws.
Proof.
  intros FT H. unfold struct_extract_attributes in H. destruct (take_tokens _ o) as [[l|e|b] o2]; try discriminate.
  injection H as H <-. unfold parse_struct_attr_tokens in H. apply next_ok in H as [p [b [b1 H]]]. eapply attr_body_held; eauto.
Qed.

(** *** ParseMetaItem of structs *)
Lemma l_hold_meta (s : sdef V) : fits s -> dict_yields (struct_dict s) (meta_held s).
Proof.
  intro FT. unfold struct_dict. destruct (s_is_transparent s) eqn:T.
  - pose proof (inner_none s) as IN. destruct (s_inner s) as [i d]. cbn [fst] in IN.
    assert (NI : forall f, nth_error (s_raw s) i = Some f -> f_container f = false) by (intros; eapply IN; eauto).
    assert (W : forall S (p : pm S V), yields (s_transparent_with s TMeta p i) (meta_held s)) by (intros S p st v st1 E; eapply with_held; eauto).
    assert (F : forall sp v, fst (s_transparent_with s TMeta (fun st : unit => (d_flag d sp, st)) i tt) = Ok v -> meta_held s v).
    { intros sp v E. destruct (s_transparent_with _ _ _ _ _) as [r st1] eqn:Q. cbn in E. subst r. eapply W; eauto. }
    split; [|split; [|split]]; intros; cbn [d_item d_inline d_flag d_named]; try apply W; [eapply F; eauto|].
    apply yields_named; [apply W|apply W|]. intros v. apply F.
  - assert (B : forall m sp pre v i, yields (s_body s TMeta m sp pre v i) (meta_held s)) by (intros m sp pre v i l vs l1 E; eapply body_held; eauto).
    assert (I : forall m, yields (s_inline s m) (meta_held s)).
    { intros m l vs l1 E. unfold s_inline, struct_fu, struct_fn in E. destruct (s_shape s); cbn in E; eapply B; eauto. }
    set (item := match s_shape s with ShNamed => fun m => parse_delimited_with Brace (on_single (s_inline s m)) | ShUnnamed => fun m => parse_delimited_with Paren (on_single (s_inline s m)) | ShUnit => fun _ => parse_delimited_with Paren (on_single (s_inline s Unnamed)) end).
    assert (IT : forall m, yields (item m) (meta_held s)).
    { intro m. subst item. destruct (s_shape s); apply yields_group, yields_single, I. }
    match goal with |- dict_yields (mkDict _ _ ?fl _ _) _ => set (flag := fl) end.
    assert (F : forall sp v, flag sp = Ok v -> meta_held s v).
    { intros sp v E. subst flag. destruct (s_shape s) eqn:SH.
      - eapply yields_empty; [|exact E]. apply yields_single, I.
      - destruct (allows_empty _ _); [|discriminate]. eapply yields_empty; [|exact E]. apply yields_single, I.
      - apply after_and_thens_ok in E as [ws [X C]]. injection X as <-. exists []. split; auto. intros j f N. destruct FT as [FU _]. rewrite (FU SH) in N. destruct j; discriminate. }
    split; [|split; [|split]]; intros; cbn [d_item d_inline d_flag d_named]; [apply IT|apply I|eapply F; eauto|].
    apply yields_named; [apply IT|apply I|]. intros v. apply F.
Qed.

(** *** Enums *)
Implicit Type v : vdef V.
Lemma v_same tm v : Forall2 (fun f g => f_container g = f_container f /\ f_transforms g = f_transforms f /\ (f_container f = true -> object tm g = object tm f)) (v_raw v) (v_fields v).
Proof. unfold v_fields. induction (v_raw v) as [|f fs IH]; constructor; auto. apply skip_same. Qed.
Lemma v_ready tm v : (tm = TMeta -> Forall (fun f => f_container f = true -> f_default f <> None) (v_raw v)) -> ready tm (v_fields v).
Proof.
  intros H T. specialize (H T). unfold v_fields. induction H as [|f fs F H IH]; constructor; auto.
  intro C. unfold skip_default in *. destruct (f_default f) eqn:D; [congruence|]. destruct (f_skip f) eqn:K; cbn in *; [discriminate|]. specialize (F C). congruence.
Qed.
Lemma variant_inline v tm prefix sp m : (v_shape v = ShUnit -> v_raw v = []) -> ready tm (v_fields v) ->
  yields (v_inline v tm prefix sp m) (held tm (v_raw v)).
Proof.
  intros U R l vs l1 E. unfold v_inline in E. destruct (v_shape v).
  - eapply raw_held; [apply v_same|]. eapply named_held; eauto. discriminate.
  - eapply raw_held; [apply v_same|]. eapply unnamed_held; eauto. discriminate.
  - intros j f N. rewrite (U eq_refl) in N. destruct j; discriminate.
Qed.
Lemma variant_named v tm prefix sp : (v_shape v = ShUnit -> v_raw v = []) -> ready tm (v_fields v) ->
  yields (v_named v tm prefix sp) (held tm (v_raw v)).
Proof.
  intros U R. apply yields_named.
  - apply yields_group, yields_single. now apply variant_inline.
  - now apply variant_inline.
  - intros vs E. unfold v_flag in E. destruct (v_shape v) eqn:SH.
    + eapply yields_empty; [|exact E]. apply yields_single. apply variant_inline; auto. congruence.
    + destruct (allows_empty _ _); [|discriminate]. eapply yields_empty; [|exact E]. apply yields_single. apply variant_inline; auto. congruence.
    + injection E as <-. intros j f N. rewrite (U eq_refl) in N. destruct j; discriminate.
Qed.
Definition okq tm (e : edef V) (q : fstatus (evalue V)) : Prop := forall x, q = FSome x -> held_in tm e x.
Lemma v_parse_keeps tm (e : edef V) vi v prefix p sp q s : fits_enum tm e -> nth_error (e_variants e) vi = Some v ->
  okq tm e (q_value q) -> okq tm e (q_value (snd (fst (v_parse vi v tm prefix p sp q s)))).
Proof.
  intros FT N Q. destruct (FT v (nth_error_In _ _ N)) as [U R]. apply v_ready in R. unfold v_parse.
  assert (FA : okq tm e (value_failed (q_value q))).
  { intros x X. unfold value_failed in X. destruct (q_value q); cbn in X; try discriminate. now apply Q. }
  destruct (v_transparent v).
  - destruct (transparent_field (v_fields v)) as [[i d]|] eqn:TF; [|exact Q]. unfold transparent_field in TF. apply inner_spec in TF as [_ [g [NG CG]]]. rewrite Nat.sub_0_r in NG.
    destruct (d_named d p sp s) as [[x|ee|b] s1]; [|exact FA|exact Q].
    destruct (transparent_post (v_fields v) tm None i x (q_errors q)) as [[l|ee|b] es2] eqn:TP; [|exact FA|exact Q].
    cbn [fst snd q_value]. destruct (q_value q) eqn:QV; cbn [fs_is_some]; [| |exact Q].
    all: intros y Y; injection Y as <-; right; exists v; split; auto; cbn [fst snd];
      eapply raw_held; [apply v_same|]; eapply (transparent_held _ _ None); [exact R|intros t X; discriminate X| |intro X; now destruct X|exact TP]; intros f F; congruence.
  - destruct (v_named v tm prefix sp s) as [[l|ee|b] s1] eqn:VN; [|exact FA|exact Q]. cbn [fst snd q_value].
    intros y Y. injection Y as <-. right. exists v. split; auto. cbn. eapply variant_named; eauto.
Qed.
Lemma picked (e : edef V) paths vi v : pick_flat e paths = Some (vi, v) -> nth_error (e_variants e) vi = Some v.
Proof.
  intro H. unfold pick_flat in H. destruct (matches_spec e) as [MS _].
  destruct (find (fun kv => match fst kv with [] => false | ks => has_paths paths ks end) (flat_matches e)) as [[k iv]|] eqn:F.
  - injection H as ->. apply find_some in F as [F _]. apply MS in F as [_ F]. apply F.
  - destruct (find (fun kv => match fst kv with [] => true | _ => false end) (flat_matches e)) as [[k iv]|] eqn:G; [|discriminate].
    injection H as ->. apply find_some in G as [G _]. apply MS in G as [_ G]. apply G.
Qed.
Lemma flat_block_held tm (e : edef V) prefix sp vi v paths es l x es1 l1 : fits_enum tm e -> nth_error (e_variants e) vi = Some v ->
  flat_block e tm prefix sp vi v paths es l = (Ok (x, es1), l1) -> okq tm e x.
Proof.
  intros FT N H. destruct (FT v (nth_error_In _ _ N)) as [U R]. apply v_ready in R. unfold flat_block in H.
  match type of H with match ?q with _ => _ end = _ => destruct q as [es0|?|?]; try discriminate end.
  destruct (named_body _ _ _ _ _ _ _ _ l) as [[vs|ee|b] l2] eqn:B; try discriminate; injection H as <- _ _; intros y Y; [|discriminate].
  injection Y as <-. right. exists v. split; auto. cbn. eapply raw_held; [apply v_same|]. eapply named_held; eauto. discriminate.
Qed.
Lemma run_ok {A} (gs : list (A -> A + synerr)) : forall o es y es1, run_and_thens gs o es = (Some y, es1) -> exists x, o = Some x /\ chained gs x y.
Proof.
  induction gs as [|g gs IH]; intros o es y es1 H; cbn [run_and_thens] in H.
  - injection H as -> _. exists y. split; auto. constructor.
  - destruct o as [v|]; [|apply IH in H as [x [X _]]; discriminate]. destruct (g v) as [w|e0] eqn:G.
    + apply IH in H as [x [X C]]. injection X as ->. exists v. split; auto. econstructor; eauto.
    + apply IH in H as [x [X _]]. discriminate.
Qed.
Lemma enum_held tm (e : edef V) al sp pre va l x l1 : fits_enum tm e -> DeriveEnum.enum_body e tm al sp pre va l = (Ok x, l1) ->
  exists y, chained (e_and_thens e) y x /\ held_in tm e y.
Proof.
  intros FT H. unfold DeriveEnum.enum_body in H.
  match type of H with match parse_struct _ _ ?src with _ => _ end = _ => set (sr := src) in H end.
  pose proof (struct_keeps (fun q => okq tm e (q_value q)) (enum_closure e tm pre)) as K.
  assert (QV : okq tm e (q_value (snd (fst (parse_struct (enum_closure e tm pre) (mkEst None FNone [] []) sr))))).
  { apply K; [|discriminate]. intros p s2 q s Q. unfold enum_closure. destruct (strip_prefix pre p) as [k|]; [|exact Q].
    destruct (find_variant k (e_variants e) 0) as [[vi v]|] eqn:F; [|exact Q]. apply find_variant_spec in F as [_ [N _]]. rewrite Nat.sub_0_r in N.
    apply v_parse_keeps; auto. }
  clear K. destruct (parse_struct _ _ _) as [[r q] src1]. cbn [fst snd] in QV.
  assert (Q : forall mid, (forall a b c, mid = (Ok (a, b), c) -> okq tm e a) ->
    match mid with
      | (Err x, ins1) => (Err x, ins1)
      | (Bad b, ins1) => (Bad b, ins1)
      | (Ok (value, es1), ins1) =>
        let (ret, es2) := run_and_thens (e_and_thens e) (fs_into_option value) es1 in
        (rbind (check es2) (fun _ => match ret with Some x => Ok x | None => Bad Panic end),
         skip_all ins1)
      end = (Ok x, l1) -> exists y, chained (e_and_thens e) y x /\ held_in tm e y).
  { intros [[[a b]|ee|bb] c] M E; try discriminate. specialize (M _ _ _ eq_refl).
    destruct (run_and_thens _ _ b) as [[w|] es2] eqn:R; injection E as E _; destruct (check es2); cbn in E; try discriminate.
    injection E as ->. apply run_ok in R as [y [Y C]]. exists y. split; auto. apply M. destruct a; cbn in Y; congruence. }
  destruct r as [u|ee|b]; [| |discriminate]; (eapply Q; [|exact H]); clear Q H; intros a b c M;
  (destruct (q_value q) as [| |y];
   [destruct (pick_flat e (q_paths q)) as [[vi v]|] eqn:P;
    [eapply flat_block_held; [exact FT|eapply picked; eauto|exact M]|
     destruct (e_default e) as [d|] eqn:D; [injection M as <- _ _; intros z Z; left; congruence|];
     match type of M with (let (_, _) := ?t in _) = _ => destruct t end; injection M as <- _ _; discriminate]
   |injection M as <- _ _; discriminate
   |destruct (q_key q); [|discriminate]; match type of M with (let (_, _) := ?t in _) = _ => destruct t end; injection M as <- _ _; exact QV]).
Qed.
Lemma l_hold_enum_meta (e : edef V) : fits_enum TMeta e -> dict_yields (enum_dict e) (meta_in e).
Proof.
  intro FT. unfold enum_dict.
  assert (I : forall m, yields (fn_parse (enum_fn e) m "" true) (meta_in e)).
  { intros m l x l1 E. cbn in E. eapply enum_held; eauto. }
  assert (F : forall sp x, parse_empty sp (on_single (fn_parse (enum_fn e) (Named sp) "" true)) = Ok x -> meta_in e x).
  { intros sp x E. eapply yields_empty; [|exact E]. apply yields_single, I. }
  assert (IT : forall m, yields (fun s => parse_delimited_with Brace (on_single (fn_parse (enum_fn e) (to_named m s) "" true)) s) (meta_in e)).
  { intros m s x s1 E. eapply yields_group; [|exact E]. apply yields_single, I. }
  split; [|split; [|split]]; intros; cbn [d_item d_inline d_flag d_named]; [apply IT|apply I|eapply F; eauto|].
  apply yields_named; [apply IT|apply I|]. intros v. apply F.
Qed.
Lemma l_hold_enum (e : edef V) conv o x : (forall pn obj, fits_enum (TAttrs pn obj) e) -> enum_parse_attributes e conv o = Ok x ->
  exists pn y, chained (e_and_thens e) y x /\ held_in (TAttrs pn (conv o)) e y.
Proof.
  intros FT H. unfold enum_parse_attributes, parse_struct_attr_tokens in H. apply next_ok in H as [p [b [b1 H]]].
  unfold enum_attr_body in H. eexists. eapply enum_held; [apply FT|exact H].
Qed.
Lemma l_hold_enum_extract (e : edef V) conv o o1 x : (forall pn obj, fits_enum (TAttrs pn obj) e) -> enum_extract_attributes e conv o = (Ok x, o1) ->
  exists pn y, chained (e_and_thens e) y x /\ held_in (TAttrs pn (conv o1)) e y.
Proof.
  intros FT H. unfold enum_extract_attributes in H. destruct (take_tokens _ o) as [[l|ee|b] o2]; try discriminate.
  injection H as H <-. unfold parse_struct_attr_tokens in H. apply next_ok in H as [p [b [b1 H]]]. 
  unfold enum_attr_body in H. eexists. eapply enum_held; [apply FT|exact H].
Qed.
End H.
