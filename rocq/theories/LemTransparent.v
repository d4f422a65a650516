(** `transparent`: the value around the inner one. *)
From Verif Require Export SpecEnum LemFlat2.

Section T.
Context {env : Env} {V : Type}.

Definition only_slot (i : nat) (x : V) (j : nat) (f : field V) : fstatus V :=
  if Nat.eqb j i then FSome x else FNone.
Lemma upd_init (fs : list (field V)) i x : i < length fs ->
  upd_nth i (FSome x) (init_slots fs) = mapi (only_slot i x) 0 fs.
Proof.
  intro L. apply list_ext. intro j. rewrite upd_nth_nth, mapi_nth. unfold init_slots. rewrite nth_map.
  unfold only_slot. cbn [Nat.add]. destruct (nth_error fs j) as [f|] eqn:N; cbn [option_map].
  - rewrite (Nat.eqb_sym j i). destruct (Nat.eqb i j); reflexivity.
  - destruct (Nat.eqb i j) eqn:E; auto.
Qed.
Lemma set_some f (w : V) : no_and_then f -> exists v, transformed (f_transforms f) w v /\ fst (set_field f (FSome w) []) = FSome v.
Proof.
  intro N. assert (SF : set_field f (FSome w) [] = run_transforms (f_transforms f) (FSome w) []).
  { unfold set_field. destruct (f_default f); reflexivity. }
  rewrite SF. destruct (run_transforms_some (f_transforms f) w) as [[v [T E]]|[_ E]].
  - exists v. rewrite E. auto.
  - destruct E. apply run_transforms_map. exact N.
Qed.
Lemma around_slot fs tm target i x j (f : field V) v t : no_and_then f -> is_parsable f = Nat.eqb j i -> nth_error fs j = Some f ->
  (j = i -> f_container f = false) -> (forall t', target = Some t' -> t' = t) -> (target = None -> nth_error t j = None) ->
  Some v = match fst (set_field f (after_container tm f (only_slot i x j f)) []) with FSome w => Some w | _ => nth_error t j end <->
  (j = i /\ transformed (f_transforms f) x v) \/
    (j <> i /\ exists pn obj, tm = TAttrs pn obj /\ f_container f = true /\
       transformed (f_transforms f) obj v) \/
    (j <> i /\ (tm <> TMeta -> f_container f = false) /\ exists w, f_default f = Some w /\
       transformed (f_transforms f) w v) \/
    (j <> i /\ (tm <> TMeta -> f_container f = false) /\ f_default f = None /\
       exists t, target = Some t /\ nth_error t j = Some v).
Proof.
  intros NA P N C T1 T2. unfold only_slot. destruct (Nat.eqb_spec j i) as [->|NE].
  - specialize (C eq_refl). assert (AC : after_container tm f (FSome x) = FSome x) by (unfold after_container; destruct tm; auto; now rewrite C).
    rewrite AC. destruct (set_some f x NA) as [w [TW ->]]. split.
    + intro H. injection H as ->. auto.
    + intros [[_ H]|[[H _]|[[H _]|[H _]]]]; try congruence. now rewrite (transformed_fun _ _ _ _ H TW).
  - assert (Q : (exists pn obj, tm = TAttrs pn obj /\ f_container f = true) \/ (tm <> TMeta -> f_container f = false)).
    { destruct tm as [|pn obj]; [right; congruence|]. destruct (f_container f); [left; eauto|right; auto]. }
    destruct Q as [[pn [obj [TM FC]]]|Q].
    + assert (AC : after_container tm f FNone = FSome obj) by (unfold after_container; now rewrite TM, FC).
      rewrite AC. destruct (set_some f obj NA) as [w [TW ->]]. split.
      * intro H. injection H as ->. right. left. split; auto. exists pn, obj. auto.
      * assert (X : (tm <> TMeta -> f_container f = false) -> False). { intro X. rewrite X in FC; [discriminate|]. rewrite TM. discriminate. }
        intros [[H _]|[[_ [pn' [obj' [TM' [_ H]]]]]|[[_ [H _]]|[_ [H _]]]]]; try congruence; try tauto.
        rewrite TM in TM'. injection TM' as <- <-. now rewrite (transformed_fun _ _ _ _ H TW).
    + assert (AC : after_container tm f FNone = FNone). { unfold after_container. destruct tm; auto. rewrite Q; [auto|discriminate]. }
      rewrite AC. assert (Z : (exists pn obj, tm = TAttrs pn obj /\ f_container f = true /\ transformed (f_transforms f) obj v) -> False).
      { intros [pn [obj [TM [FC _]]]]. rewrite Q in FC; [discriminate|]. rewrite TM. discriminate. }
      destruct (f_default f) as [dv|] eqn:FD.
      * assert (SF : set_field f FNone [] = set_field f (FSome dv) []) by (unfold set_field; now rewrite FD).
        rewrite SF. destruct (set_some f dv NA) as [w [TW ->]]. split.
        -- intro H. injection H as ->. right. right. left. split; auto. split; auto. exists dv. auto.
        -- intros [[H _]|[[_ H]|[[_ [_ [w' [FD' H]]]]|[_ [_ [H _]]]]]]; try congruence; try tauto.
           injection FD' as <-. now rewrite (transformed_fun _ _ _ _ H TW).
      * assert (SF : set_field f FNone [] = (FNone, [])) by (unfold set_field; rewrite FD; apply run_transforms_none).
        rewrite SF. cbn [fst]. split.
        -- intro H. right. right. right. split; auto. split; auto. split; auto.
           destruct target as [t'|]; [|rewrite T2 in H; [discriminate|auto]]. exists t'. rewrite (T1 t' eq_refl). auto.
        -- intros [[H _]|[[_ H]|[[_ [_ [w' [FD' _]]]]|[_ [_ [_ [t' [TT H]]]]]]]]; try congruence; try tauto.
           rewrite <- (T1 t' TT). auto.
Qed.
Lemma transparent_index fs i d : transparent_field fs = Some (i, d) -> length (filter (@is_parsable V) fs) = 1 ->
  exists f, nth_error fs i = Some f /\ f_kind f = KItem d /\ is_parsable f = true /\
    forall j g, nth_error fs j = Some g -> is_parsable g = Nat.eqb j i.
Proof.
  intros T L. destruct (transparent_spec _ _ _ T L) as [a [f [b [-> [-> [K [P C]]]]]]].
  exists f. rewrite nth_error_app2 by lia. rewrite Nat.sub_diag. cbn [nth_error]. split; auto. split; auto. split; auto.
  intros j g N. rewrite Forall_forall in C. destruct (Nat.eqb_spec j (length a)) as [->|NE].
  - rewrite nth_error_app2 in N by lia. rewrite Nat.sub_diag in N. now injection N as <-.
  - apply C. apply in_or_app. destruct (Nat.lt_ge_cases j (length a)) as [LT|GE].
    + left. rewrite nth_error_app1 in N by auto. eapply nth_error_In; eauto.
    + right. rewrite nth_error_app2 in N by auto. destruct (j - length a) as [|k] eqn:X; [lia|]. cbn [nth_error] in N. eapply nth_error_In; eauto.
Qed.
Lemma transparent_around fs tm target i d x es vs :
  transparent_field fs = Some (i, d) -> length (filter (@is_parsable V) fs) = 1 -> Forall no_and_then fs ->
  (forall t, target = Some t -> length t = length fs) ->
  fst (transparent_post fs tm target i x es) = Ok vs <-> around fs tm target i x vs.
Proof.
  intros T L NA TO. destruct (transparent_index _ _ _ T L) as [f0 [N0 [K0 [P0 U]]]].
  unfold transparent_post. rewrite upd_init by (apply nth_error_Some; congruence).
  rewrite containers_exact, field_sets_exact. cbn [fst]. unfold around.
  rewrite Forall_forall in NA.
  assert (CP : forall j g, nth_error fs j = Some g -> j = i -> f_container g = false).
  { intros j g N E. specialize (U j g N). rewrite E, Nat.eqb_refl in U. unfold is_parsable in U. destruct (f_container g); auto. }
  destruct target as [t|]; cbn [post_ret].
  - set (g := fun j f => fst (set_field f (after_container tm f (only_slot i x j f)) [])).
    transitivity (overwrite t (mapi g 0 fs) = vs). { split; [now injection 1|now intros ->]. }
    rewrite overwrite_mapi by auto. apply and_iff_compat_l. cbn [Nat.add].
    split; intros H j f v N M; specialize (H j f v N M);
    apply (around_slot fs tm (Some t) i x j f v t); auto; eauto using nth_error_In; try discriminate; intros t' E; now injection E as <-.
  - rewrite unwrap_mapi. cbn [Nat.add]. apply and_iff_compat_l.
    split; intros H j f v N M; specialize (H j f v N M).
    + apply (around_slot fs tm None i x j f v []); auto; eauto using nth_error_In; try discriminate.
      { intros _. now destruct j. } now rewrite H.
    + apply (around_slot fs tm None i x j f v []) in H; auto; eauto using nth_error_In; try discriminate.
      2:{ intros _. now destruct j. }
      destruct (fst (set_field _ _ [])); [destruct j; discriminate..|]. now injection H as ->.
Qed.
End T.
