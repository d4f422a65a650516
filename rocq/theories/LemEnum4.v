(** Enums: the choice of a flattened variant. *)
From Verif Require Export LemEnum3.

Section K.
Lemma cmp_list_eq {A} (cmp : A -> A -> comparison) : (forall x y, cmp x y = Eq <-> x = y) ->
  forall a b, cmp_list cmp a b = Eq <-> a = b.
Proof.
  intro H. induction a as [|x a IH]; destruct b as [|y b]; cbn [cmp_list]; try (split; [discriminate|discriminate]); [tauto|].
  destruct (cmp x y) eqn:C.
  - apply H in C as ->. rewrite IH. split; congruence.
  - split; [discriminate|]. intro E. injection E as -> ->. rewrite (proj2 (H y y) eq_refl) in C. discriminate.
  - split; [discriminate|]. intro E. injection E as -> ->. rewrite (proj2 (H y y) eq_refl) in C. discriminate.
Qed.
Lemma str_cmp_eq a b : str_cmp a b = Eq <-> a = b.
Proof.
  split; [apply String.compare_eq_iff|intros <-]. unfold str_cmp. induction a as [|c a IH]; cbn [String.compare]; auto.
  assert (E : Ascii.compare c c = Eq) by (unfold Ascii.compare; apply N.compare_refl). now rewrite E.
Qed.
Lemma key_cmp_eq a b : key_cmp a b = Eq <-> a = b.
Proof. apply cmp_list_eq. apply cmp_list_eq. apply str_cmp_eq. Qed.
Lemma set_insert_in {A} (cmp : A -> A -> comparison) : (forall x y, cmp x y = Eq <-> x = y) ->
  forall x l y, In y (set_insert cmp x l) <-> y = x \/ In y l.
Proof.
  intros H x. induction l as [|z l IH]; intro y; cbn [set_insert]; [simpl; intuition|].
  destruct (cmp x z) eqn:C.
  - apply H in C as ->. simpl. intuition.
  - simpl. intuition.
  - simpl. rewrite IH. intuition.
Qed.
Lemma set_of_in {A} (cmp : A -> A -> comparison) : (forall x y, cmp x y = Eq <-> x = y) ->
  forall l y, In y (set_of cmp l) <-> In y l.
Proof.
  intros H l y. unfold set_of. assert (X : forall l s, In y (fold_left (fun s x => set_insert cmp x s) l s) <-> In y s \/ In y l).
  { clear l. induction l as [|x l IH]; intro s; cbn [fold_left]; [simpl; tauto|]. rewrite IH, set_insert_in by auto. simpl. intuition. }
  rewrite X. simpl. tauto.
Qed.
Lemma set_of_nil {A} (cmp : A -> A -> comparison) l : (forall x y, cmp x y = Eq <-> x = y) -> set_of cmp l = [] <-> l = [].
Proof.
  intro H. split; [|intros ->; reflexivity]. intro E. destruct l as [|x l]; auto.
  assert (I : In x (set_of cmp (x :: l))) by (apply set_of_in; auto; now left). rewrite E in I. destruct I.
Qed.
Lemma map_insert_spec {A B} (cmp : A -> A -> comparison) (k : A) (v : B) : (forall x y, cmp x y = Eq <-> x = y) ->
  forall l, (forall x, In x (map_insert cmp k v l) -> x = (k, v) \/ In x l) /\
    (forall k', k' = k \/ In k' (map fst l) -> In k' (map fst (map_insert cmp k v l))).
Proof.
  intro H. induction l as [|[k1 v1] l [I1 I2]]; cbn [map_insert].
  - split; simpl; intuition.
  - destruct (cmp k k1) eqn:C.
    + apply H in C as ->. split; simpl; intuition.
    + split; simpl; intuition.
    + split; cbn [In map fst].
      * intros x [<-|J]; auto. destruct (I1 x J); auto.
      * intros k' [->|[<-|J]]; auto.
Qed.
Lemma in_indexed {A} (l : list A) : forall k i x, In (i, x) (combine (seq k (length l)) l) <-> k <= i /\ nth_error l (i - k) = Some x.
Proof.
  induction l as [|y l IH]; intros k i x; cbn [length seq combine].
  - split; [intros []|]. intros [_ H]. destruct (i - k); discriminate.
  - cbn [In]. rewrite IH. split.
    + intros [E|[L N]].
      * injection E as <- <-. rewrite Nat.sub_diag. split; auto.
      * split; [lia|]. replace (i - k) with (S (i - S k)) by lia. exact N.
    + intros [L N]. destruct (Nat.eq_dec k i) as [->|NE].
      * rewrite Nat.sub_diag in N. injection N as ->. auto.
      * right. split; [lia|]. replace (i - k) with (S (i - S k)) in N by lia. exact N.
Qed.
End K.

Section E.
Context {env : Env} {V : Type}.
Notation vdef := (vdef V).
Notation edef := (edef V).

Lemma matches_spec (e : edef) : (forall k i v, In (k, (i, v)) (flat_matches e) -> k = field_key v /\ flattened e i v) /\
  (forall i v, flattened e i v -> In (field_key v) (map fst (flat_matches e))).
Proof.
  unfold flat_matches.
  set (step := fun (m : list (key_t * (nat * vdef))) (iv : nat * vdef) => let '(i, v) := iv in
     if v_flatten v && negb (v_skip v) then map_insert key_cmp (field_key v) (i, v) m else m).
  assert (H : forall (l : list (nat * vdef)) (m : list (key_t * (nat * vdef))),
     (forall k i v, In (k, (i, v)) (fold_left step l m) -> In (k, (i, v)) m \/ (k = field_key v /\ In (i, v) l /\ v_flatten v = true /\ v_skip v = false)) /\
     (forall k, In k (map fst m) -> In k (map fst (fold_left step l m))) /\
     (forall i v, In (i, v) l -> v_flatten v = true -> v_skip v = false -> In (field_key v) (map fst (fold_left step l m)))).
  { induction l as [|[j w] l IH]; intro m; cbn [fold_left].
    - split; auto. split; auto. intros i v [].
    - destruct (IH (step m (j, w))) as [I1 [I2 I3]].
      assert (S1 : forall k i v, In (k, (i, v)) (step m (j, w)) -> In (k, (i, v)) m \/ (k = field_key v /\ (i, v) = (j, w) /\ v_flatten v = true /\ v_skip v = false)).
      { intros k i v I. cbn [step] in I. destruct (v_flatten w) eqn:F; cbn [andb] in I; auto. destruct (v_skip w) eqn:K; cbn [negb] in I; auto.
        apply (map_insert_spec key_cmp (field_key w) (j, w) key_cmp_eq) in I as [E|I]; auto. injection E as -> -> ->. auto. }
      assert (S2 : forall k, In k (map fst m) -> In k (map fst (step m (j, w)))).
      { intros k I. cbn [step]. destruct (v_flatten w && negb (v_skip w)); auto. apply (map_insert_spec key_cmp (field_key w) (j, w) key_cmp_eq). auto. }
      split; [|split].
      + intros k i v I. destruct (I1 _ _ _ I) as [I'|[? [? ?]]]; [|right; cbn; auto].
        destruct (S1 _ _ _ I') as [?|[? [E ?]]]; auto. right. split; auto. split; auto. now left.
      + auto.
      + intros i v [E|I] F K; [|eauto]. injection E as -> ->. apply I2. cbn [step]. rewrite F, K. cbn [andb negb].
        apply (map_insert_spec key_cmp (field_key v) (i, v) key_cmp_eq). auto. }
  destruct (H (combine (seq 0 (length (e_variants e))) (e_variants e)) []) as [H1 [_ H3]]. split.
  - intros k i v I. destruct (H1 _ _ _ I) as [[]|[E [J [F K]]]]. split; auto. apply in_indexed in J as [_ J]. rewrite Nat.sub_0_r in J. repeat split; auto.
  - intros i v [N [F K]]. apply (H3 i); auto. apply in_indexed. rewrite Nat.sub_0_r. split; auto. lia.
Qed.

Lemma skip_default_names (f : field V) : f_names (skip_default f) = f_names f /\ f_kind (skip_default f) = f_kind f /\
  is_parsable (skip_default f) = is_parsable f /\ is_flat (skip_default f) = is_flat f /\ (f_skip f = false -> f_default (skip_default f) = f_default f).
Proof.
  unfold skip_default. destruct (f_default f) eqn:D; [repeat split; auto|]. destruct (f_skip f) eqn:S; [|repeat split; auto].
  repeat split; auto; [|discriminate]. unfold is_parsable. cbn. now rewrite S.
Qed.
Lemma key_names_spec (f : field V) : (required f -> key_names (skip_default f) = f_names f) /\ (~ required f -> key_names (skip_default f) = []).
Proof.
  unfold key_names, required, has_default, pitem. destruct (skip_default_names f) as [N [K [P [F D]]]]. rewrite N, P, F. split.
  - intros [I DN]. apply andb_true_iff in I as [I1 I2]. rewrite I1. apply negb_true_iff in I2. rewrite I2.
    assert (S : f_skip f = false). { unfold is_parsable in I1. apply andb_true_iff in I1 as [_ I1]. now apply negb_true_iff. }
    rewrite D, DN by auto. reflexivity.
  - intro NR. destruct (is_parsable f) eqn:I1; [|now rewrite orb_true_r]. destruct (is_flat f) eqn:I2; [now rewrite orb_true_r|].
    assert (S : f_skip f = false). { unfold is_parsable in I1. apply andb_true_iff in I1 as [_ I1]. now apply negb_true_iff. }
    rewrite D by auto. destruct (f_default f) eqn:DD; auto. destruct NR. cbn. auto.
Qed.
Lemma required_dec (f : field V) : required f \/ ~ required f.
Proof. unfold required. destruct (pitem f), (f_default f); intuition congruence. Qed.
Lemma field_key_in (v : vdef) ks : In ks (field_key v) <->
  exists f, In f (v_raw v) /\ required f /\ ks = set_of str_cmp (f_names f) /\ ks <> [].
Proof.
  unfold field_key. rewrite set_of_in by (apply cmp_list_eq; apply str_cmp_eq). rewrite filter_In. unfold v_fields. rewrite map_map, in_map_iff. split.
  - intros [[f [E I]] NE]. exists f. destruct (key_names_spec f) as [K1 K2]. destruct (required_dec f) as [R|R].
    + rewrite K1 in E by auto. repeat split; try apply R; auto. destruct ks; discriminate.
    + rewrite K2 in E by auto. subst ks. discriminate.
  - intros [f [I [R [E NE]]]]. split; [|destruct ks; congruence]. exists f. split; auto. rewrite (proj1 (key_names_spec f) R). auto.
Qed.
Lemma needs_key (v : vdef) : fields_named v -> needs v <-> field_key v <> [].
Proof.
  intro FN. split.
  - intros [f [I R]] E. assert (J : In (set_of str_cmp (f_names f)) (field_key v)); [|rewrite E in J; destruct J].
    apply field_key_in. exists f. repeat split; auto; try apply R. intro Z. apply set_of_nil in Z; [|apply str_cmp_eq]. apply (FN f I); auto. apply R.
  - intro NE. destruct (field_key v) as [|ks l] eqn:E; [congruence|]. assert (J : In ks (field_key v)) by (rewrite E; now left).
    apply field_key_in in J as [f [I [R _]]]. exists f. auto.
Qed.
Definition paths_for (prefix : string) (inputs : list stream) (m : pathmap) : Prop :=
  forall k, In k (pm_keys m) <-> exists ksp, In ((prefix ++ k)%string, ksp) (keys_in inputs).
Lemma present_paths (v : vdef) prefix inputs m : paths_for prefix inputs m -> fields_named v ->
  all_present v prefix inputs <-> has_paths m (field_key v) = true.
Proof.
  intros PF FN. rewrite has_paths_keys. split.
  - intros AP ks I. apply field_key_in in I as [f [I [R [-> _]]]]. destruct (AP f I R) as [k [ksp [IK [n [IN ->]]]]].
    exists n. split; [now apply set_of_in; [apply str_cmp_eq|]|]. apply PF. eauto.
  - intros H f I R. destruct (H (set_of str_cmp (f_names f))) as [k [IK IP]].
    + apply field_key_in. exists f. repeat split; auto; try apply R. intro Z. apply set_of_nil in Z; [|apply str_cmp_eq]. apply (FN f I); auto. apply R.
    + apply set_of_in in IK; [|apply str_cmp_eq]. apply PF in IP as [ksp IP]. exists (prefix ++ k)%string, ksp. split; auto. exists k. auto.
Qed.
(** all flattened variants have names for their fields *)
Definition flat_named_ok (e : edef) : Prop := forall v, In v (e_variants e) -> v_flatten v = true -> fields_named v.
Lemma flattened_in (e : edef) i v : flattened e i v -> In v (e_variants e) /\ v_flatten v = true.
Proof. intros [N [F _]]. split; auto. eapply nth_error_In; eauto. Qed.
Lemma pick_some (e : edef) prefix inputs m i v : flat_named_ok e -> paths_for prefix inputs m ->
  pick_flat e m = Some (i, v) -> chosen e prefix inputs i v.
Proof.
  intros FN PF. unfold pick_flat. destruct (matches_spec e) as [M1 M2].
  destruct (find (fun kv => match fst kv with [] => false | ks => has_paths m ks end) (flat_matches e)) as [[k [i1 v1]]|] eqn:F1.
  - intro E. injection E as <- <-. apply find_some in F1 as [I HP]. cbn [fst] in HP. destruct (M1 _ _ _ I) as [-> FL].
    destruct (flattened_in _ _ _ FL) as [IV FV]. specialize (FN _ IV FV).
    destruct (field_key v1) as [|k0 l0] eqn:FK; [discriminate|]. rewrite <- FK in HP. split; auto. split.
    + apply (present_paths v1 prefix inputs m PF FN). auto.
    + left. apply needs_key; auto. congruence.
  - destruct (find (fun kv => match fst kv with [] => true | _ => false end) (flat_matches e)) as [[k [i1 v1]]|] eqn:F2; [|discriminate].
    intro E. injection E as <- <-. apply find_some in F2 as [I HP]. cbn [fst] in HP. destruct (M1 _ _ _ I) as [-> FL].
    destruct (flattened_in _ _ _ FL) as [IV FV]. pose proof (FN _ IV FV) as FN1. split; auto. split.
    + apply (present_paths v1 prefix inputs m PF FN1). destruct (field_key v1); [reflexivity|discriminate].
    + right. intros j w FW NW AP. destruct (flattened_in _ _ _ FW) as [IW FWW]. pose proof (FN _ IW FWW) as FN2.
      apply (present_paths w prefix inputs m PF FN2) in AP. apply needs_key in NW; auto.
      apply M2 in FW. apply in_map_iff in FW as [[k2 iv2] [E2 I2]]. cbn [fst] in E2. subst k2.
      apply (find_none _ _ F1) in I2. cbn [fst] in I2. destruct (field_key w); [congruence|]. congruence.
Qed.
Lemma pick_none (e : edef) prefix inputs m : flat_named_ok e -> paths_for prefix inputs m ->
  pick_flat e m = None -> forall i v, flattened e i v -> ~ all_present v prefix inputs.
Proof.
  intros FN PF. unfold pick_flat. destruct (matches_spec e) as [M1 M2].
  destruct (find (fun kv => match fst kv with [] => false | ks => has_paths m ks end) (flat_matches e)) as [[k [i1 v1]]|] eqn:F1; [discriminate|].
  destruct (find (fun kv => match fst kv with [] => true | _ => false end) (flat_matches e)) as [[k [i1 v1]]|] eqn:F2; [discriminate|].
  intros _ i v FW AP. destruct (flattened_in _ _ _ FW) as [IW FWW]. pose proof (FN _ IW FWW) as FN2.
  apply (present_paths v prefix inputs m PF FN2) in AP. apply M2 in FW. apply in_map_iff in FW as [[k2 iv2] [E2 I2]]. cbn [fst] in E2. subst k2.
  pose proof (find_none _ _ F1 _ I2) as X1. pose proof (find_none _ _ F2 _ I2) as X2. cbn [fst] in X1, X2.
  destruct (field_key v); congruence.
Qed.

(** *** The names *)
Lemma v_allowed_names (v : vdef) : v_allowed v = flat_names_of v.
Proof.
  unfold v_allowed, flat_names_of, fields_names, v_fields. induction (v_raw v) as [|f l IH]; auto. cbn [map flat_map]. rewrite IH. f_equal.
  unfold names_of, field_key_names. destruct (skip_default_names f) as [N [K [P _]]]. now rewrite N, K, P.
Qed.
Lemma flat_names_in (v : vdef) k : v_flatten v = true ->
  (exists p ns m, In (p, ns) (flat_names v) /\ In m ns /\ k = join_path p m) <-> In k (all_names v).
Proof.
  intro FV. unfold flat_names, all_names, v_fields. rewrite FV, map_map. split.
  - intros [p [ns [m [I [J ->]]]]]. apply in_map_iff in I as [f [E I]]. apply in_flat_map. exists f. split; auto.
    destruct (skip_default_names f) as [N [K _]]. rewrite N, K in E. unfold field_key_names, join_paths.
    destruct (f_kind f) as [d|[q|] u|u|a|a]; injection E as <- <-; auto. now apply in_map.
  - intro I. apply in_flat_map in I as [f [I J]]. unfold field_key_names, join_paths in J.
    assert (Q : exists p ns m, match f_kind f with KFlatN (Some p) u => (p, fn_names u) | KFlatN None u => ("", fn_names u) | _ => ("", f_names f) end = (p, ns) /\ In m ns /\ k = join_path p m).
    { destruct (f_kind f) as [d|[q|] u|u|a|a]; try (exists "", (f_names f), k; auto; fail).
      - apply in_map_iff in J as [m [<- J]]. exists q, (fn_names u), m. auto.
      - exists "", (fn_names u), k. auto. }
    destruct Q as [p [ns [m [E [JM ->]]]]]. exists p, ns, m. split; auto. apply in_map_iff. exists f. split; auto.
    destruct (skip_default_names f) as [N [K _]]. now rewrite N, K.
Qed.
Lemma flat_names_flat (v : vdef) x : In x (flat_names v) -> v_flatten v = true.
Proof. unfold flat_names. destruct (v_flatten v); auto. Qed.
Lemma fields_accepts_spec (v : vdef) : fields_accepts_all (v_fields v) = true <->
  exists f, In f (v_raw v) /\
    match f_kind f with KRest _ => True | KFlatN _ u => fn_accepts_all u = true | _ => False end.
Proof.
  unfold fields_accepts_all, v_fields. split.
  - destruct (existsb is_rest (map skip_default (v_raw v))) eqn:R.
    + intros _. apply existsb_exists in R as [f' [I R]]. apply in_map_iff in I as [f [<- I]]. exists f. split; auto.
      destruct (skip_default_names f) as [_ [K _]]. unfold is_rest in R. rewrite K in R. destruct (f_kind f); try discriminate. exact Logic.I.
    + intro H. apply existsb_exists in H as [f' [I H]]. apply in_map_iff in I as [f [<- I]]. exists f. split; auto.
      destruct (skip_default_names f) as [_ [K _]]. rewrite K in H. destruct (f_kind f); try discriminate. auto.
  - intros [f [I H]]. destruct (existsb is_rest (map skip_default (v_raw v))) eqn:R; auto.
    apply existsb_exists. exists (skip_default f). split; [now apply in_map|]. destruct (skip_default_names f) as [_ [K _]]. rewrite K.
    destruct (f_kind f) eqn:FK; auto; try destruct H.
    assert (Z : existsb is_rest (map skip_default (v_raw v)) = true); [|congruence].
    apply existsb_exists. exists (skip_default f). split; [now apply in_map|]. unfold is_rest. now rewrite K.
Qed.
Lemma accepts_all_spec (v : vdef) : v_accepts_all v = true <-> takes_all v.
Proof. unfold v_accepts_all, takes_all. rewrite orb_true_iff. apply or_iff_compat_l, fields_accepts_spec. Qed.
Lemma enum_accepts_spec (e : edef) : e_accepts_all e = true <-> takes_unknown e.
Proof.
  unfold e_accepts_all, takes_unknown. rewrite !orb_true_iff, !existsb_exists. split.
  - intros [[H|[v [I H]]]|[v [I H]]]; auto.
    + right. left. exists v. apply andb_true_iff in H as [H U]. apply andb_true_iff in H as [S F]. apply negb_true_iff in S. auto.
    + right. right. apply andb_true_iff in H as [F H]. apply fields_accepts_spec in H as [f H]. exists v, f. tauto.
  - intros [H|[[v [I [F [S U]]]]|[v [f [I [F H]]]]]]; auto.
    + left. right. exists v. split; auto. now rewrite F, S, U.
    + right. exists v. split; auto. rewrite F. apply fields_accepts_spec. eauto.
Qed.
End E.
