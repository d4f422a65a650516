(** When a named struct parses, and to what. *)
From Verif Require Export LemNamed LemItems.

(** *** all items are eaten when reading does not stop *)
Section W.
Context {env : Env}.
Variable eat : entry -> stream.
Definition read_eaten (pc : list token * list token) (en : entry) : Prop :=
  reads pc en /\ toks (eat en) = snd pc.

Lemma walk_eaten : eat_stays eat -> forall fuel s, length (toks s) < fuel ->
  snd (fst (walk fuel eat s)) = None ->
  Forall2 read_eaten (pieces (toks s)) (fst (fst (walk fuel eat s))).
Proof.
  intro H. induction fuel as [|n IH]; intros s L; [lia|]. cbn [walk].
  destruct (is_empty s) eqn:Z.
  { unfold is_empty in Z. destruct (toks s) eqn:T; [|discriminate]. cbn. auto. }
  assert (TS : toks s <> []) by (unfold is_empty in Z; destruct (toks s); discriminate).
  destruct (cut_item (toks s)) as [seg [tl [T [N E]]]].
  pose proof (path_item seg tl (scope s) (cell s) E) as P.
  assert (Q : mkStream (seg ++ tl) (scope s) (cell s) = s) by (destruct s; cbn in *; now rewrite T).
  rewrite Q in P. pose proof (pieces_app seg tl N E) as PA. rewrite <- T in PA. specialize (PA TS).
  destruct (parse_any_path (root_stream seg)) as [[p|e0|b0] s1] eqn:PR.
  2,3: destruct P as [e [s2 P]]; rewrite P; cbn; discriminate.
  rewrite P. cbv zeta. set (en := mkEntry (path_key p) (p_span p) (mkStream (toks s1 ++ tl) (scope s) (cell s))).
  assert (IK : item_key seg = Some (path_key p, p_span p, toks s1)) by (unfold item_key; now rewrite PR).
  assert (RD : reads (seg, tl) en) by (exists (toks s1); split; auto).
  assert (NB : no_comma (toks s1)).
  { destruct (key_suffix _ _ _ _ IK) as [pre K]. rewrite K in N. apply nc_app in N. tauto. }
  destruct (eat_cut eat H en (toks s1) tl eq_refl NB E) as [lft [EC NL]].
  assert (TL : length tl <= length (toks s)) by (rewrite T, app_length; lia).
  rewrite PA.
  destruct (is_empty (eat en)) eqn:Z2.
  { unfold is_empty in Z2. rewrite EC in Z2. destruct (lft ++ tl) eqn:X; [|discriminate].
    apply app_eq_nil in X as [-> ->]. cbn. intros _. repeat constructor; auto. }
  assert (NE : lft ++ tl <> []) by (unfold is_empty in Z2; rewrite EC in Z2; destruct (lft ++ tl); discriminate).
  destruct lft as [|t lft].
  - cbn [app] in EC, NE. destruct tl as [|t r]; [congruence|]. apply ends_cons in E as C.
    rewrite (parse_comma_cons _ _ _ EC C).
    specialize (IH (set_toks (eat en) r)). cbn [toks set_toks] in IH.
    assert (LL : length r < n) by (cbn in TL; lia). specialize (IH LL).
    destruct (walk n eat (set_toks (eat en) r)) as [[l stop] s4]. cbn [fst snd] in *.
    intro ST. constructor; [split; auto|auto].
  - cbn [app] in EC. apply nc_cons in NL as [C _].
    destruct (parse_comma_not _ _ _ EC C) as [e PE]. rewrite PE. cbn. discriminate.
Qed.
Lemma walks_eaten : eat_stays eat -> forall l, snd (fst (walks eat l)) = None ->
  Forall2 read_eaten (all_pieces l) (fst (fst (walks eat l))).
Proof.
  intro H. induction l as [|s l IH]; cbn [walks all_pieces flat_map]. { cbn. auto. }
  pose proof (walk_eaten H (S (length (toks s))) s (Nat.lt_succ_diag_r _)) as W.
  unfold walk1. destruct (walk (S (length (toks s))) eat s) as [[es stop] s1]. cbn [fst snd] in *.
  destruct stop as [e|]; cbn [fst snd]; [discriminate|].
  destruct (walks eat l) as [[es2 stop] l1]. cbn [fst snd] in *. intro ST.
  apply Forall2_app; auto.
Qed.
End W.

Section N.
Context {env : Env} {V : Type}.

(** *** transforms *)
Lemma run_transforms_err_es (ts : list (transform V)) : forall es, snd (run_transforms ts FParseError es) = es.
Proof. induction ts as [|[g|g] ts IH]; intros; simpl; auto. Qed.
Lemma run_transforms_none (ts : list (transform V)) : forall es, run_transforms ts FNone es = (FNone, es).
Proof. induction ts as [|[g|g] ts IH]; intros; simpl; auto. Qed.
Lemma errs_of_ne e : errs_of e <> [].
Proof. unfold errs_of. discriminate. Qed.
Lemma run_transforms_some (ts : list (transform V)) : forall v,
  (exists w, transformed ts v w /\ run_transforms ts (FSome v) [] = (FSome w, [])) \/
  ((forall w, ~ transformed ts v w) /\ snd (run_transforms ts (FSome v) []) <> []).
Proof.
  induction ts as [|[g|g] ts IH]; intro v; simpl.
  - left. exists v. split; [constructor|reflexivity].
  - destruct (IH (g v)) as [[w [T E]]|[T E]].
    + left. exists w. split; [now constructor|auto].
    + right. split; auto. intros w H. inversion H; subst. eapply T; eauto.
  - destruct (g v) as [u|e] eqn:G.
    + destruct (IH u) as [[w [T E]]|[T E]].
      * left. exists w. split; [econstructor; eauto|auto].
      * right. split; auto. intros w H. inversion H; subst. assert (X : u = u0) by congruence. rewrite <- X in *. eapply T; eauto.
    + right. split. { intros w H. inversion H; subst. congruence. }
      rewrite run_transforms_err_es. unfold push_syn. intro X. apply app_eq_nil in X as [_ X].
      now apply errs_of_ne in X.
Qed.
Lemma transformed_fun ts (v w w' : V) : transformed ts v w -> transformed ts v w' -> w = w'.
Proof.
  intro H. revert w'. induction H; intros w' H'; inversion H'; subst; auto.
  assert (u = u0) by congruence. subst. auto.
Qed.
Lemma transformed_run ts (v w : V) : transformed ts v w -> run_transforms ts (FSome v) [] = (FSome w, []).
Proof.
  intro T. destruct (run_transforms_some ts v) as [[w' [T' E]]|[T' _]].
  - now rewrite (transformed_fun _ _ _ _ T T').
  - destruct (T' _ T).
Qed.
Lemma run_transformed ts (v : V) : snd (run_transforms ts (FSome v) []) = [] ->
  exists w, transformed ts v w /\ run_transforms ts (FSome v) [] = (FSome w, []).
Proof. intro E. destruct (run_transforms_some ts v) as [?|[_ ?]]; auto. congruence. Qed.

(** *** the result without the textual view *)
Lemma flat_mapi_nil {A B} (g : nat -> A -> list B) l : forall i,
  flat_mapi g i l = [] <-> forall j a, nth_error l j = Some a -> g (i + j) a = [].
Proof.
  unfold flat_mapi. induction l as [|a l IH]; intro i; cbn [mapi concat].
  - split; auto. intros _ [|j] a; discriminate.
  - split.
    + intros H j b N. apply app_eq_nil in H as [H1 H2]. destruct j; simpl in N.
      * injection N as <-. now rewrite Nat.add_0_r.
      * rewrite Nat.add_succ_r. apply (proj1 (IH (S i)) H2). auto.
    + intro H. rewrite (proj2 (IH (S i))).
      * specialize (H 0 a eq_refl). rewrite Nat.add_0_r in H. now rewrite H.
      * intros j b N. specialize (H (S j) b N). now rewrite Nat.add_succ_r in H.
Qed.
Lemma app_nil_iff {A} (a b : list A) : a ++ b = [] <-> a = [] /\ b = [].
Proof. split; [apply app_eq_nil|intros [-> ->]; reflexivity]. Qed.

Lemma unwrap_mapi (g : nat -> field V -> fstatus V) : forall fs i vs,
  unwrap_slots (mapi g i fs) = Ok vs <->
  length vs = length fs /\
  forall j f v, nth_error fs j = Some f -> nth_error vs j = Some v -> g (i + j) f = FSome v.
Proof.
  induction fs as [|f fs IH]; intros i vs; cbn [mapi unwrap_slots].
  - split.
    + injection 1 as <-. split; auto. intros [|j] ? ?; discriminate.
    + intros [L _]. destruct vs; [reflexivity|discriminate].
  - split.
    + intro H. destruct (g i f) eqn:G; try discriminate.
      destruct (unwrap_slots (mapi g (S i) fs)) as [vs'| |] eqn:U; try discriminate.
      injection H as <-. apply IH in U. destruct U as [L U]. split; [simpl; auto|].
      intros [|j] f' v N M; simpl in *.
      * injection N as <-. injection M as <-. now rewrite Nat.add_0_r.
      * rewrite Nat.add_succ_r. apply (U j); auto.
    + intros [L H]. destruct vs as [|v vs]; [discriminate|]. injection L as L.
      pose proof (H 0 f v eq_refl eq_refl) as G. rewrite Nat.add_0_r in G. rewrite G.
      rewrite (proj2 (IH (S i) vs)); [reflexivity|]. split; auto.
      intros j f' v' N M. specialize (H (S j) f' v' N M). now rewrite Nat.add_succ_r in H.
Qed.
Lemma overwrite_mapi (g : nat -> field V -> fstatus V) : forall fs i t vs, length t = length fs ->
  overwrite t (mapi g i fs) = vs <->
  length vs = length fs /\
  forall j f v, nth_error fs j = Some f -> nth_error vs j = Some v ->
    Some v = match g (i + j) f with FSome w => Some w | _ => nth_error t j end.
Proof.
  induction fs as [|f fs IH]; intros i t vs L.
  - destruct t; [|discriminate]. simpl. split.
    + intros <-. split; auto. intros [|j] ? ?; discriminate.
    + intros [L' _]. destruct vs; [reflexivity|discriminate].
  - destruct t as [|x t]; [discriminate|]. injection L as L. cbn [mapi overwrite]. split.
    + intros <-. pose proof (proj1 (IH (S i) t _ L) eq_refl) as [L' U]. split; [simpl; auto|].
      intros [|j] f' v N M; simpl in *.
      * injection N as <-. injection M as <-. rewrite Nat.add_0_r. destruct (g i f); reflexivity.
      * rewrite Nat.add_succ_r. apply (U j f'); auto.
    + intros [L' H]. destruct vs as [|v vs]; [discriminate|]. injection L' as L'.
      pose proof (H 0 f v eq_refl eq_refl) as G. rewrite Nat.add_0_r in G. simpl in G. f_equal.
      * destruct (g i f); simpl; congruence.
      * apply IH; auto. split; auto. intros j f' v' N M.
        specialize (H (S j) f' v' N M). now rewrite Nat.add_succ_r in H.
Qed.
Lemma overwrite_len (t : list V) : forall sl, length (overwrite t sl) = length t.
Proof. induction t; intros [|st sl]; simpl; auto. Qed.

Definition target_ok (R : reader V) (target : option (list V)) : Prop :=
  forall t, target = Some t -> length t = length (r_fields R).
(** field number i ends up with v *)
Definition ends_with_value (R : reader V) tm target sp ins l i f v : Prop :=
  fst (final R tm target sp ins l i f) = FSome v \/
  exists t, target = Some t /\ nth_error t i = Some v /\
            (forall w, fst (final R tm target sp ins l i f) <> FSome w).
Lemma post_ret_ok (R : reader V) tm target sp ins l vs : target_ok R target ->
  post_ret target (mapi (fun i f => fst (final R tm target sp ins l i f)) 0 (r_fields R)) = Ok vs <->
  length vs = length (r_fields R) /\
  forall i f v, nth_error (r_fields R) i = Some f -> nth_error vs i = Some v ->
    ends_with_value R tm target sp ins l i f v.
Proof.
  intro TO. unfold ends_with_value. destruct target as [t|]; cbn [post_ret].
  - assert (X : forall vs', Ok (overwrite t (mapi (fun i f => fst (final R tm (Some t) sp ins l i f)) 0 (r_fields R))) = Ok vs' <->
            overwrite t (mapi (fun i f => fst (final R tm (Some t) sp ins l i f)) 0 (r_fields R)) = vs').
    { intro. split; [now injection 1|now intros ->]. }
    rewrite X. rewrite overwrite_mapi by auto. cbn [Nat.add].
    apply and_iff_compat_l. split; intros H i f v N M; specialize (H i f v N M).
    + destruct (fst (final R tm (Some t) sp ins l i f)); [| |left; congruence];
        right; exists t; repeat split; auto; discriminate.
    + destruct H as [->|[t' [E [Nt H]]]]; [reflexivity|]. injection E as <-.
      destruct (fst (final R tm (Some t) sp ins l i f)) eqn:Q; auto. now destruct (H a).
  - rewrite unwrap_mapi. cbn [Nat.add]. apply and_iff_compat_l.
    split; intros H i f v N M; specialize (H i f v N M); auto.
    destruct H as [->|[t' [E _]]]; [reflexivity|discriminate].
Qed.

(** *** errors of the keys *)
Definition entry_fine (R : reader V) (en : entry) : Prop :=
  match owner_in R (en_key en) with
  | None => r_check R = true -> In (en_key en) (r_allowed R)
  | Some (i, f) => forall e, value_at f en <> Err e
  end.
Lemma entry_errors_nil (R : reader V) b en : entry_errors R b en = [] <->
  entry_fine R en /\ (forall i, mine R i en = true -> existsb (mine R i) b = false).
Proof.
  assert (MI : forall j, mine R j en = match owner_in R (en_key en) with Some (i, _) => Nat.eqb j i | None => false end) by reflexivity.
  unfold entry_errors, entry_fine. destruct (owner_in R (en_key en)) as [[i f]|] eqn:O.
  - split.
    + intros H. apply app_eq_nil in H as [H1 H2]. split.
      * intros e E. rewrite E in H2. now apply errs_of_ne in H2.
      * intros j E. rewrite MI in E. apply Nat.eqb_eq in E. subst j. destruct (existsb (mine R i) b); auto. discriminate.
    + intros [H1 H2]. rewrite (H2 i) by (rewrite MI; apply Nat.eqb_refl). cbn [app].
      destruct (value_at f en); auto. now destruct (H1 e).
  - split.
    + intro H. split; [|intro i; rewrite MI; discriminate]. intro C. rewrite C in H. cbn [andb] in H.
      destruct (mem_str (en_key en) (r_allowed R)) eqn:M; [now apply mem_str_In|].
      cbn [negb] in H. now apply errs_of_ne in H.
    + intros [H _]. destruct (r_check R); cbn [andb]; auto.
      rewrite (proj2 (mem_str_In _ _) (H eq_refl)). reflexivity.
Qed.
Lemma entries_errors_nil (R : reader V) l : forall b, entries_errors R b l = [] <->
  Forall (entry_fine R) l /\
  forall i, length (filter (mine R i) l) <= (if existsb (mine R i) b then 0 else 1).
Proof.
  induction l as [|en l IH]; intro b; cbn [entries_errors].
  - split; auto. intros _. split; auto. intro i. simpl. destruct (existsb (mine R i) b); lia.
  - assert (AN : entry_errors R b en ++ entries_errors R (b ++ [en]) l = [] <->
      entry_errors R b en = [] /\ entries_errors R (b ++ [en]) l = []) by apply app_nil_iff.
    rewrite AN, entry_errors_nil, IH. clear IH AN. split.
    + intros [[A B] [C D]]. split; auto. intro i. specialize (D i). rewrite existsb_app in D. cbn [existsb] in D.
      cbn [filter]. specialize (B i). destruct (mine R i en).
      * rewrite (B eq_refl) in *. simpl in *. lia.
      * rewrite !orb_false_r in D. exact D.
    + intros [A B]. inversion A; subst. repeat split; auto.
      * intros i M. specialize (B i). cbn [filter] in B. rewrite M in B. simpl in B.
        destruct (existsb (mine R i) b); auto. lia.
      * intro i. specialize (B i). rewrite existsb_app. cbn [existsb]. cbn [filter] in B.
        destruct (mine R i en).
        -- rewrite orb_true_r. simpl in *. destruct (existsb (mine R i) b); lia.
        -- rewrite !orb_false_r. exact B.
Qed.

(** *** keys and items *)
Lemma owns_mine (R : reader V) ps l : Forall2 reads ps l -> forall i,
  map (owns R i) (map fst ps) = map (mine R i) l.
Proof.
  induction 1 as [|pc en ps l RD F IH]; intro i; cbn [map]; [reflexivity|].
  rewrite IH. f_equal. destruct RD as [body [K _]]. unfold owns, mine. now rewrite K.
Qed.
Lemma existsb_map_eq {A B} (p : A -> bool) (q : B -> bool) : forall l l', map p l = map q l' ->
  existsb p l = existsb q l' /\ length (filter p l) = length (filter q l').
Proof.
  induction l as [|a l IH]; intros [|b l'] H; try discriminate; auto.
  cbn [map] in H. injection H as H1 H2. destruct (IH _ H2) as [I1 I2]. cbn [existsb filter].
  rewrite H1, I1. destruct (q b); cbn [length]; auto.
Qed.
Lemma pieces_shape ts : Forall (fun pc => no_comma (fst pc) /\ ends (snd pc)) (pieces ts).
Proof.
  induction ts as [|t r IH]; [constructor|]. rewrite pieces_cons. destruct (is_comma t) eqn:C.
  - constructor; auto. split; [constructor|now apply ends_cons].
  - destruct (pieces r) as [|[s tl] l] eqn:P.
    + constructor; auto. split; [apply nc_cons; split; [auto|constructor]|left; reflexivity].
    + inversion IH as [|? ? [I1 I2] I3]; subst. constructor; auto. split; auto. now apply nc_cons.
Qed.
Lemma all_pieces_shape l : Forall (fun pc => no_comma (fst pc) /\ ends (snd pc)) (all_pieces l).
Proof.
  unfold all_pieces. induction l; cbn [flat_map]; [constructor|]. apply Forall_app. auto using pieces_shape.
Qed.
Lemma fork_pieces l : all_pieces (fork_inputs l) = all_pieces l.
Proof. unfold all_pieces, fork_inputs. induction l; simpl; f_equal; auto. Qed.
Lemma eat_named_stays (R : reader V) : fields_return (r_fields R) -> Forall stays_field (r_fields R) ->
  eat_stays (eat_named R).
Proof.
  intros G S en. unfold eat_named. pose proof (owner_nth R (en_key en)) as ON.
  assert (K : forall s, exists pre, toks s = pre ++ toks (skip_item s) /\ no_comma pre) by apply stays_skip.
  destruct (owner_in R (en_key en)) as [[i f]|]; [|apply K].
  destruct (ON i f eq_refl) as [N P]. apply nth_error_In in N.
  rewrite Forall_forall in S. pose proof (S f N P (first_name f) (en_span en) (en_at en)) as W.
  destruct (item_named f (first_name f) (en_span en) (en_at en)) as [[v|e|b] s1]; cbn [snd] in W; auto;
    destruct W as [p1 [W1 W2]]; destruct (K s1) as [p2 [W3 W4]]; exists (p1 ++ p2);
    (split; [rewrite W1, W3; apply app_assoc|now apply nc_app]).
Qed.
Lemma stream_eta s a b : toks s = a ++ b -> s = mkStream (a ++ b) (scope s) (cell s).
Proof. destruct s; cbn. now intros ->. Qed.
Lemma local_stays (f : field V) : local_field f -> stays_field f.
Proof. intros L P n sp. apply L. auto. Qed.
Lemma key_no_comma seg k sp body : item_key seg = Some (k, sp, body) -> no_comma seg -> no_comma body.
Proof. intros K N. destruct (key_suffix _ _ _ _ K) as [pre E]. rewrite E in N. apply nc_app in N. tauto. Qed.

(** a key read and eaten without error, with a local parser *)
Lemma fine_gives (R : reader V) pc en : fields_return (r_fields R) -> Forall local_field (r_fields R) ->
  no_comma (fst pc) -> ends (snd pc) ->
  read_eaten (eat_named R) pc en -> entry_fine R en ->
  item_ok R (fst pc) /\
  (forall i f, owner_in R (en_key en) = Some (i, f) -> exists v, value_at f en = Ok v /\ gives R (fst pc) i v).
Proof.
  intros G L N E [[body [K T]] EA] F. unfold entry_fine in F.
  destruct (owner_in R (en_key en)) as [[i f]|] eqn:O.
  - destruct (owner_nth _ _ _ _ O) as [NF P]. apply nth_error_In in NF.
    rewrite Forall_forall in L. destruct (L f NF P (first_name f) (en_span en)) as [_ L2].
    pose proof (key_no_comma _ _ _ _ K N) as NB.
    assert (X : exists v, value_at f en = Ok v /\ gives R (fst pc) i v).
    { destruct (L2 body NB) as [[v [rest A]]|A].
      - pose proof (A (snd pc) (scope (en_at en)) (cell (en_at en)) E) as [A1 A2].
        rewrite <- (stream_eta _ _ _ T) in A1, A2. exists v. unfold value_at. split; [exact A1|].
        unfold eat_named in EA. rewrite O in EA.
        destruct (item_named f (first_name f) (en_span en) (en_at en)) as [r s1]. cbn [fst snd] in A1, A2.
        rewrite A1, A2 in EA.
        assert (rest = []).
        { apply (f_equal (@length _)) in EA. rewrite app_length in EA. destruct rest; auto. simpl in EA. lia. }
        subst rest. exists (en_key en), (en_span en), body, f. split; [auto|split; [auto|exact A]].
      - destruct (A (snd pc) (scope (en_at en)) (cell (en_at en)) E) as [e A1].
        rewrite <- (stream_eta _ _ _ T) in A1. now destruct (F e). }
    split.
    + left. destruct X as [v [_ X]]. eauto.
    + intros i' f' Q. injection Q as <- <-. exact X.
  - split; [|discriminate]. right. exists (en_key en), (en_span en), body. auto.
Qed.
Lemma gives_at (R : reader V) pc en i v : ends (snd pc) -> reads pc en -> gives R (fst pc) i v ->
  exists f, owner_in R (en_key en) = Some (i, f) /\ value_at f en = Ok v /\ toks (eat_named R en) = snd pc.
Proof.
  intros E [body [K T]] [k [ksp [body' [f [K' [O A]]]]]]. rewrite K in K'. injection K' as <- <- <-.
  exists f. split; auto. pose proof (A (snd pc) (scope (en_at en)) (cell (en_at en)) E) as [A1 A2].
  rewrite <- (stream_eta _ _ _ T) in A1, A2. unfold value_at, eat_named. rewrite O.
  destruct (item_named f (first_name f) (en_span en) (en_at en)) as [r s1]. cbn [fst snd] in *.
  rewrite A1. auto.
Qed.
Lemma item_ok_eaten (R : reader V) pc : no_comma (fst pc) -> ends (snd pc) -> item_ok R (fst pc) ->
  eaten (eat_named R) pc.
Proof.
  intros N E [[i [v GV]]|[k [ksp [body [K [O C]]]]]].
  - split.
    + destruct GV as [k [ksp [body [f [K _]]]]]. eauto.
    + intros en RD. destruct (gives_at R pc en i v E RD GV) as [f [_ [_ X]]]. exact X.
  - split; [eauto|]. intros en [body' [K' T]]. rewrite K in K'. injection K' as -> -> ->.
    unfold eat_named. rewrite O. unfold skip_item. cbn [toks set_toks]. rewrite T.
    apply skip_toks_app; auto. eapply key_no_comma; eauto.
Qed.
Lemma item_ok_fine (R : reader V) pc en : ends (snd pc) -> reads pc en -> item_ok R (fst pc) -> entry_fine R en.
Proof.
  intros E RD [[i [v GV]]|[k [ksp [body [K [O C]]]]]]; unfold entry_fine.
  - destruct (gives_at R pc en i v E RD GV) as [f [O [X _]]]. rewrite O, X. discriminate.
  - destruct RD as [body' [K' T]]. rewrite K in K'. injection K' as -> -> ->. now rewrite O.
Qed.

(** *** one field *)
Definition field_fine (R : reader V) tm target sp ins l i f : Prop :=
  opt_errors (flat_out R sp ins i f) = [] /\
  opt_errors (missing_out R tm target sp f (before_sets R tm sp ins l i f)) = [] /\
  snd (final R tm target sp ins l i f) = [].
(** the values of the keys are those of the items *)
Definition match_items (R : reader V) l its : Prop :=
  (forall i, existsb (mine R i) l = existsb (owns R i) its) /\
  (forall i f en, In en l -> owner_in R (en_key en) = Some (i, f) ->
     exists seg v, In seg its /\ gives R seg i v /\ value_at f en = Ok v) /\
  (forall i f seg v, In seg its -> gives R seg i v -> nth_error (r_fields R) i = Some f ->
     exists en, find (mine R i) l = Some en /\ value_at f en = Ok v).
Lemma mine_owner (R : reader V) i en f : nth_error (r_fields R) i = Some f -> mine R i en = true ->
  owner_in R (en_key en) = Some (i, f).
Proof.
  intros N M. unfold mine in M. destruct (owner_in R (en_key en)) as [[j g]|] eqn:O; [|discriminate].
  apply Nat.eqb_eq in M. subst j. apply owner_nth in O. destruct O as [O _]. rewrite N in O. congruence.
Qed.
Lemma gives_pitem (R : reader V) seg i v f : gives R seg i v -> nth_error (r_fields R) i = Some f -> pitem f = true.
Proof.
  intros [k [ksp [body [g [K [O A]]]]]] N. apply owner_nth in O. destruct O as [O P].
  rewrite N in O. congruence.
Qed.
Lemma pitem_spec (f : field V) : pitem f = true <->
  f_container f = false /\ f_skip f = false /\ exists d, f_kind f = KItem d.
Proof.
  unfold pitem, is_parsable, is_flat. destruct (f_container f), (f_skip f), (f_kind f); simpl;
    split; try discriminate; try (intros [? [? [? ?]]]; congruence); eauto.
Qed.
Lemma pflat_spec (f : field V) : pflat f = true <->
  f_container f = false /\ f_skip f = false /\ forall d, f_kind f <> KItem d.
Proof.
  unfold pflat, is_parsable, is_flat. destruct (f_container f), (f_skip f), (f_kind f); simpl;
    (split; [intro X; try discriminate X; repeat split; auto; discriminate|intros [X1 [X2 X3]]; try reflexivity; try congruence]).
  now destruct (X3 d).
Qed.

Lemma field_exact (R : reader V) tm target sp ins l its i (f : field V) v :
  flats_return R sp -> missing_return R tm target sp -> target_ok R target ->
  nth_error (r_fields R) i = Some f -> match_items R l its ->
  (field_fine R tm target sp ins l i f /\ ends_with_value R tm target sp ins l i f v) <->
  field_gets R tm target sp ins its i f v.
Proof.
  intros FR MR TO N [M1 [M2 M3]].
  assert (NG : pitem f = false -> existsb (owns R i) its = false).
  { intro P. rewrite <- M1. destruct (existsb (mine R i) l) eqn:X; auto. apply existsb_exists in X.
    destruct X as [en [_ X]]. apply (mine_owner R i en f N) in X. apply owner_nth in X. destruct X. congruence. }
  assert (FT : forall w es, set_field f (FSome w) es = run_transforms (f_transforms f) (FSome w) es).
  { intros. unfold set_field. destruct (f_default f); reflexivity. }
  unfold field_fine, ends_with_value, final.
  destruct (pflat f) eqn:PF.
  { (* flat *)
    apply pflat_spec in PF as PS. destruct PS as [PC [PK PI]].
    assert (PN : pitem f = false).
    { destruct (pitem f) eqn:P; auto. apply pitem_spec in P. destruct P as [_ [_ [d P]]]. now destruct (PI d). }
    assert (MO : forall st, missing_out R tm target sp f st = None).
    { intro st. unfold missing_out. destruct (f_kind f) eqn:K; auto. now destruct (PI d). }
    unfold after_missing. rewrite MO. cbn [opt_errors].
    assert (FO : flat_out R sp ins i f = Some (fst (flat_call f (r_prefix R) sp (r_allowed R) (flat_in R ins i)))).
    { unfold flat_out. now rewrite PF. }
    pose proof (FR f (flat_in R ins i) (nth_error_In _ _ N) PF) as RT.
    assert (BS : before_sets R tm sp ins l i f =
      match fst (flat_call f (r_prefix R) sp (r_allowed R) (flat_in R ins i)) with Ok w => FSome w | _ => FParseError end).
    { unfold before_sets, after_container, after_flat. rewrite FO, PC. destruct tm; destruct (fst _); reflexivity. }
    rewrite BS, FO. split.
    - intros [[H1 [_ H3]] H4]. destruct (fst (flat_call f (r_prefix R) sp (r_allowed R) (flat_in R ins i))) as [w|e|b] eqn:FC.
      + rewrite FT in H3, H4. apply run_transformed in H3 as [w' [T E]]. rewrite E in H4.
        eapply G_flat; eauto. destruct H4 as [H4|[t [_ [_ H4]]]].
        * injection H4 as <-. exact T.
        * now destruct (H4 w').
      + now apply errs_of_ne in H1.
      + destruct RT.
    - intro H. inversion H; subst; try congruence.
      + pose proof (gives_pitem _ _ _ _ _ H1 N). congruence.
      + rewrite H1. cbn [opt_errors]. rewrite FT. rewrite (transformed_run _ _ _ H2). cbn. auto. }
  assert (FO : flat_out R sp ins i f = None) by (unfold flat_out; now rewrite PF).
  assert (BS : before_sets R tm sp ins l i f = after_container tm f (slot_of R l i f)).
  { unfold before_sets, after_flat. now rewrite FO. }
  rewrite FO, BS. cbn [opt_errors].
  assert (CD : (exists pn obj, tm = TAttrs pn obj /\ f_container f = true) \/ (tm <> TMeta -> f_container f = false)).
  { destruct tm as [|pn obj]; [now right|]. destruct (f_container f); [left|right]; eauto. }
  destruct CD as [[pn [obj [-> FC]]]|FC].
  { (* container *)
    cbn [after_container]. rewrite FC.
    assert (MO : missing_out R (TAttrs pn obj) target sp f (FSome obj) = None).
    { unfold missing_out. destruct (f_kind f); auto. unfold wants_error. now rewrite FC. }
    unfold after_missing. rewrite MO. cbn [opt_errors]. rewrite FT. split.
    - intros [[_ [_ H3]] H4]. apply run_transformed in H3 as [w' [T E]]. rewrite E in H4.
      eapply G_container; eauto. destruct H4 as [H4|[t [_ [_ H4]]]].
      + injection H4 as <-. exact T.
      + now destruct (H4 w').
    - intro H. inversion H; subst; try congruence.
      + pose proof (gives_pitem _ _ _ _ _ H1 N) as P. apply pitem_spec in P. destruct P. congruence.
      + injection H0 as <- <-. rewrite (transformed_run _ _ _ H2). cbn. auto.
      + specialize (H2 ltac:(discriminate)). congruence.
      + specialize (H2 ltac:(discriminate)). congruence. }
  assert (AC : after_container tm f (slot_of R l i f) = slot_of R l i f).
  { unfold after_container. destruct tm; auto. now rewrite (FC ltac:(discriminate)). }
  rewrite AC. unfold slot_of. specialize (M1 i). rewrite find_none_existsb in M1.
  destruct (find (mine R i) l) as [en|] eqn:FN.
  { (* present *)
    apply find_some in FN as FN2. destruct FN2 as [I M].
    pose proof (mine_owner R i en f N M) as O.
    destruct (M2 i f en I O) as [seg [w [IS [GV VA]]]]. rewrite VA.
    assert (MO : missing_out R tm target sp f (FSome w) = None).
    { unfold missing_out. destruct (f_kind f); auto. cbn [fs_is_none]. now rewrite andb_false_r. }
    unfold after_missing. rewrite MO. cbn [opt_errors]. rewrite FT. split.
    - intros [[_ [_ H3]] H4]. apply run_transformed in H3 as [w' [T E]]. rewrite E in H4.
      eapply G_item; eauto. destruct H4 as [H4|[t [_ [_ H4]]]].
      + injection H4 as <-. exact T.
      + now destruct (H4 w').
    - intro H. inversion H; subst; try congruence.
      + destruct (M3 i f seg0 w0 H0 H1 N) as [en' [Q1 Q2]]. rewrite FN in Q1. injection Q1 as <-.
        assert (X : w0 = w) by congruence. rewrite X in H2.
        rewrite (transformed_run _ _ _ H2). cbn. auto.
      + specialize (FC ltac:(discriminate)). congruence. }
  (* absent *)
  symmetry in M1.
  assert (NW : forall seg w, In seg its -> ~ gives R seg i w).
  { intros seg w I GV. destruct (M3 i f seg w I GV N) as [en [X _]]. congruence. }
  destruct (f_default f) as [dv|] eqn:FD.
  { assert (MO : missing_out R tm target sp f FNone = None).
    { unfold missing_out. destruct (f_kind f); auto. unfold wants_error. rewrite FD. now rewrite andb_false_r. }
    unfold after_missing. rewrite MO. cbn [opt_errors].
    assert (SF : set_field f FNone [] = run_transforms (f_transforms f) (FSome dv) []).
    { unfold set_field. now rewrite FD. }
    rewrite SF. split.
    - intros [[_ [_ H3]] H4]. apply run_transformed in H3 as [w' [T E]]. rewrite E in H4.
      eapply G_default; eauto. destruct H4 as [H4|[t [_ [_ H4]]]].
      + injection H4 as <-. exact T.
      + now destruct (H4 w').
    - intro H. inversion H; subst; try congruence.
      + now destruct (NW seg w).
      + specialize (FC ltac:(discriminate)). congruence.
      + assert (X : w = dv) by congruence. rewrite X in *.
        rewrite (transformed_run _ _ _ H4). cbn. auto. }
  destruct target as [t|].
  { assert (MO : missing_out R tm (Some t) sp f FNone = None).
    { unfold missing_out. destruct (f_kind f); auto. unfold wants_error. cbn [has_target negb]. now rewrite andb_false_r. }
    unfold after_missing. rewrite MO. cbn [opt_errors].
    assert (SF : set_field f FNone [] = (FNone, [])).
    { unfold set_field. rewrite FD. apply run_transforms_none. }
    rewrite SF. cbn [fst snd]. split.
    - intros [_ [H4|[t' [H4 [H5 _]]]]]; [discriminate|]. eapply G_target; eauto.
    - intro H. inversion H; subst; try congruence.
      + now destruct (NW seg w).
      + specialize (FC ltac:(discriminate)). congruence.
      + split; auto. right. exists t0. repeat split; auto. discriminate. }
  unfold after_missing. destruct (f_kind f) as [d| | | |] eqn:FK.
  1: destruct (f_container f) eqn:FCC.
  2: { assert (MO : missing_out R tm None sp f FNone = Some (d_missing d (missing_name_named tm (r_prefix R) f) sp)).
       { unfold missing_out. rewrite FK. unfold wants_error. now rewrite FD, FCC. }
       rewrite MO. specialize (MR f d (nth_error_In _ _ N) FK). unfold wants_error in MR. rewrite FD, FCC in MR.
       specialize (MR eq_refl).
       destruct (d_missing d (missing_name_named tm (r_prefix R) f) sp) as [w|e|b] eqn:DM; [| |destruct MR].
       - cbn [opt_errors]. rewrite FT. split.
         + intros [[_ [_ H3]] H4]. apply run_transformed in H3 as [w' [T E]]. rewrite E in H4.
           eapply G_missing; eauto. destruct H4 as [H4|[t [_ [_ H4]]]].
           * injection H4 as <-. exact T.
           * now destruct (H4 w').
         + intro H. inversion H; subst; try congruence.
           * now destruct (NW seg w0).
           * assert (X : w0 = w) by congruence. rewrite X in *.
             rewrite (transformed_run _ _ _ H6). cbn. auto.
       - cbn [opt_errors]. split.
         + intros [[_ [H3 _]] _]. now apply errs_of_ne in H3.
         + intro H. inversion H; subst; try congruence. now destruct (NW seg w). }
  all: assert (MO : missing_out R tm None sp f FNone = None)
    by (unfold missing_out; rewrite FK; try reflexivity; unfold wants_error; now rewrite FCC).
  all: rewrite MO; cbn [opt_errors];
    assert (SF : set_field f FNone [] = (FNone, [])) by (unfold set_field; rewrite FD; apply run_transforms_none);
    rewrite SF; cbn [fst snd]; split;
    [intros [_ [H4|[t' [H4 _]]]]; discriminate|].
  all: intro H; inversion H; subst; try congruence;
    [now destruct (NW seg w)|specialize (FC ltac:(discriminate)); congruence].
Qed.

(** *** the whole struct *)
Lemma field_gets_ins (R : reader V) tm target sp ins ins' its i (f : field V) v :
  (pflat f = true -> ins = ins') ->
  field_gets R tm target sp ins its i f v -> field_gets R tm target sp ins' its i f v.
Proof.
  intros E H. destruct H; [eapply G_item|eapply G_flat|eapply G_container|eapply G_default|eapply G_target|eapply G_missing]; eauto.
  now rewrite <- E.
Qed.
Lemma no_flat_in (R : reader V) (f : field V) : existsb pflat (r_fields R) = false -> In f (r_fields R) -> pflat f = false.
Proof.
  intros H I. destruct (pflat f) eqn:P; auto.
  assert (existsb pflat (r_fields R) = true) by (apply existsb_exists; eauto). congruence.
Qed.
Lemma Forall2_in_l {A B} (P : A -> B -> Prop) l l' a : Forall2 P l l' -> In a l -> exists b, In b l' /\ P a b.
Proof. induction 1; intros []; subst; eauto with datatypes. destruct (IHForall2 H1) as [b [? ?]]. eauto with datatypes. Qed.
Lemma Forall2_in_r {A B} (P : A -> B -> Prop) l l' b : Forall2 P l l' -> In b l' -> exists a, In a l /\ P a b.
Proof. induction 1; intros []; subst; eauto with datatypes. destruct (IHForall2 H1) as [a [? ?]]. eauto with datatypes. Qed.
Lemma count_one {A} (p : A -> bool) l a : length (filter p l) <= 1 -> In a l -> p a = true -> find p l = Some a.
Proof.
  induction l as [|x l IH]; intros L I P; [destruct I|]. cbn [filter find] in *. destruct (p x) eqn:X.
  - destruct I as [->|I]; auto. simpl in L.
    assert (filter p l = []) by (destruct (filter p l); auto; simpl in L; lia).
    assert (Q : In a (filter p l)) by (apply filter_In; auto). rewrite H in Q. destruct Q.
  - destruct I as [->|I]; [congruence|auto].
Qed.
Lemma match_items_of (R : reader V) ps l :
  Forall2 (fun pc en => reads pc en /\
             forall i f, owner_in R (en_key en) = Some (i, f) ->
               exists v, value_at f en = Ok v /\ gives R (fst pc) i v) ps l ->
  Forall (fun pc => no_comma (fst pc) /\ ends (snd pc)) ps ->
  (forall i, length (filter (mine R i) l) <= 1) ->
  match_items R l (map fst ps).
Proof.
  intros F SH C. rewrite Forall_forall in SH. repeat split.
  - intro i. symmetry. apply existsb_map_eq. apply owns_mine.
    clear - F. induction F; constructor; auto. apply H.
  - intros i f en I O. destruct (Forall2_in_r _ _ _ _ F I) as [pc [IP [RD G]]].
    destruct (G i f O) as [v [VA GV]]. exists (fst pc), v. auto using in_map.
  - intros i f seg v I GV N. apply in_map_iff in I as [pc [<- IP]].
    destruct (Forall2_in_l _ _ _ _ F IP) as [en [I [RD _]]]. destruct (SH pc IP) as [_ E].
    destruct (gives_at R pc en i v E RD GV) as [g [O [VA _]]].
    assert (g = f). { apply owner_nth in O. destruct O as [O _]. congruence. } subst g.
    exists en. split; auto. apply count_one; auto. unfold mine. rewrite O. apply Nat.eqb_refl.
Qed.

Lemma post_ret_ok_split (R : reader V) tm target sp ins l vs : target_ok R target ->
  (forall i f, nth_error (r_fields R) i = Some f -> field_fine R tm target sp ins l i f) /\
  post_ret target (mapi (fun i f => fst (final R tm target sp ins l i f)) 0 (r_fields R)) = Ok vs <->
  length vs = length (r_fields R) /\
  forall i f v, nth_error (r_fields R) i = Some f -> nth_error vs i = Some v ->
    field_fine R tm target sp ins l i f /\ ends_with_value R tm target sp ins l i f v.
Proof.
  intro TO. rewrite (post_ret_ok R tm target sp ins l vs TO). split.
  - intros [A [L B]]. split; auto.
  - intros [L A]. repeat split; try assumption; intros; try (apply (A i f v); assumption);
      (destruct (nth_error vs i) as [w|] eqn:N;
       [apply (A i f w); assumption
       |apply nth_error_None in N; pose proof (proj1 (nth_error_Some (r_fields R) i) ltac:(congruence)); lia]).
Qed.
Lemma Forall2_and_in {A B} (P Q : A -> B -> Prop) l l' : Forall2 P l l' ->
  (forall a b, In a l -> In b l' -> P a b -> Q a b) -> Forall2 Q l l'.
Proof. induction 1; intro H1; constructor; auto with datatypes. Qed.

Lemma named_text_gen (R : reader V) u v tm target sp inputs vs :
  fields_return (r_fields R) -> flats_return R sp -> missing_return R tm target sp ->
  r_check R = negb u && v -> target_ok R target -> Forall stays_field (r_fields R) ->
  (parses_to R tm target sp inputs (items_of inputs) vs ->
   fst (named_body (r_fields R) tm target u (r_allowed R) sp (r_prefix R) v inputs) = Ok vs) /\
  (Forall local_field (r_fields R) ->
   fst (named_body (r_fields R) tm target u (r_allowed R) sp (r_prefix R) v inputs) = Ok vs ->
   parses_to R tm target sp inputs (items_of inputs) vs).
Proof.
  intros G1 G2 G3 C TO SF.
  pose proof (named_body_exact R u v tm target sp inputs G1 G2 G3 C) as X. cbv zeta in X.
  set (src := if existsb pflat (r_fields R) then fork_inputs inputs else inputs) in *.
  assert (PS : all_pieces src = all_pieces inputs) by (unfold src; destruct (existsb _ _); auto using fork_pieces).
  assert (ES : eat_stays (eat_named R)).
  { apply eat_named_stays; auto. }
  pose proof (walks_eaten _ ES src) as WE. pose proof (walks_complete _ ES src) as WC.
  rewrite PS in WE, WC. pose proof (all_pieces_shape inputs) as SH.
  destruct (walks (eat_named R) src) as [[l stop] src1]. cbn [fst snd] in X, WE, WC.
  set (ins := if existsb pflat (r_fields R) then inputs else src1) in *.
  assert (IE : forall f, In f (r_fields R) -> pflat f = true -> ins = inputs).
  { intros f I P. unfold ins. destruct (existsb pflat (r_fields R)) eqn:Q; auto.
    pose proof (no_flat_in R f Q I). congruence. }
  rewrite X. clear X. unfold parses_to, items_of.
  assert (EQ : match all_errors R tm target sp ins l stop with
               | [] => post_ret target (mapi (fun i f => fst (final R tm target sp ins l i f)) 0 (r_fields R))
               | e :: es => Err (mkSyn e es) end = Ok vs <->
     (Forall (entry_fine R) l /\ (forall i, length (filter (mine R i) l) <= 1)) /\ stop = None /\
     length vs = length (r_fields R) /\
     forall i f v, nth_error (r_fields R) i = Some f -> nth_error vs i = Some v ->
       field_fine R tm target sp ins l i f /\ ends_with_value R tm target sp ins l i f v).
  { rewrite <- (post_ret_ok_split R tm target sp ins l vs TO). 
    pose proof (entries_errors_nil R l []) as EN. cbn [existsb] in EN. rewrite <- EN. clear EN.
    unfold all_errors. split.
    - intro H. destruct (_ ++ _) eqn:Q in H; [|discriminate].
      apply app_eq_nil in Q as [Q1 Q]. apply app_eq_nil in Q as [Q2 Q].
      apply app_eq_nil in Q as [Q3 Q]. apply app_eq_nil in Q as [Q4 Q5].
      refine (conj Q1 (conj _ (conj _ H))).
      + destruct stop; auto. now apply errs_of_ne in Q2.
      + intros i f N. rewrite flat_mapi_nil in Q3, Q4, Q5. split; [|split]; [apply (Q3 i f N)|apply (Q4 i f N)|apply (Q5 i f N)].
    - intros [Q1 [-> [Q2 Q3]]]. rewrite Q1. cbn [app].
      rewrite (proj2 (flat_mapi_nil _ _ 0)) by (intros j a N; apply (Q2 j a N)).
      rewrite (proj2 (flat_mapi_nil _ _ 0)) by (intros j a N; apply (Q2 j a N)).
      rewrite (proj2 (flat_mapi_nil _ _ 0)) by (intros j a N; apply (Q2 j a N)).
      exact Q3. }
  rewrite EQ. clear EQ. split.
  - intros [IO [CN [L H]]]. 
    assert (EA : Forall (eaten (eat_named R)) (all_pieces inputs)).
    { apply Forall_forall. intros pc I. rewrite Forall_forall in SH, IO. destruct (SH pc I).
      apply item_ok_eaten; auto. apply IO. now apply in_map. }
    destruct (WC EA) as [RD ->]. clear WC WE EA.
    assert (CN2 : forall i, length (filter (mine R i) l) <= 1).
    { intro i. destruct (existsb_map_eq (owns R i) (mine R i) _ _ (owns_mine R _ _ RD i)) as [_ <-]. auto. }
    assert (EF : Forall (entry_fine R) l).
    { apply Forall_forall. intros en I. destruct (Forall2_in_r _ _ _ _ RD I) as [pc [IP RP]].
      rewrite Forall_forall in SH, IO. destruct (SH pc IP). eapply item_ok_fine; eauto. apply IO. now apply in_map. }
    assert (MI : match_items R l (map fst (all_pieces inputs))).
    { apply match_items_of; auto. apply (Forall2_and_in _ _ _ _ RD). intros pc en IP I RP.
      split; auto. intros i f O. rewrite Forall_forall in SH, IO. destruct (SH pc IP) as [_ E].
      destruct (IO (fst pc) (in_map _ _ _ IP)) as [[j [w GW]]|[k [ksp [body [K [O2 _]]]]]].
      - destruct (gives_at R pc en j w E RP GW) as [g [O2 [VA _]]]. rewrite O in O2. injection O2 as <- <-. eauto.
      - destruct RP as [body' [K' _]]. rewrite K in K'. injection K' as -> -> ->. congruence. }
    refine (conj (conj EF CN2) (conj eq_refl (conj L _))).
    intros i f w N M; specialize (H i f w N M);
      apply (field_gets_ins R tm target sp inputs ins) in H; [|intro P; symmetry; apply (IE f); [eapply nth_error_In; eauto|auto]];
      apply (field_exact R tm target sp ins l _ i f w G2 G3 TO N MI) in H; tauto.
  - intro LF. intros [[EF CN] [-> [L H]]]. specialize (WE eq_refl).
    assert (RD : Forall2 reads (all_pieces inputs) l).
    { clear - WE. induction WE; constructor; auto. apply H. }
    assert (GV : forall pc en, In pc (all_pieces inputs) -> In en l -> read_eaten (eat_named R) pc en ->
       item_ok R (fst pc) /\ (forall i f, owner_in R (en_key en) = Some (i, f) -> exists v, value_at f en = Ok v /\ gives R (fst pc) i v)).
    { intros pc en I1 I2 RE. rewrite Forall_forall in SH, EF. destruct (SH pc I1). apply fine_gives; auto. }
    assert (MI : match_items R l (map fst (all_pieces inputs))).
    { apply match_items_of; auto. apply (Forall2_and_in _ _ _ _ WE). intros pc en I1 I2 RE.
      split; [apply RE|]. apply (GV pc en I1 I2 RE). }
    refine (conj _ (conj _ (conj L _))).
    + apply Forall_forall. intros seg I. apply in_map_iff in I as [pc [<- I]].
      destruct (Forall2_in_l _ _ _ _ WE I) as [en [I2 RE]]. apply (GV pc en); auto.
    + intro i. destruct (existsb_map_eq (owns R i) (mine R i) _ _ (owns_mine R _ _ RD i)) as [_ ->]. auto.
    + intros i f w N M. specialize (H i f w N M). rewrite (field_exact R tm target sp ins l _ i f w G2 G3 TO N MI) in H.
      eapply field_gets_ins; [|exact H]. apply IE. eapply nth_error_In; eauto.
Qed.
Lemma named_text (R : reader V) u v tm target sp inputs vs :
  fields_return (r_fields R) -> flats_return R sp -> missing_return R tm target sp ->
  r_check R = negb u && v -> target_ok R target -> Forall local_field (r_fields R) ->
  fst (named_body (r_fields R) tm target u (r_allowed R) sp (r_prefix R) v inputs) = Ok vs <->
  parses_to R tm target sp inputs (items_of inputs) vs.
Proof.
  intros G1 G2 G3 C TO LF.
  assert (SF : Forall stays_field (r_fields R)) by (eapply Forall_impl; [|exact LF]; apply local_stays).
  destruct (named_text_gen R u v tm target sp inputs vs G1 G2 G3 C TO SF). split; auto.
Qed.
End N.
