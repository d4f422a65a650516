(** Proofs behind the "never panics, always terminates" properties: enums, attributes. *)
From Verif Require Export LemWfD.

Section E.
Context {env : Env} {V : Type}.
Notation vdef := (vdef V).
Notation edef := (edef V).

Lemma v_fields_same (v : vdef) : Forall2 same_field (v_raw v) (v_fields v).
Proof.
  unfold v_fields. induction (v_raw v); constructor; auto.
  destruct (skip_default_kind a) as [? [? [? [? ?]]]]. repeat split; auto.
Qed.
Lemma v_fields_ok tm (v : vdef) : Forall (container_ok tm) (v_raw v) ->
  Forall (fields_ok tm None) (v_fields v).
Proof.
  intro H. unfold v_fields. apply Forall_map. eapply Forall_impl; [|exact H]. intros f F P.
  destruct (skip_default_kind f) as [_ [E [C _]]]. rewrite E in P. rewrite C.
  unfold is_parsable in P. unfold skip_default.
  destruct (f_default f) eqn:D; [left; congruence|].
  destruct (f_skip f) eqn:K; [left; discriminate|]. destruct (f_container f) eqn:L; [|discriminate].
  destruct tm; simpl in *; auto; try (exfalso; now apply F).
Qed.
Lemma v_inline_good tm (v : vdef) prefix sp m : accepted_variant tm v ->
  well_behaved_m (v_inline v tm prefix sp m).
Proof.
  intros [A [B [C D]]]. unfold v_inline.
  pose proof (same_good _ _ _ (v_fields_same v) A) as G. pose proof (v_fields_ok tm v B) as K.
  destruct (v_shape v).
  - apply named_body_good; auto.
  - apply unnamed_body_good; auto.
  - apply wbm_bind; auto using wbm_ret. apply good_unit.
Qed.
Lemma v_named_good tm (v : vdef) prefix sp : accepted_variant tm v ->
  well_behaved (v_named v tm prefix sp).
Proof.
  intro A. pose proof (fun m => v_inline_good tm v prefix sp m A) as W. unfold v_named.
  apply wb_named_with; auto.
  - intro m. unfold v_item. auto using wb_delimited, wb_single.
  - intros _. unfold v_flag. destruct (v_shape v); auto using returns_empty, wb_single; [|simpl; auto].
    destruct (allows_empty None (v_fields v)); auto using returns_empty, wb_single. simpl. auto.
Qed.

(** state of the enum parser *)
Definition est_inv (q : est (V:=V)) : Prop :=
  (q_value q = FParseError -> q_errors q <> []) /\
  (forall x, q_value q = FSome x -> q_key q <> None).

Lemma v_parse_good tm vi (v : vdef) prefix p sp q s :
  accepted_variant tm v -> (v_transparent v = true -> Forall no_and_then (v_raw v)) ->
  est_inv q -> q_key q <> None ->
  let x := v_parse vi v tm prefix p sp q s in
  returns (fst (fst x)) /\ est_inv (snd (fst x)) /\ advances s (snd x).
Proof.
  intros A NT [I1 I2] KN. unfold v_parse. destruct (v_transparent v) eqn:T.
  - destruct A as [A1 [A2 [A3 A4]]]. specialize (A4 T). specialize (NT eq_refl).
    destruct A4 as [A4 A5].
    assert (S := v_fields_same v).
    pose proof (same_transparent _ _ S) as ST.
    destruct (transparent_field (v_fields v)) as [[i d]|] eqn:F.
    2: { exfalso. eapply (tgo_exists (v_raw v) 0); [|symmetry; exact ST]. lia. }
    assert (L : length (filter is_parsable (v_fields v)) = 1) by (rewrite (same_count _ _ S); auto).
    assert (GD : good_dict d).
    { destruct (transparent_spec _ _ _ F L) as [a [f [b [Q [-> [K [P _]]]]]]].
      pose proof (same_good _ _ _ S A1) as G. rewrite Q in G. apply Forall_app in G.
      destruct G as [_ G]. inversion G as [|? ? Gf _]; subst.
      specialize (Gf P). unfold good_kind in Gf. now rewrite K in Gf. }
    pose proof (gd_named d GD p sp s) as W. destruct (d_named d p sp s) as [r s1]. cbn [fst snd] in W.
    destruct W as [W1 W2]. destruct r as [x|e|b]; cbn [returns] in W1; [| |contradiction].
    + pose proof (transparent_post_good (v_fields v) tm None i d x (q_errors q) F L
        (same_no_and_then _ _ S NT) (v_fields_ok tm v A2)) as [P1 P2].
      destruct (transparent_post (v_fields v) tm None i x (q_errors q)) as [r2 es2]. cbn [fst snd] in *. subst es2.
      destruct r2 as [l|e|b]; cbn [returns] in P1; [| |contradiction]; cbn [fst snd].
      * repeat split; auto; simpl; destruct (q_value q); simpl; try discriminate; auto.
      * split; [exact Logic.I|]. split; [|eauto using adv_skip with adv].
        split; simpl; [intros _; apply push_syn_ne|]. intros x0 E. exact KN.
    + cbn [fst snd]. split; [exact Logic.I|]. split; [|eauto using adv_skip with adv].
      split; simpl; [intros _; apply push_syn_ne|]. intros x0 E. exact KN.
  - pose proof (v_named_good tm v prefix sp A s) as W. destruct (v_named v tm prefix sp s) as [r s1].
    cbn [fst snd] in W. destruct W as [W1 W2]. destruct r as [x|e|b]; cbn [returns] in W1; [| |contradiction]; cbn [fst snd].
    + repeat split; auto; simpl; try discriminate; auto.
    + split; [exact Logic.I|]. split; [|eauto using adv_skip with adv].
      split; simpl; [intros _; apply push_syn_ne|]. intros x0 E. exact KN.
Qed.

Lemma find_variant_in k : forall vs i j (v : vdef), find_variant k vs i = Some (j, v) -> In v vs.
Proof.
  induction vs as [|w vs IH]; simpl; intros i j v E; [discriminate|].
  destruct (negb (v_flatten w) && negb (v_skip w) && mem_str k (v_names w)).
  - injection E as <- <-. auto.
  - eauto.
Qed.
Lemma find_variant_live k : forall vs i j (v : vdef), find_variant k vs i = Some (j, v) -> v_skip v = false.
Proof.
  induction vs as [|w vs IH]; simpl; intros i j v E; [discriminate|].
  destruct (negb (v_flatten w) && negb (v_skip w) && mem_str k (v_names w)) eqn:C.
  - injection E as <- <-. apply andb_true_iff in C as [C _]. apply andb_true_iff in C as [_ C]. now apply negb_true_iff in C.
  - eauto.
Qed.
(** the same for the variants that are not skipped *)
Definition accepted_live (tm : tmode V) (e : edef) : Prop :=
  forall v, In v (e_variants e) -> v_skip v = false -> accepted_variant tm v.
Definition live_no_and_then (e : edef) : Prop :=
  forall v f, In v (e_variants e) -> v_skip v = false -> v_transparent v = true -> In f (v_raw v) -> no_and_then f.
Lemma accepted_is_live tm e : accepted_enum tm e -> accepted_live tm e.
Proof. unfold accepted_enum. rewrite Forall_forall. intros H v I _. auto. Qed.
Lemma no_and_then_live e : no_transparent_and_then e -> live_no_and_then e.
Proof. intros H v f I _. eauto. Qed.
Lemma only_one_grows sp prefix a b es : grows es (only_one_variant sp prefix a b es).
Proof. unfold only_one_variant. repeat (destruct (String.eqb _ _) || destruct (is_empty_str _)); auto with gr. Qed.

Lemma enum_closure_good_live tm (e : edef) prefix :
  accepted_live tm e -> live_no_and_then e -> good_func est_inv (enum_closure e tm prefix).
Proof.
  intros A NT p sp q s I. unfold enum_closure.
  destruct (strip_prefix prefix p) as [k|]; [|simpl; auto using adv_skip].
  set (paths := if e_any_flat e then pm_insert k sp (q_paths q) else q_paths q).
  destruct (find_variant k (e_variants e) 0) as [[vi v]|] eqn:E.
  2: { simpl. split; auto. split; [exact I|apply adv_skip]. }
  pose proof (find_variant_live _ _ _ _ _ E) as LV. apply find_variant_in in E. pose proof A as A'. unfold accepted_live in A'.
  apply v_parse_good; auto.
  - intro T. apply Forall_forall. intros f F. eapply NT; eauto.
  - destruct I as [I1 I2]. split; simpl.
    + intro Z. specialize (I1 Z). destruct (q_key q); auto. eapply grows_ne; eauto using only_one_grows.
    + intros x Z. destruct (q_key q); discriminate.
  - simpl. destruct (q_key q); discriminate.
Qed.

Lemma validate_pass_good allowed es l :
  grows es (fst (validate_pass allowed es l)) /\ Forall2 advances l (snd (validate_pass allowed es l)).
Proof.
  unfold validate_pass.
  assert (F : good_func (fun es' => grows es es') (check_closure allowed)).
  { intros p sp es' s G. unfold check_closure. simpl. split; auto. split; [|apply adv_skip].
    eapply grows_trans; eauto using check_unknown_grows. }
  destruct (parse_struct_good _ _ F l es (grows_refl es)) as [_ [G A]].
  destruct (parse_struct (check_closure allowed) es l) as [[r es1] l1]. auto.
Qed.
Lemma variant_required_ne sp prefix m es : variant_required sp prefix m es <> [].
Proof. unfold variant_required. apply push_ne. Qed.
Lemma fold_grows {A} (f : errors -> A -> errors) : (forall es x, grows es (f es x)) ->
  forall l es, grows es (fold_left f l es).
Proof.
  intro H. induction l as [|x l IH]; intro es; simpl; [apply grows_refl|].
  eapply grows_trans; [apply H|apply IH].
Qed.
Lemma disallow_grows paths names v es : grows es (disallow_paths paths names v es).
Proof.
  unfold disallow_paths. apply fold_grows. intros es1 x. apply fold_grows. intros es2 y.
  destruct (pm_get (join_path (fst x) y) paths); auto with gr.
Qed.

Lemma map_insert_in {A B} cmp (k : A) (v : B) x : forall l, In x (map_insert cmp k v l) ->
  snd x = v \/ In x l.
Proof.
  induction l as [|[k' v'] l IH]; simpl.
  - intros [<-|[]]. auto.
  - destruct (cmp k k'); simpl; intuition; subst; auto.
Qed.
Lemma flat_matches_in (e : edef) k i v : In (k, (i, v)) (flat_matches e) ->
  In v (e_variants e) /\ v_flatten v = true.
Proof.
  unfold flat_matches.
  assert (H : forall l (m : list (key_t * (nat * vdef))),
    (forall iv, In iv l -> In (snd iv) (e_variants e)) ->
    (forall kv, In kv m -> In (snd (snd kv)) (e_variants e) /\ v_flatten (snd (snd kv)) = true) ->
    forall kv, In kv (fold_left (fun m iv => let '(i, v) := iv in
               if v_flatten v && negb (v_skip v)
               then map_insert key_cmp (field_key v) (i, v) m else m) l m) ->
    In (snd (snd kv)) (e_variants e) /\ v_flatten (snd (snd kv)) = true).
  { induction l as [|[j w] l IH]; simpl; intros m Hl Hm kv I; auto.
    eapply IH; [| |exact I]; auto. intros kv' I'.
    destruct (v_flatten w) eqn:F; simpl in I'; auto. destruct (v_skip w); simpl in I'; auto.
    apply map_insert_in in I'. destruct I' as [E|I']; auto. rewrite E. simpl. split; auto.
    apply (Hl (j, w)). auto. }
  intro I. apply (H _ [] ) with (kv := (k, (i, v))) in I; auto.
  - intros [j w] J. apply in_combine_r in J. exact J.
  - intros kv [].
Qed.
Lemma pick_flat_in (e : edef) paths vi v : pick_flat e paths = Some (vi, v) ->
  In v (e_variants e) /\ v_flatten v = true.
Proof.
  unfold pick_flat. destruct (find (fun kv => match fst kv with
                        | [] => false
                        | ks => has_paths paths ks
                        end) (flat_matches e)) as [[k [i w]]|] eqn:E.
  - intro X. injection X as <- <-. apply find_some in E. eapply flat_matches_in, E.
  - destruct (find (fun kv => match fst kv with [] => true | _ => false end) (flat_matches e)) as [[k [i w]]|] eqn:F;
      [|discriminate].
    intro X. injection X as <- <-. apply find_some in F. eapply flat_matches_in, F.
Qed.

Lemma pick_flat_live (e : edef) paths vi v : pick_flat e paths = Some (vi, v) -> v_skip v = false.
Proof.
  assert (H : forall l (m : list (key_t * (nat * vdef))),
    (forall kv, In kv m -> v_skip (snd (snd kv)) = false) ->
    forall kv, In kv (fold_left (fun m iv => let '(i, v) := iv in
               if v_flatten v && negb (v_skip v)
               then map_insert key_cmp (field_key v) (i, v) m else m) l m) -> v_skip (snd (snd kv)) = false).
  { induction l as [|[j w] l IH]; simpl; intros m Hm kv I; auto.
    eapply IH; [|exact I]. intros kv' I'.
    destruct (v_flatten w) eqn:F; simpl in I'; auto. destruct (v_skip w) eqn:K; simpl in I'; auto.
    apply map_insert_in in I'. destruct I' as [E|I']; auto. now rewrite E. }
  assert (G : forall k i w, In (k, (i, w)) (flat_matches e) -> v_skip w = false).
  { intros k i w I. apply (H _ []) with (kv := (k, (i, w))) in I; auto. intros kv []. }
  unfold pick_flat. destruct (find (fun kv => match fst kv with
                        | [] => false
                        | ks => has_paths paths ks
                        end) (flat_matches e)) as [[k [i w]]|] eqn:E.
  - intro X. injection X as <- <-. apply find_some in E as [E _]. eapply G, E.
  - destruct (find (fun kv => match fst kv with [] => true | _ => false end) (flat_matches e)) as [[k [i w]]|] eqn:F;
      [|discriminate].
    intro X. injection X as <- <-. apply find_some in F as [F _]. eapply G, F.
Qed.

Lemma flat_block_good tm (e : edef) prefix sp vi (v : vdef) paths es inputs :
  accepted_variant tm v -> v_flatten v = true ->
  let x := flat_block e tm prefix sp vi v paths es inputs in
  returns (fst x) /\ Forall2 advances inputs (snd x) /\
  (forall y, fst x = Ok y -> fst y <> FNone /\ (fst y = FParseError -> snd y <> [])).
Proof.
  intros A F. unfold flat_block.
  set (validate := negb (v_accepts_all v)).
  set (empty := match field_key v with [] => true | _ => false end).
  match goal with |- context [match ?p with Ok _ => _ | Err _ => _ | Bad _ => _ end] => set (pre := p) end.
  assert (P : returns pre).
  { unfold pre. destruct (empty && negb (v_unknown_ok v) && validate); [|simpl; auto].
    destruct es as [|e0 es]; cbn [errors_is_empty].
    - destruct (fst (validate_pass (v_allowed v) [] (fork_inputs inputs))) as [|e0 l]; cbn [errors_is_empty]; [simpl; auto|].
      pose proof (variant_required_ne sp prefix (all_messages e) (e0 :: l)).
      destruct (variant_required sp prefix (all_messages e) (e0 :: l)); [congruence|simpl; auto].
    - simpl. auto. }
  destruct pre as [es1|x|b]; cbn [returns] in P; [|simpl; split; auto; split; auto with adv; discriminate|contradiction].
  destruct A as [A1 [A2 [A3 A4]]]. specialize (A3 F).
  pose proof (same_good _ _ _ (v_fields_same v) A1) as G. rewrite A3 in G.
  set (validate1 := if empty && negb (v_unknown_ok v) then false else validate).
  pose proof (named_body_good (v_fields v) tm None (v_unknown_ok v) (v_allowed v) sp prefix validate1 G
     (v_fields_ok tm v A2) inputs) as W.
  destruct (named_body (v_fields v) tm None (v_unknown_ok v) (v_allowed v) sp prefix validate1 inputs) as [r ins1].
  cbn [fst snd] in W. destruct W as [W1 W2].
  destruct r as [l|x|b]; cbn [returns] in W1; [| |contradiction]; cbn [fst snd push_result];
    (split; [exact Logic.I|]); (split; [exact W2|]); intros y E; injection E as <-; cbn [fst snd];
    split; try discriminate.
  intros _. destruct (negb (e_unknown_ok e || v_unknown_ok v) && negb validate).
  - eapply grows_ne; [apply disallow_grows|apply push_syn_ne].
  - apply push_syn_ne.
Qed.

Lemma enum_body_good_live tm (e : edef) allowed sp prefix validate :
  accepted_live tm e -> live_no_and_then e ->
  well_behaved_m (enum_body e tm allowed sp prefix validate).
Proof.
  intros A NT inputs. unfold enum_body.
  set (forked := e_any_flat e || negb (e_unknown_ok e)).
  set (src := if forked then fork_inputs inputs else inputs).
  assert (A0 : Forall2 advances inputs src)
    by (unfold src; destruct forked; auto using fork_adv with adv).
  assert (I0 : est_inv (mkEst None FNone [] [])) by (split; simpl; discriminate).
  pose proof (parse_struct_good _ _ (enum_closure_good_live tm e prefix A NT) src _ I0) as H. cbv zeta in H.
  destruct (parse_struct (enum_closure e tm prefix) (mkEst None FNone [] []) src) as [[r q] src1].
  cbn [fst snd] in H. destruct H as [H1 [[H2 H3] H4]].
  assert (A1 : Forall2 advances inputs (if forked then inputs else src1)).
  { pose proof (advs_trans _ _ _ A0 H4). destruct forked; auto with adv. }
  set (ins := if forked then inputs else src1) in *.
  set (checks := negb (e_unknown_ok e) && validate).
  set (es := push_result (q_errors q) r) in *.
  assert (E0 : q_value q = FParseError -> es <> []).
  { intro Z. eapply grows_ne; [apply grows_result|auto]. }
  set (mid := match q_value q with FParseError => _ | _ => _ end).
  assert (M : returns (fst mid) /\ Forall2 advances inputs (snd mid) /\
    (forall y, fst mid = Ok y -> (fs_into_option (fst y) = None -> snd y <> []))).
  { unfold mid. destruct (q_value q) as [| |x] eqn:Q.
    - destruct (pick_flat e (q_paths q)) as [[vi v]|] eqn:PF.
      + pose proof (pick_flat_live _ _ _ _ PF) as P3. apply pick_flat_in in PF. destruct PF as [P1 P2]. pose proof A as A'.
        unfold accepted_live in A'.
        destruct (flat_block_good tm e prefix sp vi v (q_paths q) es ins (A' v P1 P3) P2) as [B1 [B2 B3]].
        split; auto. split; [eapply advs_trans; eauto|].
        intros y E Z. destruct (B3 y E) as [B4 B5]. destruct (fst y); simpl in Z; [congruence|auto|discriminate].
      + destruct (e_default e) as [x|].
        * cbn [fst snd]. split; [exact Logic.I|]. split; auto. intros y E. injection E as <-. discriminate.
        * assert (X : Forall2 advances inputs (snd (if checks then validate_pass allowed es ins else (es, ins)))).
          { destruct checks; [|auto]. eapply advs_trans; [exact A1|]. apply validate_pass_good. }
          destruct (if checks then validate_pass allowed es ins else (es, ins)) as [es2 ins2].
          cbn [fst snd] in *. split; [exact Logic.I|]. split; auto. intros y E. injection E as <-.
          intros _. apply variant_required_ne.
    - cbn [fst snd]. split; [exact Logic.I|]. split; auto. intros y E. injection E as <-. intros _. auto.
    - destruct (q_key q) as [k|] eqn:K; [|exfalso; eapply H3; eauto].
      set (es1 := if e_any_flat e && negb (e_unknown_ok e) && negb validate then _ else es).
      assert (X : Forall2 advances inputs (snd (if checks then validate_pass allowed es1 ins else (es1, ins)))).
      { destruct checks; [|auto]. eapply advs_trans; [exact A1|]. apply validate_pass_good. }
      destruct (if checks then validate_pass allowed es1 ins else (es1, ins)) as [es2 ins2].
      cbn [fst snd] in *. split; [exact Logic.I|]. split; auto. intros y E. injection E as <-. discriminate. }
  assert (N : gm2 inputs match mid with
      | (Err x, ins1) => (Err x, ins1)
      | (Bad b, ins1) => (Bad b, ins1)
      | (Ok (value, es1), ins1) =>
        let (ret, es2) := run_and_thens (e_and_thens e) (fs_into_option value) es1 in
        (rbind (check es2) (fun _ => match ret with Some x => Ok x | None => Bad Panic end),
         skip_all ins1)
      end).
  { destruct mid as [rm ins1]. cbn [fst snd] in M. destruct M as [M1 [M2 M3]].
    destruct rm as [[value es1]|x|b]; cbn [returns] in M1; [|split; simpl; auto|contradiction].
    specialize (M3 _ eq_refl). cbn [fst snd] in M3.
    destruct (run_and_thens_good (e_and_thens e) (fs_into_option value) es1 M3) as [_ R].
    destruct (run_and_thens (e_and_thens e) (fs_into_option value) es1) as [ret es2]. cbn [fst snd] in R.
    split; cbn [fst snd].
    - apply returns_rbind; [apply returns_check|]. intros u E. destruct ret; simpl; auto.
      destruct es2; [now apply R|discriminate].
    - eapply advs_trans; [exact M2|apply advs_skip_all]. }
  destruct r; cbn [returns] in H1; [exact N|exact N|contradiction].
Qed.

Lemma good_enum_fn_live (e : edef) : accepted_live TMeta e -> live_no_and_then e -> good_fn (enum_fn e).
Proof. intros A N m p v l. simpl. apply enum_body_good_live; auto. Qed.
Lemma good_enum_fu_live (e : edef) : accepted_live TMeta e -> live_no_and_then e -> good_fu (enum_fu e).
Proof. intros A N m i. simpl. intro l. apply enum_body_good_live; auto. Qed.
Lemma good_enum_dict_live (e : edef) : accepted_live TMeta e -> live_no_and_then e -> good_dict (enum_dict e).
Proof.
  intros A N. assert (W : forall m, well_behaved_m (fn_parse (enum_fn e) m "" true)) by (intros m; apply good_enum_fn_live; auto).
  unfold enum_dict. apply good_full; auto.
  - intros m s. apply wb_delimited. apply wb_single. apply W.
  - intro. apply returns_empty, wb_single, W.
  - intros. destruct (e_default e); simpl; auto.
Qed.
Lemma enum_attr_body_good_live (e : edef) obj spans :
  (forall pn, accepted_live (TAttrs pn obj) e) -> live_no_and_then e ->
  well_behaved_m (enum_attr_body e obj spans).
Proof. intros A N. apply enum_body_good_live; auto. Qed.

(** *** attributes *)
Lemma returns_close {R} (r : res R) root : returns r -> returns (close_root r root).
Proof.
  intro H. unfold close_root. destruct r as [v|e|b]; cbn [returns] in H; [| |contradiction];
    destruct (parse_eof root) as [re root1]; destruct (cell root1); simpl; auto;
    destruct (toks root1); simpl; auto.
  - destruct re; simpl; auto.
  - destruct re; simpl; auto.
Qed.
Lemma parse_next_good {R} (func : list (string * span) -> mparser R) :
  (forall paths, well_behaved_m (func paths)) ->
  forall l bufs paths, returns (fst (parse_next l bufs paths func)).
Proof.
  intro H. induction l as [|[[ts name] sp] l IH]; intros bufs paths; cbn [parse_next].
  - pose proof (H paths bufs) as [W _]. destruct (func paths bufs) as [r bufs1]. cbn [fst] in W.
    destruct r; cbn [returns] in W; [|simpl; auto|contradiction].
    destruct (each_eof_good bufs1) as [E _]. destruct (each_eof bufs1) as [re bufs2]. cbn [fst] in *.
    apply returns_rbind; simpl; auto.
  - destruct ts as [|t after].
    + specialize (IH (bufs ++ [fork (root_stream [])]) (paths ++ [(name, sp)])).
      destruct (parse_next l (bufs ++ [fork (root_stream [])]) (paths ++ [(name, sp)]) func).
      cbn [fst] in *. apply returns_close; auto.
    + destruct t as [| | |d content gsp]; try (apply returns_close; simpl; auto).
      destruct d; try (apply returns_close; simpl; auto).
      specialize (IH (bufs ++ [group_content content gsp None]) (paths ++ [(name, sp)])).
      destruct (parse_next l (bufs ++ [group_content content gsp None]) (paths ++ [(name, sp)]) func).
      cbn [fst] in *. apply returns_close; auto.
Qed.
Lemma attr_tokens_good {R} l (func : list (string * span) -> mparser R) :
  (forall paths, well_behaved_m (func paths)) -> returns (parse_struct_attr_tokens l func).
Proof. intros. unfold parse_struct_attr_tokens. apply parse_next_good. auto. Qed.

Lemma nth_lt {A} (l : list A) i x : nth_error l i = Some x -> i < length l.
Proof. intro H. apply nth_error_Some. congruence. Qed.
Lemma remove_len {A} : forall (l : list A) i, i < length l -> S (length (remove_nth i l)) = length l.
Proof. induction l; intros [|i] L; simpl in *; try lia. rewrite IHl; lia. Qed.
Lemma take_loop_good matches : forall fuel l index out,
  length l - index < fuel -> returns (fst (take_loop fuel matches l index out)).
Proof.
  induction fuel as [|n IH]; intros l index out L; [lia|]. cbn [take_loop].
  destruct (nth_error l index) as [a|] eqn:E; [|simpl; auto]. apply nth_lt in E.
  destruct (matches (a_path a)); apply IH; [|lia]. pose proof (remove_len l index E). lia.
Qed.
Lemma take_tokens_good matches o : returns (fst (take_tokens matches o)).
Proof.
  unfold take_tokens. destruct o; cbn [attrs_mut]; try exact Logic.I.
  pose proof (take_loop_good matches (S (length l)) l 0 [] ltac:(lia)) as T.
  destruct (take_loop (S (length l)) matches l 0 []). exact T.
Qed.
Lemma struct_parse_good (s : sdef V) conv o : accepted_struct s -> returns (struct_parse_attributes s conv o).
Proof. intro A. apply attr_tokens_good. intro. apply struct_attr_body_good. auto. Qed.
Lemma struct_extract_good (s : sdef V) conv o : accepted_struct s -> returns (fst (struct_extract_attributes s conv o)).
Proof.
  intro A. unfold struct_extract_attributes. pose proof (take_tokens_good (derived_matches (s_attributes s)) o) as T.
  destruct (take_tokens (derived_matches (s_attributes s)) o) as [[l|e|b] o1]; cbn [fst returns] in *; auto.
  apply attr_tokens_good. intro. apply struct_attr_body_good. auto.
Qed.
Lemma enum_parse_good_live (e : edef) conv o :
  (forall pn obj, accepted_live (TAttrs pn obj) e) -> live_no_and_then e ->
  returns (enum_parse_attributes e conv o).
Proof. intros A N. apply attr_tokens_good. intro. apply enum_attr_body_good_live; auto. Qed.
Lemma enum_extract_good_live (e : edef) conv o :
  (forall pn obj, accepted_live (TAttrs pn obj) e) -> live_no_and_then e ->
  returns (fst (enum_extract_attributes e conv o)).
Proof.
  intros A N. unfold enum_extract_attributes. pose proof (take_tokens_good (derived_matches (e_attributes e)) o) as T.
  destruct (take_tokens (derived_matches (e_attributes e)) o) as [[l|x|b] o1]; cbn [fst returns] in *; auto.
  apply attr_tokens_good. intro. apply enum_attr_body_good_live; auto.
Qed.

Lemma enum_body_good tm (e : edef) allowed sp prefix validate :
  accepted_enum tm e -> no_transparent_and_then e ->
  well_behaved_m (enum_body e tm allowed sp prefix validate).
Proof. intros. apply enum_body_good_live; eauto using accepted_is_live, no_and_then_live. Qed.
Lemma good_enum_fn (e : edef) : accepted_enum TMeta e -> no_transparent_and_then e -> good_fn (enum_fn e).
Proof. intros. apply good_enum_fn_live; eauto using accepted_is_live, no_and_then_live. Qed.
Lemma good_enum_fu (e : edef) : accepted_enum TMeta e -> no_transparent_and_then e -> good_fu (enum_fu e).
Proof. intros. apply good_enum_fu_live; eauto using accepted_is_live, no_and_then_live. Qed.
Lemma good_enum_dict (e : edef) : accepted_enum TMeta e -> no_transparent_and_then e -> good_dict (enum_dict e).
Proof. intros. apply good_enum_dict_live; eauto using accepted_is_live, no_and_then_live. Qed.
Lemma enum_attr_body_good (e : edef) obj spans :
  (forall pn, accepted_enum (TAttrs pn obj) e) -> no_transparent_and_then e ->
  well_behaved_m (enum_attr_body e obj spans).
Proof. intros. apply enum_attr_body_good_live; eauto using accepted_is_live, no_and_then_live. Qed.
Lemma enum_parse_good (e : edef) conv o :
  (forall pn obj, accepted_enum (TAttrs pn obj) e) -> no_transparent_and_then e ->
  returns (enum_parse_attributes e conv o).
Proof. intros. apply enum_parse_good_live; eauto using accepted_is_live, no_and_then_live. Qed.
Lemma enum_extract_good (e : edef) conv o :
  (forall pn obj, accepted_enum (TAttrs pn obj) e) -> no_transparent_and_then e ->
  returns (fst (enum_extract_attributes e conv o)).
Proof. intros. apply enum_extract_good_live; eauto using accepted_is_live, no_and_then_live. Qed.

(** *** Punctuated *)
Definition consumes {A} (p : parser A) : Prop :=
  forall s v s1, p s = (Ok v, s1) -> length (toks s1) < length (toks s).
Lemma punct_skip_suffix pc : forall ts, exists p, ts = p ++ punct_skip pc ts.
Proof.
  induction ts as [|t r [p P]]; [exists []; reflexivity|]. cbn [punct_skip].
  destruct (punct_rest [pc] (t :: r)) eqn:E.
  - eapply punct_rest_suffix; eauto.
  - exists (t :: p). simpl. now rewrite P at 1.
Qed.
Lemma punct_rest_shorter pc t r r' : punct_rest [pc] (t :: r) = Some r' -> length r' < length (t :: r).
Proof. cbn [punct_rest]. destruct t; try discriminate. destruct (Ascii.eqb pc c && true); [|discriminate]. injection 1 as <-. simpl. lia. Qed.
Lemma punct_skip_shorter pc t r : length (punct_skip pc (t :: r)) < length (t :: r).
Proof.
  cbn [punct_skip]. destruct (punct_rest [pc] (t :: r)) eqn:E; [eapply punct_rest_shorter; eauto|].
  destruct (punct_skip_suffix pc r) as [p P]. apply (f_equal (@length _)) in P. rewrite app_length in P. simpl. lia.
Qed.
Lemma punct_loop_good {A} pc (d : dict A) : good_dict d -> consumes (d_item d Unnamed) ->
  forall fuel st s, length (toks s) < fuel -> gp2 s (punct_loop pc d fuel st s).
Proof.
  intros G C. induction fuel as [|n IH]; intros st s L; [lia|]. cbn [punct_loop].
  destruct (is_empty s) eqn:E; [split; simpl; auto with adv|].
  pose proof (gd_item d G Unnamed s) as W. pose proof (C s) as CS.
  destruct (d_item d Unnamed s) as [[v|e|b] s1]; cbn [fst snd returns] in W; destruct W as [W1 W2]; [| |contradiction].
  - specialize (CS _ _ eq_refl). destruct (is_empty s1).
    + destruct (IH (fst st ++ [v], snd st) s1 ltac:(lia)) as [Q1 Q2]. split; eauto with adv.
    + pose proof (wb_punct [pc] (String pc "") s1) as P. destruct (parse_punct [pc] (String pc "") s1) as [[u|e|b] s2];
        cbn [fst snd returns] in P; destruct P as [P1 P2]; [split; simpl; eauto with adv| |contradiction].
      pose proof (adv_len _ _ P2). destruct (IH (fst st ++ [v], push_syn (snd st) e) s2 ltac:(lia)) as [Q1 Q2].
      split; eauto with adv.
  - pose proof (adv_len _ _ W2).
    assert (Q : length (punct_skip pc (toks s1)) < length (toks s)).
    { unfold is_empty in E. destruct (toks s1) eqn:T1.
      - simpl. destruct (toks s); [discriminate|simpl; lia].
      - pose proof (punct_skip_shorter pc t l). lia. }
    destruct (IH (fst st, push_syn (snd st) e) (set_toks s1 (punct_skip pc (toks s1)))) as [Q1 Q2]; [simpl; lia|].
    split; auto. eapply adv_trans; [exact W2|]. eapply adv_trans; [|exact Q2]. apply adv_set. apply punct_skip_suffix.
Qed.
Lemma wbm_punctuated {A} pc (d : dict A) : good_dict d -> consumes (d_item d Unnamed) ->
  well_behaved_m (punctuated_flat pc d).
Proof.
  intros G C l. unfold punctuated_flat.
  assert (B : good_step (fun _ => True) (fun st s => punct_loop pc d (S (S (length (toks s)))) st s)).
  { intros st s _. destruct (punct_loop_good pc d G C (S (S (length (toks s)))) st s ltac:(lia)) as [A1 A2]. auto. }
  destruct (over_streams_good _ _ B l ([], []) Logic.I) as [A1 [_ A3]]. apply finish_good; auto.
Qed.
Lemma good_punctuated {A} pc (d : dict A) : good_dict d -> consumes (d_item d Unnamed) ->
  good_dict (punctuated_dict pc d).
Proof. intros. apply good_inline; auto using wbm_punctuated, wb_delimited, wb_single. Qed.
Lemma good_punctuated_fu {A} pc (d : dict A) : good_dict d -> consumes (d_item d Unnamed) ->
  good_fu (punctuated_fu pc d).
Proof. intros H C m i. apply wbm_punctuated; auto. Qed.
End E.
