(** The result of the code generated for enums. *)
From Verif Require Export LemEnum.

(** *** The map of keys *)
Definition pm_keys (m : pathmap) : list string := map fst m.
Lemma pm_get_keys k m : pm_get k m = None <-> ~ In k (pm_keys m).
Proof.
  unfold pm_get, pm_keys. induction m as [|[k' sp] m IH]; cbn [find map fst]; [tauto|].
  destruct (String.eqb_spec k' k) as [->|N].
  - split; [discriminate|]. intro H. destruct H. now left.
  - rewrite IH. simpl. split; [intros H [?|?]; auto|auto].
Qed.
Lemma pm_has_keys k m : pm_has k m = true <-> In k (pm_keys m).
Proof.
  unfold pm_has. pose proof (pm_get_keys k m) as H. destruct (in_dec string_dec k (pm_keys m)) as [I|N].
  - destruct (pm_get k m); [tauto|]. destruct H as [H _]. now destruct (H eq_refl).
  - destruct H as [_ H]. rewrite (H N). split; [discriminate|tauto].
Qed.
Lemma pm_remove_keys k k' m : In k' (pm_keys (pm_remove k m)) <-> k' <> k /\ In k' (pm_keys m).
Proof.
  unfold pm_keys, pm_remove. rewrite !in_map_iff. split.
  - intros [[a sp] [E I]]. cbn in E. subst a. apply filter_In in I as [I F]. cbn [fst] in F.
    split; [|exists (k', sp); auto]. intros ->. now rewrite String.eqb_refl in F.
  - intros [N [[a sp] [E I]]]. cbn in E. subst a. exists (k', sp). split; auto. apply filter_In. split; auto. cbn [fst].
    apply negb_true_iff. now apply String.eqb_neq.
Qed.
Lemma pm_insert_keys k sp k' m : In k' (pm_keys (pm_insert k sp m)) <-> k' = k \/ In k' (pm_keys m).
Proof.
  unfold pm_insert. unfold pm_keys at 1. cbn [map fst]. fold (pm_keys (pm_remove k m)). simpl. rewrite pm_remove_keys.
  destruct (string_dec k k'); split; intuition congruence.
Qed.
Lemma remove_one_keys p ns : forall m k, In k (pm_keys (fold_left (fun m n => pm_remove (join_path p n) m) ns m)) <->
  In k (pm_keys m) /\ forall n, In n ns -> k <> join_path p n.
Proof.
  induction ns as [|n ns IH]; intros m k; cbn [fold_left]; [simpl; intuition|].
  rewrite IH, pm_remove_keys. simpl. split.
  - intros [[H1 H2] H3]. split; auto. intros n' [<-|I]; auto.
  - intros [H1 H2]. repeat split; auto.
Qed.
Lemma remove_paths_keys keys : forall m k, In k (pm_keys (remove_paths m keys)) <->
  In k (pm_keys m) /\ forall p ns n, In (p, ns) keys -> In n ns -> k <> join_path p n.
Proof.
  unfold remove_paths. induction keys as [|[p ns] keys IH]; intros m k; cbn [fold_left]; [simpl; intuition|].
  rewrite IH. cbn [fst snd]. rewrite remove_one_keys. simpl. split.
  - intros [[H1 H2] H3]. split; auto. intros p' ns' n [E|I] J; [injection E as <- <-; auto|eauto].
  - intros [H1 H2]. split; [split; auto; intros n I; apply (H2 p ns n); auto|]. intros p' ns' n I J. apply (H2 p' ns' n); auto.
Qed.
Lemma disallow_one_nil m p cur ns : forall es,
  fold_left (fun es k => match pm_get (join_path p k) m with
      | Some sp => push es sp (tick (join_path p k) ++ " not allowed with variant " ++ tick cur)%string
      | None => es end) ns es = [] <-> es = [] /\ forall n, In n ns -> ~ In (join_path p n) (pm_keys m).
Proof.
  induction ns as [|n ns IH]; intro es; cbn [fold_left]; [simpl; intuition|]. rewrite IH. simpl.
  destruct (pm_get (join_path p n) m) eqn:G.
  - split.
    + intros [H _]. exfalso. now apply push_ne in H.
    + intros [_ H]. exfalso. assert (Q : pm_get (join_path p n) m = None) by (apply pm_get_keys; apply H; auto). congruence.
  - apply pm_get_keys in G. split; intros [H1 H2]; split; auto. intros n' [<-|I]; auto.
Qed.
Lemma disallow_nil m keys cur : forall es, disallow_paths m keys cur es = [] <->
  es = [] /\ forall p ns n, In (p, ns) keys -> In n ns -> ~ In (join_path p n) (pm_keys m).
Proof.
  unfold disallow_paths. induction keys as [|[p ns] keys IH]; intro es; cbn [fold_left]; [simpl; intuition|].
  rewrite IH. cbn [fst snd]. cbv zeta. rewrite disallow_one_nil. simpl. split.
  - intros [[H1 H2] H3]. split; auto. intros p' ns' n [E|I] J; [injection E as <- <-; auto|eauto].
  - intros [H1 H2]. split; [split; auto; intros n I; apply (H2 p ns n); auto|]. intros p' ns' n I J. apply (H2 p' ns' n); auto.
Qed.
Lemma has_paths_keys m keys : has_paths m keys = true <-> forall ks, In ks keys -> exists k, In k ks /\ In k (pm_keys m).
Proof.
  unfold has_paths. rewrite forallb_forall. split; intros H ks I; specialize (H ks I).
  - apply existsb_exists in H as [k [J H]]. apply pm_has_keys in H. eauto.
  - destruct H as [k [J H]]. apply existsb_exists. exists k. split; auto. now apply pm_has_keys.
Qed.

Section E.
Context {env : Env} {V : Type}.
Notation vdef := (vdef V).
Notation edef := (edef V).

(** *** The validation pass *)
Definition eat_skip (en : entry) : stream := skip_item (en_at en).
Lemma eat_skip_stays : eat_stays eat_skip.
Proof. intro en. unfold eat_skip. apply stays_skip. Qed.
Lemma eat_skip_eaten pc : no_comma (fst pc) -> ends (snd pc) -> (exists x, item_key (fst pc) = Some x) -> eaten eat_skip pc.
Proof.
  intros N E K. split; auto. intros en [body [KE T]]. unfold eat_skip, skip_item. cbn [toks set_toks]. rewrite T.
  apply skip_toks_app; auto. eapply key_no_comma; eauto.
Qed.
Lemma keyed_pieces l : keyed l <-> Forall (fun pc => exists x, item_key (fst pc) = Some x) (all_pieces l).
Proof.
  unfold keyed, items_of. rewrite Forall_map. split; apply Forall_impl; intros pc.
  - intros [k [sp [b H]]]. eauto.
  - intros [[[k sp] b] H]. eauto.
Qed.
Lemma check_unknown_app p sp fields es : check_unknown p sp fields es = es ++ check_unknown p sp fields [].
Proof. unfold check_unknown. destruct (mem_str p fields); [now rewrite app_nil_r|reflexivity]. Qed.
Lemma fold_check allowed l : forall es,
  fold_entries (fun en es => check_unknown (en_key en) (en_span en) allowed es) l es =
  es ++ flat_map (fun en => check_unknown (en_key en) (en_span en) allowed []) l.
Proof.
  induction l as [|en l IH]; intro es; cbn [fold_entries fold_left flat_map]; [now rewrite app_nil_r|].
  fold (fold_entries (fun en es => check_unknown (en_key en) (en_span en) allowed es) l (check_unknown (en_key en) (en_span en) allowed es)).
  now rewrite IH, check_unknown_app, app_assoc.
Qed.
Lemma validate_exact allowed es l : fst (validate_pass allowed es l) =
  es ++ flat_map (fun en => check_unknown (en_key en) (en_span en) allowed []) (fst (fst (walks eat_skip l))).
Proof.
  unfold validate_pass. rewrite (parse_struct_walk _ (fun en es => check_unknown (en_key en) (en_span en) allowed es) eat_skip).
  - cbn [fst snd]. apply fold_check.
  - reflexivity.
  - intro. apply adv_skip.
Qed.
Lemma keyed_read l : keyed l -> Forall2 reads (all_pieces l) (fst (fst (walks eat_skip l))) /\ snd (fst (walks eat_skip l)) = None.
Proof.
  intro K. apply walks_complete; [apply eat_skip_stays|]. apply keyed_pieces in K. pose proof (all_pieces_shape l) as S.
  rewrite Forall_forall in *. intros pc I. destruct (S pc I). apply eat_skip_eaten; auto.
Qed.
Lemma in_keys_pieces l k sp : In (k, sp) (keys_in l) <-> exists pc body, In pc (all_pieces l) /\ item_key (fst pc) = Some (k, sp, body).
Proof.
  unfold keys_in. rewrite in_flat_map. split.
  - intros [pc [I H]]. destruct (item_key (fst pc)) as [[[k' sp'] b]|] eqn:K; [|destruct H]. destruct H as [H|[]].
    injection H as -> ->. eauto.
  - intros [pc [b [I H]]]. exists pc. split; auto. rewrite H. now left.
Qed.
Lemma read_keys l ens : Forall2 reads (all_pieces l) ens ->
  forall k sp, In (k, sp) (keys_in l) <-> exists en, In en ens /\ en_key en = k /\ en_span en = sp.
Proof.
  intros F k sp. rewrite in_keys_pieces. split.
  - intros [pc [b [I K]]]. destruct (Forall2_in_l _ _ _ _ F I) as [en [J [b' [K' _]]]]. exists en. split; auto.
    rewrite K in K'. injection K' as -> -> ->. auto.
  - intros [en [J [<- <-]]]. destruct (Forall2_in_r _ _ _ _ F J) as [pc [I [b [K _]]]]. eauto.
Qed.
Lemma check_nil p sp fields : check_unknown p sp fields [] = [] <-> In p fields.
Proof.
  unfold check_unknown. destruct (mem_str p fields) eqn:M.
  - apply mem_str_In in M. tauto.
  - apply mem_str_false in M. split; [|tauto]. intro H. now apply push_syn_ne in H.
Qed.
Lemma flat_map_nil {A B} (f : A -> list B) l : flat_map f l = [] <-> forall a, In a l -> f a = [].
Proof.
  induction l as [|a l IH]; cbn [flat_map]; [simpl; intuition|]. rewrite app_nil_iff, IH. simpl. split.
  - intros [H1 H2] b [<-|I]; auto.
  - intro H. split; auto.
Qed.
Lemma validate_nil allowed es l : keyed l -> fst (validate_pass allowed es l) = [] <->
  es = [] /\ forall k sp, In (k, sp) (keys_in l) -> In k allowed.
Proof.
  intro K. rewrite validate_exact. destruct (keyed_read l K) as [F _].
  etransitivity; [apply app_nil_iff|]. apply and_iff_compat_l. rewrite flat_map_nil. split.
  - intros H k sp I. apply (read_keys _ _ F) in I as [en [J [<- <-]]]. apply (check_nil _ (en_span en)). auto.
  - intros H en J. apply check_nil. apply (H _ (en_span en)). apply (read_keys _ _ F). eauto.
Qed.

(** *** The end of the generated function *)
Definition finish (gs : list (evalue V -> evalue V + synerr)) (value : fstatus (evalue V)) (es : errors) : res (evalue V) :=
  let (ret, es2) := run_and_thens gs (fs_into_option value) es in
  rbind (check es2) (fun _ => match ret with Some x => Ok x | None => Bad Panic end).
Lemma run_and_thens_grows {A} (gs : list (A -> A + synerr)) : forall o es, grows es (snd (run_and_thens gs o es)).
Proof.
  induction gs as [|g gs IH]; intros o es; cbn [run_and_thens]; [apply grows_refl|].
  destruct o as [v|]; auto. destruct (g v); auto. eapply grows_trans; [apply grows_syn|apply IH].
Qed.
Lemma finish_ok gs value es x : finish gs value es = Ok x <-> exists y, value = FSome y /\ es = [] /\ chained gs y x.
Proof.
  unfold finish. pose proof (run_and_thens_grows gs (fs_into_option value) es) as GR. split.
  - destruct es as [|e0 es].
    + destruct value as [| |y]; cbn [fs_into_option] in *.
      * rewrite run_and_thens_none. discriminate.
      * rewrite run_and_thens_none. discriminate.
      * destruct (run_and_thens_chain gs y) as [[w [C E]]|[C [e E]]]; rewrite E; cbn; [|discriminate].
        intro H. injection H as <-. eauto.
    + destruct (run_and_thens gs (fs_into_option value) (e0 :: es)) as [ret es2]. cbn [snd] in GR.
      destruct GR as [y ->]. cbn. discriminate.
  - intros [y [-> [-> C]]]. cbn [fs_into_option]. destruct (run_and_thens_chain gs y) as [[w [C' E]]|[C' _]]; [|now destruct (C' x)].
    rewrite E. cbn. f_equal. clear E GR. revert C'. revert w. clear - C. induction C; intros w' C'; inversion C'; subst; auto.
    assert (X : u = u0) by congruence. rewrite <- X in *. auto.
Qed.
Lemma finish_err gs value es : es <> [] -> exists x, finish gs value es = Err x /\ incl es (errs_of x).
Proof.
  intro N. unfold finish. pose proof (run_and_thens_grows gs (fs_into_option value) es) as [y GR].
  destruct (run_and_thens gs (fs_into_option value) es) as [ret es2]. cbn [snd] in GR. subst es2.
  destruct es as [|e0 es]; [congruence|]. cbn. eexists. split; [reflexivity|]. cbn. intros a [<-|I]; [now left|right]. apply in_or_app. auto.
Qed.

(** *** The block of a flattened variant *)
Definition flat_empty (v : vdef) : bool := match field_key v with [] => true | _ => false end.
Definition flat_pre (e : edef) prefix sp (v : vdef) (es : errors) (inputs : list stream) : res errors :=
  if flat_empty v && negb (v_unknown_ok v) && negb (v_accepts_all v) then
    if errors_is_empty es then
      let es1 := fst (validate_pass (v_allowed v) es (fork_inputs inputs)) in
      if errors_is_empty es1 then Ok es1
      else rbind (check (variant_required sp prefix (all_messages e) es1)) (fun _ => Bad Panic)
    else rbind (check es) (fun _ => Bad Panic)
  else Ok es.
Definition flat_validate (v : vdef) : bool :=
  if flat_empty v && negb (v_unknown_ok v) then false else negb (v_accepts_all v).
Lemma flat_exact (e : edef) tm prefix sp vi (v : vdef) paths es inputs :
  fst (flat_block e tm prefix sp vi v paths es inputs) =
  rbind (flat_pre e prefix sp v es inputs) (fun es1 =>
    match fst (named_body (v_fields v) tm None (v_unknown_ok v) (v_allowed v) sp prefix (flat_validate v) inputs) with
    | Bad b => Bad b
    | r => Ok (match r with Ok l => FSome (vi, l) | _ => FParseError end,
               if negb (e_unknown_ok e || v_unknown_ok v) && v_accepts_all v
               then disallow_paths (remove_paths paths (flat_names v)) (other_names e vi) (v_ident v) (push_result es1 r)
               else push_result es1 r)
    end).
Proof.
  unfold flat_block, flat_pre, flat_validate, flat_empty. cbv zeta. rewrite negb_involutive.
  destruct (if match field_key v with [] => true | _ => false end && negb (v_unknown_ok v) && negb (v_accepts_all v) then _ else _) as [es1|x|b];
    cbn [rbind fst]; auto.
  destruct (named_body _ _ _ _ _ _ _ _ _) as [[l|x|b] ins1]; reflexivity.
Qed.
Lemma flat_pre_cases (e : edef) prefix sp v es ins :
  match flat_pre e prefix sp v es ins with Ok es1 => es1 = es | Err x => grows es (errs_of x) | Bad _ => True end.
Proof.
  unfold flat_pre. destruct (_ && _ && _); [|reflexivity]. destruct es as [|e0 es0] eqn:ES; cbn [errors_is_empty]; cbv zeta.
  - destruct (fst (validate_pass (v_allowed v) [] (fork_inputs ins))) as [|e1 es1]; cbn [errors_is_empty]; [reflexivity|].
    destruct (variant_required sp prefix (all_messages e) (e1 :: es1)) as [|a b]; cbn; auto. exists (a :: b). reflexivity.
  - cbn. apply grows_refl.
Qed.

Section B.
Variable tm : tmode V.
Variable e : edef.
Variable prefix : string.
Variable G : forall v, In v (e_variants e) -> good_variant tm v.
Variable A : accepted_enum tm e.
Notation is_hit := (is_hit e prefix).
Notation hit := (hit e prefix).
Notation upd := (upd_enum tm e prefix).
Notation eat := (eat_enum tm e prefix).

Definition esource (inputs : list stream) : list stream :=
  if e_any_flat e || negb (e_unknown_ok e) then fork_inputs inputs else inputs.
Definition eread (inputs : list stream) : list entry := fst (fst (walks eat (esource inputs))).
Definition estop (inputs : list stream) : option synerr := snd (fst (walks eat (esource inputs))).
Definition estate (inputs : list stream) : est := fold_entries upd (eread inputs) (@init V).
Definition eerrors (inputs : list stream) : errors := push_result (q_errors (estate inputs)) (stop_res (estop inputs)).
Definition erest (inputs : list stream) : list stream :=
  if e_any_flat e || negb (e_unknown_ok e) then inputs else snd (walks eat (esource inputs)).
Lemma esource_pieces inputs : all_pieces (esource inputs) = all_pieces inputs.
Proof. unfold esource. destruct (_ || _); auto using fork_pieces. Qed.

Definition middle (allowed : list string) (sp : span) (validate : bool) (inputs : list stream)
  : res (fstatus (evalue V) * errors) :=
  let q := estate inputs in let es := eerrors inputs in let ins := erest inputs in
  let checks := negb (e_unknown_ok e) && validate in
  match q_value q with
  | FParseError => Ok (FParseError, es)
  | FSome x =>
    match q_key q with
    | None => Bad Panic
    | Some k =>
      let es1 := if e_any_flat e && negb (e_unknown_ok e) && negb validate
                 then disallow_paths (pm_remove k (q_paths q)) (flat_map flat_names (e_variants e)) k es
                 else es in
      Ok (FSome x, if checks then fst (validate_pass allowed es1 ins) else es1)
    end
  | FNone =>
    match pick_flat e (q_paths q) with
    | Some (vi, v) => fst (flat_block e tm prefix sp vi v (q_paths q) es ins)
    | None =>
      match e_default e with
      | Some x => Ok (FSome x, es)
      | None => Ok (FNone, variant_required sp prefix (all_messages e)
                      (if checks then fst (validate_pass allowed es ins) else es))
      end
    end
  end.
Lemma body_exact allowed sp validate inputs :
  fst (enum_body e tm allowed sp prefix validate inputs) =
  rbind (middle allowed sp validate inputs) (fun y => finish (e_and_thens e) (fst y) (snd y)).
Proof.
  unfold enum_body. cbv zeta. rewrite (parse_struct_walk _ upd eat (enum_walk tm e prefix G) (eat_enum_adv tm e prefix G)).
  fold (esource inputs). unfold middle, eerrors, erest, estate, eread, estop. fold (@init V).
  destruct (walks eat (esource inputs)) as [[l stop] src1]. cbn [fst snd]. cbv zeta.
  assert (X : forall A (r : res unit) (b : bad -> A) (k : A), (forall x, r <> Bad x) ->
     match r with Bad x => b x | _ => k end = k).
  { intros. destruct r; auto. destruct (H b0 eq_refl). }
  rewrite X by (destruct stop; discriminate). clear X.
  set (q := fold_entries upd l init). set (es := push_result (q_errors q) (stop_res stop)).
  set (ins := if e_any_flat e || negb (e_unknown_ok e) then inputs else src1).
  destruct (q_value q) as [| |x].
  - destruct (pick_flat e (q_paths q)) as [[vi v]|].
    + destruct (flat_block e tm prefix sp vi v (q_paths q) es ins) as [[[value es1]|x|b] ins1]; cbn [fst rbind]; auto.
      unfold finish. cbn [fst snd]. destruct (run_and_thens _ _ _). reflexivity.
    + destruct (e_default e) as [y|].
      * cbn [rbind fst snd]. unfold finish. destruct (run_and_thens _ _ _). reflexivity.
      * destruct (negb (e_unknown_ok e) && validate).
        -- destruct (validate_pass allowed es ins) as [es2 ins2]. cbn [rbind fst snd]. unfold finish. destruct (run_and_thens _ _ _). reflexivity.
        -- cbn [rbind fst snd]. unfold finish. destruct (run_and_thens _ _ _). reflexivity.
  - cbn [rbind fst snd]. unfold finish. destruct (run_and_thens _ _ _). reflexivity.
  - destruct (q_key q) as [k|]; [|reflexivity].
    set (es1 := if e_any_flat e && _ && _ then _ else es).
    destruct (negb (e_unknown_ok e) && validate).
    -- destruct (validate_pass allowed es1 ins) as [es2 ins2]. cbn [rbind fst snd]. unfold finish. destruct (run_and_thens _ _ _). reflexivity.
    -- cbn [rbind fst snd]. unfold finish. destruct (run_and_thens _ _ _). reflexivity.
Qed.
(** errors while reading are never lost *)
Lemma middle_grows allowed sp validate inputs :
  match middle allowed sp validate inputs with
  | Ok y => grows (eerrors inputs) (snd y)
  | Err x => grows (eerrors inputs) (errs_of x)
  | Bad _ => True
  end.
Proof.
  unfold middle. cbv zeta. set (q := estate inputs). set (es := eerrors inputs). set (ins := erest inputs).
  destruct (q_value q) as [| |x].
  - destruct (pick_flat e (q_paths q)) as [[vi v]|].
    + rewrite flat_exact. pose proof (flat_pre_cases e prefix sp v es ins) as P. unfold flat_pre in *.
      destruct (if _ && _ && _ then _ else _) as [es1|x|b]; cbn [rbind]; auto. subst es1.
      destruct (fst (named_body _ _ _ _ _ _ _ _ _)) as [vs|x|b]; cbn [snd]; auto;
        destruct (_ && _); eauto using grows_trans, grows_result, disallow_grows, grows_refl.
    + destruct (e_default e) as [y|]; cbn [snd]; [apply grows_refl|].
      eapply grows_trans; [|apply grows_push]. destruct (_ && _); [apply validate_pass_good|apply grows_refl].
  - cbn [snd]. apply grows_refl.
  - destruct (q_key q); [|exact Logic.I]. cbn [snd].
    assert (Z : grows es (if e_any_flat e && negb (e_unknown_ok e) && negb validate
                 then disallow_paths (pm_remove s (q_paths q)) (flat_map flat_names (e_variants e)) s es else es)).
    { destruct (_ && _ && _); auto using disallow_grows, grows_refl. }
    destruct (negb (e_unknown_ok e) && validate); auto. eapply grows_trans; [exact Z|apply validate_pass_good].
Qed.
Lemma body_errors allowed sp validate inputs : eerrors inputs <> [] ->
  accepted_enum tm e -> no_transparent_and_then e ->
  exists x, fst (enum_body e tm allowed sp prefix validate inputs) = Err x /\ incl (eerrors inputs) (errs_of x).
Proof.
  intros N AC NT. pose proof (enum_body_good tm e allowed sp prefix validate AC NT inputs) as [W _].
  rewrite body_exact in *. pose proof (middle_grows allowed sp validate inputs) as MG.
  destruct (middle allowed sp validate inputs) as [y|x|b]; cbn [rbind] in *.
  - assert (NY : snd y <> []) by (eapply grows_ne; eauto). destruct (finish_err (e_and_thens e) (fst y) (snd y) NY) as [x [E I]].
    exists x. split; auto. destruct MG as [z MG]. rewrite MG in I. intros a J. apply I. apply in_or_app. auto.
  - exists x. split; auto. destruct MG as [z ->]. intros a J. apply in_or_app. auto.
  - destruct W.
Qed.
End B.
End E.
