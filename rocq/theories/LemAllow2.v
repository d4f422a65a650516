(** Proofs for PropsAllow.v: `allow_unknown_fields` on a variant that is not flattened *)
From Verif Require Import LemWf LemWfD LemWfE LemNamed LemSchema2 LemEnum2 LemEnum5 LemRun.
From Verif Require Export SpecAllow.
Local Open Scope string_scope.
Local Open Scope list_scope.

Section P.
Context {env : Env}.
Definition not_bad {A} (r : res A) : Prop := match r with Bad _ => False | _ => True end.
Section PS.
Context {St : Type} (Q : St -> Prop) (f g : string -> span -> St -> stream -> res unit * St * stream).
Hypothesis FB : forall k sp q s r q' s', f k sp q s = (r, q', s') -> Q q' -> Q q.
Hypothesis FG : forall k sp q s r q' s', f k sp q s = (r, q', s') -> Q q' -> not_bad r -> g k sp q s = (r, q', s').
Lemma loop_agree : forall n st s, Q (snd (fst (struct_loop f n st s))) -> not_bad (fst (fst (struct_loop f n st s))) ->
  struct_loop g n st s = struct_loop f n st s.
Proof.
  induction n as [|n IH]; intros st s; [reflexivity|]. cbn [struct_loop].
  destruct (is_empty s); [auto|]. destruct (parse_any_path s) as [[p|e|b] s1]; auto.
  destruct (f (path_key p) (p_span p) st s1) as [[[u|e|b] st1] s2] eqn:E; cbn [fst snd]; [| |contradiction].
  - intros H N. assert (Q1 : Q st1).
    { destruct (is_empty s2); [exact H|]. destruct (parse_comma s2) as [[u2|e|b] s3]; try exact H. revert H. apply (struct_loop_inv Q f FB). }
    rewrite (FG _ _ _ _ _ _ _ E Q1 Logic.I). destruct (is_empty s2); [reflexivity|]. destruct (parse_comma s2) as [[u2|e|b] s3]; auto.
  - intros H N. now rewrite (FG _ _ _ _ _ _ _ E H Logic.I).
Qed.
Lemma struct_agree : forall l st, Q (snd (fst (parse_struct f st l))) -> not_bad (fst (fst (parse_struct f st l))) ->
  parse_struct g st l = parse_struct f st l.
Proof.
  induction l as [|s l IH]; intros st; [reflexivity|]. cbn [parse_struct].
  pose proof (loop_agree (S (length (toks s))) st s) as L.
  destruct (struct_loop f (S (length (toks s))) st s) as [[[u|e|b] st1] s1]; cbn [fst snd] in *; intros H N; [|now rewrite L|contradiction].
  pose proof (parse_struct_inv Q f FB l st1) as I. specialize (IH st1). destruct (parse_struct f st1 l) as [[r st2] l2]. cbn [fst snd] in *.
  rewrite L; [|auto|exact Logic.I]. now rewrite IH.
Qed.
End PS.

(** what the second parser makes of everything the first one accepts *)
Definition below {S A} (p q : S -> res A * S) : Prop := forall s a s', p s = (Ok a, s') -> q s = (Ok a, s').
Lemma below_single {A} (p q : mparser A) : below p q -> below (on_single p) (on_single q).
Proof.
  intros H s a s'. unfold on_single. destruct (p [s]) as [r l] eqn:E. intro X. injection X as -> <-. now rewrite (H _ _ _ E).
Qed.
Lemma below_delimited {A} d (p q : parser A) : below p q -> below (parse_delimited_with d p) (parse_delimited_with d q).
Proof.
  intros H s a s'. unfold parse_delimited_with, with_group. destruct (toks s) as [|[| | |d' ts sp] rest]; auto. destruct (delim_eqb d d'); auto.
  unfold pbind. destruct (p (group_content ts sp (cell s))) as [[x|x|x] c] eqn:E; try discriminate. now rewrite (H _ _ _ E).
Qed.
Lemma below_empty {A} sp (p q : parser A) a : below p q -> parse_empty sp p = Ok a -> parse_empty sp q = Ok a.
Proof.
  intros H. unfold parse_empty, parse2. destruct (p (root_stream [])) as [[x|x|x] c] eqn:E; try discriminate. now rewrite (H _ _ _ E).
Qed.
Lemma below_spellings {A} (item item' : mode -> parser A) inline inline' flag flag' sp :
  (forall m, below (item m) (item' m)) -> (forall m, below (inline m) (inline' m)) -> (forall x a, flag x = Ok a -> flag' x = Ok a) ->
  below (parse_named_with item inline flag sp) (parse_named_with item' inline' flag' sp).
Proof.
  intros H1 H2 H3 s a s'. unfold parse_named_with. destruct (peek_eq s).
  - unfold pbind. destruct (parse_eq s) as [[x|x|x] c]; auto. apply H1.
  - destruct (peek_group Paren s).
    + apply below_delimited, below_single, H2.
    + intro X. injection X as X <-. now rewrite (H3 _ _ X).
Qed.
End P.

Section A.
Context {env : Env} {V : Type}.
Notation edef := (edef V).
Notation vdef := (vdef V).
Notation slots := (list (fstatus V)).

Lemma flat_fields_grow prefix sp al : forall (fs : list (field V)) sl es ins sl' es' ins',
  flat_fields prefix sp al fs sl es ins = (Ok (sl', es'), ins') -> grows es es'.
Proof.
  induction fs as [|f fs IH]; intros sl es ins sl' es' ins'; cbn [flat_fields].
  { intro H. injection H as <- <- <-. apply grows_refl. }
  destruct sl as [|st sl]; [intro H; injection H as <- <- <-; apply grows_refl|]. destruct (pflat f).
  - destruct (flat_call _ _ _ _ _) as [[v|e|b] ins1]; [| |discriminate].
    + destruct (flat_fields _ _ _ fs sl es _) as [[[sl2 es2]|x|x] ins3] eqn:E; try discriminate. intro H. injection H as <- <- <-. eauto.
    + destruct (flat_fields _ _ _ fs sl (push_syn es e) _) as [[[sl2 es2]|x|x] ins3] eqn:E; try discriminate. intro H. injection H as <- <- <-.
      eapply grows_trans; [apply grows_syn|eauto].
  - destruct (flat_fields _ _ _ fs sl es _) as [[[sl2 es2]|x|x] ins3] eqn:E; try discriminate. intro H. injection H as <- <- <-. eauto.
Qed.
Lemma named_missing_grow tm vt prefix sp : forall (fs : list (field V)) sl es sl' es',
  named_missing tm vt prefix sp fs sl es = Ok (sl', es') -> grows es es'.
Proof.
  induction fs as [|f fs IH]; intros sl es sl' es'; cbn [named_missing].
  { intro H. injection H as <- <-. apply grows_refl. }
  destruct sl as [|st sl]; [intro H; injection H as <- <-; apply grows_refl|].
  assert (N : forall st' es0, match named_missing tm vt prefix sp fs sl es0 with Ok (sl2, es2) => Ok (st' :: sl2, es2) | Err e => Err e | Bad b => Bad b end = Ok (sl', es') ->
    grows es0 es').
  { intros st' es0. destruct (named_missing tm vt prefix sp fs sl es0) as [[sl2 es2]|x|x] eqn:E; try discriminate. intro H. injection H as <- <-. eauto. }
  destruct (f_kind f); try apply N. destruct (wants_error vt f && fs_is_none st); [|apply N].
  destruct (d_missing _ _ _); [apply N| |discriminate]. intro H. eapply grows_trans; [apply grows_syn|]. eapply N; eauto.
Qed.
Lemma field_sets_grow : forall (fs : list (field V)) sl es, grows es (snd (field_sets fs sl es)).
Proof.
  induction fs as [|f fs IH]; intros sl es; cbn [field_sets]; [apply grows_refl|]. destruct sl as [|st sl]; [apply grows_refl|].
  unfold set_field. rewrite run_transforms_es. match goal with |- context [field_sets fs sl ?x] => specialize (IH sl x); destruct (field_sets fs sl x) as [sl2 es2] end.
  cbn [snd] in *. eapply grows_trans; [|exact IH]. eexists. reflexivity.
Qed.
Lemma named_post_clean fs tm target al sp prefix (sl : slots) es ins vs ins' :
  named_post fs tm target al sp prefix sl es ins = (Ok vs, ins') -> es = [].
Proof.
  unfold named_post. destruct (flat_fields prefix sp al fs sl es ins) as [[[sl1 es1]|x|x] ins1] eqn:E; try discriminate.
  apply flat_fields_grow in E. destruct (named_missing tm (has_target target) prefix sp fs (set_containers tm fs sl1) es1) as [[sl2 es2]|x|x] eqn:M; cbn [rbind]; try discriminate.
  apply named_missing_grow in M. unfold post_finish. pose proof (field_sets_grow fs sl2 es2) as G. destruct (field_sets fs sl2 es2) as [sl3 es3]. cbn [snd] in G.
  destruct es3 as [|y es3]; [|discriminate]. intros _. eapply grows_nil; [exact E|]. eapply grows_nil; [exact M|]. eapply grows_nil; [exact G|]. reflexivity.
Qed.
Lemma closure_agree (fs : list (field V)) al prefix v u k sp q s r q' s' :
  named_closure fs u al prefix v k sp q s = (r, q', s') -> snd q' = [] ->
  snd q = [] /\ named_closure fs true al prefix false k sp q s = (r, q', s').
Proof.
  destruct q as [sl es]. unfold named_closure. cbn [negb andb].
  assert (O : forall y, (Ok tt, (sl, if negb u && v then check_unknown k sp al es else es), y) = (r, q', s') -> snd q' = [] ->
    es = [] /\ (Ok tt, (sl, es), y) = (r, q', s')).
  { intros y H E. injection H as <- <- <-. cbn [snd] in E.
    assert (es = []) as ->.
    { destruct (negb u && v); [|exact E]. eapply grows_nil; [apply (check_unknown_grows k sp al)|exact E]. }
    split; auto. destruct (negb u && v); [now rewrite E|reflexivity]. }
  destruct (strip_prefix prefix k) as [n|]; [|apply O]. destruct (find_field n fs 0) as [[i f]|]; [|apply O].
  unfold fs_parse_named. intros H E. split; [|exact H].
  destruct (item_named f _ sp s) as [[a|e|b] s1]; cbn [rmap] in H.
  all: try (injection H as <- <- <-; cbn [snd] in E; exact E).
  all: destruct (nth i sl FNone); cbn [fs_is_none] in H; injection H as <- <- <-; cbn [snd] in E; auto.
  all: try (apply push_nil in E; contradiction). all: try (apply push_syn_nil in E; contradiction).
Qed.
Lemma body_below (fs : list (field V)) tm target al sp prefix u v :
  below (named_body fs tm target u al sp prefix v) (named_body fs tm target true al sp prefix false).
Proof.
  intros ins vs ins'. unfold named_body. set (src := if existsb pflat fs then fork_inputs ins else ins).
  pose proof (struct_agree (fun q : slots * errors => snd q = []) (named_closure fs u al prefix v) (named_closure fs true al prefix false)
    (fun k sp q s r q' s' H E => proj1 (closure_agree fs al prefix v u k sp q s r q' s' H E))
    (fun k sp q s r q' s' H E _ => proj2 (closure_agree fs al prefix v u k sp q s r q' s' H E)) src (init_slots fs, [])) as A.
  destruct (parse_struct (named_closure fs u al prefix v) (init_slots fs, []) src) as [[r [sl1 es1]] src1]. cbn [fst snd] in A.
  destruct r as [t|x|x]; [| |discriminate]; intro H; pose proof (named_post_clean _ _ _ _ _ _ _ _ _ _ _ H) as N.
  - rewrite A; auto. exact Logic.I.
  - apply push_syn_nil in N. contradiction.
Qed.
Lemma inline_below (v : vdef) tm prefix sp m : below (v_inline v tm prefix sp m) (v_inline (v_allowing v) tm prefix sp m).
Proof.
  unfold v_inline. change (v_shape (v_allowing v)) with (v_shape v). destruct (v_shape v).
  - exact (body_below (v_fields v) tm None (v_allowed v) sp prefix (v_unknown_ok v) (negb (v_accepts_all v))).
  - intros s a s' H. exact H.
  - intros s a s' H. exact H.
Qed.
Lemma variant_below (v : vdef) tm prefix sp : below (v_named v tm prefix sp) (v_named (v_allowing v) tm prefix sp).
Proof.
  unfold v_named. apply below_spellings.
  - intro m. unfold v_item. change (v_shape (v_allowing v)) with (v_shape v). apply below_delimited, below_single, inline_below.
  - intro m. apply inline_below.
  - intros _ a. unfold v_flag. change (v_shape (v_allowing v)) with (v_shape v). change (v_fields (v_allowing v)) with (v_fields v). destruct (v_shape v).
    + apply below_empty, below_single, inline_below.
    + destruct (allows_empty None (v_fields v)); [|auto]. apply below_empty, below_single, inline_below.
    + auto.
Qed.

(** *** The enum *)
(** the part of [enum_body] after the items were read *)
Definition mid (e : edef) tm al sp prefix (validate : bool) (q : est) (es : errors) (ins : list stream)
  : res (fstatus (evalue V) * errors) * list stream :=
  let checks := negb (e_unknown_ok e) && validate in
  match q_value q with
  | FParseError => (Ok (FParseError, es), ins)
  | FSome x =>
    match q_key q with
    | None => (Bad Panic, ins)
    | Some k =>
      let es1 :=
        if e_any_flat e && negb (e_unknown_ok e) && negb validate
        then disallow_paths (pm_remove k (q_paths q)) (flat_map flat_names (e_variants e)) k es
        else es in
      let (es2, ins2) := if checks then validate_pass al es1 ins else (es1, ins) in
      (Ok (FSome x, es2), ins2)
    end
  | FNone =>
    match pick_flat e (q_paths q) with
    | Some (vi, v) => flat_block e tm prefix sp vi v (q_paths q) es ins
    | None =>
      match e_default e with
      | Some x => (Ok (FSome x, es), ins)
      | None =>
        let (es2, ins2) := if checks then validate_pass al es ins else (es, ins) in
        (Ok (FNone, variant_required sp prefix (all_messages e) es2), ins2)
      end
    end
  end.
Lemma body_rest (e : edef) tm al sp prefix validate inputs : enum_body e tm al sp prefix validate inputs =
  match parse_struct (enum_closure e tm prefix) (mkEst None FNone [] [])
          (if e_any_flat e || negb (e_unknown_ok e) then fork_inputs inputs else inputs) with
  | (Bad b, _, src1) => (Bad b, if e_any_flat e || negb (e_unknown_ok e) then inputs else src1)
  | (r, q, src1) =>
    match mid e tm al sp prefix validate q (push_result (q_errors q) r) (if e_any_flat e || negb (e_unknown_ok e) then inputs else src1) with
    | (Err x, ins1) => (Err x, ins1)
    | (Bad b, ins1) => (Bad b, ins1)
    | (Ok (value, es1), ins1) =>
      let (ret, es2) := run_and_thens (e_and_thens e) (fs_into_option value) es1 in
      (rbind (check es2) (fun _ => match ret with Some x => Ok x | None => Bad Panic end), skip_all ins1)
    end
  end.
Proof. reflexivity. Qed.
(** [u] can stand in the place of the variant [v], neither of them flattened *)
Record replaces (v u : vdef) : Prop := {
  re_flat : v_flatten v = false;
  re_flat' : v_flatten u = false;
  re_skip : v_skip u = v_skip v;
  re_names : v_names u = v_names v;
  re_transparent : v_transparent u = v_transparent v;
  re_fields : v_transparent v = true -> v_fields u = v_fields v;
  re_below : forall tm prefix sp, below (v_named v tm prefix sp) (v_named u tm prefix sp) }.
Section E.
Variables (e e' : edef) (a b : list vdef) (v u : vdef).
Hypothesis VS : e_variants e = a ++ v :: b.
Hypothesis VR : replaces v u.
Hypothesis VS' : e_variants e' = a ++ u :: b.
Hypothesis VD : e_default e' = e_default e.
Hypothesis VT : e_and_thens e' = e_and_thens e.
Hypothesis VU : e_unknown_ok e' = e_unknown_ok e.

Lemma find_allowing k : forall (c : list vdef) i, match find_variant k (c ++ v :: b) i with
  | Some (j, w) => exists w', find_variant k (c ++ u :: b) i = Some (j, w') /\ (w' = w \/ (w = v /\ w' = u))
  | None => find_variant k (c ++ u :: b) i = None
  end.
Proof.
  induction c as [|w c IH]; intro i; cbn [app find_variant].
  - rewrite (re_flat' _ _ VR), (re_flat _ _ VR), (re_skip _ _ VR), (re_names _ _ VR). cbn [negb andb].
    destruct (negb (v_skip v) && mem_str k (v_names v)); [eauto|]. destruct (find_variant k b (S i)) as [[j w]|]; eauto.
  - destruct (negb (v_flatten w) && negb (v_skip w) && mem_str k (v_names w)); [eauto|]. apply IH.
Qed.
Lemma each_allowing {B} (f : vdef -> list B) : f u = f v -> flat_map f (e_variants e') = flat_map f (e_variants e).
Proof. intro H. rewrite VS, VS', !flat_map_app. cbn [flat_map]. now rewrite H. Qed.
Lemma any_allowing (f : vdef -> bool) : f u = f v -> existsb f (e_variants e') = existsb f (e_variants e).
Proof. intro H. rewrite VS, VS', !existsb_app. cbn [existsb]. now rewrite H. Qed.
Lemma flat_any_allowing : e_any_flat e' = e_any_flat e.
Proof. apply any_allowing. now rewrite (re_flat' _ _ VR), (re_flat _ _ VR). Qed.
Lemma combine_at (x : vdef) : forall (c : list vdef) i, combine (seq i (length (c ++ x :: b))) (c ++ x :: b) =
  combine (seq i (length c)) c ++ (i + length c, x) :: combine (seq (S (i + length c)) (length b)) b.
Proof.
  induction c as [|w c IH]; intro i; cbn [app length seq combine].
  - now rewrite Nat.add_0_r.
  - now rewrite IH, Nat.add_succ_r.
Qed.
Lemma matches_allowing : flat_matches e' = flat_matches e.
Proof.
  unfold flat_matches. rewrite VS, VS', !combine_at, !fold_left_app. cbn [fold_left]. now rewrite (re_flat' _ _ VR), (re_flat _ _ VR).
Qed.
Lemma other_allowing i : other_names e' i = other_names e i.
Proof.
  unfold other_names. rewrite VS, VS', !combine_at, !flat_map_app. cbn [flat_map]. f_equal. f_equal. cbn [fst snd].
  destruct (Nat.eqb (0 + length a) i); [reflexivity|]. unfold flat_names. now rewrite (re_flat' _ _ VR), (re_flat _ _ VR).
Qed.
Lemma messages_allowing : all_messages e' = all_messages e.
Proof.
  unfold all_messages. rewrite VS, VS', !filter_app, !map_app. f_equal. cbn [filter]. rewrite (re_skip _ _ VR).
  destruct (negb (v_skip v)); [|reflexivity]. cbn [map]. unfold variant_message. now rewrite (re_flat' _ _ VR), (re_flat _ _ VR), (re_names _ _ VR).
Qed.
Lemma names_allowing : e_names e' = e_names e.
Proof. apply each_allowing. now rewrite (re_flat' _ _ VR), (re_flat _ _ VR), (re_skip _ _ VR), (re_names _ _ VR). Qed.
Lemma pick_allowing paths : pick_flat e' paths = pick_flat e paths.
Proof. unfold pick_flat. now rewrite matches_allowing. Qed.
Lemma block_allowing tm prefix sp i w paths es ins : flat_block e' tm prefix sp i w paths es ins = flat_block e tm prefix sp i w paths es ins.
Proof. unfold flat_block. now rewrite messages_allowing, other_allowing, VU. Qed.

Lemma post_clean (fs : list (field V)) tm target i (x : V) es vs es' : transparent_post fs tm target i x es = (Ok vs, es') -> grows es es'.
Proof.
  unfold transparent_post. match goal with |- context [field_sets fs ?y es] => pose proof (field_sets_grow fs y es) as G; destruct (field_sets fs y es) as [sl1 es1] end.
  intro H. injection H as _ <-. exact G.
Qed.
Lemma e_closure_agree tm prefix k sp q s r q' s' : enum_closure e tm prefix k sp q s = (r, q', s') -> q_errors q' = [] ->
  q_errors q = [] /\ (not_bad r -> enum_closure e' tm prefix k sp q s = (r, q', s')).
Proof.
  unfold enum_closure. rewrite flat_any_allowing. destruct (strip_prefix prefix k) as [n|]; [|intros H E; injection H as <- <- <-; auto].
  pose proof (find_allowing n a 0) as F. rewrite <- VS, <- VS' in F. destruct (find_variant n (e_variants e) 0) as [[j w]|].
  2: { rewrite F. intros H E; injection H as <- <- <-; auto. }
  destruct F as [w' [-> WW]].
  set (q0 := mkEst _ _ _ _). intros H E.
  assert (G : grows (q_errors q) (q_errors q0)).
  { unfold q0. cbn [q_errors]. destruct (q_key q); [apply only_one_grows|apply grows_refl]. }
  unfold v_parse in *.
  assert (T : v_transparent w' = v_transparent w) by (destruct WW as [->|[-> ->]]; [reflexivity|apply VR]). rewrite T.
  assert (T2 : v_transparent w = true -> v_fields w' = v_fields w) by (destruct WW as [->|[-> ->]]; [reflexivity|apply VR]).
  destruct (v_transparent w).
  - rewrite (T2 eq_refl). split; [|intros _; exact H]. destruct (transparent_field (v_fields w)) as [[i d]|].
    2: { injection H as <- <- <-. eapply grows_nil; eauto. }
    destruct (d_named d k sp s) as [[x|x|x] s1].
    + destruct (transparent_post (v_fields w) tm None i x (q_errors q0)) as [[l|z|z] es2] eqn:P; injection H as <- <- <-; cbn [q_errors] in E.
      * eapply grows_nil; [exact G|]. eapply grows_nil; [eapply post_clean; exact P|exact E].
      * apply push_syn_nil in E. contradiction.
      * eapply grows_nil; eauto.
    + injection H as <- <- <-. cbn [q_errors] in E. apply push_syn_nil in E. contradiction.
    + injection H as <- <- <-. eapply grows_nil; eauto.
  - destruct (v_named w tm prefix sp s) as [[l|x|x] s1] eqn:N; injection H as <- <- <-; cbn [q_errors] in E.
    + split; [eapply grows_nil; eauto|]. intros _. destruct WW as [->|[-> ->]]; [now rewrite N|]. now rewrite (re_below _ _ VR tm prefix sp s l s1 N).
    + apply push_syn_nil in E. contradiction.
    + split; [eapply grows_nil; eauto|]. intros [].
Qed.
Lemma pass_grows al es ins : grows es (fst (validate_pass al es ins)).
Proof. apply validate_pass_good. Qed.
Lemma block_grows tm prefix sp i w paths es ins value es' ins' :
  flat_block e tm prefix sp i w paths es ins = (Ok (value, es'), ins') -> grows es es'.
Proof.
  unfold flat_block. set (pre := if _ && _ && _ then _ else _).
  assert (P : forall es1, pre = Ok es1 -> grows es es1).
  { intros es1. unfold pre. destruct (_ && _ && _); [|intro H; injection H as <-; apply grows_refl].
    destruct (errors_is_empty es); [|destruct (check es); discriminate].
    destruct (errors_is_empty (fst (validate_pass (v_allowed w) es (fork_inputs ins)))); [|destruct (check _); discriminate].
    intro H. injection H as <-. apply pass_grows. }
  destruct pre as [es1|x|x]; try discriminate. specialize (P _ eq_refl).
  match goal with |- context [named_body ?x1 ?x2 ?x3 ?x4 ?x5 ?x6 ?x7 ?x8 ins] => destruct (named_body x1 x2 x3 x4 x5 x6 x7 x8 ins) as [[l|x|x] ins1] end; try discriminate.
  all: intro H; injection H as _ <- _; eapply grows_trans; [exact P|].
  all: match goal with |- grows _ (if ?c then _ else _) => destruct c end; [eapply grows_trans; [|apply disallow_grows]|].
  all: first [apply grows_refl|apply grows_syn].
Qed.
Lemma mid_grows tm al sp prefix validate q es ins value es' ins' :
  mid e tm al sp prefix validate q es ins = (Ok (value, es'), ins') -> grows es es'.
Proof.
  unfold mid. cbv zeta. destruct (q_value q) as [| |x].
  - destruct (pick_flat e (q_paths q)) as [[vi w]|]; [apply block_grows|].
    destruct (e_default e) as [y|]; [intro H; injection H as <- <- <-; apply grows_refl|].
    pose proof (pass_grows al es ins) as PG. destruct (negb (e_unknown_ok e) && validate).
    + destruct (validate_pass al es ins) as [es2 ins2]. intro H. injection H as <- <- <-. eapply grows_trans; [exact PG|apply grows_push].
    + intro H. injection H as <- <- <-. apply grows_push.
  - intro H; injection H as <- <- <-; apply grows_refl.
  - destruct (q_key q) as [k|]; [|discriminate]. set (es1 := if e_any_flat e && _ && _ then _ else es).
    assert (G1 : grows es es1) by (unfold es1; destruct (e_any_flat e && _ && _); [apply disallow_grows|apply grows_refl]).
    pose proof (pass_grows al es1 ins) as PG. destruct (negb (e_unknown_ok e) && validate).
    + destruct (validate_pass al es1 ins) as [es2 ins2]. intro H. injection H as <- <- <-. eapply grows_trans; [exact G1|exact PG].
    + intro H. injection H as <- <- <-. exact G1.
Qed.
Lemma mid_same tm al sp prefix validate q es ins : mid e' tm al sp prefix validate q es ins = mid e tm al sp prefix validate q es ins.
Proof.
  assert (NN : flat_map flat_names (e_variants e') = flat_map flat_names (e_variants e)).
  { apply each_allowing. unfold flat_names. now rewrite (re_flat' _ _ VR), (re_flat _ _ VR). }
  unfold mid. cbv zeta. rewrite flat_any_allowing, VU, VD, NN, pick_allowing, messages_allowing.
  destruct (q_value q); auto. destruct (pick_flat e (q_paths q)) as [[vi w]|]; auto. apply block_allowing.
Qed.
Lemma enum_below tm al sp prefix validate : below (enum_body e tm al sp prefix validate) (enum_body e' tm al sp prefix validate).
Proof.
  intros ins x ins'.
  pose proof (struct_agree (fun q : est => q_errors q = []) (enum_closure e tm prefix) (enum_closure e' tm prefix)
    (fun k sp q s r q' s' H E => proj1 (e_closure_agree tm prefix k sp q s r q' s' H E))
    (fun k sp q s r q' s' H E => proj2 (e_closure_agree tm prefix k sp q s r q' s' H E))) as A.
  rewrite !body_rest, flat_any_allowing, VU, VT. set (src := if _ || _ then _ else _). specialize (A src (mkEst None FNone [] [])).
  destruct (parse_struct (enum_closure e tm prefix) (mkEst None FNone [] []) src) as [[r q] src1]. cbn [fst snd] in A.
  destruct r as [t|z|z]; [| |discriminate].
  - rewrite <- (mid_same tm al sp prefix validate q). set (i := if _ || _ then ins else src1). set (es := push_result (q_errors q) (Ok t)). rewrite mid_same.
    pose proof (mid_same tm al sp prefix validate q es i) as MS.
    destruct (mid e tm al sp prefix validate q es i) as [[[value es1]|y|y] ins1] eqn:EM; try discriminate. apply mid_grows in EM.
    pose proof (run_and_thens_grows (e_and_thens e) (fs_into_option value) es1) as G.
    intro H. assert (es1 = []) as E1.
    { destruct (run_and_thens (e_and_thens e) (fs_into_option value) es1) as [ret es2]. cbn [snd] in G. injection H as H _. destruct es2; [|discriminate H]. eapply grows_nil; eauto. }
    subst es1. apply grows_nil in EM; [|reflexivity].
    rewrite A; [|exact EM|exact Logic.I]. fold es. fold i. rewrite MS. exact H.
  - set (i := if _ || _ then ins else src1). set (es := push_result (q_errors q) (Err z)).
    destruct (mid e tm al sp prefix validate q es i) as [[[value es1]|y|y] ins1] eqn:EM; try discriminate. apply mid_grows in EM.
    pose proof (run_and_thens_grows (e_and_thens e) (fs_into_option value) es1) as G.
    intro H. assert (es1 = []) as E1.
    { destruct (run_and_thens (e_and_thens e) (fs_into_option value) es1) as [ret es2]. cbn [snd] in G. injection H as H _. destruct es2; [|discriminate H]. eapply grows_nil; eauto. }
    subst es1. apply grows_nil in EM; [|reflexivity].
    apply push_syn_nil in EM. contradiction.
Qed.
End E.

Lemma l_allow (s : sdef V) tm prefix v v' sp inputs ws r' :
  parse_run s tm prefix v sp inputs (Ok ws) -> parse_run (allowing s) tm prefix v' sp inputs r' ->
  s_shape s = ShNamed -> r' = Ok ws.
Proof.
  intros R1 R2 SH. destruct (LemRun.run_body _ _ _ _ _ _ _ R1) as [m1 E1]; [exact SH|]. destruct (LemRun.run_body _ _ _ _ _ _ _ R2) as [m2 ->]; [exact SH|].
  unfold s_body, p_and_thens in *. change (s_shape (allowing s)) with (s_shape s). rewrite SH in *. symmetry in E1.
  pose proof (body_below (s_fields tm s) tm (s_default s) (s_names s) sp prefix (s_unknown_ok s) v inputs) as B.
  change (named_body (s_fields tm (allowing s)) tm (s_default (allowing s)) (s_unknown_ok (allowing s)) (s_names (allowing s)) sp prefix v' inputs)
    with (named_body (s_fields tm s) tm (s_default s) true (s_names s) sp prefix false inputs).
  destruct (named_body (s_fields tm s) tm (s_default s) (s_unknown_ok s) (s_names s) sp prefix v inputs) as [[x|x|x] ins1];
    [rewrite (B _ _ eq_refl); exact E1| |]; exfalso; unfold after_and_thens in E1; destruct (s_and_thens s); discriminate E1.
Qed.
Lemma l_allow_variant (e e' : edef) tm prefix v sp inputs x r' : allowing_in e e' ->
  enum_run e tm prefix v sp inputs (Ok x) -> enum_run e' tm prefix v sp inputs r' -> r' = Ok x.
Proof.
  intros [[a [w [b [V1 [V2 V3]]]]] D T U _] R1 R2. rewrite (LemEnum5.run_body _ _ _ _ _ _ _ R2). apply LemEnum5.run_body in R1.
  assert (RE : replaces w (v_allowing w)) by (constructor; auto; apply variant_below).
  rewrite (names_allowing e e' a b w _ V1 RE V3). pose proof (enum_below e e' a b w _ V1 RE V3 D T U tm (e_names e) sp prefix v inputs) as B.
  destruct (enum_body e tm (e_names e) sp prefix v inputs) as [r ins1]. cbn [fst] in R1. subst r. now rewrite (B _ _ eq_refl).
Qed.
End A.
