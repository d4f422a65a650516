(** Proofs for PropsWider.v: enums and attributes *)
From Verif Require Import LemWf LemWfD LemWfE LemNamed LemSchema2 LemEnum2 LemEnum5 LemRun.
From Verif Require Export LemWider LemLax.
Local Open Scope string_scope.
Local Open Scope list_scope.

Section L.
Context {env : Env} {V : Type}.
Notation edef := (edef V).
Notation vdef := (vdef V).
Notation sdef := (sdef V).
Notation slots := (list (fstatus V)).

(** *** Variants *)
Lemma vm_fields (v v' : vdef) : variant_more v v' -> Forall2 field_more (v_fields v) (v_fields v').
Proof. intro H. unfold v_fields. eapply forall2_map; [apply fm_skip_default|apply H]. Qed.
Lemma vm_inline (v v' : vdef) tm prefix sp m : variant_more v v' -> at_least (v_inline v tm prefix sp m) (v_inline v' tm prefix sp m).
Proof.
  intro H. pose proof (vm_fields _ _ H) as F. unfold v_inline, v_allowed, v_accepts_all.
  rewrite (vm_shape _ _ H), (vm_unknown _ _ H), (fm_fields_names _ _ F), (fm_fields_all _ _ F).
  destruct (v_shape v); [now apply fm_body|now apply fm_unnamed_body|apply more_refl].
Qed.
Lemma vm_named (v v' : vdef) tm prefix sp : variant_more v v' -> at_least (v_named v tm prefix sp) (v_named v' tm prefix sp).
Proof.
  intro H. pose proof (fun m => vm_inline v v' tm prefix sp m H) as I. unfold v_named.
  apply (below_spellings (v_item v tm prefix sp) (v_item v' tm prefix sp) (v_inline v tm prefix sp) (v_inline v' tm prefix sp)).
  - intro m. unfold v_item. rewrite (vm_shape _ _ H). apply below_delimited, below_single, I.
  - exact I.
  - intros _ a. unfold v_flag. rewrite (vm_shape _ _ H), (fm_allows_empty None _ _ (vm_fields _ _ H)). destruct (v_shape v).
    + apply below_empty, below_single, I.
    + destruct (allows_empty None (v_fields v)); [|auto]. apply below_empty, below_single, I.
    + auto.
Qed.
Lemma vm_key (v v' : vdef) : variant_more v v' -> field_key v' = field_key v.
Proof.
  intro H. unfold field_key. rewrite (fm_map _ _ (vm_fields _ _ H) (fun f => set_of str_cmp (key_names f))); auto.
  intros f f' F. unfold key_names, has_default. now rewrite (fl_default _ _ F), (fm_flat _ _ F), (fm_parsable _ _ F), (fl_names _ _ F).
Qed.
Lemma vm_flat_names (v v' : vdef) : variant_more v v' -> flat_names v' = flat_names v.
Proof.
  intro H. unfold flat_names. rewrite (vm_flatten _ _ H). destruct (v_flatten v); auto. apply (fm_map _ _ (vm_fields _ _ H)).
  intros f f' F. pose proof (fl_kind _ _ F) as K. rewrite (fl_names _ _ F). destruct (f_kind f), (f_kind f'); cbn in K; try contradiction; auto.
  destruct K as [-> K]. now rewrite (fm_names _ _ K).
Qed.
Lemma vm_message (v v' : vdef) : variant_more v v' -> variant_message v' = variant_message v.
Proof. intro H. unfold variant_message. now rewrite (vm_flatten _ _ H), (vm_key _ _ H), (vm_ident _ _ H), (vm_names _ _ H). Qed.

(** *** Enums *)
Section E.
Variables (e e' : edef).
Hypothesis (EM : enum_more e e').
Lemma em_existsb (p : vdef -> bool) : (forall v v', variant_more v v' -> p v' = p v) -> existsb p (e_variants e') = existsb p (e_variants e).
Proof. intro H. induction (em_variants _ _ EM) as [|v v' l l' G _ IH]; cbn; auto. now rewrite (H _ _ G), IH. Qed.
Lemma em_flat_map {B} (p : vdef -> list B) : (forall v v', variant_more v v' -> p v' = p v) -> flat_map p (e_variants e') = flat_map p (e_variants e).
Proof. intro H. induction (em_variants _ _ EM) as [|v v' l l' G _ IH]; cbn; auto. now rewrite (H _ _ G), IH. Qed.
Lemma em_any_flat : e_any_flat e' = e_any_flat e.
Proof. apply em_existsb. intros v v' H. now rewrite (vm_flatten _ _ H), (vm_skip _ _ H). Qed.
Lemma em_messages : all_messages e' = all_messages e.
Proof.
  unfold all_messages. induction (em_variants _ _ EM) as [|v v' l l' G _ IH]; cbn [filter map]; auto. rewrite (vm_skip _ _ G).
  destruct (negb (v_skip v)); cbn [map]; auto. now rewrite IH, (vm_message _ _ G).
Qed.
Lemma em_names : e_names e' = e_names e.
Proof.
  apply em_flat_map. intros v v' H. pose proof (vm_fields _ _ H) as F. rewrite (vm_flatten _ _ H), (vm_skip _ _ H), (vm_names _ _ H). f_equal. destruct (v_flatten v); auto. f_equal.
  - apply (fm_flat_map _ _ F). intros f f' G. pose proof (fl_kind _ _ G) as K. destruct (f_kind f), (f_kind f'); cbn in K; try contradiction; auto. destruct K as [-> K]. now rewrite (fm_names _ _ K).
  - apply (fm_flat_map _ _ F). intros f f' G. pose proof (fl_kind _ _ G) as K. rewrite (fl_names _ _ G). destruct (f_kind f), (f_kind f'); cbn in K; try contradiction; auto.
Qed.
Lemma em_all : e_accepts_all e' = e_accepts_all e.
Proof.
  unfold e_accepts_all. rewrite (em_unknown _ _ EM). f_equal; [f_equal|]; apply em_existsb; intros v v' H.
  - now rewrite (vm_skip _ _ H), (vm_flatten _ _ H), (vm_unknown _ _ H).
  - now rewrite (vm_flatten _ _ H), (fm_fields_all _ _ (vm_fields _ _ H)).
Qed.
Lemma em_find k : forall (l l' : list vdef), Forall2 variant_more l l' -> forall i, match find_variant k l i with
  | Some (j, w) => exists w', find_variant k l' i = Some (j, w') /\ variant_more w w'
  | None => find_variant k l' i = None
  end.
Proof.
  induction 1 as [|v v' l l' G H IH]; intro i; cbn [find_variant]; auto. rewrite (vm_flatten _ _ G), (vm_skip _ _ G), (vm_names _ _ G).
  destruct (negb (v_flatten v) && negb (v_skip v) && mem_str k (v_names v)); [eauto|apply IH].
Qed.
Definition match_more (x y : key_t * (nat * vdef)) : Prop := fst y = fst x /\ fst (snd y) = fst (snd x) /\ variant_more (snd (snd x)) (snd (snd y)).
Lemma insert_more k i (v v' : vdef) : variant_more v v' -> forall m m', Forall2 match_more m m' -> Forall2 match_more (map_insert key_cmp k (i, v) m) (map_insert key_cmp k (i, v') m').
Proof.
  intros G. assert (X : match_more (k, (i, v)) (k, (i, v'))) by (split; [reflexivity|split; [reflexivity|exact G]]). induction 1 as [|[k1 w] [k2 w'] m m' [A B] H IH]; cbn [map_insert]; [constructor; auto|].
  cbn [fst] in A. subst k2. destruct (key_cmp k k1).
  - constructor; auto. destruct X as [_ X]. split; auto.
  - constructor; auto. constructor; auto. split; auto.
  - constructor; auto. split; auto.
Qed.
Lemma em_matches : Forall2 match_more (flat_matches e) (flat_matches e').
Proof.
  unfold flat_matches. assert (X : forall l l', Forall2 variant_more l l' -> forall i m m', Forall2 match_more m m' ->
    Forall2 match_more (fold_left (fun m iv => let '(i, v) := iv in if v_flatten v && negb (v_skip v) then map_insert key_cmp (field_key v) (i, v) m else m) (combine (seq i (length l)) l) m)
      (fold_left (fun m iv => let '(i, v) := iv in if v_flatten v && negb (v_skip v) then map_insert key_cmp (field_key v) (i, v) m else m) (combine (seq i (length l')) l') m')).
  { induction 1 as [|v v' l l' G H IH]; intros i m m' M; cbn [length seq combine fold_left]; auto. apply IH. rewrite (vm_flatten _ _ G), (vm_skip _ _ G), (vm_key _ _ G).
    destruct (v_flatten v && negb (v_skip v)); auto. now apply insert_more. }
  apply X; [apply EM|constructor].
Qed.
Lemma find_more (p : key_t * (nat * vdef) -> bool) : (forall x y, fst y = fst x -> p y = p x) -> forall m m', Forall2 match_more m m' ->
  match find p m with Some x => exists y, find p m' = Some y /\ match_more x y | None => find p m' = None end.
Proof. intros P. induction 1 as [|x y m m' A H IH]; cbn [find]; auto. rewrite (P x y (proj1 A)). destruct (p x); eauto. Qed.
Lemma em_pick paths : match pick_flat e paths with
  | Some (i, w) => exists w', pick_flat e' paths = Some (i, w') /\ variant_more w w'
  | None => pick_flat e' paths = None
  end.
Proof.
  unfold pick_flat. pose proof (fun p P => find_more p P _ _ em_matches) as FM.
  repeat match goal with |- context [find ?p (flat_matches e)] => tryif is_var p then fail else let q := fresh "p" in set (q := p) end.
  pose proof (FM p) as F1. pose proof (FM p0) as F2. specialize (F1 ltac:(intros [? ?] [? ?] H; cbn in H; subst; reflexivity)). specialize (F2 ltac:(intros [? ?] [? ?] H; cbn in H; subst; reflexivity)).
  unfold key_t in F1, F2.
  destruct (find p (flat_matches e)) as [[k [i w]]|].
  - destruct F1 as [[k' [i' w']] [-> [_ [A B]]]]. cbn in A, B. subst i'. eauto.
  - rewrite F1. destruct (find p0 (flat_matches e)) as [[k [i w]]|]; [|now rewrite F2]. destruct F2 as [[k' [i' w']] [-> [_ [A B]]]]. cbn in A, B. subst i'. eauto.
Qed.
Lemma em_other i : other_names e' i = other_names e i.
Proof.
  unfold other_names. generalize 0. induction (em_variants _ _ EM) as [|v v' l l' G _ IH]; intro n; cbn [length seq combine flat_map fst snd]; auto. now rewrite IH, (vm_flat_names _ _ G).
Qed.
Lemma em_block tm prefix sp i (w w' : vdef) paths es ins value ins' : variant_more w w' ->
  flat_block e tm prefix sp i w paths es ins = (Ok (value, []), ins') -> flat_block e' tm prefix sp i w' paths es ins = (Ok (value, []), ins').
Proof.
  intro G. pose proof (vm_fields _ _ G) as F. unfold flat_block, v_accepts_all, v_allowed.
  rewrite em_messages, em_other, (em_unknown _ _ EM), (vm_key _ _ G), (vm_unknown _ _ G), (vm_ident _ _ G), (vm_flat_names _ _ G), (fm_fields_names _ _ F), (fm_fields_all _ _ F). cbv zeta.
  match goal with |- match ?pre with Ok _ => _ | Err _ => _ | Bad _ => _ end = _ -> _ => destruct pre as [es1|x|x] end; auto.
  match goal with |- context [named_body (v_fields w) tm None (v_unknown_ok w) ?aa sp prefix ?vv ins] => pose proof (fm_body _ _ tm None (v_unknown_ok w) aa sp prefix vv F ins) as B;
    destruct (named_body (v_fields w) tm None (v_unknown_ok w) aa sp prefix vv ins) as [[l|x|x] ins1] end; [rewrite (B _ _ eq_refl); auto| |discriminate].
  intro H. injection H as _ H _. exfalso. cbn [push_result] in H. match type of H with (if ?c then _ else _) = [] => destruct c end.
  - eapply grows_nil in H; [|apply disallow_grows]. apply push_syn_nil in H. contradiction.
  - apply push_syn_nil in H. contradiction.
Qed.
Lemma em_mid tm al sp prefix validate q es ins value ins' :
  mid e tm al sp prefix validate q es ins = (Ok (value, []), ins') -> mid e' tm al sp prefix validate q es ins = (Ok (value, []), ins').
Proof.
  unfold mid. cbv zeta. rewrite em_any_flat, (em_unknown _ _ EM), (em_default _ _ EM), (em_flat_map flat_names vm_flat_names), em_messages.
  destruct (q_value q); auto. pose proof (em_pick (q_paths q)) as P. destruct (pick_flat e (q_paths q)) as [[i w]|]; [destruct P as [w' [-> G]]; now apply em_block|now rewrite P].
Qed.
Lemma em_closure tm prefix k sp q s r q' s' : enum_closure e tm prefix k sp q s = (r, q', s') -> q_errors q' = [] ->
  q_errors q = [] /\ (not_bad r -> enum_closure e' tm prefix k sp q s = (r, q', s')).
Proof.
  unfold enum_closure. rewrite em_any_flat. destruct (strip_prefix prefix k) as [n|]; [|intros H E; injection H as <- <- <-; auto].
  pose proof (em_find n _ _ (em_variants _ _ EM) 0) as F. destruct (find_variant n (e_variants e) 0) as [[j w]|].
  2: { rewrite F. intros H E; injection H as <- <- <-; auto. }
  destruct F as [w' [-> WW]]. set (q0 := mkEst _ _ _ _). intros H E.
  assert (G : grows (q_errors q) (q_errors q0)).
  { unfold q0. cbn [q_errors]. destruct (q_key q); [apply only_one_grows|apply grows_refl]. }
  unfold v_parse in *. rewrite (vm_transparent _ _ WW). destruct (v_transparent w).
  - pose proof (fm_transparent_field _ _ (vm_fields _ _ WW)) as T. destruct (transparent_field (v_fields w)) as [[i d]|].
    2: { injection H as <- <- <-. split; [eapply grows_nil; eauto|intros []]. }
    destruct T as [d' [-> R]]. destruct (d_named d k sp s) as [[x|x|x] s1] eqn:DN.
    + rewrite (rm_named _ _ R _ _ _ _ _ DN), (fm_transparent_post _ _ tm None i x (q_errors q0) (vm_fields _ _ WW)). split; [|auto].
      destruct (transparent_post (v_fields w) tm None i x (q_errors q0)) as [[l|z|z] es2] eqn:P; injection H as <- <- <-; cbn [q_errors] in E.
      * eapply grows_nil; [exact G|]. eapply grows_nil; [eapply post_clean; exact P|exact E].
      * apply push_syn_nil in E. contradiction.
      * eapply grows_nil; eauto.
    + injection H as <- <- <-. cbn [q_errors] in E. apply push_syn_nil in E. contradiction.
    + injection H as <- <- <-. split; [eapply grows_nil; eauto|intros []].
  - destruct (v_named w tm prefix sp s) as [[l|x|x] s1] eqn:N; injection H as <- <- <-; cbn [q_errors] in E.
    + split; [eapply grows_nil; eauto|]. intros _. now rewrite (vm_named w w' tm prefix sp WW s l s1 N).
    + apply push_syn_nil in E. contradiction.
    + split; [eapply grows_nil; eauto|]. intros [].
Qed.
Lemma em_body tm al sp prefix validate : at_least (enum_body e tm al sp prefix validate) (enum_body e' tm al sp prefix validate).
Proof.
  intros ins x ins'.
  pose proof (struct_agree (fun q : est => q_errors q = []) (enum_closure e tm prefix) (enum_closure e' tm prefix)
    (fun k sp q s r q' s' H E => proj1 (em_closure tm prefix k sp q s r q' s' H E))
    (fun k sp q s r q' s' H E => proj2 (em_closure tm prefix k sp q s r q' s' H E))) as A.
  rewrite !body_rest, em_any_flat, (em_unknown _ _ EM), (em_and_thens _ _ EM). set (src := if _ || _ then _ else _). specialize (A src (mkEst None FNone [] [])).
  destruct (parse_struct (enum_closure e tm prefix) (mkEst None FNone [] []) src) as [[r q] src1]. cbn [fst snd] in A.
  assert (C : forall es i, match mid e tm al sp prefix validate q es i with
    | (Err x, ins1) => (Err x, ins1) | (Bad b, ins1) => (Bad b, ins1)
    | (Ok (value, es1), ins1) => let (ret, es2) := run_and_thens (e_and_thens e) (fs_into_option value) es1 in
      (rbind (check es2) (fun _ => match ret with Some x => Ok x | None => Bad Panic end), skip_all ins1) end = (Ok x, ins') ->
    exists value ins1, mid e tm al sp prefix validate q es i = (Ok (value, []), ins1) /\ es = []).
  { intros es i. destruct (mid e tm al sp prefix validate q es i) as [[[value es1]|y|y] ins1] eqn:EQ; try discriminate. apply (mid_grows e e eq_refl) in EQ.
    pose proof (run_and_thens_grows (e_and_thens e) (fs_into_option value) es1) as G. intro H.
    assert (es1 = []) as ->.
    { destruct (run_and_thens (e_and_thens e) (fs_into_option value) es1) as [ret es2]. cbn [snd] in G. injection H as H _. destruct es2; [|discriminate H]. eapply grows_nil; eauto. }
    exists value, ins1. split; auto. eapply grows_nil; eauto. }
  destruct r as [t|z|z]; [| |discriminate].
  - intro H. pose proof H as H0. apply C in H0 as [value [ins1 [M N]]]. rewrite A; [|exact N|exact Logic.I]. rewrite M in H. now rewrite (em_mid _ _ _ _ _ _ _ _ _ _ M).
  - intro H. apply C in H as [value [ins1 [_ N]]]. cbn [push_result] in N. apply push_syn_nil in N. contradiction.
Qed.
Lemma l_more_enum_fn : flat_reads_more (enum_fn e) (enum_fn e').
Proof. constructor; [apply em_names|reflexivity|]. intros m p v ins a ins'. cbn [fn_parse enum_fn]. rewrite em_names. apply em_body. Qed.
Lemma l_more_enum : reads_more (enum_dict e) (enum_dict e').
Proof.
  pose proof (fun m => fm_parse _ _ l_more_enum_fn m "" true) as I. unfold enum_dict. rewrite (em_default _ _ EM). cbv zeta.
  assert (IT : forall m, at_least (fun s => parse_delimited_with Brace (on_single (fn_parse (enum_fn e) (to_named m s) "" true)) s)
                                  (fun s => parse_delimited_with Brace (on_single (fn_parse (enum_fn e') (to_named m s) "" true)) s)).
  { intros m s a s'. exact (below_delimited Brace _ _ (below_single _ _ (I (to_named m s))) s a s'). }
  assert (F : forall sp a, parse_empty sp (on_single (fn_parse (enum_fn e) (Named sp) "" true)) = Ok a -> parse_empty sp (on_single (fn_parse (enum_fn e') (Named sp) "" true)) = Ok a).
  { intros sp a. exact (below_empty sp _ _ a (below_single _ _ (I (Named sp)))). }
  constructor; cbn [d_item d_inline d_flag d_named d_missing]; auto. intros n sp. now apply below_def_named.
Qed.
Lemma em_attr obj spans : at_least (enum_attr_body e obj spans) (enum_attr_body e' obj spans).
Proof. unfold enum_attr_body. rewrite em_names, em_all, (em_attributes _ _ EM). apply em_body. Qed.
End E.

(** *** Attributes *)
Lemma more_next {R} (f g : list (string * span) -> mparser R) : (forall spans, at_least (f spans) (g spans)) ->
  forall l bufs paths a b, parse_next l bufs paths f = (Ok a, b) -> parse_next l bufs paths g = (Ok a, b).
Proof.
  intros H. assert (CL : forall (r : res R) root a, close_root r root = Ok a -> exists x, r = Ok x).
  { intros r root a. unfold close_root. destruct r as [x|x|x]; [eauto| |discriminate]. destruct (parse_eof root) as [re root1]. cbv zeta. destruct (cell root1); [discriminate|]. destruct (toks root1); [|discriminate].
    match goal with |- rbind ?c _ = _ -> _ => destruct c end; discriminate. }
  induction l as [|[[ts name] sp] l IH]; intros bufs paths a b; cbn [parse_next].
  - destruct (f paths bufs) as [[x|x|x] b1] eqn:E; [|discriminate|discriminate]. now rewrite (H _ _ _ _ E).
  - destruct ts as [|[? ?|? ? ?|? ?|[] c gsp] after]; auto.
    + destruct (parse_next l (bufs ++ [fork (root_stream [])]) (paths ++ [(name, sp)]) f) as [r b1] eqn:E. intro X. injection X as X <-.
      destruct (CL _ _ _ X) as [x ->]. now rewrite (IH _ _ _ _ E), X.
    + destruct (parse_next l (bufs ++ [group_content c gsp None]) (paths ++ [(name, sp)]) f) as [r b1] eqn:E. intro X. injection X as X <-.
      destruct (CL _ _ _ X) as [x ->]. now rewrite (IH _ _ _ _ E), X.
Qed.
Lemma more_tokens {R} (f g : list (string * span) -> mparser R) l a : (forall spans, at_least (f spans) (g spans)) ->
  parse_struct_attr_tokens l f = Ok a -> parse_struct_attr_tokens l g = Ok a.
Proof.
  intros H. unfold parse_struct_attr_tokens. destruct (parse_next l [] [] f) as [r b] eqn:E. cbn [fst]. intros ->. now rewrite (more_next f g H _ _ _ _ _ E).
Qed.
Lemma sm_attr (s s' : sdef) obj spans : struct_more s s' -> at_least (struct_attr_body s obj spans) (struct_attr_body s' obj spans).
Proof.
  intro SM. unfold struct_attr_body. rewrite (sm_is_transparent s s' SM), (sm_attributes _ _ SM), (sm_all s s' SM). destruct (s_is_transparent s); [|now apply sm_body].
  unfold s_inner. pose proof (fm_transparent_field _ _ (sm_raw _ _ SM)) as T. destruct (transparent_field (s_raw s)) as [[i d]|].
  - destruct T as [d' [-> R]]. apply sm_transparent_with; auto. apply R.
  - rewrite T. apply sm_transparent_with; auto. apply more_refl.
Qed.
Lemma l_more_attributes (s s' : sdef) conv o ws : struct_more s s' -> struct_parse_attributes s conv o = Ok ws -> struct_parse_attributes s' conv o = Ok ws.
Proof. intro SM. unfold struct_parse_attributes. rewrite (sm_attributes _ _ SM). apply more_tokens. intro spans. now apply sm_attr. Qed.
Lemma l_more_extract (s s' : sdef) conv o ws o' : struct_more s s' -> struct_extract_attributes s conv o = (Ok ws, o') -> struct_extract_attributes s' conv o = (Ok ws, o').
Proof.
  intro SM. unfold struct_extract_attributes. rewrite (sm_attributes _ _ SM). destruct (take_tokens _ o) as [[l|x|x] o1]; auto. intro H. injection H as H <-.
  rewrite (more_tokens _ _ _ _ (fun spans => sm_attr s s' (conv o1) spans SM) H). reflexivity.
Qed.
Lemma l_more_enum_attributes (e e' : edef) conv o x : enum_more e e' -> enum_parse_attributes e conv o = Ok x -> enum_parse_attributes e' conv o = Ok x.
Proof. intro SM. unfold enum_parse_attributes. rewrite (em_attributes _ _ SM). apply more_tokens. intro spans. now apply em_attr. Qed.
Lemma l_more_enum_extract (e e' : edef) conv o x o' : enum_more e e' -> enum_extract_attributes e conv o = (Ok x, o') -> enum_extract_attributes e' conv o = (Ok x, o').
Proof.
  intro SM. unfold enum_extract_attributes. rewrite (em_attributes _ _ SM). destruct (take_tokens _ o) as [[l|y|y] o1]; auto. intro H. injection H as H <-.
  rewrite (more_tokens _ _ _ _ (fun spans => em_attr e e' SM (conv o1) spans) H). reflexivity.
Qed.

End L.
