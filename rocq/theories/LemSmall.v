(** Lemmas for PropsSmall.v: strings, the accumulator, SmallString, path strings,
    recovery helpers, validations, attributes. *)
From Verif Require Export SpecSmall.

(** *** strings *)
Lemma app_empty_r : forall s, (s ++ "")%string = s.
Proof. induction s; simpl; congruence. Qed.

Lemma sapp_assoc : forall a b c : string, ((a ++ b) ++ c = a ++ (b ++ c))%string.
Proof. induction a; simpl; intros; [reflexivity | now rewrite IHa]. Qed.

Lemma slength_app : forall a b, String.length (a ++ b)%string = String.length a + String.length b.
Proof. induction a; simpl; intros; [reflexivity | now rewrite IHa]. Qed.

Lemma strip_prefix_spec : forall p s r,
  strip_prefix p s = Some r <-> s = (p ++ r)%string.
Proof.
  induction p as [|a p IH]; intros s r; simpl.
  - split; intros H; [now inversion H | now subst].
  - destruct s as [|b s].
    + split; intros H; discriminate.
    + destruct (Ascii.eqb_spec a b).
      * subst. rewrite IH. split; intros H; [now subst | now inversion H].
      * split; intros H; [discriminate | inversion H; congruence].
Qed.

Lemma ends_with_spec : forall suf s,
  ends_with suf s = true <-> exists a, s = (a ++ suf)%string.
Proof.
  intros suf s. revert suf. induction s as [|b s IH]; intros suf; cbn [ends_with].
  - destruct (String.eqb_spec EmptyString suf) as [E|E]; [subst|].
    + split; intros; [exists ""|]; reflexivity.
    + split; [discriminate|]. intros [a H]. destruct a; simpl in H; [congruence|discriminate].
  - destruct (String.eqb_spec (String b s) suf) as [E|E].
    + split; intros; [|reflexivity]. exists "". simpl. congruence.
    + rewrite IH. split.
      * intros [a ->]. exists (String b a). reflexivity.
      * intros [a H]. destruct a as [|b' a]; simpl in H; [congruence|].
        injection H as -> ->. eauto.
Qed.

Lemma mem_str_In : forall x l, mem_str x l = true <-> In x l.
Proof.
  intros x l. unfold mem_str. rewrite existsb_exists. split.
  - intros [y [Hy E]]. apply String.eqb_eq in E. now subst.
  - intros H. exists x. split; [assumption | apply String.eqb_refl].
Qed.

Lemma mem_str_false : forall x l, mem_str x l = false <-> ~ In x l.
Proof.
  intros x l. rewrite <- mem_str_In. destruct (mem_str x l); split; congruence.
Qed.

(** *** C31 *)
Definition view (c : cerrors) : list err :=
  match c with None => [] | Some e => errs_of e end.

Lemma view_combine : forall e e', errs_of (syn_combine e e') = errs_of e ++ errs_of e'.
Proof. reflexivity. Qed.

Lemma view_extend : forall l e, errs_of (syn_extend e l) = errs_of e ++ flat_map errs_of l.
Proof.
  unfold syn_extend. induction l as [|x l IH]; intros e; simpl.
  - now rewrite app_nil_r.
  - rewrite IH, view_combine, <- app_assoc. reflexivity.
Qed.

Lemma view_push_syn : forall c e, view (c_push_syn c e) = push_syn (view c) e.
Proof. intros [s|] e; reflexivity. Qed.

Lemma view_run_eop : forall c o, view (run_eop c o) = view c ++ pushed o.
Proof.
  intros c o. destruct o as [sp m|m|e|[u|e]|l|]; cbn [run_eop pushed];
    try (unfold c_push_call_site, c_push; rewrite view_push_syn; reflexivity);
    try (simpl; now rewrite app_nil_r).
  - simpl. rewrite view_push_syn. reflexivity.
  - destruct c as [s|]; simpl.
    + rewrite view_extend. reflexivity.
    + destruct l; [reflexivity|]. simpl view. rewrite view_extend. reflexivity.
Qed.

Lemma view_run : forall ops c,
  view (fold_left run_eop ops c) = view c ++ flat_map pushed ops.
Proof.
  induction ops as [|o ops IH]; intros c; simpl.
  - now rewrite app_nil_r.
  - now rewrite IH, view_run_eop, <- app_assoc.
Qed.

Lemma into_result_view : forall A (c : cerrors) (v : A), c_into_result c v = into_result (view c) v.
Proof. intros A [[e l]|] v; reflexivity. Qed.

Lemma l_errors_accumulate : forall ops A (v : A),
  let c := fold_left run_eop ops c_new in
  let all := flat_map pushed ops in
  (all = [] -> c_check c = Ok tt /\ c_into_result c v = Ok v /\ c_is_empty c = true
               /\ c_to_tokens c = []) /\
  (forall e l, all = e :: l ->
     c_check c = Err (mkSyn e l) /\ c_into_result c v = Err (mkSyn e l) /\
     c_bail c = @Err A (mkSyn e l) /\ c_unwrap_err c = inl (mkSyn e l) /\
     c_is_empty c = false /\ c_to_tokens c = e :: l /\
     map se_hd (c_into_iter c) = e :: l).
Proof.
  intros ops A v c all.
  assert (Hv : view c = all) by (unfold c, all; rewrite view_run; reflexivity).
  destruct c as [[h t]|] eqn:Ec; simpl in Hv; unfold errs_of in Hv; simpl in Hv.
  - split; [congruence|]. intros e l E. rewrite E in Hv. injection Hv as -> ->.
    repeat split. unfold c_into_iter, syn_iter, errs_of. simpl.
    f_equal. rewrite map_map. simpl. apply map_id.
  - split; [|congruence]. intros _. repeat split.
Qed.

Lemma l_push_result_ok : forall A (c : cerrors) (a : A) (e : synerr),
  c_push_result c (Ok a) = (Some a, c) /\
  fst (c_push_result (A := A) c (Err e)) = None.
Proof. intros. split; reflexivity. Qed.

(** The list view used by the other models is the stored accumulator. *)
Lemma l_errors_list_view : forall ops A (v : A),
  let c := fold_left run_eop ops c_new in
  exists es : errors,
    (forall r : res A, c_into_result (snd (c_push_result c r)) v
                       = into_result (push_result es r) v) /\
    (forall sp m, c_into_result (c_push c sp m) v = into_result (push es sp m) v) /\
    c_check c = check es /\ c_bail c = @bail A es /\ c_is_empty c = errors_is_empty es.
Proof.
  intros ops A v c. exists (view c). repeat split.
  - intros r. rewrite into_result_view. f_equal. destruct r; simpl; try reflexivity.
    apply view_push_syn.
  - intros. rewrite into_result_view. f_equal. apply view_push_syn.
  - unfold c_check. now rewrite into_result_view.
  - destruct c as [[h t]|]; reflexivity.
  - destruct c as [[h t]|]; reflexivity.
Qed.

(** *** C33 *)
Lemma arr_from_some : forall s, String.length s <= max_inline_len ->
  exists a, arr_from s = Some a /\ arr_str a = s.
Proof.
  intros s Hl. apply Nat.leb_le in Hl. unfold arr_from.
  generalize (eq_refl (Nat.leb (String.length s) max_inline_len)).
  generalize (Nat.leb (String.length s) max_inline_len) at 2 3 as b.
  intros b. destruct b; intros H; [|congruence].
  eexists. split; reflexivity.
Qed.

Lemma arr_from_str : forall s a, arr_from s = Some a -> arr_str a = s.
Proof.
  intros s a. unfold arr_from.
  generalize (eq_refl (Nat.leb (String.length s) max_inline_len)).
  generalize (Nat.leb (String.length s) max_inline_len) at 2 3 as b.
  intros b. destruct b; intros H E; [|discriminate].
  injection E as <-. reflexivity.
Qed.

Lemma push_str_text : forall s x,
  exists s', ss_push_str s x = Some s' /\ ss_as_str s' = (ss_as_str s ++ x)%string.
Proof.
  intros [h|a|b] x; simpl.
  - eexists. split; reflexivity.
  - destruct (arr_try_push a x) as [a'|] eqn:E; eexists; (split; [reflexivity|]); simpl.
    + unfold arr_try_push in E. now apply arr_from_str in E.
    + reflexivity.
  - destruct (Nat.ltb_spec max_inline_len (String.length b + String.length x)) as [H|H].
    + eexists. split; reflexivity.
    + destruct (arr_from_some b) as [a [-> Ea]]; [lia|].
      unfold arr_try_push. rewrite Ea.
      destruct (arr_from_some (b ++ x)%string) as [a' [-> Ea']]; [rewrite slength_app; lia|].
      eexists. split; [reflexivity|]. simpl. exact Ea'.
Qed.

Lemma into_owned_text : forall s, ss_as_str (ss_into_owned s) = ss_as_str s.
Proof.
  intros [h|a|b]; simpl; try reflexivity.
  destruct (arr_from b) as [a|] eqn:E; simpl; [now apply arr_from_str in E | reflexivity].
Qed.

Lemma concat_cons : forall x l, String.concat "" (x :: l) = (x ++ String.concat "" l)%string.
Proof. intros x [|y l]; simpl; [now rewrite app_empty_r | reflexivity]. Qed.

Lemma write_all_text : forall l s,
  exists s', ss_write_all s l = Some s' /\
             ss_as_str s' = (ss_as_str s ++ String.concat "" l)%string.
Proof.
  induction l as [|x l IH]; intros s; cbn [ss_write_all].
  - exists s. split; [reflexivity|]. simpl. now rewrite app_empty_r.
  - destruct (push_str_text s x) as [s1 [-> E1]].
    destruct (IH s1) as [s2 [-> E2]]. exists s2. split; [reflexivity|].
    now rewrite E2, E1, concat_cons, sapp_assoc.
Qed.

Lemma run_sop_text : forall o s,
  exists s', run_sop s o = Some s' /\ ss_as_str s' = (ss_as_str s ++ text_of_op o)%string.
Proof.
  intros [c|x| |l] s; simpl.
  - apply push_str_text.
  - apply push_str_text.
  - eexists. split; [reflexivity|]. now rewrite into_owned_text, app_empty_r.
  - apply write_all_text.
Qed.

Lemma run_start_text : forall b,
  exists s, run_start b = Some s /\ ss_as_str s = start_text b.
Proof.
  assert (Hs : forall x, exists s, ss_from_string x = Some s /\ ss_as_str s = x).
  { intros x. unfold ss_from_string.
    destruct (Nat.ltb_spec max_inline_len (String.length x)) as [H|H].
    - eexists. split; reflexivity.
    - destruct (arr_from_some x H) as [a [-> Ea]]. eexists. split; [reflexivity|exact Ea]. }
  intros [|x|x|[] x]; simpl; try (eexists; split; reflexivity); apply Hs.
Qed.

Lemma l_smallstring : forall b ops,
  exists s0 s, run_start b = Some s0 /\ run_sops s0 ops = Some s /\
    ss_as_str s = (start_text b ++ String.concat "" (map text_of_op ops))%string.
Proof.
  intros b ops. destruct (run_start_text b) as [s0 [E0 T0]]. exists s0.
  rewrite <- T0. clear T0 E0 b || idtac.
  assert (H : forall ops s0, exists s, run_sops s0 ops = Some s /\
    ss_as_str s = (ss_as_str s0 ++ String.concat "" (map text_of_op ops))%string).
  { clear. induction ops as [|o ops IH]; intros s0; cbn [run_sops map].
    - exists s0. split; [reflexivity|]. simpl. now rewrite app_empty_r.
    - destruct (run_sop_text o s0) as [s1 [-> T1]].
      destruct (IH s1) as [s2 [-> T2]]. exists s2. split; [reflexivity|].
      now rewrite T2, T1, concat_cons, sapp_assoc. }
  destruct (H ops s0) as [s [E T]]. exists s. auto.
Qed.

Lemma l_smallstring_repr : forall a b H (h : string -> H),
  (ss_eq a b = true <-> ss_as_str a = ss_as_str b) /\
  ss_cmp a b = String.compare (ss_as_str a) (ss_as_str b) /\
  (ss_as_str a = ss_as_str b ->
     ss_hash h a = ss_hash h b /\ ss_display a = ss_display b /\
     forall c, ss_eq a c = ss_eq b c /\ ss_cmp a c = ss_cmp b c /\ ss_cmp c a = ss_cmp c b).
Proof.
  intros a b H h. split; [apply String.eqb_eq|]. split; [reflexivity|].
  intros E. unfold ss_hash, ss_display, ss_eq, ss_cmp. rewrite E. repeat split.
Qed.

(** *** C34 *)
Lemma no_colon_app : forall a b r,
  no_colon a -> no_colon b ->
  forall r', (a ++ String ":" r = b ++ String ":" r')%string -> a = b /\ r = r'.
Proof.
  induction a as [|x a IH]; intros [|y b] r Ha Hb r' E; simpl in *.
  - injection E as ->. auto.
  - injection E as <- _. destruct Hb. congruence.
  - injection E as -> _. destruct Ha. congruence.
  - injection E as -> E. destruct Ha as [_ Ha], Hb as [_ Hb].
    destruct (IH _ _ Ha Hb _ E) as [-> ->]. auto.
Qed.

Lemma no_colon_sep : forall a r, no_colon (a ++ String ":" r)%string -> False.
Proof.
  induction a as [|x a IH]; intros r H; simpl in H; destruct H as [H1 H2]; [congruence|].
  now apply IH in H2.
Qed.

Lemma join_cons : forall sep x y l,
  join_strs sep (x :: y :: l) = (x ++ sep ++ join_strs sep (y :: l))%string.
Proof. reflexivity. Qed.

Lemma join_colon_inj : forall a b,
  Forall ident_like a -> Forall ident_like b ->
  join_strs "::" a = join_strs "::" b -> a = b.
Proof.
  induction a as [|x a IH]; intros b Ha Hb E.
  - destruct b as [|y b]; [reflexivity|]. exfalso.
    inversion Hb as [|? ? [Hne _] _]; subst. destruct y as [|c y]; [congruence|].
    destruct b; simpl in E; discriminate.
  - inversion Ha as [|? ? [Hne Hx] Ha']; subst.
    destruct b as [|y b].
    + exfalso. destruct x as [|c x]; [congruence|]. destruct a; simpl in E; discriminate.
    + inversion Hb as [|? ? [Hne' Hy] Hb']; subst.
      destruct a as [|x2 a], b as [|y2 b].
      * simpl in E. now subst.
      * rewrite join_cons in E. simpl in E. exfalso. subst x. now apply no_colon_sep in Hx.
      * rewrite join_cons in E. simpl in E. exfalso. subst y. now apply no_colon_sep in Hy.
      * rewrite !join_cons in E. simpl in E.
        destruct (no_colon_app _ _ _ Hx Hy _ E) as [-> E2].
        injection E2 as E2. f_equal. apply IH; assumption.
Qed.

Lemma gpath_loop_spec : forall p segs, length p = length segs ->
  (gpath_matches_loop p segs = true <-> p = map (fun s => (s, None)) segs).
Proof.
  induction p as [|[i a] p IH]; intros [|x segs] Hl; simpl in *; try discriminate.
  - split; reflexivity.
  - destruct a as [g|].
    + split; [discriminate | intros H; congruence].
    + destruct (String.eqb_spec i x) as [->|Hne].
      * rewrite IH by congruence. split; intros H; [congruence | now injection H].
      * split; [discriminate | intros H; congruence].
Qed.

Lemma l_path_matches : forall (p : gpath) segs,
  gpath_matches p segs = true <-> p = map (fun s => (s, None)) segs.
Proof.
  intros p segs. unfold gpath_matches.
  destruct (Nat.eqb_spec (length p) (length segs)) as [E|E].
  - now apply gpath_loop_spec.
  - split; [discriminate|]. intros ->. rewrite map_length in E. congruence.
Qed.

Lemma l_path_matches_simple : forall p segs,
  path_matches p segs = gpath_matches (map (fun s => (s, None)) (p_segs p)) segs.
Proof.
  intros [ld l sp] segs. unfold path_matches, gpath_matches. simpl.
  rewrite map_length. destruct (Nat.eqb (length l) (length segs)); [|reflexivity].
  revert segs. induction l as [|x l IH]; intros [|y segs]; simpl; try reflexivity.
  destruct (String.eqb x y); [apply IH | reflexivity].
Qed.

Lemma path_matches_spec : forall p segs, path_matches p segs = true <-> p_segs p = segs.
Proof.
  intros p segs. rewrite l_path_matches_simple, l_path_matches. split.
  - revert segs. induction (p_segs p) as [|x l IH]; intros [|y segs] H; simpl in H;
      try discriminate; [reflexivity|]. injection H as -> H. f_equal. now apply IH.
  - now intros ->.
Qed.

Lemma l_key_injective : forall p q,
  Forall ident_like (p_segs p) -> Forall ident_like (p_segs q) ->
  (path_key p = path_key q <-> p_segs p = p_segs q).
Proof.
  intros p q Hp Hq. unfold path_key. split; [|congruence].
  now apply join_colon_inj.
Qed.

Lemma l_multi_segment : forall p n,
  Forall ident_like (p_segs p) -> no_colon n -> 2 <= length (p_segs p) -> path_key p <> n.
Proof.
  intros [ld l sp] n Hp Hn Hl. simpl in *. unfold path_key. simpl.
  destruct l as [|x [|y l]]; simpl in Hl; try lia.
  rewrite join_cons. simpl. intros <-. now apply no_colon_sep in Hn.
Qed.

(** *** C35 *)
Lemma is_comma_spec : forall t, is_comma t = true <-> comma_tok t.
Proof.
  intros t. unfold comma_tok. destruct t; simpl; try (split; [discriminate|intros [? [? ?]]; discriminate]).
  rewrite Ascii.eqb_eq. split; [intros ->; unfold comma_c; eauto | intros [? [? E]]; now injection E].
Qed.

Lemma skip_toks_spec : forall ts,
  exists pre, ts = pre ++ skip_toks ts /\ Forall (fun t => ~ comma_tok t) pre /\
              (skip_toks ts = [] \/ starts_comma (skip_toks ts)).
Proof.
  induction ts as [|t ts IH]; simpl.
  - exists []. auto.
  - destruct (is_comma t) eqn:E.
    + exists []. split; [reflexivity|]. split; [constructor|]. right.
      exists t, ts. split; [reflexivity|]. now apply is_comma_spec.
    + destruct IH as [pre [H1 [H2 H3]]]. exists (t :: pre). simpl. split; [congruence|].
      split; [|assumption]. constructor; [|assumption].
      rewrite <- is_comma_spec. congruence.
Qed.

Lemma skip_toks_unique : forall pre rest,
  Forall (fun t => ~ comma_tok t) pre -> rest = [] \/ starts_comma rest ->
  skip_toks (pre ++ rest) = rest.
Proof.
  induction pre as [|t pre IH]; intros rest Hp Hr; simpl.
  - destruct Hr as [->|[t [r [-> Ht]]]]; simpl; [reflexivity|].
    apply is_comma_spec in Ht. now rewrite Ht.
  - inversion Hp as [|? ? Ht Hp']; subst.
    destruct (is_comma t) eqn:E; [apply is_comma_spec in E; tauto|]. now apply IH.
Qed.

Lemma l_skip_item : forall s pre rest,
  toks s = pre ++ rest -> Forall (fun t => ~ comma_tok t) pre ->
  rest = [] \/ starts_comma rest ->
  skip_item s = mkStream rest (scope s) (cell s).
Proof.
  intros s pre rest E Hp Hr. unfold skip_item, set_toks.
  now rewrite E, skip_toks_unique.
Qed.

Lemma l_skip_item_total : forall s,
  exists pre, toks s = pre ++ toks (skip_item s) /\
              Forall (fun t => ~ comma_tok t) pre /\
              (toks (skip_item s) = [] \/ starts_comma (toks (skip_item s))).
Proof. intros s. apply skip_toks_spec. Qed.

Lemma l_skip_all : forall l,
  map toks (skip_all l) = map (fun _ => []) l /\
  map scope (skip_all l) = map scope l /\ map cell (skip_all l) = map cell l.
Proof.
  intros l. unfold skip_all. rewrite !map_map. repeat split; apply map_ext; reflexivity.
Qed.

(** *** C36 *)
Lemma l_parse_eof : forall (env : Env) s,
  (toks s = [] -> parse_eof s = (Ok tt, s)) /\
  (forall t, toks s = [t] -> comma_tok t -> parse_eof s = (Ok tt, mkStream [] (scope s) (cell s))) /\
  ((toks s <> [] /\ ~ (exists t, toks s = [t] /\ comma_tok t)) ->
     exists t pre post, toks s = pre ++ t :: post /\
       (pre = [] \/ (exists c, pre = [c] /\ comma_tok c)) /\
       fst (parse_eof s) = Err (mkSyn (mkErr (tok_span t)
                              ("unexpected token `" ++ env_show t ++ "`")%string) [])).
Proof.
  intros env s. unfold parse_eof. repeat split.
  - intros E. rewrite E. simpl. now rewrite E.
  - intros t E Ht. rewrite E. apply is_comma_spec in Ht. rewrite Ht. simpl. reflexivity.
  - intros [H1 H2]. destruct (toks s) as [|t r] eqn:E; [congruence|].
    destruct (is_comma t) eqn:Et.
    + simpl. destruct r as [|t2 r].
      * exfalso. apply H2. exists t. split; [reflexivity|]. now apply is_comma_spec.
      * exists t2, [t], r. split; [reflexivity|]. split.
        -- right. exists t. split; [reflexivity|]. now apply is_comma_spec.
        -- reflexivity.
    + rewrite E. exists t, [], r. split; [reflexivity|]. split; [now left|]. reflexivity.
Qed.

Lemma l_peek_eof : forall (env : Env) s,
  peek_eof s = true <-> (toks s = [] \/ exists t, toks s = [t] /\ comma_tok t).
Proof.
  intros env s. unfold peek_eof, parse_eof, fork. simpl.
  destruct (toks s) as [|t r]; simpl; [tauto|].
  destruct (is_comma t) eqn:Et; simpl.
  - destruct r as [|t2 r]; simpl.
    + split; [|reflexivity]. intros _. right. exists t. split; [reflexivity|]. now apply is_comma_spec.
    + split; [discriminate|]. intros [H|[u [H _]]]; congruence.
  - split; [discriminate|]. intros [H|[u [H Hu]]]; [congruence|].
    injection H as -> ->. apply is_comma_spec in Hu. congruence.
Qed.

(** *** C41, C42 *)
Lemma quoted_list_cons : forall x y l,
  quoted_list (x :: y :: l) = ("`" ++ x ++ "`, " ++ quoted_list (y :: l))%string.
Proof. reflexivity. Qed.

Lemma quoted_list_snoc : forall l x, l <> [] ->
  quoted_list (l ++ [x]) = (quoted_list l ++ ", `" ++ x ++ "`")%string.
Proof.
  induction l as [|y l IH]; intros x H; [congruence|].
  destruct l as [|z l].
  - simpl. rewrite !sapp_assoc. reflexivity.
  - change ((y :: z :: l) ++ [x]) with (y :: ((z :: l) ++ [x])).
    change ((z :: l) ++ [x]) with (z :: (l ++ [x])) at 1.
    rewrite !quoted_list_cons. change (z :: (l ++ [x])) with ((z :: l) ++ [x]).
    rewrite IH by congruence. simpl. rewrite !sapp_assoc. reflexivity.
Qed.

Lemma quoted_list_empty : forall l, is_empty_str (quoted_list l) = true -> l = [].
Proof. intros [|x [|y l]] H; simpl in H; try discriminate. reflexivity. Qed.

Lemma add_name_quoted : forall l x, add_name (quoted_list l) x = quoted_list (l ++ [x]).
Proof.
  intros l x. unfold add_name. destruct (is_empty_str (quoted_list l)) eqn:E.
  - apply quoted_list_empty in E. subst. reflexivity.
  - rewrite quoted_list_snoc; [reflexivity|]. intros ->. discriminate.
Qed.

Lemma fold_names : forall A (f : A -> string) l acc,
  fold_left (fun ns a => add_name ns (f a)) l (quoted_list acc)
  = quoted_list (acc ++ map f l).
Proof.
  intros A f. induction l as [|a l IH]; intros acc; simpl.
  - now rewrite app_nil_r.
  - rewrite add_name_quoted, IH, <- app_assoc. reflexivity.
Qed.

Lemma fold_push : forall A (f : A -> span) (g : A -> string) l es,
  fold_left (fun es a => push es (f a) (g a)) l es
  = es ++ map (fun a => mkErr (f a) (g a)) l.
Proof.
  intros A f g. induction l as [|a l IH]; intros es; simpl.
  - now rewrite app_nil_r.
  - rewrite IH. unfold push, push_syn. rewrite <- app_assoc. reflexivity.
Qed.


Lemma l_only_one : forall attrs prefix es,
  (length (present_spans attrs) <= 1 -> only_one attrs prefix es = es) /\
  (2 <= length (present_spans attrs) ->
   only_one attrs prefix es =
   es ++ map (fun sp => mkErr sp ("only one of "
                ++ quoted_list (map (fun a => join_path prefix (fst a)) attrs)
                ++ " is allowed")%string) (present_spans attrs)).
Proof.
  intros attrs prefix es. unfold only_one. change (present attrs) with (present_spans attrs).
  assert (Hl : length (firstn 2 (present_spans attrs)) = Nat.min 2 (length (present_spans attrs)))
    by apply firstn_length.
  rewrite Hl. split; intros H.
  - destruct (Nat.eqb_spec (Nat.min 2 (length (present_spans attrs))) 2); [lia|reflexivity].
  - destruct (Nat.eqb_spec (Nat.min 2 (length (present_spans attrs))) 2); [|lia].
    pose proof (fold_names _ (fun a : string * option span => join_path prefix (fst a)) attrs []) as F.
    cbn [quoted_list app] in F. rewrite F.
    rewrite (fold_push _ (fun sp => sp)). reflexivity.
Qed.

Lemma fold_missing_names : forall (attrs : list (string * option span)) prefix acc,
  fold_left (fun ns a => match snd a with
                         | None => add_name ns (join_path prefix (fst a))
                         | Some _ => ns
                         end) attrs (quoted_list acc)
  = quoted_list (acc ++ flat_map (fun a => match snd a with
                                           | None => [join_path prefix (fst a)]
                                           | Some _ => []
                                           end) attrs).
Proof.
  induction attrs as [|[n [sp|]] attrs IH]; intros prefix acc; simpl.
  - now rewrite app_nil_r.
  - apply IH.
  - now rewrite add_name_quoted, IH, <- app_assoc.
Qed.

Lemma fold_push_present : forall (attrs : list (string * option span)) (g : string -> string) es,
  fold_left (fun es a => match snd a with
                         | Some sp => push es sp (g (fst a))
                         | None => es
                         end) attrs es
  = es ++ flat_map (fun a => match snd a with
                             | Some sp => [mkErr sp (g (fst a))]
                             | None => []
                             end) attrs.
Proof.
  induction attrs as [|[n [sp|]] attrs IH]; intros g es; simpl.
  - now rewrite app_nil_r.
  - rewrite IH. unfold push, push_syn. rewrite <- app_assoc. reflexivity.
  - apply IH.
Qed.

Lemma all_or_none_test : forall attrs : list (string * option span),
  let first := match attrs with a :: _ => opt_some (snd a) | [] => false end in
  existsb (fun a => negb (Bool.eqb (opt_some (snd a)) first)) (tl attrs) = true <->
  (Exists is_present attrs /\ Exists (fun a => snd a = None) attrs).
Proof.
  intros [|[n o] attrs]; simpl.
  - split; [discriminate|]. intros [H _]. inversion H.
  - rewrite existsb_exists. split.
    + intros [[n' o'] [Hin Hd]]. simpl in Hd.
      destruct o as [sp|], o' as [sp'|]; simpl in Hd; try discriminate.
      * split; [apply Exists_cons_hd; now exists sp|].
        apply Exists_cons_tl. apply Exists_exists. eauto.
      * split; [|now apply Exists_cons_hd].
        apply Exists_cons_tl. apply Exists_exists. eexists. split; [eassumption|].
        now exists sp'.
    + intros [Hp Hm]. destruct o as [sp|].
      * inversion Hm as [? ? E|? ? E]; subst; [discriminate|].
        apply Exists_exists in E. destruct E as [[n' o'] [Hin E]]. simpl in E. subst o'.
        exists (n', None). auto.
      * inversion Hp as [? ? E|? ? E]; subst; [destruct E; discriminate|].
        apply Exists_exists in E. destruct E as [[n' o'] [Hin [sp' E]]]. simpl in E. subst o'.
        exists (n', Some sp'). auto.
Qed.

Lemma l_all_or_none : forall attrs prefix es,
  (Forall is_present attrs \/ Forall (fun a => snd a = None) attrs ->
     all_or_none attrs prefix es = es) /\
  (Exists is_present attrs -> Exists (fun a => snd a = None) attrs ->
   all_or_none attrs prefix es =
   es ++ flat_map (fun a => match snd a with
            | Some sp => [mkErr sp (quoted_list
                           (map (fun b => join_path prefix (fst b))
                                (filter (fun b => match snd b with None => true | _ => false end) attrs))
                         ++ " must also be set in order to use `" ++ fst a ++ "`")%string]
            | None => []
            end) attrs).
Proof.
  intros attrs prefix es. unfold all_or_none. pose proof (all_or_none_test attrs) as T.
  cbv zeta in T. set (b := existsb _ (tl attrs)) in *. split.
  - intros H. destruct b; [|reflexivity]. exfalso.
    destruct T as [T _]. destruct (T eq_refl) as [Hp Hm].
    apply Exists_exists in Hp, Hm. destruct Hp as [a [Ia [sp Ea]]], Hm as [c [Ic Ec]].
    destruct H as [H|H]; rewrite Forall_forall in H.
    + destruct (H _ Ic) as [sp' E]. congruence.
    + specialize (H _ Ia). congruence.
  - intros Hp Hm. destruct b eqn:Eb; [|destruct T as [_ T]; discriminate (T (conj Hp Hm))].
    pose proof (fold_missing_names attrs prefix []) as F. cbn [quoted_list app] in F. rewrite F.
    match goal with |- context [quoted_list ?l] => set (qs := quoted_list l) end.
    rewrite (fold_push_present attrs
               (fun n => (qs ++ " must also be set in order to use " ++ tick n)%string)).
    f_equal. unfold qs.
    assert (G : flat_map (fun a : string * option span => match snd a with
                          | Some _ => [] | None => [join_path prefix (fst a)] end) attrs
              = map (fun b => join_path prefix (fst b))
                    (filter (fun b => match snd b with None => true | _ => false end) attrs)).
    { clear. induction attrs as [|[m [sp2|]] attrs IH]; simpl; [reflexivity|exact IH|].
      f_equal. exact IH. }
    rewrite G. apply flat_map_ext. intros [n [sp|]]; reflexivity.
Qed.

(** *** C45 *)
Section Sim.
  Context {env : Env}.
  Variable p : string.

  Definition cinv (seen : list string) (best : option (N * string)) : Prop :=
    match best with
    | Some (s, c) => In c seen /\ s = env_sim p c /\ (800 < s)%N /\
                     forall f, In f seen -> (env_sim p f <= s)%N
    | None => forall f, In f seen -> (env_sim p f <= 800)%N
    end.

  Lemma sim_step_inv : forall seen best f, cinv seen best -> cinv (seen ++ [f]) (sim_step p best f).
  Proof.
    intros seen best f H. unfold sim_step.
    destruct (N.ltb_spec 800 (env_sim p f)) as [L|L]; simpl.
    - destruct best as [[s c]|].
      + destruct (N.ltb_spec s (env_sim p f)) as [M|M].
        * destruct H as [H1 [H2 [H3 H4]]]. repeat split; auto.
          -- apply in_or_app. right. now left.
          -- intros g Hg. apply in_app_or in Hg as [Hg|[<-|[]]]; [|lia].
             specialize (H4 _ Hg). lia.
        * destruct H as [H1 [H2 [H3 H4]]]. repeat split; auto.
          -- apply in_or_app. now left.
          -- intros g Hg. apply in_app_or in Hg as [Hg|[<-|[]]]; [|lia]. auto.
      + repeat split; auto.
        * apply in_or_app. right. now left.
        * intros g Hg. apply in_app_or in Hg as [Hg|[<-|[]]]; [|lia].
          specialize (H _ Hg). lia.
    - destruct best as [[s c]|].
      + destruct H as [H1 [H2 [H3 H4]]]. repeat split; auto.
        * apply in_or_app. now left.
        * intros g Hg. apply in_app_or in Hg as [Hg|[<-|[]]]; [|lia]. auto.
      + intros g Hg. apply in_app_or in Hg as [Hg|[<-|[]]]; auto.
  Qed.

  Lemma closest_inv : forall fields, cinv fields (closest p fields).
  Proof.
    intros fields. unfold closest.
    assert (G : forall l seen best, cinv seen best -> cinv (seen ++ l) (fold_left (sim_step p) l best)).
    { induction l as [|f l IH]; intros seen best H; simpl.
      - now rewrite app_nil_r.
      - replace (seen ++ f :: l) with ((seen ++ [f]) ++ l) by (now rewrite <- app_assoc).
        apply IH, sim_step_inv, H. }
    apply (G fields [] None). simpl. intros f [].
  Qed.
End Sim.

Lemma l_suggestion : forall (env : Env) p sp fields,
  (exists c, In c fields /\ (800 < env_sim p c)%N /\
      (forall f, In f fields -> (env_sim p f <= env_sim p c)%N) /\
      unknown_error p sp fields =
      mkSyn (mkErr sp ("unknown field `" ++ p ++ "`, did you mean `" ++ c ++ "`?")%string) []) \/
  ((forall f, In f fields -> (env_sim p f <= 800)%N) /\
   unknown_error p sp fields = mkSyn (mkErr sp ("unknown field `" ++ p ++ "`")%string) []).
Proof.
  intros env p sp fields. unfold unknown_error, err1, tick.
  pose proof (closest_inv p fields) as H.
  destruct (closest p fields) as [[s c]|]; simpl in H.
  - destruct H as [H1 [-> [H3 H4]]]. left. exists c. repeat split; auto.
    f_equal. f_equal. simpl. rewrite !sapp_assoc. reflexivity.
  - right. auto.
Qed.

Lemma l_check_unknown : forall (env : Env) p sp fields es,
  (In p fields -> check_unknown p sp fields es = es) /\
  (~ In p fields -> exists e, unknown_error p sp fields = mkSyn e [] /\
                              check_unknown p sp fields es = es ++ [e]).
Proof.
  intros env p sp fields es. unfold check_unknown. split; intros H.
  - apply mem_str_In in H. now rewrite H.
  - apply mem_str_false in H. rewrite H. unfold push_syn, unknown_error.
    destruct (closest p fields) as [[s c]|]; eexists; split; reflexivity.
Qed.

(** *** C24 *)
Lemma ends_with_app : forall a suf, ends_with suf (a ++ suf)%string = true.
Proof. intros a suf. apply ends_with_spec. eauto. Qed.

Lemma is_empty_str_spec : forall s, is_empty_str s = true <-> s = "".
Proof. intros [|c s]; simpl; split; congruence. Qed.

Lemma join_prefix_is : forall a b,
  join_prefix a b = (join_path a b ++ "::")%string.
Proof.
  intros a b. unfold join_prefix, join_path.
  destruct (is_empty_str a); [reflexivity|].
  destruct (ends_with "::" a); rewrite !sapp_assoc; reflexivity.
Qed.

Lemma join_path_prefix : forall a b x,
  join_path (join_prefix a b) x = (join_path a b ++ "::" ++ x)%string.
Proof.
  intros a b x. rewrite join_prefix_is. unfold join_path at 1.
  destruct (is_empty_str (join_path a b ++ "::")%string) eqn:E.
  - apply is_empty_str_spec in E. exfalso. destruct (join_path a b); discriminate.
  - rewrite ends_with_app. now rewrite sapp_assoc.
Qed.

Lemma l_prefix_strip : forall a b key x,
  strip_prefix (join_prefix a b) key = Some x <-> key = join_path (join_prefix a b) x.
Proof.
  intros a b key x. rewrite strip_prefix_spec, join_path_prefix, join_prefix_is, sapp_assoc.
  reflexivity.
Qed.

Lemma l_prefix_compose : forall a b c,
  join_prefix (join_prefix a b) c = join_prefix a (b ++ "::" ++ c)%string.
Proof.
  intros a b c. rewrite (join_prefix_is (join_prefix a b)), join_path_prefix.
  rewrite join_prefix_is. unfold join_path.
  destruct (is_empty_str a); [now rewrite !sapp_assoc|].
  destruct (ends_with "::" a); rewrite !sapp_assoc; reflexivity.
Qed.

(** *** C27, C28 *)
Section Take.
  Context {env : Env}.
  Variable matches : path -> bool.

  Lemma remove_nth_app : forall A (a : list A) x b,
    remove_nth (length a) (a ++ x :: b) = a ++ b.
  Proof. induction a; simpl; intros; [reflexivity | now rewrite IHa]. Qed.

  Lemma take_loop_spec : forall fuel todo kept out,
    length todo < fuel ->
    take_loop fuel matches (kept ++ todo) (length kept) out =
    (Ok (out ++ map attr_item (filter (fun a => matches (a_path a)) todo)),
     kept ++ filter (fun a => negb (matches (a_path a))) todo).
  Proof.
    induction fuel as [|fuel IH]; intros todo kept out H; [lia|]. cbn [take_loop].
    destruct todo as [|a todo].
    - rewrite app_nil_r. rewrite (proj2 (nth_error_None kept (length kept))) by lia.
      simpl. now rewrite !app_nil_r.
    - rewrite nth_error_app2, Nat.sub_diag by lia. cbn [nth_error]. simpl in H.
      cbn [filter]. destruct (matches (a_path a)) eqn:E; simpl negb.
      + rewrite remove_nth_app, IH by lia. cbn [map]. f_equal. now rewrite <- app_assoc.
      + replace (kept ++ a :: todo) with ((kept ++ [a]) ++ todo) by (now rewrite <- app_assoc).
        replace (S (length kept)) with (length (kept ++ [a])) by (rewrite app_length; simpl; lia).
        rewrite IH by lia. now rewrite <- app_assoc.
  Qed.
End Take.

Lemma take_tokens_spec : forall (env : Env) matches l,
  take_tokens matches (ONode l) =
  (Ok (ref_tokens matches (ONode l)), ONode (filter (fun a => negb (matches (a_path a))) l)).
Proof.
  intros env matches l. unfold take_tokens. cbn [attrs_mut].
  pose proof (take_loop_spec matches (S (length l)) l [] []) as F.
  cbn [app length] in F. rewrite F by lia. reflexivity.
Qed.

Lemma l_extract_struct : forall (env : Env) V (s : sdef V) conv l,
  let m := derived_matches (s_attributes s) in
  let kept := filter (fun a => negb (m (a_path a))) l in
  snd (struct_extract_attributes s conv (ONode l)) = ONode kept /\
  (conv (ONode l) = conv (ONode kept) ->
   fst (struct_extract_attributes s conv (ONode l)) = struct_parse_attributes s conv (ONode l)).
Proof.
  intros env V s conv l m kept. unfold struct_extract_attributes, struct_parse_attributes.
  rewrite take_tokens_spec. split; [reflexivity|]. intros E. cbn [fst].
  fold m. fold kept. now rewrite E.
Qed.

Lemma l_extract_enum : forall (env : Env) V (e : edef V) conv l,
  let m := derived_matches (e_attributes e) in
  let kept := filter (fun a => negb (m (a_path a))) l in
  snd (enum_extract_attributes e conv (ONode l)) = ONode kept /\
  (conv (ONode l) = conv (ONode kept) ->
   fst (enum_extract_attributes e conv (ONode l)) = enum_parse_attributes e conv (ONode l)).
Proof.
  intros env V e conv l m kept. unfold enum_extract_attributes, enum_parse_attributes.
  rewrite take_tokens_spec. split; [reflexivity|]. intros E. cbn [fst].
  fold m. fold kept. now rewrite E.
Qed.

Lemma l_extract_refused : forall (env : Env) V (s : sdef V) conv a l sp,
  (exists e, struct_extract_attributes s conv (OSingle a) = (Err e, OSingle a)) /\
  (exists e, struct_extract_attributes s conv (OSlice l) = (Err e, OSlice l)) /\
  (exists e, struct_extract_attributes s conv (ONodeRO l sp) = (Err e, ONodeRO l sp)).
Proof. intros. repeat split; eexists; reflexivity. Qed.

Lemma derived_matches_spec : forall atts p,
  derived_matches atts p = true <-> (atts = [] \/ In (p_segs p) atts).
Proof.
  intros atts p. unfold derived_matches. destruct atts as [|x l].
  - split; auto.
  - rewrite existsb_exists. split.
    + intros [y [Hy E]]. apply path_matches_spec in E. subst. now right.
    + intros [H|H]; [discriminate|]. exists (p_segs p). split; [assumption|].
      now apply path_matches_spec.
Qed.

Lemma l_non_matching : forall (env : Env) V (s : sdef V) (e : edef V) conv o1 o2,
  conv o1 = conv o2 ->
  (filter (fun a => derived_matches (s_attributes s) (a_path a)) (attrs o1) =
   filter (fun a => derived_matches (s_attributes s) (a_path a)) (attrs o2) ->
   struct_parse_attributes s conv o1 = struct_parse_attributes s conv o2) /\
  (filter (fun a => derived_matches (e_attributes e) (a_path a)) (attrs o1) =
   filter (fun a => derived_matches (e_attributes e) (a_path a)) (attrs o2) ->
   enum_parse_attributes e conv o1 = enum_parse_attributes e conv o2).
Proof.
  intros env V s e conv o1 o2 Hc. unfold struct_parse_attributes, enum_parse_attributes, ref_tokens.
  rewrite Hc. split; intros ->; reflexivity.
Qed.

Lemma l_non_matching_insert : forall (env : Env) V (s : sdef V) conv l1 x l2,
  s_attributes s <> [] -> ~ In (p_segs (a_path x)) (s_attributes s) ->
  conv (ONode (l1 ++ x :: l2)) = conv (ONode (l1 ++ l2)) ->
  struct_parse_attributes s conv (ONode (l1 ++ x :: l2)) =
  struct_parse_attributes s conv (ONode (l1 ++ l2)).
Proof.
  intros env V s conv l1 x l2 H1 H2 Hc.
  unfold struct_parse_attributes, ref_tokens. rewrite Hc. cbn [attrs].
  rewrite !filter_app. cbn [filter].
  destruct (derived_matches (s_attributes s) (a_path x)) eqn:E; [|reflexivity].
  apply derived_matches_spec in E. tauto.
Qed.

Lemma l_non_matching_insert_enum : forall (env : Env) V (e : edef V) conv l1 x l2,
  e_attributes e <> [] -> ~ In (p_segs (a_path x)) (e_attributes e) ->
  conv (ONode (l1 ++ x :: l2)) = conv (ONode (l1 ++ l2)) ->
  enum_parse_attributes e conv (ONode (l1 ++ x :: l2)) =
  enum_parse_attributes e conv (ONode (l1 ++ l2)).
Proof.
  intros env V e conv l1 x l2 H1 H2 Hc.
  unfold enum_parse_attributes, ref_tokens. rewrite Hc. cbn [attrs].
  rewrite !filter_app. cbn [filter].
  destruct (derived_matches (e_attributes e) (a_path x)) eqn:E; [|reflexivity].
  apply derived_matches_spec in E. tauto.
Qed.

(** *** C37 *)
Lemma peek_eq_spec : forall s,
  peek_eq s = true <-> exists j sp r, toks s = TPunct "=" j sp :: r.
Proof.
  intros s. unfold peek_eq, peek_punct. destruct (toks s) as [|[i sp|c j sp|l sp|d ts sp] r];
    cbn [punct_rest]; try (split; [discriminate | intros [? [? [? H]]]; discriminate]).
  rewrite andb_true_r. destruct (Ascii.eqb_spec eq_c c) as [E|Hn].
  - subst c. split; [|reflexivity]. intros _. unfold eq_c. eauto.
  - split; [intros X; discriminate X|]. intros [? [? [? H]]]. inversion H. subst c. exfalso. now apply Hn.
Qed.

Lemma peek_paren_spec : forall s,
  peek_group Paren s = true <-> exists ts sp r, toks s = TGroup Paren ts sp :: r.
Proof.
  intros s. unfold peek_group. destruct (toks s) as [|[i sp|c j sp|l sp|d ts sp] r];
    try (split; [discriminate | intros [? [? [? H]]]; discriminate]).
  destruct d; simpl; split; try discriminate; try (intros [? [? [? H]]]; discriminate); eauto.
Qed.

Lemma parse_eq_ok : forall s j sp r, toks s = TPunct "=" j sp :: r ->
  parse_eq s = (Ok tt, mkStream r (scope s) (cell s)).
Proof. intros s j sp r E. unfold parse_eq, parse_punct. rewrite E. reflexivity. Qed.

Lemma named_eq_case : forall (env : Env) A item inline (flag : span -> res A) sp s j esp rest,
  toks s = TPunct "=" j esp :: rest ->
  parse_named_with item inline flag sp s = item (Named sp) (mkStream rest (scope s) (cell s)).
Proof.
  intros env A item inline flag sp s j esp rest E. unfold parse_named_with.
  rewrite (proj2 (peek_eq_spec s)) by eauto. unfold pbind.
  now rewrite (parse_eq_ok s j esp rest E).
Qed.

Lemma named_paren_case : forall (env : Env) A item inline (flag : span -> res A) sp s ts gsp rest,
  toks s = TGroup Paren ts gsp :: rest ->
  parse_named_with item inline flag sp s =
  parse_delimited_with Paren (on_single (inline (Named sp))) s.
Proof.
  intros env A item inline flag sp s ts gsp rest E. unfold parse_named_with.
  destruct (peek_eq s) eqn:P.
  - apply peek_eq_spec in P as [? [? [? P]]]. congruence.
  - now rewrite (proj2 (peek_paren_spec s)) by eauto.
Qed.

Lemma delimited_case : forall (env : Env) A (f : parser A) d s ts gsp rest,
  toks s = TGroup d ts gsp :: rest ->
  parse_delimited_with d f s =
  (let (r, c) := f (mkStream ts (SClose gsp) (cell s)) in
   match r with
   | Ok v => let (r2, c2) := parse_eof c in
             (match r2 with Ok _ => Ok v | Err e => Err e | Bad b => Bad b end,
              mkStream rest (scope s) (drop_cell c2))
   | Err e => (Err e, mkStream rest (scope s) (drop_cell c))
   | Bad b => (Bad b, mkStream rest (scope s) (drop_cell c))
   end).
Proof.
  intros env A f d s ts gsp rest E. unfold parse_delimited_with, with_group. rewrite E.
  replace (delim_eqb d d) with true by (destruct d; reflexivity).
  unfold group_content, pbind. destruct (f _) as [r c]. destruct r as [v|e|b]; try reflexivity.
  destruct (parse_eof c) as [[u|e|b] c2]; reflexivity.
Qed.

Lemma named_flag_case : forall (env : Env) A item inline (flag : span -> res A) sp s,
  (forall j esp rest, toks s <> TPunct "=" j esp :: rest) ->
  (forall ts gsp rest, toks s <> TGroup Paren ts gsp :: rest) ->
  parse_named_with item inline flag sp s = (flag sp, s).
Proof.
  intros env A item inline flag sp s H1 H2. unfold parse_named_with.
  destruct (peek_eq s) eqn:P; [apply peek_eq_spec in P as [? [? [? P]]]; exfalso; eapply H1; eauto|].
  destruct (peek_group Paren s) eqn:Q; [apply peek_paren_spec in Q as [? [? [? Q]]]; exfalso; eapply H2; eauto|].
  reflexivity.
Qed.

Definition at_end (c : stream) : Prop :=
  toks c = [] \/ exists t, toks c = [t] /\ comma_tok t.

Lemma parse_eof_cases : forall (env : Env) c,
  (at_end c /\ parse_eof c = (Ok tt, mkStream [] (scope c) (cell c))) \/
  (~ at_end c /\ exists e c2, parse_eof c = (Err e, c2)).
Proof.
  intros env [ts sc ce]. unfold at_end, parse_eof. cbn [toks scope cell].
  destruct ts as [|t r]; [left; auto|].
  destruct (is_comma t) eqn:Ec.
  - destruct r as [|t2 r].
    + left. split; [|reflexivity]. right. exists t. split; [reflexivity|]. now apply is_comma_spec.
    + right. split; [|cbn; eauto]. intros [X|[u [X _]]]; discriminate.
  - right. split; [|cbn; eauto]. intros [X|[u [X Y]]]; [discriminate|].
    injection X as -> ->. apply is_comma_spec in Y. congruence.
Qed.

Lemma l_named_paren : forall (env : Env) A item inline (flag : span -> res A) sp s ts gsp rest,
  toks s = TGroup Paren ts gsp :: rest ->
  let content := mkStream ts (SClose gsp) (cell s) in
  let c := hd content (snd (inline (Named sp) [content])) in
  let out := parse_named_with item inline flag sp s in
  toks (snd out) = rest /\ scope (snd out) = scope s /\
  (forall v, fst out = Ok v <->
     fst (inline (Named sp) [content]) = Ok v /\
     (toks c = [] \/ exists t, toks c = [t] /\ comma_tok t)) /\
  (forall e, fst (inline (Named sp) [content]) = Err e -> fst out = Err e) /\
  (forall v, fst out = Ok v -> cell (snd out) = cell c).
Proof.
  intros env A item inline flag sp s ts gsp rest E content c out.
  unfold out. rewrite (named_paren_case env A item inline flag sp s ts gsp rest E).
  rewrite (delimited_case env A (on_single (inline (Named sp))) Paren s ts gsp rest E).
  unfold on_single. fold content.
  destruct (inline (Named sp) [content]) as [r l] eqn:Ei. cbn [snd fst] in *. fold c. clearbody c.
  destruct r as [v|e|b].
  - fold (at_end c). destruct (parse_eof_cases env c) as [[Ha ->]|[Ha [e [c2 ->]]]]; cbn [fst snd].
    + split; [reflexivity|]. split; [reflexivity|]. split; [|split].
      * intros v'. tauto.
      * intros; discriminate.
      * intros v' _. unfold drop_cell. cbn. now destruct (cell c).
    + split; [reflexivity|]. split; [reflexivity|]. split; [|split]; try (intros; discriminate).
      intros v'. split; [discriminate|tauto].
  - cbn [fst snd]. split; [reflexivity|]. split; [reflexivity|]. split; [|split]; try (intros; discriminate).
    + intros v'. split; [discriminate|]. intros [X _]. discriminate.
    + auto.
  - cbn [fst snd]. split; [reflexivity|]. split; [reflexivity|]. split; [|split]; try (intros; discriminate).
    intros v'. split; [discriminate|]. intros [X _]. discriminate.
Qed.

Lemma l_try_parse_named : forall s,
  match try_parse_named s with
  | NEquals => exists j sp r, toks s = TPunct "=" j sp :: r
  | NParen => exists ts sp r, toks s = TGroup Paren ts sp :: r
  | NFlag => (forall j sp r, toks s <> TPunct "=" j sp :: r) /\
             (forall ts sp r, toks s <> TGroup Paren ts sp :: r)
  end.
Proof.
  intros s. unfold try_parse_named. destruct (peek_eq s) eqn:P; [now apply peek_eq_spec|].
  destruct (peek_group Paren s) eqn:Q; [now apply peek_paren_spec|].
  split; intros x y z H.
  - assert (peek_eq s = true) by (apply peek_eq_spec; eauto). congruence.
  - assert (peek_group Paren s = true) by (apply peek_paren_spec; eauto). congruence.
Qed.

(** *** C38 *)
Lemma l_paren_eq_ok : forall (env : Env) A (f : mode -> parser A) flag nm sp value v rest sc c0 esp j gsp,
  (forall rest sc c, f (Named sp) (mkStream (value ++ rest) sc c) = (Ok v, mkStream rest sc c)) ->
  d_named (dict_item_flag f flag) nm sp (mkStream (TPunct "=" j esp :: value ++ rest) sc c0)
    = (Ok v, mkStream rest sc c0) /\
  d_named (dict_item_flag f flag) nm sp (mkStream (TGroup Paren value gsp :: rest) sc c0)
    = (Ok v, mkStream rest sc c0).
Proof.
  intros env A f flag nm sp value v rest sc c0 esp j gsp H. cbn [d_named dict_item_flag].
  unfold def_named. split.
  - rewrite (named_eq_case env A f _ flag sp _ j esp (value ++ rest)) by reflexivity. apply H.
  - rewrite (named_paren_case env A f _ flag sp _ value gsp rest) by reflexivity.
    rewrite (delimited_case env A _ Paren _ value gsp rest) by reflexivity.
    unfold on_single, def_inline, parse_first, pbind. cbn [scope cell].
    specialize (H [] (SClose gsp) c0). rewrite app_nil_r in H. rewrite H.
    cbn [hd]. unfold parse_eof. cbn [toks]. unfold pret. cbn [hd toks]. unfold drop_cell.
    cbn [cell toks]. now destruct c0.
Qed.

(** *** C39 *)

Lemma int_from_str_spec : forall k neg n v,
  (ik_signed k = false -> ik_lo k = 0%Z) ->
  int_from_str k neg n = inl v <->
  (v = (if neg then - Z.of_N n else Z.of_N n)%Z /\ in_range k v /\ (neg = true -> ik_signed k = true)).
Proof.
  intros k neg n v Hs. unfold int_from_str, in_range.
  destruct (neg && negb (ik_signed k)) eqn:E1.
  - apply andb_true_iff in E1 as [-> E1]. apply negb_true_iff in E1. rewrite E1.
    split; [discriminate|]. intros [_ [_ H]]. discriminate (H eq_refl).
  - set (w := (if neg then - Z.of_N n else Z.of_N n)%Z).
    assert (Hneg : neg = true -> ik_signed k = true).
    { intros ->. simpl in E1. now apply negb_false_iff in E1. }
    destruct (Z.ltb_spec w (ik_lo k)); [split; [discriminate|]; intros [-> [[[? ?] _] _]]; lia|].
    destruct (Z.ltb_spec (ik_hi k) w); [split; [discriminate|]; intros [-> [[[? ?] _] _]]; lia|].
    destruct (ik_nonzero k) eqn:E2; simpl.
    + destruct (Z.eqb_spec w 0).
      * split; [discriminate|]. intros [-> [[_ X] _]]. specialize (X eq_refl). lia.
      * split; [intros X; injection X as <-; repeat split; auto; lia|]. now intros [-> _].
    + split; [intros X; injection X as <-; repeat split; auto; try lia; discriminate|]. now intros [-> _].
Qed.

Lemma lit_rest_int : forall ts p sp r, lit_rest ts = Some (p, sp, r) ->
  forall neg n, sel_int_sign p = Some (neg, n) ->
  (neg = false /\ ts = TLit (LInt n) sp :: r) \/
  (neg = true /\ exists j lsp, ts = TPunct "-" j sp :: TLit (LInt n) lsp :: r).
Proof.
  intros ts p sp r H neg n Hs.
  destruct ts as [|[i isp|c j psp|l lsp|d gts gsp] ts]; simpl in H; try discriminate.
  - destruct (String.eqb i "true"); [injection H as <- <- <-; discriminate|].
    destruct (String.eqb i "false"); [injection H as <- <- <-; discriminate|]. discriminate.
  - destruct ts as [|[i2 isp2|c2 j2 psp2|l2 lsp2|d2 gts2 gsp2] ts]; try discriminate.
    destruct (Ascii.eqb_spec c "-"%char) as [->|]; [|discriminate].
    destruct l2; try discriminate; injection H as <- <- <-; simpl in Hs; try discriminate.
    injection Hs as <- <-. right. eauto.
  - injection H as <- <- <-. simpl in Hs. destruct l; try discriminate.
    injection Hs as <- <-. left. auto.
Qed.

Lemma l_int_sound : forall (env : Env) k m s v s',
  (ik_signed k = false -> ik_lo k = 0%Z) ->
  d_item (int_dict k) m s = (Ok v, s') ->
  in_range k v /\
  ((exists n sp, toks s = TLit (LInt n) sp :: toks s' /\ v = Z.of_N n) \/
   (exists j psp n sp, toks s = TPunct "-" j psp :: TLit (LInt n) sp :: toks s' /\ v = (- Z.of_N n)%Z)).
Proof.
  intros env k m s v s' Hk H. cbn [d_item int_dict dict_item] in H.
  unfold parse_int, pbind, parse_lit_as in H.
  destruct (lit_rest (toks s)) as [[[p sp] r]|] eqn:El; [|discriminate].
  destruct (sel_int_sign p) as [[neg n]|] eqn:Es; [|discriminate]. cbn [fst snd] in H.
  destruct (int_from_str k neg n) as [w|] eqn:Ei; [|discriminate].
  injection H as -> <-. apply int_from_str_spec in Ei as [E1 [E2 _]]; [|assumption].
  split; [assumption|]. cbn [toks set_toks].
  destruct (lit_rest_int _ _ _ _ El _ _ Es) as [[-> Et]|[-> [j [lsp Et]]]].
  - left. exists n, sp. auto.
  - right. exists j, sp, n, lsp. auto.
Qed.

Lemma l_int_complete : forall (env : Env) k m s,
  (ik_signed k = false -> ik_lo k = 0%Z) ->
  (forall n sp r, toks s = TLit (LInt n) sp :: r ->
     (in_range k (Z.of_N n) -> d_item (int_dict k) m s = (Ok (Z.of_N n), mkStream r (scope s) (cell s))) /\
     (~ in_range k (Z.of_N n) -> exists msg,
        d_item (int_dict k) m s = (Err (mkSyn (mkErr sp msg) []), mkStream r (scope s) (cell s)))) /\
  (forall n j psp sp r, toks s = TPunct "-" j psp :: TLit (LInt n) sp :: r -> ik_signed k = true ->
     (in_range k (- Z.of_N n) -> d_item (int_dict k) m s = (Ok (- Z.of_N n)%Z, mkStream r (scope s) (cell s))) /\
     (~ in_range k (- Z.of_N n) -> exists msg,
        d_item (int_dict k) m s = (Err (mkSyn (mkErr psp msg) []), mkStream r (scope s) (cell s)))).
Proof.
  intros env k m s Hk. split.
  - intros n sp r E. cbn [d_item int_dict dict_item]. unfold parse_int, pbind, parse_lit_as.
    rewrite E. cbn [lit_rest sel_int_sign fst snd]. unfold set_toks.
    destruct (int_from_str k false n) as [w|msg] eqn:Ei.
    + apply int_from_str_spec in Ei as [-> [E2 _]]; [|assumption]. split; [reflexivity|tauto].
    + split; [|intros _; exists msg; reflexivity]. intros Hr.
      assert (int_from_str k false n = inl (Z.of_N n)); [|congruence].
      apply int_from_str_spec; [assumption|]. repeat split; try apply Hr. discriminate.
  - intros n j psp sp r E Hsg. cbn [d_item int_dict dict_item]. unfold parse_int, pbind, parse_lit_as.
    rewrite E. cbn [lit_rest]. rewrite Ascii.eqb_refl. cbn [sel_int_sign fst snd]. unfold set_toks.
    destruct (int_from_str k true n) as [w|msg] eqn:Ei.
    + apply int_from_str_spec in Ei as [-> [E2 _]]; [|assumption]. split; [reflexivity|tauto].
    + split; [|intros _; exists msg; reflexivity]. intros Hr.
      assert (int_from_str k true n = inl (- Z.of_N n)%Z); [|congruence].
      apply int_from_str_spec; [assumption|]. repeat split; try apply Hr. auto.
Qed.

Lemma int_kinds_ok : Forall (fun k => ik_signed k = false -> ik_lo k = 0%Z)
  (let l := [k_u8; k_u16; k_u32; k_u64; k_u128; k_usize; k_i8; k_i16; k_i32; k_i64; k_i128; k_isize]
   in l ++ map nonzero l).
Proof. repeat constructor; intros; try reflexivity; discriminate. Qed.

(** *** C47 *)
Lemma l_parse_empty : forall (env : Env) A sp (f : parser A) e,
  parse_empty sp f = Err e ->
  exists e0, parse2 f [] = Err e0 /\ e_span (se_hd e) = sp /\
             map e_msg (errs_of e) = map e_msg (errs_of e0) /\ se_tl e = se_tl e0.
Proof.
  intros env A sp f e H. unfold parse_empty in H.
  destruct (parse2 f []) as [a|e0|b]; try discriminate. injection H as <-.
  exists e0. repeat split.
Qed.

Lemma l_parse_empty_refuted :
  exists (f : parser unit) (sp : span) e,
    parse_empty sp f = Err e /\ exists x, In x (errs_of e) /\ e_span x <> sp.
Proof.
  exists (perr (mkSyn (mkErr SCall "missing required field a") [mkErr SCall "missing required field b"])),
    (SAt 1).
  eexists. split; [reflexivity|]. exists (mkErr SCall "missing required field b").
  split; [right; left; reflexivity|]. discriminate.
Qed.

(** *** C43 *)
Lemma l_fs_laws : forall A B C (s t u : fstatus A) (f : A -> fstatus B) (g : B -> fstatus C)
                          (h : A -> B) (d : A) (w : fstatus B) (k : unit -> fstatus A) (o : option A),
  (fs_and_then FParseError f = FParseError /\ fs_map FParseError h = FParseError /\
   fs_and (@FParseError A) w = FParseError /\ fs_or FParseError t = FParseError /\
   fs_or_else FParseError k = FParseError /\ fs_flatten f FParseError = FParseError) /\
  (fs_and_then (fs_and_then s f) g = fs_and_then s (fun x => fs_and_then (f x) g)) /\
  (fs_and_then s FSome = s) /\ (forall a, fs_and_then (FSome a) f = f a) /\
  (fs_map s h = fs_and_then s (fun x => FSome (h x))) /\
  (fs_and s w = fs_and_then s (fun _ => w)) /\
  (fs_flatten f s = fs_and_then s f) /\
  (fs_or (fs_or s t) u = fs_or s (fs_or t u) /\ fs_or FNone s = s /\ fs_or s FNone = s) /\
  (fs_or_else s k = fs_or s (k tt)) /\
  (fs_into_option (fs_from o) = o) /\
  (fs_is_parse_error s = false -> fs_from (fs_into_option s) = s) /\
  (fs_is_parse_error (fs_from o) = false) /\
  (fs_unwrap_or s d = match fs_into_option s with Some x => x | None => d end) /\
  (fs_unwrap_or_else s (fun _ => d) = fs_unwrap_or s d) /\
  (fs_into_option (fs_map s h) = option_map h (fs_into_option s)) /\
  ((if fs_is_none s then 1 else 0) + (if fs_is_parse_error s then 1 else 0)
   + (if fs_is_some s then 1 else 0) = 1) /\
  (fs_is_none s = true <-> s = FNone) /\ (fs_is_some s = true <-> exists x, s = FSome x) /\
  (* as_ref changes nothing; unwrap panics unless there is a value *)
  (fs_as_ref s = s) /\
  (fs_unwrap s = match s with FSome x => inl x | _ => inr Panic end).
Proof.
  intros. destruct s, t, u, o; repeat split; try reflexivity; simpl; try discriminate;
    try (intros [? ?]; discriminate); eauto.
Qed.
