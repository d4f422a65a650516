(** No parser of the library, and none that is derived, looks at syn's record of unexpected
    tokens. *)
From Verif Require Export SpecStruct LemWfE.

Lemma fork_eq s s' : fork s = fork s' <-> toks s = toks s' /\ scope s = scope s'.
Proof.
  destruct s, s'. unfold fork. simpl. split; [intro H; injection H as -> ->; auto|intros [-> ->]; auto].
Qed.
Lemma fork_set s s' ts : fork s = fork s' -> fork (set_toks s ts) = fork (set_toks s' ts).
Proof. rewrite !fork_eq. simpl. tauto. Qed.
Lemma fork_fork l : fork_inputs (fork_inputs l) = fork_inputs l.
Proof. unfold fork_inputs. rewrite map_map. reflexivity. Qed.

(** two runs with the same outcome *)
Definition sameout {A} (x y : res A * stream) : Prop := fst x = fst y /\ fork (snd x) = fork (snd y).
Definition sameouts {A} (x y : res A * list stream) : Prop :=
  fst x = fst y /\ fork_inputs (snd x) = fork_inputs (snd y).
Definition sameout2 {A B} (x y : res A * B * stream) : Prop := fst x = fst y /\ fork (snd x) = fork (snd y).
Definition sameouts2 {A B} (x y : res A * B * list stream) : Prop :=
  fst x = fst y /\ fork_inputs (snd x) = fork_inputs (snd y).

(** evaluate [p s] and [p s'] in step *)
Ltac step1 H :=
  let H1 := fresh "EF" in let H2 := fresh "EQ" in
  pose proof H as [H1 H2];
  match type of H1 with
  | fst ?x = fst ?y =>
    let r := fresh "r" in let s1 := fresh "s1" in let r' := fresh "r'" in let s1' := fresh "s1'" in
    destruct x as [r s1]; destruct y as [r' s1']; cbn [fst snd] in H1, H2; subst r'
  end.
Ltac step2 H :=
  let H1 := fresh "EF" in let H2 := fresh "EQ" in
  pose proof H as [H1 H2];
  match type of H1 with
  | fst ?x = fst ?y =>
    let r := fresh "r" in let s1 := fresh "s1" in let r' := fresh "r'" in let s1' := fresh "s1'" in
    let st := fresh "st" in let st' := fresh "st'" in
    destruct x as [[r st] s1]; destruct y as [[r' st'] s1']; cbn [fst snd] in H1, H2;
    injection H1 as <- <-
  end.

Section B.
Context {env : Env}.

Lemma ub_toks {A} (p : parser A) :
  (forall ts sc c c', sameout (p (mkStream ts sc c)) (p (mkStream ts sc c'))) -> unaware p.
Proof.
  intros H [ts sc c] [ts' sc' c'] E. apply fork_eq in E. simpl in E. destruct E as [-> ->]. apply H.
Qed.
Ltac prim :=
  apply ub_toks; intros ts sc c c'; unfold sameout;
  repeat (cbn [fst snd toks scope cell set_toks in_span cur_span is_empty error_at]; try (split; reflexivity);
          match goal with |- context [match ?x with _ => _ end] => destruct x end).

Lemma ub_ret {A} (a : A) : unaware (pret a).
Proof. intros s s' E. simpl. auto. Qed.
Lemma ub_bind {A B} (p : parser A) (f : A -> parser B) :
  unaware p -> (forall a, unaware (f a)) -> unaware (pbind p f).
Proof.
  intros Hp Hf s s' E. unfold pbind. step1 (Hp s s' E). destruct r; cbn [fst snd]; auto. apply Hf. auto.
Qed.
Lemma ub_map {A B} (f : A -> B) p : unaware p -> unaware (pmap f p).
Proof. intros H s s' E. unfold pmap. step1 (H s s' E). cbn [fst snd]. auto. Qed.
Lemma ubm_ret {A} (a : A) : unaware_m (pret a).
Proof. intros s s' E. simpl. auto. Qed.
Lemma ubm_bind {A B} (p : mparser A) (f : A -> mparser B) :
  unaware_m p -> (forall a, unaware_m (f a)) -> unaware_m (pbind p f).
Proof.
  intros Hp Hf s s' E. unfold pbind. step1 (Hp s s' E). destruct r; cbn [fst snd]; auto. apply Hf. auto.
Qed.
Lemma ubm_map {A B} (f : A -> B) p : unaware_m p -> unaware_m (pmap f p).
Proof. intros H s s' E. unfold pmap. step1 (H s s' E). cbn [fst snd]. auto. Qed.
Lemma ub_punct cs n : unaware (parse_punct cs n).
Proof. unfold parse_punct. prim. Qed.
Lemma ub_comma : unaware parse_comma. Proof. apply ub_punct. Qed.
Lemma ub_eq : unaware parse_eq. Proof. apply ub_punct. Qed.
Lemma ub_group {A} d (f : parser A) : unaware f -> unaware (with_group d f).
Proof.
  intro H. apply ub_toks. intros ts sc c c'. unfold with_group, sameout. cbn [toks].
  destruct ts as [|[]]; try (split; reflexivity). destruct (delim_eqb d d0); [|split; reflexivity].
  cbn [cell scope]. step1 (H (group_content ts sp c) (group_content ts sp c') eq_refl). split; reflexivity.
Qed.
Lemma ub_kw k : unaware (parse_kw k).
Proof. unfold parse_kw. prim. Qed.
Lemma ub_ident : unaware parse_any_ident.
Proof. unfold parse_any_ident. prim. Qed.
Lemma ub_lit {A} w (sel : plit -> option A) : unaware (parse_lit_as w sel).
Proof. unfold parse_lit_as. prim. Qed.
Lemma ub_eof : unaware parse_eof.
Proof.
  apply ub_toks. intros ts sc c c'. unfold parse_eof, sameout. cbn [toks].
  destruct ts as [|t ts]; [split; reflexivity|]. destruct (is_comma t); cbn [toks set_toks]; [|split; reflexivity].
  destruct ts; split; reflexivity.
Qed.
Lemma ub_delimited {A} d (f : parser A) : unaware f -> unaware (parse_delimited_with d f).
Proof.
  intro H. apply ub_group. apply ub_bind; auto. intro a. apply ub_bind; [apply ub_eof|]. intros _. apply ub_ret.
Qed.
Lemma fork_hd s s' l l' : fork s = fork s' -> fork_inputs l = fork_inputs l' -> fork (hd s l) = fork (hd s' l').
Proof.
  destruct l as [|a l], l' as [|a' l']; cbn [hd fork_inputs map]; try discriminate; auto. intros _ H.
  injection H as H1 H2 _. now apply fork_eq.
Qed.
Lemma ub_single {A} (f : mparser A) : unaware_m f -> unaware (on_single f).
Proof.
  intros H s s' E. unfold on_single. assert (F : fork_inputs [s] = fork_inputs [s']) by (simpl; congruence).
  step1 (H [s] [s'] F). cbn [fst snd]. split; auto. now apply fork_hd.
Qed.
Lemma fork_cons s s' l l' : fork s = fork s' -> fork_inputs l = fork_inputs l' ->
  fork_inputs (s :: l) = fork_inputs (s' :: l').
Proof. simpl. congruence. Qed.
Lemma fork_cons_inv s l l' : fork_inputs (s :: l) = fork_inputs l' ->
  exists s' l1, l' = s' :: l1 /\ fork s = fork s' /\ fork_inputs l = fork_inputs l1.
Proof.
  destruct l' as [|s' l1]; [discriminate|]. cbn [fork_inputs map]. intro H. exists s', l1. split; auto.
  injection H. intros. split; auto. apply fork_eq. auto.
Qed.
Lemma fork_nil l : fork_inputs [] = fork_inputs l -> l = [].
Proof. destruct l; [auto|discriminate]. Qed.
Lemma fork_length l l' : fork_inputs l = fork_inputs l' -> length l = length l'.
Proof. intro H. apply (f_equal (@length _)) in H. unfold fork_inputs in H. now rewrite !map_length in H. Qed.
Lemma fork_in_span s s' : fork s = fork s' -> in_span s = in_span s'.
Proof. intro H. apply fork_eq in H as [H1 H2]. unfold in_span. now rewrite H1, H2. Qed.
Lemma fork_empty s s' : fork s = fork s' -> is_empty s = is_empty s'.
Proof. intro H. apply fork_eq in H as [H1 H2]. unfold is_empty. now rewrite H1. Qed.
Lemma fork_toks s s' : fork s = fork s' -> toks s = toks s'.
Proof. intro H. now apply fork_eq in H as [H1 H2]. Qed.
Lemma fork_skip s s' : fork s = fork s' -> fork (skip_item s) = fork (skip_item s').
Proof. intro H. unfold skip_item. rewrite (fork_toks _ _ H). now apply fork_set. Qed.
Lemma fork_span l l' : fork_inputs l = fork_inputs l' -> inputs_span l = inputs_span l'.
Proof.
  unfold inputs_span. destruct l as [|s l]; intro H. { apply fork_nil in H. now subst. }
  apply fork_cons_inv in H as [s' [l1 [-> [E F]]]]. rewrite (fork_in_span _ _ E). generalize (in_span s').
  revert l1 F. induction l as [|t l IH]; intros l1 F sp. { apply fork_nil in F. now subst. }
  apply fork_cons_inv in F as [t' [l2 [-> [G F]]]]. cbn [fold_left]. rewrite (fork_in_span _ _ G). auto.
Qed.
Lemma ubm_first {A} m (f : mode -> parser A) : unaware (f m) -> unaware_m (parse_first m f).
Proof.
  intros H l l' E. unfold parse_first. destruct l as [|s l].
  { apply fork_nil in E. subst. auto. }
  apply fork_cons_inv in E as [s' [l1 [-> [E F]]]].
  assert (U : unaware (a <- f m;; parse_eof;;; pret a)).
  { apply ub_bind; auto. intro. apply ub_bind; [apply ub_eof|]. intros _. apply ub_ret. }
  step1 (U s s' E). cbn [fst snd]. split; auto. now apply fork_cons.
Qed.
Lemma fork_peek_punct cs s s' : fork s = fork s' -> peek_punct cs s = peek_punct cs s'.
Proof. intro E. unfold peek_punct. now rewrite (fork_toks _ _ E). Qed.
Lemma fork_peek_group d s s' : fork s = fork s' -> peek_group d s = peek_group d s'.
Proof. intro E. unfold peek_group. now rewrite (fork_toks _ _ E). Qed.
Lemma fork_peek_lit {A} (sel : plit -> option A) s s' : fork s = fork s' -> peek_lit sel s = peek_lit sel s'.
Proof. intro E. unfold peek_lit. now rewrite (fork_toks _ _ E). Qed.
Lemma fork_peek_kw k s s' : fork s = fork s' -> peek_kw k s = peek_kw k s'.
Proof. intro E. unfold peek_kw. now rewrite (fork_toks _ _ E). Qed.
Lemma ub_named_with {A} (item : mode -> parser A) inline flag sp :
  (forall m, unaware (item m)) -> (forall m, unaware_m (inline m)) ->
  unaware (parse_named_with item inline flag sp).
Proof.
  intros HI HL s s' E. unfold parse_named_with. unfold peek_eq.
  rewrite (fork_peek_punct _ _ _ E), (fork_peek_group _ _ _ E). destruct (peek_punct [eq_c] s').
  - assert (W : unaware (parse_eq;;; item (Named sp))) by (apply ub_bind; auto using ub_eq).
    now apply W.
  - destruct (peek_group Paren s'); [|simpl; auto].
    assert (W : unaware (parse_delimited_with Paren (on_single (inline (Named sp)))))
      by (apply ub_delimited, ub_single; auto).
    now apply W.
Qed.
Lemma ub_path : unaware parse_any_path.
Proof.
  apply ub_toks. intros ts sc c c'. unfold parse_any_path, sameout. cbn [toks].
  destruct (match punct_rest [colon_c; colon_c] ts with Some r => (true, r) | None => (false, ts) end) as [lead ts0].
  destruct (path_segs ts0) as [[segs tr] r]. destruct segs as [|[i sp1] segs]; [split; reflexivity|].
  destruct tr; split; reflexivity.
Qed.

(** *** loops *)
Definition ufunc {St} (func : string -> span -> St -> stream -> res unit * St * stream) : Prop :=
  forall p sp st s s', fork s = fork s' -> sameout2 (func p sp st s) (func p sp st s').
Lemma ub_struct_loop {St} (func : string -> span -> St -> stream -> res unit * St * stream) : ufunc func ->
  forall fuel st s s', fork s = fork s' -> sameout2 (struct_loop func fuel st s) (struct_loop func fuel st s').
Proof.
  intros HF. induction fuel as [|n IH]; intros st s s' E; cbn [struct_loop]; [split; auto|].
  rewrite (fork_empty _ _ E). destruct (is_empty s'); [split; auto|].
  step1 (ub_path s s' E). destruct r; [|split; auto|split; auto].
  step2 (HF (path_key a) (p_span a) st _ _ EQ). destruct r; [|split; auto|split; auto].
  rewrite (fork_empty _ _ EQ0). destruct (is_empty s1'0); [split; auto|].
  step1 (ub_comma _ _ EQ0). destruct r; [|split; auto|split; auto]. now apply IH.
Qed.
Lemma ub_parse_struct {St} (func : string -> span -> St -> stream -> res unit * St * stream) : ufunc func ->
  forall l l' st, fork_inputs l = fork_inputs l' -> sameouts2 (parse_struct func st l) (parse_struct func st l').
Proof.
  intros HF. induction l as [|s l IH]; intros l' st E; cbn [parse_struct].
  { apply fork_nil in E. subst. split; auto. }
  apply fork_cons_inv in E as [s' [l1 [-> [E F]]]]. cbn [parse_struct]. rewrite <- (fork_toks _ _ E).
  step2 (ub_struct_loop func HF (S (length (toks s))) st _ _ E).
  destruct r; [|split; auto; now apply fork_cons|split; auto; now apply fork_cons].
  step2 (IH l1 st0 F). split; auto. now apply fork_cons.
Qed.
Definition utfunc {St} (func : nat -> St -> list stream -> res unit * St * list stream) : Prop :=
  forall i st l l', fork_inputs l = fork_inputs l' -> sameouts2 (func i st l) (func i st l').
Lemma ub_tuple_loop {St} len (func : nat -> St -> list stream -> res unit * St * list stream) : utfunc func ->
  forall fuel counter st l l', fork_inputs l = fork_inputs l' ->
    sameouts2 (tuple_loop len func fuel counter st l) (tuple_loop len func fuel counter st l').
Proof.
  intro HF. induction fuel as [|n IH]; intros counter st l l' E; cbn [tuple_loop]; [split; auto|].
  destruct l as [|s l]. { apply fork_nil in E. subst. split; auto. }
  pose proof E as E0. apply fork_cons_inv in E as [s' [l1 [-> [E F]]]].
  rewrite (fork_empty _ _ E). destruct (is_empty s').
  { step2 (IH counter st l l1 F). split; auto. now apply fork_cons. }
  destruct (Nat.leb len counter); [split; auto|].
  step2 (HF counter st _ _ E0). destruct r; [|split; auto|split; auto].
  destruct s1 as [|t k]. { apply fork_nil in EQ. subst. split; auto. }
  pose proof EQ as E1. apply fork_cons_inv in EQ as [t' [k' [-> [G1 G2]]]]. rewrite (fork_empty _ _ G1).
  destruct (negb (is_empty t') && Nat.ltb (S counter) len); [|auto].
  step1 (ub_comma _ _ G1). destruct r; [apply IH; now apply fork_cons| |]; split; auto; now apply fork_cons.
Qed.
Lemma ub_parse_tuple {St} len (func : nat -> St -> list stream -> res unit * St * list stream) : utfunc func ->
  forall st l l', fork_inputs l = fork_inputs l' ->
    sameouts2 (parse_tuple_struct len func st l) (parse_tuple_struct len func st l').
Proof. intros HF st l l' E. unfold parse_tuple_struct. rewrite (fork_length _ _ E). now apply ub_tuple_loop. Qed.
Definition ustep {St} (step : St -> stream -> res St * stream) : Prop :=
  forall st s s', fork s = fork s' -> sameout (step st s) (step st s').
Lemma ub_comma_loop {St} (step : St -> stream -> res St * stream) : ustep step ->
  forall fuel st s s', fork s = fork s' -> sameout (comma_loop step fuel st s) (comma_loop step fuel st s').
Proof.
  intro HS. induction fuel as [|n IH]; intros st s s' E; cbn [comma_loop]; [split; auto|].
  rewrite (fork_empty _ _ E). destruct (is_empty s'); [split; auto|].
  step1 (HS st _ _ E). destruct r; [|split; auto|split; auto].
  rewrite (fork_empty _ _ EQ). destruct (is_empty s1'); [split; auto|].
  step1 (ub_comma _ _ EQ). destruct r; [|split; auto|split; auto]. now apply IH.
Qed.
Lemma ub_comma_stream {St} (step : St -> stream -> res St * stream) : ustep step -> ustep (comma_stream step).
Proof. intros H st s s' E. unfold comma_stream. rewrite (fork_toks _ _ E). now apply ub_comma_loop. Qed.
Lemma ub_over_streams {St} (body : St -> stream -> res St * stream) : ustep body ->
  forall l l' st, fork_inputs l = fork_inputs l' -> sameouts (over_streams body st l) (over_streams body st l').
Proof.
  intro HB. induction l as [|s l IH]; intros l' st E; cbn [over_streams].
  { apply fork_nil in E. subst. split; auto. }
  apply fork_cons_inv in E as [s' [l1 [-> [E F]]]]. cbn [over_streams].
  step1 (HB st _ _ E). destruct r; [|split; auto; now apply fork_cons|split; auto; now apply fork_cons].
  step1 (IH l1 a F). split; auto. now apply fork_cons.
Qed.
Lemma ub_collect {A St} (get : St -> A) es body st : ustep body ->
  unaware_m (fun l => finish get es (over_streams body st l)).
Proof.
  intros H l l' E. unfold finish. step1 (ub_over_streams body H l l' st E). auto.
Qed.

(** *** dictionaries *)
Lemma ud_full {A} (item : mode -> parser A) inline flag missing :
  (forall m, unaware (item m)) -> (forall m, unaware_m (inline m)) ->
  unaware_dict (mkDict item inline flag (def_named item inline flag) missing).
Proof. intros H L. split; simpl; auto. intros; unfold def_named. apply ub_named_with; auto. Qed.
Lemma ud_item_ {A} (item : mode -> parser A) : (forall m, unaware (item m)) -> unaware_dict (dict_item item).
Proof. intro H. apply ud_full; auto. intro. now apply ubm_first. Qed.
Lemma ud_item_flag {A} (item : mode -> parser A) fl : (forall m, unaware (item m)) -> unaware_dict (dict_item_flag item fl).
Proof. intro H. apply ud_full; auto. intro. now apply ubm_first. Qed.
Lemma ud_item_flag_missing {A} (item : mode -> parser A) fl mi :
  (forall m, unaware (item m)) -> unaware_dict (dict_item_flag_missing item fl mi).
Proof. intro H. apply ud_full; auto. intro. now apply ubm_first. Qed.
Lemma ud_map {A B} (f : A -> B) d : unaware_dict d -> unaware_dict (dict_map f d).
Proof. intros [H1 H2 H3]. split; simpl; intros; auto using ub_map, ubm_map. Qed.

Lemma ub_int k : unaware (parse_int k).
Proof.
  unfold parse_int. apply ub_bind; [apply ub_lit|]. intros l s s' E. destruct (int_from_str _ _ _); auto.
Qed.
Lemma ud_int k : unaware_dict (int_dict k).
Proof. apply ud_item_. intros _. apply ub_int. Qed.
Lemma ud_u8 : unaware_dict u8_dict.
Proof.
  apply ud_item_. intros _ s s' E. unfold parse_u8.
  rewrite (fork_peek_lit sel_byte _ _ E), (fork_peek_lit sel_int_sign _ _ E). destruct (peek_lit sel_byte s').
  { apply ub_map; auto. apply ub_lit. }
  destruct (peek_lit sel_int_sign s'); [now apply ub_int|]. simpl. split; auto.
  pose proof (fork_eq s s') as [X _]. destruct (X E) as [X1 X2]. unfold error_at. now rewrite X1, X2.
Qed.
Lemma ud_lit {A B} w (sel : plit -> option A) (f : A * span -> B) :
  unaware_dict (dict_item (fun _ => pmap f (parse_lit_as w sel))).
Proof. apply ud_item_. intros _. apply ub_map, ub_lit. Qed.
Lemma ud_float : unaware_dict float_dict. Proof. apply ud_lit. Qed.
Lemma ud_char : unaware_dict char_dict. Proof. apply ud_lit. Qed.
Lemma ud_string : unaware_dict string_dict. Proof. apply ud_lit. Qed.
Lemma ud_smallstring : unaware_dict smallstring_dict. Proof. apply ud_lit. Qed.
Lemma ud_bool : unaware_dict bool_dict.
Proof. apply ud_item_flag. intros _. apply ub_map, ub_lit. Qed.
Lemma fork_error s s' m : fork s = fork s' -> error_at s m = error_at s' m.
Proof. intro E. apply fork_eq in E as [E1 E2]. unfold error_at. now rewrite E1, E2. Qed.
Lemma ub_option {A} (d : dict A) m : unaware_dict d -> unaware (option_item d m).
Proof.
  intro H. destruct m as [sp|]; simpl; [apply ub_map, H|]. intros s s' E.
  rewrite !(fork_peek_kw _ _ _ E). destruct (peek_kw "Some" s').
  { apply ub_bind; auto; [apply ub_kw|]. intros _. apply ub_map, ub_delimited, ub_single, H. }
  destruct (peek_kw "None" s'). { apply ub_bind; auto; [apply ub_kw|]. intros _. apply ub_ret. }
  simpl. split; auto. now rewrite (fork_error _ _ _ E).
Qed.
Lemma ud_option {A} (d : dict A) : unaware_dict d -> unaware_dict (option_dict d).
Proof. intro H. apply ud_item_flag_missing. intro. now apply ub_option. Qed.
Lemma ud_wrapper {A} (d : dict A) : unaware_dict d -> unaware_dict (wrapper_dict d).
Proof. intro H. apply ud_item_flag. apply H. Qed.
Lemma ud_one w ok : unaware_dict (one_token_dict w ok).
Proof. apply ud_item_. intros _. prim. Qed.
Lemma ud_tokentree : unaware_dict tokentree_dict.
Proof. apply ud_item_. intros _. prim. Qed.
Lemma fork_to_span m s s' : fork s = fork s' -> to_span m s = to_span m s'.
Proof. intro E. unfold to_span. now rewrite (fork_in_span _ _ E). Qed.
Lemma ub_tokenstream m : unaware (tokenstream_item m).
Proof.
  intros s s' E. unfold tokenstream_item. unfold peek_comma. rewrite (fork_peek_punct _ _ _ E), (fork_toks _ _ E),
    (fork_in_span _ _ E), (fork_to_span _ _ _ E).
  destruct (peek_punct [comma_c] s'); [simpl; auto|]. destruct (until_comma (toks s')); simpl; auto using fork_skip.
Qed.
Lemma ud_tokenstream : unaware_dict tokenstream_dict.
Proof. apply ud_item_flag_missing. apply ub_tokenstream. Qed.
Lemma ub_tokenstream_loop : forall fuel acc s s', fork s = fork s' ->
  sameout (tokenstream_loop fuel acc s) (tokenstream_loop fuel acc s').
Proof.
  induction fuel; intros acc s s' E; cbn [tokenstream_loop]; [split; auto|].
  rewrite (fork_empty _ _ E). destruct (is_empty s'); [split; auto|].
  step1 (ub_tokenstream Unnamed _ _ E). destruct r; [|split; auto|split; auto]. auto.
Qed.
Lemma ubm_tokenstream_flat m i : unaware_m (fu_parse tokenstream_flat m i).
Proof.
  simpl. intro l. generalize (@nil token). induction l as [|s l IH]; intros acc l' E; cbn [tokenstream_streams].
  { apply fork_nil in E. subst. split; auto. }
  apply fork_cons_inv in E as [s' [l1 [-> [E F]]]]. cbn [tokenstream_streams]. rewrite <- (fork_toks _ _ E).
  step1 (ub_tokenstream_loop (S (length (toks s))) acc _ _ E).
  destruct r; [|split; auto; now apply fork_cons|split; auto; now apply fork_cons].
  step1 (IH a l1 F). split; auto. now apply fork_cons.
Qed.
Lemma ud_ident : unaware_dict ident_dict.
Proof. apply ud_item_. intros _. apply ub_ident. Qed.
Lemma ud_any_path : unaware_dict any_path_dict.
Proof. apply ud_item_. intros _. apply ub_path. Qed.
Lemma ud_paren_syn {A} (p : parser A) : unaware p -> unaware_dict (paren_syn_dict p).
Proof. intro H. apply ud_item_. intros [sp|]; auto using ub_group. Qed.
Lemma ud_syn {A} (p : parser A) : unaware p -> unaware_dict (syn_dict p).
Proof. intro H. apply ud_item_. auto. Qed.
Lemma ud_unit : unaware_dict unit_dict.
Proof. apply ud_full; intros; [apply ub_group, ub_ret|apply ubm_ret]. Qed.
Lemma fork_last s s' l l' : fork s = fork s' -> fork_inputs l = fork_inputs l' -> fork (last l s) = fork (last l' s').
Proof.
  intros E. revert l'. induction l as [|a l IH]; intros l' F. { apply fork_nil in F. now subst. }
  apply fork_cons_inv in F as [a' [l1 [-> [G F]]]]. simpl. specialize (IH l1 F).
  destruct l as [|b l], l1 as [|b' l1]; auto; discriminate.
Qed.
Lemma ud_spanned {A} (d : dict A) : unaware_dict d -> unaware_dict (spanned_dict d).
Proof.
  intros [H1 H2 H3]. split; simpl.
  - intros m s s' E. unfold sv_item. rewrite (fork_in_span _ _ E). step1 (H1 m s s' E). cbn [fst snd].
    rewrite (fork_in_span _ _ EQ). auto.
  - intros m l l' E. unfold sv_inline. step1 (H2 m l l' E). cbn [fst snd]. split; auto. f_equal.
    destruct l as [|a l]. { apply fork_nil in E. now subst. }
    apply fork_cons_inv in E as [a' [l1 [-> [G F]]]].
    destruct s1 as [|b s1]. { apply fork_nil in EQ. now subst. }
    destruct s1' as [|b' s1']; [discriminate|].
    rewrite (fork_in_span _ _ G), (fork_in_span _ _ (fork_last a a' _ _ G EQ)). reflexivity.
  - intros n sp s s' E. unfold sv_named. step1 (H3 n sp s s' E). cbn [fst snd].
    rewrite (fork_in_span _ _ EQ). auto.
Qed.
Lemma ubm_sv {A} (p : mparser A) : unaware_m p -> unaware_m (sv_multi p).
Proof.
  intros H l l' E. unfold sv_multi. rewrite (fork_span _ _ E). step1 (H l l' E). cbn [fst snd].
  rewrite (fork_span _ _ EQ). auto.
Qed.
Lemma ubm_flag m : unaware_m (flag_inline m).
Proof. intros l l' E. simpl. now rewrite (fork_span _ _ E). Qed.
Lemma ud_flag : unaware_dict flag_dict.
Proof.
  split; simpl; auto using ubm_flag. { intro. apply ub_single, ubm_flag. }
  intros _ sp s s' E. unfold peek_comma. rewrite (fork_empty _ _ E), (fork_peek_punct _ _ _ E), (fork_in_span _ _ E).
  destruct (is_empty s' || _); simpl; auto.
Qed.

(** *** collections *)
Lemma ud_coll {A} dl (flat : mparser A) : unaware_m flat ->
  unaware_dict (dict_inline (fun _ => parse_delimited_with dl (on_single flat)) (fun _ => flat)).
Proof. intro H. apply ud_full; auto. intro. now apply ub_delimited, ub_single. Qed.
Lemma ubm_vec {A} (d : dict A) : unaware_dict d -> unaware_m (vec_flat d).
Proof.
  intro H. apply ub_collect, ub_comma_stream. intros st s s' E. unfold vec_step.
  step1 (ud_item d H Unnamed _ _ E). destruct r; split; simpl; auto using fork_skip.
Qed.
Lemma ud_vec {A} (d : dict A) : unaware_dict d -> unaware_dict (vec_dict d).
Proof. intro H. apply ud_coll. now apply ubm_vec. Qed.
Lemma ubm_vec_append {A} (d : dict A) ps : unaware_dict d -> unaware_m (vec_append d ps).
Proof.
  intros H l l' E. unfold vec_append.
  assert (F : ufunc (vec_append_fn d ps)).
  { intros p sp st s s' G. unfold vec_append_fn. destruct (mem_str p ps).
    - step1 (ud_named d H p sp _ _ G). destruct r; split; simpl; auto using fork_skip.
    - split; simpl; auto using fork_skip. }
  step2 (ub_parse_struct _ F l l' ([], []) E). destruct r; auto.
Qed.
Lemma ubm_set {A} eqb (d : dict A) : unaware_dict d -> unaware_m (set_flat eqb d).
Proof.
  intro H. apply ub_collect, ub_comma_stream. intros st s s' E. unfold set_step. rewrite (fork_in_span _ _ E).
  step1 (ud_item d H Unnamed _ _ E). destruct r; try (split; simpl; auto using fork_skip; fail).
  destruct (set_ins eqb a (fst st)). split; auto. simpl. now rewrite (fork_in_span _ _ EQ).
Qed.
Lemma ud_set {A} eqb (d : dict A) : unaware_dict d -> unaware_dict (set_dict eqb d).
Proof. intro H. apply ud_coll. now apply ubm_set. Qed.
Lemma ubm_set_append {A} eqb (d : dict A) ps : unaware_dict d -> unaware_m (set_append eqb d ps).
Proof.
  intros H l l' E. unfold set_append.
  assert (F : ufunc (set_append_fn eqb d ps)).
  { intros p sp st s s' G. unfold set_append_fn. destruct (mem_str p ps); [|split; simpl; auto using fork_skip].
    rewrite (fork_in_span _ _ G).
    step1 (ud_named d H p sp _ _ G). destruct r; try (split; simpl; auto using fork_skip; fail).
    destruct (set_ins eqb a (fst st)). split; auto. simpl. now rewrite (fork_in_span _ _ EQ). }
  step2 (ub_parse_struct _ F l l' ([], []) E). destruct r; auto.
Qed.
Lemma ubm_mapf {K V} eqb kstr (dk : dict K) (dv : dict V) : unaware_dict dk -> unaware_dict dv ->
  unaware_m (map_flat eqb kstr dk dv).
Proof.
  intros HK HV. apply ub_collect, ub_comma_stream. intros st s s' E. unfold map_step. rewrite (fork_in_span _ _ E).
  step1 (ud_item dk HK Unnamed _ _ E). destruct r as [k| |]; [|split; auto|split; auto]. rewrite (fork_in_span _ _ EQ).
  step1 (ud_named dv HV (kstr k) (in_span s') _ _ EQ). destruct r as [v| |]; try (split; simpl; auto using fork_skip; fail).
  destruct (map_ins eqb k v (fst st)). split; auto.
Qed.
Lemma ud_mapd {K V} eqb kstr (dk : dict K) (dv : dict V) : unaware_dict dk -> unaware_dict dv ->
  unaware_dict (map_dict eqb kstr dk dv).
Proof. intros. apply ud_coll. now apply ubm_mapf. Qed.
Lemma ubm_map_rest {K V} eqb kstr (dk : dict K) (dv : dict V) ex : unaware_dict dk -> unaware_dict dv ->
  unaware_m (map_rest eqb kstr dk dv ex).
Proof.
  intros HK HV. apply ub_collect, ub_comma_stream. intros st s s' E. unfold rest_step. rewrite (fork_in_span _ _ E).
  step1 (ud_item dk HK Unnamed _ _ E). destruct r as [k| |]; [|split; auto|split; auto]. rewrite (fork_in_span _ _ EQ).
  destruct (mem_str (kstr k) ex); [split; simpl; auto using fork_skip|].
  step1 (ud_named dv HV (kstr k) (in_span s') _ _ EQ). destruct r as [v| |]; try (split; simpl; auto using fork_skip; fail).
  destruct (map_ins eqb k v (fst st)). split; auto.
Qed.
Lemma ubm_array {A} N (d : dict A) i : unaware_dict d -> unaware_m (array_flat N d i).
Proof.
  intros H l l' E. unfold array_flat.
  assert (F : utfunc (arr_fn N d)).
  { intros c st k k' G. unfold arr_fn. destruct k as [|s k]. { apply fork_nil in G. subst. split; auto. }
    apply fork_cons_inv in G as [s' [k1 [-> [G F]]]].
    step1 (ud_item d H Unnamed _ _ G). destruct r.
    - destruct (Nat.ltb _ N); split; auto; now apply fork_cons.
    - split; auto. cbn [snd]. apply fork_cons; auto using fork_skip.
    - split; auto; now apply fork_cons. }
  step2 (ub_parse_tuple N _ F (mkArr [] [] 0) l l' E). rewrite (fork_span _ _ EQ).
  destruct r; cbn [fst snd]; auto.
Qed.
Lemma ud_array {A} N (d : dict A) : unaware_dict d -> unaware_dict (array_dict N d).
Proof. intro H. apply ud_coll. now apply ubm_array. Qed.
Lemma ub_fs_unnamed {A} (f : mode -> parser A) es s s' : unaware (f Unnamed) -> fork s = fork s' ->
  sameout (fs_parse_unnamed f es s) (fs_parse_unnamed f es s').
Proof.
  intros H E. unfold fs_parse_unnamed. step1 (H s s' E). destruct r; split; simpl; auto using fork_skip.
Qed.
Lemma ub_fs_named {A} n sp (f : string -> span -> parser A) st es s s' : unaware (f n sp) -> fork s = fork s' ->
  sameout (fs_parse_named n sp f st es s) (fs_parse_named n sp f st es s').
Proof.
  intros H E. unfold fs_parse_named. step1 (H s s' E). destruct r; split; simpl; auto using fork_skip.
Qed.
Lemma ubm_tuple {A} (ds : list (dict A)) : Forall unaware_dict ds -> unaware_m (tuple_flat ds).
Proof.
  intros H l l' E. unfold tuple_flat.
  assert (F : utfunc (tup_fn ds)).
  { intros c st k k' G. unfold tup_fn. destruct k as [|s k]. { apply fork_nil in G. subst. split; auto. }
    pose proof G as G0. apply fork_cons_inv in G as [s' [k1 [-> [G F]]]].
    destruct (nth_error ds c) as [d|] eqn:N; [|split; auto]. apply nth_error_In in N.
    rewrite Forall_forall in H. specialize (H d N).
    step1 (ub_fs_unnamed (d_item d) (snd st) _ _ (ud_item d H Unnamed) G).
    destruct r as [[f es]| |]; split; auto; now apply fork_cons. }
  step2 (ub_parse_tuple (length ds) _ F (map (fun _ => FNone) ds, []) l l' E). rewrite (fork_span _ _ EQ).
  destruct r; cbn [fst snd]; auto; destruct (first_none 0 (fst st)); auto.
Qed.
Lemma ud_tuple {A} (ds : list (dict A)) : Forall unaware_dict ds -> unaware_dict (tuple_dict ds).
Proof. intro H. apply ud_coll. now apply ubm_tuple. Qed.

(** *** with modules *)
Lemma ub_from_str {A} (fs : string -> A + string) : unaware (from_str_item fs).
Proof. apply ub_bind; [apply ub_lit|]. intros l s s' E. destruct (fs (fst l)); auto. Qed.
Lemma ud_from_str {A} (fs : string -> A + string) : unaware_dict (from_str_dict fs).
Proof. apply ud_item_. intros _. apply ub_from_str. Qed.
Lemma ud_from_str_default {A} (fs : string -> A + string) v : unaware_dict (from_str_default_dict fs v).
Proof. apply ud_item_flag_missing. intros _. apply ub_from_str. Qed.
Lemma ub_quoted {A} (d : dict A) m : unaware (quoted_item d m).
Proof.
  apply ub_bind; [apply ub_lit|]. intros l s s' E.
  destruct (match env_lex (fst l) with inl ts => _ | inr _ => _ end); auto.
Qed.
Lemma ud_quoted {A} (d : dict A) : unaware_dict (quoted_dict d).
Proof. apply ud_full; intro; [apply ub_quoted|apply ubm_first, ub_quoted]. Qed.
Lemma ub_maybe_quoted {A} (d : dict A) m : unaware_dict d -> unaware (maybe_quoted_item d m).
Proof.
  intros H s s' E. unfold maybe_quoted_item. rewrite (fork_peek_lit _ _ _ E).
  destruct (peek_lit sel_str s'); [now apply ub_quoted|now apply H].
Qed.
Lemma ud_maybe_quoted {A} (d : dict A) : unaware_dict d -> unaware_dict (maybe_quoted_dict d).
Proof. intro H. apply ud_full; intro; [now apply ub_maybe_quoted|now apply ubm_first, ub_maybe_quoted]. Qed.
Lemma ud_with_syn {A} (p : parser A) : unaware p -> unaware_dict (with_syn_dict p).
Proof. intro H. apply ud_item_flag. auto. Qed.
Lemma ub_syn_quoted {A} (p : parser A) : unaware (syn_quoted_item p).
Proof.
  apply ub_bind; [apply ub_lit|]. intros l s s' E.
  destruct (match env_lex (fst l) with inl ts => _ | inr _ => _ end); auto.
Qed.
Lemma ud_syn_quoted {A} (p : parser A) : unaware_dict (syn_quoted_dict p).
Proof. apply ud_item_flag. intros _. apply ub_syn_quoted. Qed.
Lemma ud_inner {A} (d : dict A) : unaware_dict d -> unaware_dict (inner_dict d).
Proof. intro H. apply ud_item_. apply H. Qed.
Lemma ud_with_optional {A} (d : dict A) : unaware_dict d -> unaware_dict (with_optional_dict d).
Proof. intro H. pose proof (ud_option _ (ud_inner _ H)) as G. apply ud_full; apply G. Qed.
Lemma ud_with_vec {A} (d : dict A) : unaware_dict d -> unaware_dict (with_vec_dict d).
Proof. intro H. pose proof (ud_vec _ (ud_inner _ H)) as G. apply ud_full; apply G. Qed.
Lemma ud_with_map {K V} eqb kstr (dk : dict K) (dv : dict V) :
  unaware_dict dk -> unaware_dict dv -> unaware_dict (with_map_dict eqb kstr dk dv).
Proof.
  intros HK HV. pose proof (ud_mapd eqb kstr _ _ (ud_inner _ HK) (ud_inner _ HV)) as G. apply ud_full; apply G.
Qed.
Lemma ud_identity {A} (d : dict A) : unaware_dict d -> unaware_dict (identity_dict d).
Proof. intro H. apply ud_full; apply H. Qed.
End B.
