(** Every implementation of the library and every derived one (except SpannedValue, TokenTree
    and Punct) is [fine]: well behaved, local and blind to syn's record of unexpected tokens. *)
From Verif Require Export LemLocal.

Ltac tailcase E :=
  let t := fresh "t" in let r := fresh "r" in let C := fresh "C" in let j := fresh "j" in let csp := fresh "csp" in
  destruct (ends_inv _ E) as [-> | [t [r [-> C]]]]; [|destruct (comma_punct t C) as [j [csp ->]]].
Section D.
Context {env : Env}.
Lemma lc_eqv {A} (p q : parser A) : (forall s, p s = q s) -> local q -> local p.
Proof.
  intros E [SP H]. split.
  { intro s. rewrite (E s). apply SP. }
  intros body N. destruct (H body N) as [[v [rest G]]|G]; [left; exists v, rest|right]; intros; rewrite E; now apply G.
Qed.
Lemma fine_local {A} (d : dict A) : fine d -> local_dict d.
Proof.
  intros [G U L S K]. split; auto. intros n sp. apply (lc_eqv _ _ (S n sp)). unfold def_named.
  apply lc_named_with; auto; apply G || apply U.
Qed.
Lemma kp_int k : keeps (parse_int k).
Proof.
  unfold parse_int. apply kp_bind; [apply kp_lit|]. intro l. destruct (int_from_str k (fst (fst l)) (snd (fst l))); intro; reflexivity.
Qed.
Lemma kp_u8 : keeps parse_u8.
Proof. unfold parse_u8. apply kp_if; [apply kp_map, kp_lit|apply kp_if; [apply kp_int|apply kp_refl]]. Qed.
Lemma kp_option {A} (d : dict A) m : (forall m, keeps (d_item d m)) -> keeps (option_item d m).
Proof.
  intro H. destruct m; cbn [option_item]; [now apply kp_map|]. apply kp_if.
  { apply kp_bind; [apply kp_kw|]. intros _. apply kp_map, kp_delimited. }
  apply kp_if; [apply kp_bind; [apply kp_kw|intros _; apply kp_ret]|apply kp_refl].
Qed.
Lemma kp_one w ok m : keeps (d_item (one_token_dict w ok) m).
Proof. intro s. cbn. destruct (toks s) as [|t r]; auto. destruct (ok t); auto. Qed.
Lemma kp_from_str {A} (fs : string -> A + string) : keeps (from_str_item fs).
Proof. unfold from_str_item. apply kp_bind; [apply kp_lit|]. intros l s. destruct (fs (fst l)); auto. Qed.
Lemma kp_quoted {A} (d : dict A) m : keeps (quoted_item d m).
Proof.
  unfold quoted_item. apply kp_bind; [apply kp_lit|]. intros l s.
  destruct (match env_lex (fst l) with inl ts => _ | inr _ => _ end); auto.
Qed.
Lemma kp_syn_quoted {A} (p : parser A) : keeps (syn_quoted_item p).
Proof.
  unfold syn_quoted_item. apply kp_bind; [apply kp_lit|]. intros l s.
  destruct (match env_lex (fst l) with inl ts => _ | inr _ => _ end); auto.
Qed.
Lemma kp_maybe_quoted {A} (d : dict A) m : (forall m, keeps (d_item d m)) -> keeps (maybe_quoted_item d m).
Proof. intro H. apply kp_if; [apply kp_quoted|apply H]. Qed.
Ltac kp :=
  first [ assumption | apply kp_int | apply kp_u8 | now apply kp_option | apply kp_one | apply kp_from_str | apply kp_quoted
        | apply kp_syn_quoted | now apply kp_maybe_quoted
        | apply kp_map, kp_lit | apply kp_tokenstream | apply kp_ident | apply kp_path
        | apply kp_delimited | apply kp_group
        | match goal with K : forall m, keeps _ |- _ => apply K end | match goal with K : keeps _ |- _ => apply K end ].
Ltac fin := intros; split; [| | |intros n sp s; reflexivity|intro m; kp].
Lemma lc_int k : local (parse_int k).
Proof.
  unfold parse_int. apply lc_bind; [apply lc_lit|]. intro l. destruct (int_from_str k (fst (fst l)) (snd (fst l))).
  - apply (lc_res (Ok z)). exact I.
  - apply (lc_res (Err (err1 (snd l) s))). exact I.
Qed.
Lemma fine_int k : fine (int_dict k).
Proof. fin; [apply good_int|apply ud_int|]. intro m. apply lc_int. Qed.
Lemma fine_u8 : fine u8_dict.
Proof.
  fin; [apply good_u8|apply ud_u8|]. intro m. cbn [d_item u8_dict dict_item]. unfold parse_u8.
  apply lc_if. { intros; now apply peek_lit_app. } { apply lc_map, lc_lit. }
  apply lc_if. { intros; now apply peek_lit_app. } { apply lc_int. }
  apply lc_fail.
Qed.
Lemma fine_float : fine float_dict.
Proof. fin; [apply good_float|apply ud_float|]. intro. apply lc_map, lc_lit. Qed.
Lemma fine_bool : fine bool_dict.
Proof. fin; [apply good_bool|apply ud_bool|]. intro. apply lc_map, lc_lit. Qed.
Lemma fine_char : fine char_dict.
Proof. fin; [apply good_char|apply ud_char|]. intro. apply lc_map, lc_lit. Qed.
Lemma fine_string : fine string_dict.
Proof. fin; [apply good_string|apply ud_string|]. intro. apply lc_map, lc_lit. Qed.
Lemma fine_smallstring : fine smallstring_dict.
Proof. fin; [apply good_smallstring|apply ud_smallstring|]. intro. apply lc_map, lc_lit. Qed.
Lemma lc_option {A} (d : dict A) m : good_dict d -> unaware_dict d -> (forall m, local (d_item d m)) -> local (option_item d m).
Proof.
  intros G U L. destruct m as [sp|]; [apply lc_map, L|]. unfold option_item.
  apply lc_if. { intros; now apply peek_kw_app. }
  { apply lc_bind; [apply lc_kw|]. intros _. apply lc_map, lc_delimited; [apply ub_single, U|apply wb_single, G]. }
  apply lc_if. { intros; now apply peek_kw_app. } { apply lc_bind; [apply lc_kw|]. intros _. apply lc_ret. }
  apply lc_fail.
Qed.
Lemma fine_option {A} (d : dict A) : fine d -> fine (option_dict d).
Proof. intros [G U L S K]. fin; [now apply good_option|now apply ud_option|]. intro. now apply lc_option. Qed.
Lemma fine_wrapper {A} (d : dict A) : fine d -> fine (wrapper_dict d).
Proof. intros [G U L S K]. fin; [now apply good_wrapper|now apply ud_wrapper|]. intro. apply L. Qed.
Lemma fine_tokenstream : fine tokenstream_dict.
Proof. fin; [apply good_tokenstream|apply ud_tokenstream|]. intro. apply lc_tokenstream. Qed.
(** Literal and Group; Punct would take the comma *)
Lemma fine_one w ok : (forall t, is_comma t = true -> ok t = None) -> fine (one_token_dict w ok).
Proof.
  intro H. fin; [apply good_one|apply ud_one|]. intro m. cbn [d_item one_token_dict dict_item]. split.
  - intro s. destruct (toks s) as [|t ts] eqn:E; [exists []; auto with nc|]. destruct (ok t) eqn:O; [|exists []; auto with nc].
    exists [t]. split; auto. apply nc_one. destruct (is_comma t) eqn:C; auto. rewrite (H t C) in O. discriminate.
  - intros body N. destruct body as [|t body].
    { right. intros tl sc c E. destruct (ends_inv _ E) as [-> | [t [r [-> C]]]]; [eexists; reflexivity|].
      cbn [toks app]. rewrite (H t C). eexists; reflexivity. }
    cbn [toks app]. destruct (ok t) as [t'|]; [left; exists t', body; intros; split; reflexivity|right; intros; eexists; reflexivity].
Qed.
Lemma fine_literal : fine literal_dict.
Proof. apply fine_one. intros [] C; try discriminate; reflexivity. Qed.
Lemma fine_group : fine group_dict.
Proof. apply fine_one. intros [] C; try discriminate; reflexivity. Qed.
Lemma fine_ident : fine ident_dict.
Proof. fin; [apply good_ident|apply ud_ident|]. intro. apply lc_ident. Qed.
Lemma fine_any_path : fine any_path_dict.
Proof. fin; [apply good_any_path|apply ud_any_path|]. intro. apply lc_path. Qed.
Lemma fine_paren_syn {A} (p : parser A) : well_behaved p -> unaware p -> local p -> keeps p -> fine (paren_syn_dict p).
Proof.
  intros W U L K. split; [now apply good_paren_syn|now apply ud_paren_syn| |intros n sp s; reflexivity|].
  - intros [sp|]; auto. apply lc_group; auto. intro. apply W.
  - intros [sp|]; auto. apply kp_group.
Qed.
Lemma fine_syn {A} (p : parser A) : well_behaved p -> unaware p -> local p -> keeps p -> fine (syn_dict p).
Proof. intros W U L K. fin; [now apply good_syn|now apply ud_syn|]. auto. Qed.
Lemma fine_unit : fine unit_dict.
Proof. fin; [apply good_unit|apply ud_unit|]. intro. apply lc_group; [apply ub_ret|]. intro. exact I. Qed.
Lemma lcd_coll {A} dl (flat : mparser A) m : unaware_m flat -> well_behaved_m flat ->
  local (d_item (dict_inline (fun _ => parse_delimited_with dl (on_single flat)) (fun _ => flat)) m).
Proof. intros U W. apply lc_delimited; [now apply ub_single|now apply wb_single]. Qed.
Lemma fine_vec {A} (d : dict A) : good_dict d -> unaware_dict d -> fine (vec_dict d).
Proof. fin; [now apply good_vec|now apply ud_vec|]. intro. apply lcd_coll; [now apply ubm_vec|now apply wbm_vec]. Qed.
Lemma fine_set {A} eqb (d : dict A) : good_dict d -> unaware_dict d -> fine (set_dict eqb d).
Proof. fin; [now apply good_set|now apply ud_set|]. intro. apply lcd_coll; [now apply ubm_set|now apply wbm_set]. Qed.
Lemma fine_mapd {K V} eqb kstr (dk : dict K) (dv : dict V) :
  good_dict dk -> unaware_dict dk -> good_dict dv -> unaware_dict dv -> fine (map_dict eqb kstr dk dv).
Proof. fin; [now apply good_mapd|now apply ud_mapd|]. intro. apply lcd_coll; [now apply ubm_mapf|now apply wbm_mapf]. Qed.
Lemma fine_array {A} N (d : dict A) : good_dict d -> unaware_dict d -> fine (array_dict N d).
Proof. fin; [now apply good_array|now apply ud_array|]. intro. apply lcd_coll; [now apply ubm_array|now apply wbm_array]. Qed.
Lemma fine_tuple {A} (ds : list (dict A)) : Forall good_dict ds -> Forall unaware_dict ds -> fine (tuple_dict ds).
Proof. fin; [now apply good_tuple|now apply ud_tuple|]. intro. apply lcd_coll; [now apply ubm_tuple|now apply wbm_tuple]. Qed.
Lemma lc_from_str {A} (fs : string -> A + string) : local (from_str_item fs).
Proof.
  unfold from_str_item. apply lc_bind; [apply lc_lit|]. intro l. destruct (fs (fst l)) as [a|m].
  - apply (lc_res (Ok a)). exact I.
  - apply (lc_res (Err (err1 (snd l) m))). exact I.
Qed.
Lemma fine_from_str {A} (fs : string -> A + string) : fine (from_str_dict fs).
Proof. fin; [apply good_from_str|apply ud_from_str|]. intro. apply lc_from_str. Qed.
Lemma fine_from_str_default {A} (fs : string -> A + string) v : fine (from_str_default_dict fs v).
Proof. fin; [apply good_from_str_default|apply ud_from_str_default|]. intro. apply lc_from_str. Qed.
Lemma lc_quoted {A} (d : dict A) m : good_dict d -> local (quoted_item d m).
Proof.
  intro G. unfold quoted_item. apply lc_bind; [apply lc_lit|]. intro l.
  assert (R : returns (match env_lex (fst l) with inl ts => parse2 (d_item d m) ts | inr msg => Err (err1 SCall msg) end)).
  { destruct (env_lex (fst l)); [apply returns_parse2, G|exact I]. }
  destruct (match env_lex (fst l) with inl ts => _ | inr _ => _ end) as [a|e|b].
  - apply (lc_res (Ok a)). exact I.
  - apply (lc_res (Err (respan_all (snd l) e))). exact I.
  - destruct R.
Qed.
Lemma fine_quoted {A} (d : dict A) : good_dict d -> fine (quoted_dict d).
Proof. fin; [now apply good_quoted|now apply ud_quoted|]. intro. now apply lc_quoted. Qed.
Lemma fine_maybe_quoted {A} (d : dict A) : fine d -> fine (maybe_quoted_dict d).
Proof.
  intros [G U L S K]. fin; [now apply good_maybe_quoted|now apply ud_maybe_quoted|]. intro m.
  cbn [d_item maybe_quoted_dict]. unfold maybe_quoted_item. apply lc_if; auto using lc_quoted.
  intros; now apply peek_lit_app.
Qed.
Lemma fine_with_syn {A} (p : parser A) : well_behaved p -> unaware p -> local p -> keeps p -> fine (with_syn_dict p).
Proof. intros W U L K. fin; [now apply good_with_syn|now apply ud_with_syn|]. auto. Qed.
Lemma fine_syn_quoted {A} (p : parser A) : well_behaved p -> unaware p -> fine (syn_quoted_dict p).
Proof.
  intros W U. fin; [now apply good_syn_quoted|now apply ud_syn_quoted|]. intro m. cbn [d_item syn_quoted_dict dict_item_flag].
  unfold syn_quoted_item. apply lc_bind; [apply lc_lit|]. intro l.
  assert (R : returns (match env_lex (fst l) with inl ts => parse2 p ts | inr msg => Err (err1 SCall msg) end)).
  { destruct (env_lex (fst l)); [now apply returns_parse2|exact I]. }
  destruct (match env_lex (fst l) with inl ts => _ | inr _ => _ end) as [a|e|b].
  - apply (lc_res (Ok a)). exact I.
  - apply (lc_res (Err (respan_all (snd l) e))). exact I.
  - destruct R.
Qed.
Lemma fine_inner {A} (d : dict A) : fine d -> fine (inner_dict d).
Proof. intros [G U L S K]. fin; [now apply good_inner|now apply ud_inner|]. auto. Qed.
Lemma fine_with_optional {A} (d : dict A) : fine d -> fine (with_optional_dict d).
Proof.
  intro F. pose proof (fine_option _ (fine_inner d F)) as [_ _ L _ K]. destruct F as [G U _ _ _].
  fin; [now apply good_with_optional|now apply ud_with_optional|]. intro. apply L.
Qed.
Lemma fine_with_vec {A} (d : dict A) : good_dict d -> unaware_dict d -> fine (with_vec_dict d).
Proof.
  intros G U. pose proof (fine_vec (inner_dict d) (good_inner d G) (ud_inner d U)) as [_ _ L _ K].
  fin; [now apply good_with_vec|now apply ud_with_vec|]. intro. apply L.
Qed.
Lemma fine_with_map {K V} eqb kstr (dk : dict K) (dv : dict V) :
  good_dict dk -> unaware_dict dk -> good_dict dv -> unaware_dict dv -> fine (with_map_dict eqb kstr dk dv).
Proof.
  intros GK UK GV UV.
  pose proof (fine_mapd eqb kstr (inner_dict dk) (inner_dict dv) (good_inner dk GK) (ud_inner dk UK) (good_inner dv GV) (ud_inner dv UV)) as [_ _ L _ KP].
  fin; [now apply good_with_map|now apply ud_with_map|]. intro. apply L.
Qed.
Lemma fine_identity {A} (d : dict A) : fine d -> fine (identity_dict d).
Proof. intros [G U L S K]. fin; [now apply good_identity|now apply ud_identity|]. auto. Qed.
Lemma named_with_map {A B} (f : A -> B) (d : dict A) sp s :
  pmap f (parse_named_with (d_item d) (d_inline d) (d_flag d) sp) s =
  parse_named_with (fun m => pmap f (d_item d m)) (fun m => pmap f (d_inline d m)) (fun sp => rmap f (d_flag d sp)) sp s.
Proof.
  unfold parse_named_with. unfold pmap at 1. destruct (peek_eq s).
  { unfold pbind, pmap. destruct (parse_eq s) as [[] s1]; auto. }
  destruct (peek_group Paren s); [|reflexivity].
  unfold parse_delimited_with, with_group. destruct (toks s) as [|[] ts]; try reflexivity.
  destruct (delim_eqb Paren d0); [|reflexivity]. unfold pbind, on_single, pmap.
  destruct (d_inline d (Named sp) _) as [r l]. destruct r as [a|e|b]; simpl; auto.
  destruct (parse_eof _) as [[] s1]; auto.
Qed.
Lemma fine_map {A B} (f : A -> B) (d : dict A) : fine d -> fine (dict_map f d).
Proof.
  intros [G U L S K]. split; [now apply good_map|now apply ud_map| | |].
  3: { intro. apply kp_map, K. }
  - intro. apply lc_map, L.
  - intros n sp s. cbn [d_named dict_map d_item d_inline d_flag]. unfold def_named. rewrite <- named_with_map.
    unfold pmap. now rewrite (S n sp s).
Qed.
(** Flag: the named parser is its own *)
Lemma fine_keeps_named {A} (d : dict A) n sp : fine d -> keeps (d_named d n sp).
Proof. intros F s. rewrite (fi_standard d F n sp s). unfold def_named. apply kp_named_with, F. Qed.
Lemma flag_local : local_dict flag_dict.
Proof.
  split.
  - intro m. cbn [d_item flag_dict]. apply (lc_eqv _ (fun s => (Err (err1 (inputs_span [s]) flag_msg), s))); [reflexivity|apply lc_fail].
  - intros n sp. cbn [d_named flag_dict]. apply lc_if.
    + intros body tl tl' sc c sc' c' N E E'. destruct body as [|t body].
      { tailcase E; tailcase E'; reflexivity. }
      apply nc_cons in N as [C _]. unfold is_empty, peek_comma, peek_punct. cbn [toks app punct_rest].
      destruct t; auto. simpl in C. rewrite Ascii.eqb_sym in C. now rewrite C.
    + apply (lc_res (Ok (Some sp))). exact I.
    + apply lc_fail.
Qed.
(** SpannedValue reads no further than its item, but its span joins the token that follows *)
Lemma st_eqv {A} (p q : parser A) : (forall s, p s = q s) -> stays q -> stays p.
Proof. intros E H s. rewrite (E s). apply H. Qed.

Context {V : Type}.
Definition fine_kind (k : fkind V) : Prop := match k with KItem d => fine d | _ => True end.
Lemma fine_struct (s : sdef V) : accepted_struct s -> Forall unaware_field (s_raw s) ->
  (s_is_transparent s = true -> forall f, In f (s_raw s) -> fine_kind (f_kind f)) -> fine (struct_dict s).
Proof.
  intros G U F. split; [now apply good_struct_dict|now apply ud_struct| | |].
  3: { intro m. unfold struct_dict. destruct (s_is_transparent s) eqn:T.
    - pose proof (s_inner_spec s G T) as [TF _].
      destruct (s_inner s) as [i d] eqn:SI. destruct (transparent_in _ _ _ TF) as [f [IN KI]].
      specialize (F eq_refl f IN). rewrite KI in F. cbn [d_item]. unfold s_transparent_with.
      apply kp_and_thens, kp_bind; [apply F|]. intros a st. reflexivity.
    - cbn [d_item]. destruct (s_shape s); apply kp_delimited. }
  - unfold struct_dict. destruct (s_is_transparent s) eqn:T.
    + pose proof (s_inner_spec s G T) as [TF _].
      destruct (s_inner s) as [i d] eqn:SI. destruct (transparent_in _ _ _ TF) as [f [IN K]].
      specialize (F eq_refl f IN). rewrite K in F. intro m. cbn [d_item]. unfold s_transparent_with.
      apply lc_and_thens. apply lc_bind; [apply F|]. intro a.
      apply (lc_res (fst (transparent_post (s_fields TMeta s) TMeta (s_default s) i a []))).
      pose proof (s_transparent_post s TMeta a G T) as P. rewrite SI in P. exact P.
    + intro m. cbn [d_item]. pose proof (fun m => good_s_inline s m G) as W. pose proof (fun m => ubm_s_inline s m U) as UI.
      destruct (s_shape s); apply lc_delimited; auto using ub_single, wb_single.
  - unfold struct_dict. destruct (s_is_transparent s); [destruct (s_inner s)|]; intros nm sp st; reflexivity.
Qed.
Lemma lc_group_at {A} d (f : span -> parser A) : (forall sp, unaware (f sp)) -> (forall sp s, returns (fst (f sp s))) ->
  local (fun s => with_group d (f (in_span s)) s).
Proof.
  intros U G. split. { intro s. apply (st_group d (f (in_span s)) s). }
  intros body N. destruct body as [|t body].
  { right. intros tl sc c E. tailcase E; simpl; eexists; reflexivity. }
  set (sp := in_span (mkStream (t :: body) SCall None)).
  destruct (lc_group d (f sp) (U sp) (G sp)) as [_ H]. exact (H (t :: body) N).
Qed.
Lemma fine_enum (e : edef V) : accepted_enum TMeta e -> no_transparent_and_then e ->
  Forall unaware_variant (e_variants e) -> fine (enum_dict e).
Proof.
  intros G T U. split; [now apply good_enum_dict|now apply ud_enum| |intros n sp st; reflexivity|].
  2: { intros m s. cbn [d_item enum_dict]. apply kp_delimited. }
  intro m. cbn [d_item enum_dict]. destruct m as [sp|].
  - apply (lc_delimited Brace (on_single (fn_parse (enum_fn e) (Named sp) "" true)));
      [apply ub_single; now apply ubm_enum_fn|apply wb_single; now apply good_enum_fn].
  - unfold parse_delimited_with, to_named.
    apply (lc_group_at Brace (fun sp => a <- on_single (fn_parse (enum_fn e) (Named sp) "" true) ;; parse_eof ;;; pret a)).
    + intro sp. apply ub_bind; [apply ub_single; now apply ubm_enum_fn|]. intro a. apply ub_bind; [apply ub_eof|]. intros _. apply ub_ret.
    + intros sp st. apply wb_bind; [apply wb_single; now apply good_enum_fn|]. intro a. apply wb_bind; [apply wb_eof|]. intros _. apply wb_ret.
Qed.

(** *** fields *)
Lemma fine_field (f : field V) : fine_kind (f_kind f) -> local_field f.
Proof.
  intros F P n nsp. unfold item_named, pitem, is_flat in *.
  destruct (f_kind f) as [d| | | |]; try (cbn [negb] in P; rewrite andb_false_r in P; discriminate).
  apply fine_local in F. apply F.
Qed.
End D.
