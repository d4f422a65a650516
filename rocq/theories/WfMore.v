(** Final lemmas for PropsWf.v, and concrete schemas for its examples. *)
From Verif Require Export LemWfE TestKit.

Section M.
Context {env : Env}.
Lemma parse2_good {A} (d : dict A) ts : good_dict d -> returns (deluxe_parse2 d ts).
Proof. intro H. apply returns_parse2. apply wb_single. apply H. Qed.
End M.
Lemma l_struct_never_panics : forall (env : Env) V (s : sdef V), accepted_struct s ->
  (forall m st, returns (fst (d_item (struct_dict s) m st))) /\
  (forall m l, returns (fst (d_inline (struct_dict s) m l))) /\
  (forall sp, returns (d_flag (struct_dict s) sp)) /\
  (forall n sp st, returns (fst (d_named (struct_dict s) n sp st))) /\
  (forall n sp, returns (d_missing (struct_dict s) n sp)) /\
  (forall m p v l, returns (fst (fn_parse (struct_fn s) m p v l))) /\
  (forall m i l, returns (fst (fu_parse (struct_fu s) m i l))) /\
  (forall ts, returns (deluxe_parse2 (struct_dict s) ts)) /\
  (forall conv o, returns (struct_parse_attributes s conv o)) /\
  (forall conv o, returns (fst (struct_extract_attributes s conv o))).
Proof.
  intros env V s A. pose proof (good_struct_dict s A) as [H1 H2 H3 H4 H5].
  repeat split; intros; try apply H1; try apply H2; auto; try apply H4.
  - apply (good_struct_fn s A).
  - apply (good_struct_fu s A).
  - apply parse2_good, good_struct_dict; auto.
  - now apply struct_parse_good.
  - now apply struct_extract_good.
Qed.
Lemma l_enum_live_never_panics : forall (env : Env) V (e : edef V),
  accepted_live TMeta e -> live_no_and_then e ->
  (forall m st, returns (fst (d_item (enum_dict e) m st))) /\
  (forall m l, returns (fst (d_inline (enum_dict e) m l))) /\
  (forall sp, returns (d_flag (enum_dict e) sp)) /\
  (forall n sp st, returns (fst (d_named (enum_dict e) n sp st))) /\
  (forall n sp, returns (d_missing (enum_dict e) n sp)) /\
  (forall m p v l, returns (fst (fn_parse (enum_fn e) m p v l))) /\
  (forall m i l, returns (fst (fu_parse (enum_fu e) m i l))) /\
  (forall ts, returns (deluxe_parse2 (enum_dict e) ts)).
Proof.
  intros env V e A N. pose proof (good_enum_dict_live e A N) as [H1 H2 H3 H4 H5].
  repeat apply conj; intros; [apply H1|apply H2|apply H3|apply H4|apply H5|apply (good_enum_fn_live e A N)|
    apply (good_enum_fu_live e A N)|apply parse2_good, good_enum_dict_live; auto].
Qed.
Lemma l_enum_attrs_live_never_panic : forall (env : Env) V (e : edef V),
  (forall pn obj, accepted_live (TAttrs pn obj) e) -> live_no_and_then e ->
  forall conv o, returns (enum_parse_attributes e conv o) /\
                 returns (fst (enum_extract_attributes e conv o)).
Proof. intros. split; [apply enum_parse_good_live|apply enum_extract_good_live]; auto. Qed.
Lemma l_enum_never_panics : forall (env : Env) V (e : edef V),
  accepted_enum TMeta e -> no_transparent_and_then e ->
  (forall m st, returns (fst (d_item (enum_dict e) m st))) /\
  (forall m l, returns (fst (d_inline (enum_dict e) m l))) /\
  (forall sp, returns (d_flag (enum_dict e) sp)) /\
  (forall n sp st, returns (fst (d_named (enum_dict e) n sp st))) /\
  (forall n sp, returns (d_missing (enum_dict e) n sp)) /\
  (forall m p v l, returns (fst (fn_parse (enum_fn e) m p v l))) /\
  (forall m i l, returns (fst (fu_parse (enum_fu e) m i l))) /\
  (forall ts, returns (deluxe_parse2 (enum_dict e) ts)).
Proof.
  intros env V e A N. pose proof (good_enum_dict e A N) as [H1 H2 H3 H4 H5].
  repeat apply conj; intros; [apply H1|apply H2|apply H3|apply H4|apply H5|apply (good_enum_fn e A N)|
    apply (good_enum_fu e A N)|apply parse2_good, good_enum_dict; auto].
Qed.
Lemma l_enum_attrs_never_panic : forall (env : Env) V (e : edef V),
  (forall pn obj, accepted_enum (TAttrs pn obj) e) -> no_transparent_and_then e ->
  forall conv o, returns (enum_parse_attributes e conv o) /\
                 returns (fst (enum_extract_attributes e conv o)).
Proof. intros. split; [apply enum_parse_good|apply enum_extract_good]; auto. Qed.

Lemma l_collections_terminate : forall (env : Env) A B (d : dict A) (dv : dict B) (ds : list (dict A))
    (eqb : A -> A -> bool) (kstr : A -> string) n,
  good_dict d -> good_dict dv -> Forall good_dict ds ->
  (good_dict (vec_dict d) /\ good_fu (vec_fu d) /\ good_multi (vec_append d)) /\
  (good_dict (set_dict eqb d) /\ good_fu (set_fu eqb d) /\ good_multi (set_append eqb d)) /\
  (good_dict (map_dict eqb kstr d dv) /\ good_fu (map_fu eqb kstr d dv) /\
   good_multi (map_rest eqb kstr d dv)) /\
  (good_dict (array_dict n d) /\ good_fu (array_fu n d)) /\
  (good_dict (tuple_dict ds) /\ good_fu (tuple_fu ds)) /\
  good_fu tokenstream_flat.
Proof.
  intros. repeat apply conj; [apply good_vec|apply good_vec_fu|apply good_vec_append|
    apply good_set|intros m i; apply wbm_set|apply good_set_append|
    apply good_mapd|intros m i; apply wbm_mapf|apply good_map_rest|
    apply good_array|apply good_array_fu|apply good_tuple|apply good_tuple_fu|
    apply good_tokenstream_flat]; assumption.
Qed.
Lemma l_wrappers_terminate : forall (env : Env) A (d : dict A) (p : parser A) (fs : string -> A + string) v,
  good_dict d -> well_behaved p ->
  good_dict (option_dict d) /\ good_dict (spanned_dict d) /\ good_dict (wrapper_dict d) /\
  good_dict (paren_syn_dict p) /\ good_dict (syn_dict p) /\
  good_dict (quoted_dict d) /\ good_dict (maybe_quoted_dict d) /\
  good_dict (with_syn_dict p) /\ good_dict (syn_quoted_dict p) /\
  good_dict (from_str_dict fs) /\ good_dict (from_str_default_dict fs v) /\
  good_dict (with_optional_dict d) /\ good_dict (with_vec_dict d) /\ good_dict (identity_dict d).
Proof.
  intros.
  exact (conj (good_option d H) (conj (good_spanned d H) (conj (good_wrapper d H) (conj (good_paren_syn p H0)
   (conj (good_syn p H0) (conj (good_quoted d H) (conj (good_maybe_quoted d H) (conj (good_with_syn p H0)
   (conj (good_syn_quoted p H0) (conj (good_from_str fs) (conj (good_from_str_default fs v)
   (conj (good_with_optional d H) (conj (good_with_vec d H) (good_identity d H)))))))))))))).
Qed.
Lemma l_primitives_terminate : forall (env : Env) k,
  good_dict (int_dict k) /\ good_dict u8_dict /\ good_dict float_dict /\ good_dict bool_dict /\
  good_dict char_dict /\ good_dict string_dict /\ good_dict smallstring_dict /\
  good_dict tokentree_dict /\ good_dict tokenstream_dict /\ good_dict literal_dict /\
  good_dict punct_dict /\ good_dict group_dict /\ good_dict ident_dict /\
  good_dict any_path_dict /\ good_dict unit_dict /\ good_dict flag_dict.
Proof.
  intros. repeat apply conj; auto using good_int, good_u8, good_float, good_bool, good_char, good_string,
    good_smallstring, good_tokentree, good_tokenstream, good_ident, good_any_path, good_unit, good_flag; apply good_one.
Qed.
Lemma l_derived_terminate : forall (env : Env) V (s : sdef V) (e : edef V),
  (accepted_struct s ->
     good_dict (struct_dict s) /\ good_fn (struct_fn s) /\ good_fu (struct_fu s)) /\
  (accepted_enum TMeta e -> no_transparent_and_then e ->
     good_dict (enum_dict e) /\ good_fn (enum_fn e) /\ good_fu (enum_fu e)).
Proof.
  intros. split; intros; repeat apply conj; auto using good_struct_dict, good_struct_fn, good_struct_fu,
    good_enum_dict, good_enum_fn, good_enum_fu.
Qed.
(** syn::Visibility (parse_meta.rs 1437), reduced to `pub` and the inherited visibility,
    which is parsed from no tokens at all *)
Definition visibility : parser bool :=
  fun s => match toks s with
           | TIdent "pub" _ :: r => (Ok true, set_toks s r)
           | _ => (Ok false, s)
           end.
Lemma visibility_good : well_behaved visibility.
Proof.
  intro s. unfold visibility, advances.
  repeat (match goal with
          | |- context [match ?x with _ => _ end] => destruct x eqn:?
          end); split; try exact I; subst; cbn [snd];
    try (exists []; simpl; congruence). eexists [_]. reflexivity.
Qed.
Lemma l_punctuated_diverges : exists (env : Env) A (d : dict A) pc s,
  good_dict d /\
  forall fuel st, fst (punct_loop pc d fuel st s) = Bad Diverge.
Proof.
  exists lexer_env, bool, (syn_dict visibility), ";"%char, (root_stream [TPunct "," false (SAt 0)]).
  split; [apply good_syn, visibility_good|]. induction fuel as [|n IH]; intro st; [reflexivity|].
  cbn [punct_loop]. exact (IH _).
Qed.
Lemma l_punctuated_terminates : forall (env : Env) A (d : dict A) pc, good_dict d ->
  (forall s v s1, d_item d Unnamed s = (Ok v, s1) -> length (toks s1) < length (toks s)) ->
  good_dict (punctuated_dict pc d) /\ good_fu (punctuated_fu pc d).
Proof. intros. split; [apply good_punctuated|apply good_punctuated_fu]; auto. Qed.
Lemma lit_rest_shorter ts p r : lit_rest ts = Some (p, r) -> length r < length ts.
Proof.
  destruct ts as [|[i sp|c j sp|l sp|d l sp] ts]; simpl; intro H; try discriminate.
  - destruct (String.eqb i "true"); [injection H as <- <-; auto|].
    destruct (String.eqb i "false"); [injection H as <- <-; auto|discriminate].
  - destruct ts as [|[| |l sp2|] ts]; try discriminate. destruct (Ascii.eqb c "-"); [|discriminate].
    destruct l; try discriminate; injection H as <- <-; simpl; auto.
  - injection H as <- <-; auto.
Qed.
Lemma i32_consumes : forall s v s1,
  d_item i32 Unnamed s = (Ok v, s1) -> length (toks s1) < length (toks s).
Proof.
  intros s v s1. cbn. unfold pmap, parse_int, pbind, parse_lit_as.
  destruct (lit_rest (toks s)) as [[[l sp] r]|] eqn:E; [|discriminate].
  apply lit_rest_shorter in E. destruct (sel_int_sign l) as [[]|]; [|discriminate]. cbn [fst snd].
  destruct (int_from_str _ _ _); [|discriminate]. injection 1 as _ <-. exact E.
Qed.

Lemma optional_good {A} (r : res A) dflt es : returns r -> optional_spec r dflt es.
Proof. destruct r; simpl; intro H; [left|right|contradiction]; eauto. Qed.
Lemma l_optional : forall (env : Env) V (s : sdef V) (e : edef V) A (d : dict A),
  accepted_struct s -> (forall pn obj, accepted_enum (TAttrs pn obj) e) ->
  no_transparent_and_then e -> good_dict d ->
  forall conv o ts (dflt : list V) (edflt : evalue V) (adflt : A) (es : errors),
  optional_spec (struct_parse_attributes s conv o) dflt es /\
  optional_spec (fst (struct_extract_attributes s conv o)) dflt es /\
  optional_spec (enum_parse_attributes e conv o) edflt es /\
  optional_spec (fst (enum_extract_attributes e conv o)) edflt es /\
  optional_spec (deluxe_parse2 d ts) adflt es.
Proof.
  intros. repeat apply conj; apply optional_good; auto using struct_parse_good, struct_extract_good,
    enum_parse_good, enum_extract_good, parse2_good.
Qed.

(** *** concrete schemas *)
Lemma good_i32 : good_dict i32. Proof. apply good_map, good_int. Qed.
Lemma good_str : good_dict string_. Proof. apply good_map, good_string. Qed.
Lemma good_path : good_dict path_. Proof. apply good_map, good_syn, wb_path. Qed.
Ltac ga0 := unfold good_field, container_ok; intros; simpl in *; try discriminate; auto using good_i32, good_str.
Ltac ga := cbv [named tuple s_raw s_shape v_raw v_shape]; repeat (apply Forall_cons; [ga0|]); try apply Forall_nil.
Lemma good_flat_child : good_fn (sfn (named [it "a" i32; it "b" string_])).
Proof.
  apply good_fn_map, good_struct_fn. split; [|discriminate].
  ga.
Qed.
Definition rich_struct : sdef val :=
  mkStruct ShNamed
    [mkField "x" ["x"; "ex"] (KItem i32) None VU
             [TMap (fun v => VL [v]); TAndThen (fun v => inl v)] false false;
     itd "y" string_ (VT "dflt"); skipf "z" i32 (VI 0); contf "c";
     flatn "f" (Some "p") (sfn (named [it "a" i32; it "b" string_]));
     fld "g" ["g"] (KAppend (append_ i32)) None;
     fld "r" ["r"] (KRest (rest_ path_ i32)) None]
    None false false [fun l => if Nat.ltb 3 (length l) then inl l else inr (err1 SCall "short")] [["deluxe"]].
Lemma rich_accepted : accepted_struct rich_struct.
Proof.
  split; [|discriminate]. unfold rich_struct. cbn [s_shape s_raw].
  ga.
  - apply good_flat_child.
  - intros l. apply wbm_map. apply (good_vec_append i32 good_i32).
  - intros l. apply wbm_map. apply (good_map_rest veq vstr path_ i32 good_path good_i32).
Qed.
Definition rich_enum : edef val :=
  mkEnum [mkVariant "Unit" ["unit"] ShUnit [] false false false false;
          mkVariant "Tup" ["tup"; "t"] ShUnnamed [pos i32; posd string_ (VT "d")] false false false false;
          mkVariant "Nam" ["nam"] ShNamed [it "a" i32; flatn "f" None (sfn (named [it "a" i32; it "b" string_]))]
                    false false false false;
          mkVariant "Tr" ["tr"] ShUnnamed [pos string_] false true false false;
          mkVariant "Fl" [] ShNamed [it "k" i32] true false false false]
         None [] false [].
Lemma rich_enum_accepted : accepted_enum TMeta rich_enum /\ no_transparent_and_then rich_enum.
Proof.
  split.
  - repeat (apply Forall_cons; [split; [ga|split; [ga|split; ga0]]|]); try apply Forall_nil.
    apply good_flat_child.
  - intros v f I T F. simpl in I. destruct I as [<-|[<-|[<-|[<-|[<-|[]]]]]]; try discriminate.
    destruct F as [<-|[]]. intros x [].
Qed.

(** C02: `#[deluxe(transparent)] Tr(#[deluxe(and_then = check)] i32)` *)
Definition panic_enum : edef val :=
  mkEnum [mkVariant "Tr" ["tr"] ShUnnamed
            [mkField "" [] (KItem i32) None VU [TAndThen (fun _ => inr (err1 SCall "no"))] false false]
            false true false false] None [] false [].
Lemma l_enum_panics : exists (env : Env) (e : edef val) ts,
  accepted_enum TMeta e /\ deluxe_parse2 (enum_dict e) ts = Bad Panic.
Proof.
  exists lexer_env, panic_enum, (tk "tr = 1"). split; [|vm_compute; reflexivity].
  apply Forall_cons; [split; [ga|split; [ga|split; ga0]]|apply Forall_nil].
Qed.
