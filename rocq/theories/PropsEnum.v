(** C21, C22, C50, C54, C55, C56: how the keys of an input choose the variant of an enum. *)
From Verif Require Import ExEnum.

(** ** C21 Exactly one enum variant is selected *)
(** An enum without flattened variants parses exactly when every item has a key and: either
    just one item has a variant's name as its key, it gives the value, and there are no
    other keys where they are checked; or there is none and the enum has a default. *)
Theorem C21_ok : forall (env : Env) V (e : edef V) tm prefix validate sp inputs r x,
  enum_run e tm prefix validate sp inputs r -> proper_enum tm e -> no_flattened e ->
  r = Ok x <-> keyed inputs /\ exists y, chained (e_and_thens e) y x /\
   ((exists seg i vs, variant_items e prefix (items_of inputs) = [seg] /\
       variant_written e tm prefix seg i vs /\ y = (i, vs) /\
       (validate = true -> e_unknown_ok e = false ->
          forall k ksp, In (k, ksp) (keys_in inputs) -> In k (variant_names e))) \/
    (variant_items e prefix (items_of inputs) = [] /\ e_default e = Some y)).
Proof. exact @l_enum_plain. Qed.
Print Assumptions C21_ok.

(** without a default and `allow_unknown_fields`: the input is one item, a variant *)
Theorem C21_alone : forall (env : Env) V (e : edef V) prefix sp inputs r x tm,
  enum_run e tm prefix true sp inputs r -> proper_enum tm e -> no_flattened e -> prefix = "" ->
  e_unknown_ok e = false -> e_default e = None -> r = Ok x ->
  exists seg i vs, items_of inputs = [seg] /\ variant_written e tm prefix seg i vs /\
    chained (e_and_thens e) (i, vs) x.
Proof. exact @l_enum_alone. Qed.
Print Assumptions C21_alone.

(** two variant keys always produce an error ... *)
Theorem C21_two_fails : forall (env : Env) V (e : edef V) tm prefix validate sp inputs r,
  enum_run e tm prefix validate sp inputs r -> proper_enum tm e ->
  2 <= length (variant_items e prefix (items_of inputs)) -> exists x, r = Err x.
Proof. exact @l_enum_two. Qed.
Print Assumptions C21_two_fails.
(** ... that names both, at the second, if no item before it is malformed; *)
Theorem C21_two_reported_partial : forall (env : Env) V (e : edef V) tm prefix validate sp inputs r n1 sp1 n2 sp2 a b c,
  enum_run e tm prefix validate sp inputs r -> proper_enum tm e -> is_prefix prefix ->
  In n1 (variant_names e) -> In n2 (variant_names e) ->
  (forall k ksp n, In (k, ksp) a -> In n (variant_names e) -> k <> (prefix ++ n)%string) ->
  keys_in inputs = a ++ ((prefix ++ n1)%string, sp1) :: b ++ ((prefix ++ n2)%string, sp2) :: c ->
  sound_enum e tm prefix inputs ->
  exists x, r = Err x /\ In (two_variants prefix n1 n2 sp2) (errs_of x).
Proof. exact @l_enum_two_reported. Qed.
Print Assumptions C21_two_reported_partial.
(** after a malformed item, the second is not seen *)
Theorem C21_two_reported_refuted : exists (env : Env) (e : edef val) inputs sp x n1 n2 sp1 sp2,
  enum_run e TMeta "" true sp inputs (Err x) /\ proper_enum TMeta e /\ no_flattened e /\
  keys_in inputs = [(n1, sp1); (n2, sp2)] /\ In n1 (variant_names e) /\ In n2 (variant_names e) /\
  ~ In (two_variants "" n1 n2 sp2) (errs_of x).
Proof. exact ex_two_lost. Qed.
Print Assumptions C21_two_reported_refuted.

(** no variant key and no default: an error that lists the variants *)
Theorem C21_none : forall (env : Env) V (e : edef V) tm prefix validate sp inputs r,
  enum_run e tm prefix validate sp inputs r -> proper_enum tm e -> no_flattened e -> is_prefix prefix ->
  (forall v, In v (e_variants e) -> v_skip v = false -> v_names v <> []) ->
  e_default e = None -> variant_items e prefix (items_of inputs) = [] ->
  exists x, r = Err x /\ In (no_variant e prefix sp) (errs_of x).
Proof. exact @l_enum_none. Qed.
Print Assumptions C21_none.

(** With a default and no variant key, keys that are no variant are not rejected: with
    `#[deluxe(default)]`, `zz = 1` is the default variant. *)
Theorem C21_others_rejected_refuted : exists (env : Env) (e : edef val) inputs sp x k ksp,
  enum_run e TMeta "" true sp inputs (Ok x) /\ proper_enum TMeta e /\ no_flattened e /\ e_unknown_ok e = false /\
  In (k, ksp) (keys_in inputs) /\ ~ In k (variant_names e).
Proof. exact ex_default_unknown. Qed.
Print Assumptions C21_others_rejected_refuted.

Example C21_ex :
  (forall tm d ats, proper_enum tm (mkEnum (e_variants xp) d ats false [])) /\
  (forall d ats, no_flattened (mkEnum (e_variants xp) d ats false [])) /\
  enum_run xp TMeta "" true (to_full_span Unnamed (xin "b(1)")) (xin "b(1)") (xrun xp "b(1)") /\
  xrun xp "b(1)" = Ok (1, [VI 1]) /\ xrun xp "bb(1)" = Ok (1, [VI 1]) /\
  xrun xp "t = 2" = Ok (2, [VI 2]) /\ xrun xp "n(s = 3)" = Ok (3, [VI 3]) /\
  variant_items xp "" (items_of (xin "b(1)")) = [tk "b(1)"] /\
  length (variant_items xp "" (items_of (xin "b(1), t = 2"))) = 2 /\
  sound_enum xp TMeta "" (xin "b(1), t = 2") /\
  xmsgs (xrun xp "b(1), t = 2") = ["expected only one enum variant, got `b` and `t`"] /\
  xmsgs (xrun xp "") = ["expected one of `a`, `b`, `t`, `n`"] /\
  xmsgs (xrun xp "k, a") = ["unknown field `k`"] /\
  xrun xp_d "" = Ok (0, []).
Proof.
  refine (conj xp_proper (conj xp_plain (conj _ (conj _ (conj _ (conj _ (conj _ (conj _ (conj _ (conj ex_two_sound _)))))))))); try reflexivity.
  - exact (xrun_run xp "b(1)").
  - repeat split; reflexivity.
Qed.

(** ** C22 A flattened variant is selected by its fields *)
(** If no variant is named, the value is that of a flattened variant whose required fields
    all have a key, read like a struct with these fields, or, if there is no such variant,
    the default. *)
Theorem C22_selected : forall (env : Env) V (e : edef V) tm prefix validate sp inputs r x,
  enum_run e tm prefix validate sp inputs r -> proper_enum tm e -> flat_local e ->
  variant_items e prefix (items_of inputs) = [] ->
  r = Ok x -> keyed inputs /\ exists y, chained (e_and_thens e) y x /\
   ((exists i v vs, chosen e prefix inputs i v /\ y = (i, vs) /\
       flat_written e tm prefix sp inputs i v vs) \/
    ((forall i v, ~ chosen e prefix inputs i v) /\ e_default e = Some y)).
Proof. exact @l_flat_run. Qed.
Print Assumptions C22_selected.

(** Keys of the other flattened variants are rejected, at top level as well *)
Theorem C22_others_rejected : forall (env : Env) V (e : edef V) tm validate sp inputs x,
  enum_run e tm "" validate sp inputs (Ok x) -> proper_enum tm e -> flat_local e ->
  variant_items e "" (items_of inputs) = [] -> e_unknown_ok e = false -> e_default e = None ->
  exists i v vs, chosen e "" inputs i v /\ chained (e_and_thens e) (i, vs) x /\
    flat_written e tm "" sp inputs i v vs /\
    (v_unknown_ok v = false -> forall k ksp, In (k, ksp) (keys_in inputs) -> ~ foreign e "" i v k).
Proof. exact @l_flat_others. Qed.
Print Assumptions C22_others_rejected.
(** with a prefix: *)
Theorem C22_others_rejected_prefix : forall (env : Env) V (e : edef V) tm prefix sp inputs i v vs k ksp,
  e_unknown_ok e = false -> v_unknown_ok v = false -> flat_written e tm prefix sp inputs i v vs ->
  In (k, ksp) (keys_in inputs) -> foreign e prefix i v k -> In k (flat_names_of v).
Proof. exact @l_flat_foreign. Qed.
Print Assumptions C22_others_rejected_prefix.

(** conversely, if only one variant can be meant, its values are accepted ... *)
Theorem C22_accepted : forall (env : Env) V (e : edef V) tm prefix validate sp inputs r i v vs x,
  enum_run e tm prefix validate sp inputs r -> proper_enum tm e -> flat_local e ->
  variant_items e prefix (items_of inputs) = [] ->
  chosen e prefix inputs i v -> (forall j w, chosen e prefix inputs j w -> j = i) ->
  keyed inputs -> flat_written e tm prefix sp inputs i v vs ->
  chained (e_and_thens e) (i, vs) x -> r = Ok x.
Proof. exact @l_flat_accepts. Qed.
Print Assumptions C22_accepted.
(** ... and the default is used if there is none *)
Theorem C22_default : forall (env : Env) V (e : edef V) tm prefix validate sp inputs r x y,
  enum_run e tm prefix validate sp inputs r -> proper_enum tm e -> flat_local e ->
  variant_items e prefix (items_of inputs) = [] -> (forall i v, ~ chosen e prefix inputs i v) ->
  keyed inputs -> e_default e = Some y -> chained (e_and_thens e) y x -> r = Ok x.
Proof. exact @l_flat_default. Qed.
Print Assumptions C22_default.

Example C22_ex :
  (forall tm d, proper_enum tm (mkEnum xf_vs d [] false [])) /\
  (forall d, flat_local (mkEnum xf_vs d [] false [])) /\
  (chosen xf "" (xin "y = 2, x = 1") 1 (mkVariant "X" [] ShNamed [it "x" i32; it "y" (opt_ i32)] true false false false) /\
   forall j w, chosen xf "" (xin "y = 2, x = 1") j w -> j = 1) /\
  variant_items xf "" (items_of (xin "y = 2, x = 1")) = [] /\
  xrun xf "y = 2, x = 1" = Ok (1, [VI 1; VO (Some (VI 2))]) /\
  xrun xf "z = 3" = Ok (2, [VI 3; VI 0]) /\ xrun xf "" = Ok (3, [VI 0]) /\ xrun xf "d = 4" = Ok (3, [VI 4]) /\
  xmsgs (xrun xf "x = 1, y = 3, z = 2") = ["unknown field `z`"] /\
  (forall i v, ~ chosen (mkEnum (firstn 3 xf_vs) (Some (0, [])) [] false []) "" (xin "y = 2") i v) /\
  xrun (mkEnum (firstn 3 xf_vs) (Some (0, [])) [] false []) "y = 2" = Ok (0, []).
Proof.
  refine (conj xf_proper (conj xf_local (conj ex_xf_chosen (conj _ (conj _ (conj _ (conj _ (conj _ (conj _ (conj ex_xf_default _)))))))))); reflexivity.
Qed.

(** ** C50 Enum variants under a flatten prefix *)
(** For an enum whose variants have no named fields, moving it to another prefix is the same
    as changing the prefix of the keys: variant `v` is addressed as `p::v`. *)
Theorem C50_moved_partial : forall (env : Env) V (e : edef V) sp P P' l l' x,
  proper_enum TMeta e -> no_flattened e -> (forall v, In v (e_variants e) -> prefix_free v) ->
  Forall2 (moved P P') (items_of l) (items_of l') ->
  fst (fn_parse (enum_fn e) (Named sp) P false l) = Ok x <->
  fst (fn_parse (enum_fn e) (Named sp) P' false l') = Ok x.
Proof. exact @l_enum_moved. Qed.
Print Assumptions C50_moved_partial.
(** Missing: variants with named fields.  For these it fails, the prefix is also expected on
    the fields inside of the variant: `n(s = 1)` is accepted, `p::n(s = 1)` is not. *)
Theorem C50_inner_refuted : exists (env : Env) (e : edef val) ts ts' x e1,
  proper_enum TMeta e /\ no_flattened e /\
  fst (fn_parse (enum_fn e) (Named SCall) "" false [root_stream ts]) = Ok x /\
  Forall2 (moved "" "p::") (items_of [root_stream ts]) (items_of [root_stream ts']) /\
  fst (fn_parse (enum_fn e) (Named SCall) "p::" false [root_stream ts']) = Err e1.
Proof. exact ex_inner_prefix. Qed.
Print Assumptions C50_inner_refuted.

Example C50_ex :
  proper_enum TMeta xm /\ no_flattened xm /\ (forall v, In v (e_variants xm) -> prefix_free v) /\
  Forall2 (moved "" "p::") (items_of (xin "b(1)"))
    (items_of [root_stream ([TIdent "p" (SAt 0); TPunct ":" true (SAt 0); TPunct ":" false (SAt 0)] ++ tk "b(1)")]) /\
  fst (fn_parse (enum_fn xm) (Named SCall) "" false (xin "b(1)")) = Ok (1, [VI 1]).
Proof. refine (conj xm_proper (conj xm_plain (conj xm_free (conj xm_moved _)))). reflexivity. Qed.

(** ** C54 A flattened enum depends on its own keys only *)
(** for an enum without flattened variants *)
Theorem C54_own_keys_partial : forall (env : Env) V (e : edef V) prefix,
  proper_enum TMeta e -> no_flattened e -> by_keys prefix (enum_fn e).
Proof. exact @l_enum_by_keys. Qed.
Print Assumptions C54_own_keys_partial.
(** With flattened variants, the enum rejects the keys of the struct it is flattened into:
    struct { a: i32, #[deluxe(flatten)] e: E } with enum E { #[deluxe(flatten)] B { b: i32 } }
    does not parse `a = 1, b = 2`. *)
Theorem C54_parent_refuted : exists (env : Env) (e : edef val) (s : sdef val) x,
  proper_enum TMeta e /\ flat_local e /\ named_struct s /\ separate s /\
  s_names s = ["a"; "b"] /\ fn_names (enum_fn e) = ["b"] /\
  is_ok (fst (fn_parse (enum_fn e) (Named SCall) "" false (xin "b = 2"))) = true /\
  fst (d_inline (struct_dict s) Unnamed (xin "a = 1, b = 2")) = Err x /\
  map e_msg (errs_of x) = ["unknown field `a`"] /\
  ~ by_keys "" (enum_fn e).
Proof. exact ex_parent_key. Qed.
Print Assumptions C54_parent_refuted.

Example C54_ex : proper_enum TMeta xp /\ no_flattened xp /\
  fst (fn_parse (enum_fn xp) (Named SCall) "p::" false
        [root_stream ([TIdent "p" (SAt 0); TPunct ":" true (SAt 0); TPunct ":" false (SAt 0)] ++ tk "b(1), x = 4, a")]) = Ok (1, [VI 1]).
Proof. refine (conj (xp_proper _ _ _) (conj (xp_plain _ _) _)). reflexivity. Qed.

(** ** C55 A flattened variant all of whose fields are given is selected *)
(** if no other one could be chosen *)
Theorem C55_selected_partial : forall (env : Env) V (e : edef V) tm prefix validate sp inputs r i v vs x,
  enum_run e tm prefix validate sp inputs r -> proper_enum tm e -> flat_local e ->
  variant_items e prefix (items_of inputs) = [] ->
  chosen e prefix inputs i v -> (forall j w, chosen e prefix inputs j w -> j = i) ->
  keyed inputs -> flat_written e tm prefix sp inputs i v vs ->
  chained (e_and_thens e) (i, vs) x -> r = Ok x.
Proof. exact @l_flat_accepts. Qed.
Print Assumptions C55_selected_partial.
(** Otherwise not: with enum { #[flatten] S { a }, #[flatten] L { a, b } }, no input at all
    gives the variant `L`, since `S` is tried first. *)
Theorem C55_shadowed_refuted : exists (env : Env) (e : edef val) i v inputs vs,
  proper_enum TMeta e /\ flat_local e /\ flattened e i v /\
  keyed inputs /\ variant_items e "" (items_of inputs) = [] /\
  chosen e "" inputs i v /\ flat_written e TMeta "" (to_full_span Unnamed inputs) inputs i v vs /\
  forall prefix validate sp inputs' r ws, enum_run e TMeta prefix validate sp inputs' r -> r <> Ok (i, ws).
Proof. exact ex_never. Qed.
Print Assumptions C55_shadowed_refuted.

Example C55_ex :
  (chosen xf "" (xin "y = 2, x = 1") 1 (mkVariant "X" [] ShNamed [it "x" i32; it "y" (opt_ i32)] true false false false) /\
   forall j w, chosen xf "" (xin "y = 2, x = 1") j w -> j = 1) /\
  xrun xf "y = 2, x = 1" = Ok (1, [VI 1; VO (Some (VI 2))]).
Proof. split; [exact ex_xf_chosen|reflexivity]. Qed.

(** ** C56 A variant's key excludes the keys of flattened variants *)
(** in an enum that is flattened into a struct *)
Theorem C56_embedded_partial : forall (env : Env) V (e : edef V) tm prefix sp inputs r x n isp j w m,
  enum_run e tm prefix false sp inputs r -> proper_enum tm e -> e_unknown_ok e = false ->
  In n (variant_names e) -> In ((prefix ++ n)%string, isp) (keys_in inputs) ->
  flattened e j w -> In m (all_names w) -> m <> n -> r = Ok x ->
  forall msp, ~ In ((prefix ++ m)%string, msp) (keys_in inputs).
Proof. exact @l_enum_embedded. Qed.
Print Assumptions C56_embedded_partial.
(** Not at top level: there `a, x = 1` gives variant `a`, and `x` is ignored. *)
Theorem C56_top_refuted : exists (env : Env) (e : edef val) inputs sp x n nsp m msp,
  enum_run e TMeta "" true sp inputs (Ok x) /\ proper_enum TMeta e /\ flat_local e /\ e_unknown_ok e = false /\
  keys_in inputs = [(n, nsp); (m, msp)] /\ In n (variant_names e) /\ ~ In m (variant_names e).
Proof. exact ex_ignored. Qed.
Print Assumptions C56_top_refuted.

Example C56_ex : proper_enum TMeta xf /\ e_unknown_ok xf = false /\ In "a" (variant_names xf) /\
  flattened xf 1 (mkVariant "X" [] ShNamed [it "x" i32; it "y" (opt_ i32)] true false false false) /\
  enum_run xf TMeta "" false (to_full_span (Named SCall) (xin "a")) (xin "a") (Ok (0, [])) /\
  xmsgs (fst (fn_parse (enum_fn xf) (Named SCall) "" false (xin "a, x = 1"))) <> [].
Proof.
  split; [apply xf_proper|]. split; [reflexivity|]. split; [now left|]. split; [repeat split|].
  split; [exact (E_flatten xf (Named SCall) "" false (xin "a"))|]. vm_compute. discriminate.
Qed.
