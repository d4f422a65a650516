(** Concrete sources for the examples and counterexamples of PropsSchema.v. *)
From Verif Require Import LemWf LemSmall WfMore.
From Verif Require Export LemSchema6 TestKit.

(** stand-ins for syn: a path is a path, a type is one identifier, no lifetimes *)
Definition xty : parser (list token) :=
  fun s => match toks s with
           | TIdent i sp :: r => (Ok [TIdent i sp], set_toks s r)
           | _ => (Err (error_at s "expected type"), s)
           end.
Definition xlt : parser string := fun s => (Err (error_at s "expected lifetime"), s).
Definition xsy : synlib := mkSynlib parse_any_path parse_any_path xty xlt.
Lemma xsy_good : good_syn_lib xsy.
Proof.
  refine (conj wb_path (conj wb_path (conj _ _))).
  - intro s. unfold xsy, xty. cbn [sy_type]. destruct (toks s) as [|t r] eqn:T; [cbn; split; [exact I|exists []; reflexivity]|].
    destruct t; cbn; (split; [exact I|]); try (exists []; reflexivity). unfold advances. rewrite T. eexists [_]. reflexivity.
  - intro s. cbn. split; [exact I|exists []; reflexivity].
Qed.

(** `#[deluxe(txt)]` *)
Definition da (txt : string) : attr := mkAttr (mkPath false ["deluxe"] SCall) (MList Paren (tk txt)) SCall.
Definition at_ (txt : string) : list attr := if is_empty_str txt then [] else [da txt].
Definition nf (n txt : string) : src_field := mkSrcField (Some (n, SCall)) (at_ txt) (tk "i32").
Definition tf (txt : string) : src_field := mkSrcField None (at_ txt) (tk "i32").
Definition sv (n : string) (sh : shape) (fs : list src_field) (txt : string) : src_variant :=
  mkSrcVariant (n, SCall) sh fs (at_ txt) SCall.

(** struct { #[deluxe(rename = b, alias = c)] a, r#type, #[deluxe(skip)] s,
             #[deluxe(flatten(prefix = p))] f, #[deluxe(append)] v, #[deluxe(rest)] r } *)
Definition x_struct : src_struct :=
  mkSrcStruct ShNamed
    [nf "a" "rename = b, alias = c"; nf "r#type" "map = f, and_then = g"; nf "s" "skip";
     nf "f" "flatten(prefix = p)"; nf "v" "append, default = 1"; nf "r" "rest"]
    (at_ "allow_unknown_fields = false, attributes(x, y)").
Definition is_ok_ {A} (r : res A) : bool := match r with Ok _ => true | _ => false end.
Lemma x_struct_read : exists d, read_struct xsy x_struct = Ok d.
Proof.
  assert (H : is_ok_ (read_struct xsy x_struct) = true) by reflexivity.
  destruct (read_struct xsy x_struct) as [d|e|b]; try discriminate H. eauto.
Qed.
Lemma x_struct_written : written_struct x_struct.
Proof. repeat constructor; discriminate. Qed.
(** two fields with the same name are refused *)
Definition x_clash : src_struct := mkSrcStruct ShNamed [nf "a" "alias = b"; nf "b" ""] [].
Lemma x_clash_err : exists e, read_struct xsy x_clash = Err e /\ map e_msg (errs_of e) = ["duplicate field name for `b`"].
Proof. eexists. split; reflexivity. Qed.

(** enum { #[deluxe(alias = first)] A, #[deluxe(flatten)] B { x, #[deluxe(default)] y },
           #[deluxe(flatten)] CamelCase { z, w }, HTTPServer2(t, #[deluxe(default = 3)] u) } *)
Definition x_enum : src_enum :=
  mkSrcEnum [sv "A" ShUnit [] "alias = first"; sv "B" ShNamed [nf "x" ""; nf "y" "default"] "flatten";
             sv "CamelCase" ShNamed [nf "z" ""; nf "w" ""] "flatten";
             sv "HTTPServer2" ShUnnamed [tf ""; tf "default = 3"] ""] (at_ "default").
Lemma use_ok {A B} (r : res A) (q : A -> B) b : rmap q r = Ok b -> exists d, r = Ok d /\ q d = b.
Proof. destruct r as [a|e|x]; intro H; try discriminate H. injection H as <-. exists a. split; reflexivity. Qed.
Definition no_transparent (d : senum) : bool := forallb (fun v => negb (b_true (h_transparent v))) (j_variants d).
Lemma no_transparent_spec d v : no_transparent d = true -> In v (j_variants d) -> b_true (h_transparent v) = true -> False.
Proof.
  intros H I T. unfold no_transparent in H. rewrite forallb_forall in H. specialize (H v I). rewrite T in H. discriminate H.
Qed.
Lemma x_enum_ok : exists d, read_enum xsy x_enum = Ok d /\ derive_meta_enum xsy x_enum = Ok d /\ derive_attr_enum xsy x_enum = Ok d /\
  variant_names_of d = ["a"; "first"; "http_server2"] /\ length (filter flattened (j_variants d)) = 2 /\
  j_default d <> None /\ no_transparent_rest d /\
  (forall v, In v (j_variants d) -> b_true (h_transparent v) = true -> no_field_and_then (h_fields v)).
Proof.
  destruct (use_ok (read_enum xsy x_enum)
    (fun d => (variant_names_of d, length (filter flattened (j_variants d)),
               match j_default d with Some _ => true | None => false end, no_transparent d))
    (["a"; "first"; "http_server2"], 2, true, true)) as [d [R Q]]; [vm_compute; reflexivity|].
  injection Q as Q1 Q2 Q3 Q4. exists d. split; [exact R|].
  assert (is_ok (derive_meta_enum xsy x_enum) = true) as M by (vm_compute; reflexivity).
  assert (is_ok (derive_attr_enum xsy x_enum) = true) as A by (vm_compute; reflexivity).
  split; [|split].
  - unfold derive_meta_enum in *. rewrite R in *. cbn [rbind] in *.
    destruct (gen_variants (j_variants d)) as [u|?|?]; try discriminate M. cbn [rbind] in *.
    destruct (check (meta_container_check d)) as [w|?|?]; try discriminate M. reflexivity.
  - unfold derive_attr_enum in *. rewrite R in *. cbn [rbind] in *.
    destruct (gen_variants (j_variants d)) as [u|?|?]; try discriminate A. reflexivity.
  - split; [exact Q1|]. split; [exact Q2|]. split; [intro E; rewrite E in Q3; discriminate Q3|].
    split; intros v; intros; exfalso; eapply no_transparent_spec; eassumption.
Qed.
Lemma x_enum_written : written_enum x_enum /\ Forall snake_ok (se_variants x_enum).
Proof. split; [repeat constructor; discriminate|]. repeat (apply Forall_cons; [apply snake_ok_text; reflexivity|]). apply Forall_nil. Qed.

Definition g_names (f : sfield) : list string := map fst (g_idents f).
Definition no_default (f : sfield) : bool := match g_default f with None => true | Some _ => false end.
Lemma no_default_spec f : no_default f = true -> g_default f = None.
Proof. unfold no_default. destruct (g_default f); [discriminate|reflexivity]. Qed.
(** enum { V { #[deluxe(rename = b)] a, b } }: both fields are called `b` *)
Definition x_dup : src_enum := mkSrcEnum [sv "V" ShNamed [nf "a" "rename = b"; nf "b" ""] ""] [].
Lemma l_c51_refuted : exists (env : Env) (sy : synlib) (i : src_enum) (d : senum) v f g n,
  good_syn_lib sy /\ written_enum i /\ read_enum sy i = Ok d /\
  In v (j_variants d) /\ nth_error (h_fields v) 0 = Some f /\ nth_error (h_fields v) 1 = Some g /\
  In n (map fst (g_idents f)) /\ In n (map fst (g_idents g)).
Proof.
  destruct (use_ok (read_enum xsy x_dup) (fun d => map (fun v => map g_names (h_fields v)) (j_variants d)) [[["b"]; ["b"]]])
    as [d [R Q]]; [vm_compute; reflexivity|].
  destruct (j_variants d) as [|v [|w vs]] eqn:J; try discriminate Q.
  cbn [map] in Q. injection Q as Q. destruct (h_fields v) as [|f [|g [|h fs]]] eqn:F; try discriminate Q. injection Q as Q1 Q2.
  exists lexer_env, xsy, x_dup, d, v, f, g, "b".
  split; [exact xsy_good|]. split; [repeat constructor; discriminate|]. split; [exact R|]. rewrite J. split; [left; reflexivity|].
  rewrite F. split; [reflexivity|]. split; [reflexivity|]. unfold g_names in *. rewrite Q1, Q2. split; left; reflexivity.
Qed.
(** enum { A, #[deluxe(flatten)] B { a } }: `a` names the variant A and the field of B *)
Definition x_both : src_enum := mkSrcEnum [sv "A" ShUnit [] ""; sv "B" ShNamed [nf "a" ""; nf "b" ""] "flatten"] [].
Lemma l_c51_both : exists (env : Env) (sy : synlib) (i : src_enum) (d : senum) v f n,
  good_syn_lib sy /\ written_enum i /\ read_enum sy i = Ok d /\
  In n (variant_names_of d) /\ In v (j_variants d) /\ flattened v = true /\
  In f (h_fields v) /\ required f /\ In n (map fst (g_idents f)).
Proof.
  destruct (use_ok (read_enum xsy x_both)
    (fun d => (variant_names_of d, map (fun v => (flattened v, map (fun f => (g_is_parsable f, g_is_flat f, no_default f, g_names f)) (h_fields v))) (j_variants d)))
    (["a"], [(false, []); (true, [(true, false, true, ["a"]); (true, false, true, ["b"])])]))
    as [d [R Q]]; [vm_compute; reflexivity|].
  injection Q as N Q. destruct (j_variants d) as [|u [|v [|w vs]]] eqn:J; try discriminate Q.
  cbn [map] in Q. injection Q as _ _ T Q. destruct (h_fields v) as [|f [|g [|h fs]]] eqn:F; try discriminate Q. injection Q as Q1 Q2 Q3 Q4 _.
  exists lexer_env, xsy, x_both, d, v, f, "a".
  split; [exact xsy_good|]. split; [repeat constructor; discriminate|]. split; [exact R|].
  split; [rewrite N; left; reflexivity|]. rewrite J, F. split; [right; left; reflexivity|]. split; [exact T|]. split; [left; reflexivity|].
  split; [exact (conj Q1 (conj Q2 (no_default_spec f Q3)))|]. unfold g_names in Q4. rewrite Q4. left. reflexivity.
Qed.
(** enum { __ } *)
Lemma l_c57_ident : exists (env : Env) (sy : synlib) (i : src_enum),
  good_syn_lib sy /\ written_enum i /\ derive_meta_enum sy i = Bad Panic.
Proof.
  exists lexer_env, xsy, (mkSrcEnum [sv "__" ShUnit [] ""] []). split; [exact xsy_good|]. split; [repeat constructor|reflexivity].
Qed.
(** enum { #[deluxe(transparent)] V { #[deluxe(rest)] r } } *)
Lemma l_c57_rest : exists (env : Env) (sy : synlib) (i : src_enum),
  good_syn_lib sy /\ written_enum i /\ Forall snake_ok (se_variants i) /\ derive_meta_enum sy i = Bad Panic.
Proof.
  exists lexer_env, xsy, (mkSrcEnum [sv "V" ShNamed [nf "r" "rest"] "transparent"] []).
  split; [exact xsy_good|]. split; [repeat constructor; discriminate|].
  split; [apply Forall_cons; [apply snake_ok_text; reflexivity|apply Forall_nil]|reflexivity].
Qed.

(** every type is parsed like an i32; flattened, appended and rest fields are vectors,
    structs or maps *)
Definition xrt : rtype val :=
  mkRtype i32 (mkFN ["q"] false (fun _ _ _ l => (Ok VU, l))) (mkFU (Some 1) (fun _ _ l => (Ok VU, l)))
          (fun _ l => (Ok VU, l)) (fun _ l => (Ok VU, l)) (VI 0).
Definition xru : rust val :=
  mkRust (fun _ => xrt) (fun _ => xrt) (fun _ => VI 1) (fun _ v => v) (fun _ v => inl v).
Lemma xru_good : good_rust xru.
Proof.
  assert (G : good_type xrt).
  { assert (A : forall l : list stream, Forall2 advances l l).
    { intro l. induction l as [|st l IH]; constructor; [exists []; reflexivity|exact IH]. }
    refine (conj good_i32 (conj _ (conj _ (conj _ _)))); repeat intro; (split; [exact I|apply A]). }
  split; intros; exact G.
Qed.
Lemma x_struct_58 : exists d, (derive_meta_struct xsy x_struct = Ok d \/ derive_attr_struct xsy x_struct = Ok d) /\
  (st_true (i_transparent d) = true -> no_field_and_then (i_fields d)).
Proof.
  destruct (use_ok (derive_meta_struct xsy x_struct) (fun d => st_true (i_transparent d)) false) as [d [R Q]]; [vm_compute; reflexivity|].
  exists d. split; [left; exact R|]. intro T. rewrite Q in T. discriminate T.
Qed.

(** struct(a, #[deluxe(default)] b, #[deluxe(skip)] c, #[deluxe(default = 2)] d) *)
Definition x_tuple : src_struct := mkSrcStruct ShUnnamed [tf ""; tf "default"; tf "skip"; tf "default = 2"] [].
Lemma x_tuple_ok : exists d f g, read_struct xsy x_tuple = Ok d /\ i_shape d = ShUnnamed /\
  nth_error (i_fields d) 1 = Some f /\ nth_error (i_fields d) 0 = Some g /\ optional_field f /\ required g.
Proof.
  destruct (use_ok (read_struct xsy x_tuple) (fun d => (i_shape d, map (fun f => (g_is_parsable f, g_is_flat f, no_default f)) (i_fields d)))
    (ShUnnamed, [(true, false, true); (true, false, false); (false, false, false); (true, false, false)])) as [d [R Q]]; [vm_compute; reflexivity|].
  injection Q as S Q.
  destruct (i_fields d) as [|g [|f fs]] eqn:F; try discriminate Q. cbn [map] in Q. injection Q as Q1 Q2 Q3 Q4 Q5 Q6 _.
  exists d, f, g. split; [exact R|]. split; [exact S|]. rewrite F. split; [reflexivity|]. split; [reflexivity|].
  split; [refine (conj Q4 (conj Q5 _)); intro E; unfold no_default in Q6; rewrite E in Q6; discriminate Q6|].
  exact (conj Q1 (conj Q2 (no_default_spec g Q3))).
Qed.
Definition x_tvar : src_variant := sv "V" ShUnnamed [tf ""; tf "default"] "".
Lemma x_tvar_ok : exists h f g, read_variant xsy x_tvar = Ok h /\ sv_shape x_tvar = ShUnnamed /\
  nth_error (h_fields h) 1 = Some f /\ nth_error (h_fields h) 0 = Some g /\ optional_field f /\ required g.
Proof.
  destruct (use_ok (read_variant xsy x_tvar) (fun d => (map (fun f => (g_is_parsable f, g_is_flat f, no_default f)) (h_fields d)))
    ([(true, false, true); (true, false, false)])) as [d [R Q]]; [vm_compute; reflexivity|].
  
  destruct (h_fields d) as [|g [|f fs]] eqn:F; try discriminate Q. cbn [map] in Q. injection Q as Q1 Q2 Q3 Q4 Q5 Q6 _.
  exists d, f, g. split; [exact R|]. split; [reflexivity|]. rewrite F. split; [reflexivity|]. split; [reflexivity|].
  split; [refine (conj Q4 (conj Q5 _)); intro E; unfold no_default in Q6; rewrite E in Q6; discriminate Q6|].
  exact (conj Q1 (conj Q2 (no_default_spec g Q3))).
Qed.
Lemma x_struct_names : exists d, read_struct xsy x_struct = Ok d /\ field_names_of d = ["b"; "c"; "type"; "s"; "v"; "r"].
Proof. apply (use_ok (read_struct xsy x_struct) field_names_of). vm_compute. reflexivity. Qed.

(** enum { #[deluxe(transparent)] V(#[deluxe(and_then = f)] i32) } where f fails: accepted,
    and its parser panics on `v = 1` *)
Definition x_andv : src_enum := mkSrcEnum [sv "V" ShUnnamed [tf "and_then = f"] "transparent"] [].
Definition xru_fail : rust val :=
  mkRust (fun _ => xrt) (fun _ => xrt) (fun _ => VI 1) (fun _ v => v) (fun _ v => inr (mkSyn (mkErr SCall "no") [])).
Lemma x_parser_panics : exists (env : Env) sy (ru : rust val) auto expr post i d ts,
  good_rust ru /\ written_enum i /\ Forall snake_ok (se_variants i) /\ derive_meta_enum sy i = Ok d /\
  deluxe_parse2 (enum_dict (lower_enum ru auto expr post d)) ts = Bad Panic.
Proof.
  destruct (use_ok (derive_meta_enum xsy x_andv)
    (fun d => deluxe_parse2 (enum_dict (lower_enum xru_fail (0, []) (fun _ => (0, [])) (fun _ v => inl v) d)) (tk "v = 1")) (Bad Panic))
    as [d [R Q]]; [vm_compute; reflexivity|].
  exists lexer_env, xsy, xru_fail, (0, []), (fun _ => (0, [])), (fun _ v => inl v), x_andv, d, (tk "v = 1").
  split; [exact (conj (proj1 xru_good) (proj2 xru_good))|]. split; [repeat constructor; discriminate|].
  split; [apply Forall_cons; [apply snake_ok_text; reflexivity|apply Forall_nil]|]. split; [exact R|exact Q].
Qed.
