(** Concrete sources for C71 and C72. *)
From Verif Require Import LemSchema5.
From Verif Require Export LemNames ExSchema.

(** implementations in which every type reports the given names *)
Definition naming (l : list string) : rust val :=
  let rt := mkRtype i32 (mkFN l false (fun _ _ _ l => (Ok VU, l))) (mkFU (Some 1) (fun _ _ l => (Ok VU, l)))
                    (fun _ l => (Ok VU, l)) (fun _ l => (Ok VU, l)) (VI 0) in
  mkRust (fun _ => rt) (fun _ => rt) (fun _ => VI 1) (fun _ v => v) (fun _ v => inl v).

(** struct S<T> { #[deluxe(flatten)] inner: T, #[deluxe(flatten(prefix = p))] more: T, own } *)
Definition x_gen : src_struct :=
  mkSrcStruct ShNamed [nf "inner" "flatten"; nf "more" "flatten(prefix = p)"; nf "own" ""] [].
Lemma x_gen_written : written_struct x_gen.
Proof. repeat constructor; discriminate. Qed.
Lemma x_gen_calls : exists d, derive_meta_struct xsy x_gen = Ok d /\
  names_calls (fields_code (i_fields d)) (map names_of [naming ["a"; "b"]; naming ["a"; "b"]]) no_cells =
  [["a"; "b"; "p::a"; "p::b"; "own"]; ["a"; "b"; "p::a"; "p::b"; "own"]].
Proof.
  apply (use_ok (derive_meta_struct xsy x_gen)
    (fun d => names_calls (fields_code (i_fields d)) (map names_of [naming ["a"; "b"]; naming ["a"; "b"]]) no_cells)).
  vm_compute. reflexivity.
Qed.
(** the second instantiation reports the names of the first *)
Lemma l_generic_struct_refuted : exists sy i d (ru ru' : rust val) auto expr post,
  written_struct i /\ ss_shape i = ShNamed /\ derive_meta_struct (env := lexer_env) sy i = Ok d /\
  names_calls (fields_code (i_fields d)) (map names_of [ru; ru']) no_cells <>
  map (fun ru => s_names (lower_struct ru auto expr post d)) [ru; ru'].
Proof.
  destruct (use_ok (derive_meta_struct xsy x_gen)
    (fun d => (names_calls (fields_code (i_fields d)) (map names_of [naming ["a"]; naming ["b"]]) no_cells,
               map (fun ru => s_names (lower_struct ru [] (fun _ => []) (fun _ v => inl v) d)) [naming ["a"]; naming ["b"]]))
    ([["a"; "p::a"; "own"]; ["a"; "p::a"; "own"]], [["a"; "p::a"; "own"]; ["b"; "p::b"; "own"]])) as [d [R Q]]; [vm_compute; reflexivity|].
  pose proof (f_equal fst Q) as Q1. pose proof (f_equal snd Q) as Q2.
  exists xsy, x_gen, d, (naming ["a"]), (naming ["b"]), [], (fun _ => []), (fun _ v => inl v).
  split; [exact x_gen_written|]. split; [reflexivity|]. split; [exact R|]. intro E.
  pose proof (eq_trans (eq_sym Q1) (eq_trans E Q2)) as X. discriminate X.
Qed.

(** enum E<T> { A, #[deluxe(flatten)] B { #[deluxe(flatten)] inner: T, x } } *)
Definition x_gene : src_enum :=
  mkSrcEnum [sv "A" ShUnit [] ""; sv "B" ShNamed [nf "inner" "flatten"; nf "x" ""] "flatten"] [].
Lemma x_gene_written : written_enum x_gene.
Proof. repeat constructor; discriminate. Qed.
Lemma x_gene_calls : exists d, derive_meta_enum xsy x_gene = Ok d /\
  names_calls (variants_code (j_variants d)) (map names_of [naming ["q"]; naming ["q"]]) no_cells =
  [["a"; "q"; "x"]; ["a"; "q"; "x"]].
Proof.
  apply (use_ok (derive_meta_enum xsy x_gene)
    (fun d => names_calls (variants_code (j_variants d)) (map names_of [naming ["q"]; naming ["q"]]) no_cells)).
  vm_compute. reflexivity.
Qed.
Lemma x_gene_variant : exists d v, derive_meta_enum xsy x_gene = Ok d /\ In v (j_variants d) /\ h_flatten v = Some true /\
  names_calls (fields_code (h_fields v)) (map names_of [naming ["q"]; naming ["q"]]) no_cells = [["q"; "x"]; ["q"; "x"]].
Proof.
  destruct (use_ok (derive_meta_enum xsy x_gene)
    (fun d => map (fun v => (h_flatten v, names_calls (fields_code (h_fields v)) (map names_of [naming ["q"]; naming ["q"]]) no_cells)) (j_variants d))
    [(None, [[]; []]); (Some true, [["q"; "x"]; ["q"; "x"]])]) as [d [R Q]]; [vm_compute; reflexivity|].
  destruct (j_variants d) as [|u [|v vs]] eqn:F; try discriminate Q. cbn [map] in Q. injection Q as _ _ Q1 Q2 _.
  exists d, v. rewrite F. split; [exact R|]. split; [right; now left|]. split; assumption.
Qed.
Lemma l_generic_enum_refuted : exists sy i d (ru ru' : rust val) auto expr post,
  written_enum i /\ derive_meta_enum (env := lexer_env) sy i = Ok d /\
  names_calls (variants_code (j_variants d)) (map names_of [ru; ru']) no_cells <>
  map (fun ru => e_names (lower_enum ru auto expr post d)) [ru; ru'].
Proof.
  destruct (use_ok (derive_meta_enum xsy x_gene)
    (fun d => (names_calls (variants_code (j_variants d)) (map names_of [naming ["q"]; naming ["r"]]) no_cells,
               map (fun ru => e_names (lower_enum ru (0, []) (fun _ => (0, [])) (fun _ v => inl v) d)) [naming ["q"]; naming ["r"]]))
    ([["a"; "q"; "x"]; ["a"; "q"; "x"]], [["a"; "q"; "x"]; ["a"; "r"; "x"]])) as [d [R Q]]; [vm_compute; reflexivity|].
  pose proof (f_equal fst Q) as Q1. pose proof (f_equal snd Q) as Q2.
  exists xsy, x_gene, d, (naming ["q"]), (naming ["r"]), (0, []), (fun _ => (0, [])), (fun _ v => inl v).
  split; [exact x_gene_written|]. split; [exact R|]. intro E.
  pose proof (eq_trans (eq_sym Q1) (eq_trans E Q2)) as X. discriminate X.
Qed.

(** enum { #[deluxe(flatten)] B { #[deluxe(flatten(prefix = p))] inner, x } } *)
Definition x_nest : src_enum :=
  mkSrcEnum [sv "B" ShNamed [nf "inner" "flatten(prefix = p)"; nf "x" ""] "flatten"] [].
Definition typed_b (p : piece) : bool :=
  match p with PCell EString ECow _ _ | PCell ECow EString _ _ => false | _ => true end.
Lemma typed_b_spec p : piece_typed p -> typed_b p = true.
Proof. destruct p as [l|f|[] [] s f]; cbn; auto; discriminate. Qed.
Lemma l_typed_refuted : exists sy i d, written_enum i /\ derive_meta_enum (env := lexer_env) sy i = Ok d /\
  ~ code_typed (variants_code (j_variants d)).
Proof.
  destruct (use_ok (derive_meta_enum xsy x_nest)
    (fun d => match variants_code (j_variants d) with NArray _ => true | NVec ps => forallb typed_b ps end) false) as [d [R Q]]; [vm_compute; reflexivity|].
  exists xsy, x_nest, d. split; [repeat constructor; discriminate|]. split; [exact R|]. intro H.
  destruct (variants_code (j_variants d)) as [l|ps]; [discriminate Q|]. cbn [code_typed] in H.
  assert (X : forallb typed_b ps = true). { apply forallb_forall. intros p I. apply typed_b_spec. rewrite Forall_forall in H. auto. }
  congruence.
Qed.
Lemma x_gene_plain : exists d, derive_meta_enum xsy x_gene = Ok d /\ no_nested_prefix d.
Proof.
  destruct (use_ok (derive_meta_enum xsy x_gene)
    (fun d => forallb (fun v => forallb (fun f => match g_flatten f with Some x => match ff_prefix x with None => true | _ => false end | None => true end) (h_fields v)) (j_variants d)) true) as [d [R Q]]; [vm_compute; reflexivity|].
  exists d. split; auto. intros v f x Iv T If G X. rewrite forallb_forall in Q. specialize (Q v Iv). rewrite forallb_forall in Q. specialize (Q f If).
  rewrite G in Q. destruct (ff_prefix x); [discriminate Q|reflexivity].
Qed.
