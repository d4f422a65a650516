(** Types for the examples beside the theorems of PropsWider.v: a struct with fields of type
    I, Option<I> and Vec<I> (append) and a flattened field whose type has a field of type I, and
    an enum with such fields, before and after `#[deluxe(allow_unknown_fields)]` is added to I *)
From Verif Require Import SourceKit.
From Verif Require Export LemWider6 ExEnum ExLax.
Local Open Scope string_scope.
Local Open Scope list_scope.

Definition xw_i : sdef val := named [it "x" i32].
Definition xw_f (i : sdef val) : sdef val := named [it "c" (sd i)].
Definition xw_o (i : sdef val) : sdef val :=
  mkStruct ShNamed [it "a" (sd i); it "b" (opt_ (sd i)); fld "v" ["v"] (KAppend (append_ (sd i))) None; flatn "f" None (sfn (xw_f i))]
           None false false [] [["m"]].
Definition xw_t (i : sdef val) : sdef val := tuple [pos (sd i); pos (opt_ (sd i))].
Definition xw_e (i : sdef val) : edef val :=
  mkEnum [mkVariant "A" ["a"] ShUnnamed [pos (sd i)] false false false false;
          mkVariant "B" ["b"] ShUnnamed [pos (sd i)] false true false false;
          mkVariant "C" ["c"] ShNamed [it "y" i32; it "z" (sd i)] true false false false] None [] false [["m"]].

Lemma xw_wider : reads_more (struct_dict xw_i) (struct_dict (allowing xw_i)).
Proof. apply l_more_allowing; reflexivity. Qed.
Lemma xw_sd : reads_more (sd xw_i) (sd (allowing xw_i)).
Proof. apply reads_map, xw_wider. Qed.
Lemma xw_opt : reads_more (opt_ (sd xw_i)) (opt_ (sd (allowing xw_i))).
Proof. apply reads_map, l_more_option, xw_sd. Qed.
Lemma xw_field n (d d' : dict val) : reads_more d d' -> field_more (it n d) (it n d').
Proof. intro H. constructor; auto. Qed.
Lemma xw_pos (d d' : dict val) : reads_more d d' -> field_more (pos d) (pos d').
Proof. intro H. constructor; auto. Qed.
Lemma xw_append (a a' : append_fn val) : (forall ps, at_least (a ps) (a' ps)) -> field_more (fld "v" ["v"] (KAppend a) None) (fld "v" ["v"] (KAppend a') None).
Proof. intro H. constructor; auto. Qed.
Lemma xw_flatten (u u' : flat_named val) : flat_reads_more u u' -> field_more (flatn "f" None u) (flatn "f" None u').
Proof. intro H. constructor; auto. split; auto. Qed.
Lemma xw_refl n : field_more (it n i32) (it n i32).
Proof. apply xw_field, reads_refl. Qed.
Lemma xw_s sh (fs fs' : list (field val)) df t u th ats : Forall2 field_more fs fs' -> struct_more (mkStruct sh fs df t u th ats) (mkStruct sh fs' df t u th ats).
Proof. intro H. constructor; auto. Qed.
Lemma xw_v i n sh (fs fs' : list (field val)) fl t k u : Forall2 field_more fs fs' -> variant_more (mkVariant i n sh fs fl t k u) (mkVariant i n sh fs' fl t k u).
Proof. intro H. constructor; auto. Qed.
Lemma xw_en (vs vs' : list (vdef val)) df th u ats : Forall2 variant_more vs vs' -> enum_more (mkEnum vs df th u ats) (mkEnum vs' df th u ats).
Proof. intro H. constructor; auto. Qed.
Lemma xw_flat : struct_more (xw_f xw_i) (xw_f (allowing xw_i)).
Proof. unfold xw_f, named. apply xw_s. apply Forall2_cons; [apply xw_field, xw_sd|apply Forall2_nil]. Qed.
Lemma xw_struct : struct_more (xw_o xw_i) (xw_o (allowing xw_i)).
Proof.
  unfold xw_o. apply xw_s. apply Forall2_cons; [apply xw_field, xw_sd|]. apply Forall2_cons; [apply xw_field, xw_opt|].
  apply Forall2_cons; [apply xw_append; intro ps; apply at_map, l_more_append, xw_sd|]. apply Forall2_cons; [|apply Forall2_nil].
  apply xw_flatten, flat_reads_map, l_more_fn, xw_flat.
Qed.
Lemma xw_tuple : struct_more (xw_t xw_i) (xw_t (allowing xw_i)).
Proof. unfold xw_t, tuple. apply xw_s. apply Forall2_cons; [apply xw_pos, xw_sd|]. apply Forall2_cons; [apply xw_pos, xw_opt|apply Forall2_nil]. Qed.
Lemma xw_enum : enum_more (xw_e xw_i) (xw_e (allowing xw_i)).
Proof.
  unfold xw_e. apply xw_en. apply Forall2_cons; [|apply Forall2_cons; [|apply Forall2_cons; [|apply Forall2_nil]]]; apply xw_v.
  - apply Forall2_cons; [apply xw_pos, xw_sd|apply Forall2_nil].
  - apply Forall2_cons; [apply xw_pos, xw_sd|apply Forall2_nil].
  - apply Forall2_cons; [apply xw_refl|]. apply Forall2_cons; [apply xw_field, xw_sd|apply Forall2_nil].
Qed.
Definition xw_run (s : sdef val) (t : string) := fst (d_inline (struct_dict s) Unnamed (xin t)).
Definition xw_vs := [VS [VI 1]; VO (Some (VS [VI 2])); VL [VS [VI 3]; VS [VI 4]]; VS [VS [VI 5]]].
Lemma xw_runs :
  xw_run (xw_o xw_i) "v(x = 3), a(x = 1), c(x = 5), b = { x = 2 }, v(x = 4)" = Ok xw_vs /\
  xw_run (xw_o (allowing xw_i)) "v(x = 3), a(x = 1), c(x = 5), b = { x = 2 }, v(x = 4)" = Ok xw_vs /\
  (exists e, xw_run (xw_o xw_i) "v(x = 3), a(x = 1), c(x = 5), b = { x = 2 }, v(x = 4, y)" = Err e) /\
  xw_run (xw_o (allowing xw_i)) "v(x = 3), a(x = 1), c(x = 5), b = { x = 2 }, v(x = 4, y)" = Ok xw_vs.
Proof. repeat split; try (eexists; vm_compute; reflexivity); vm_compute; reflexivity. Qed.
Lemma xw_truns :
  xw_run (xw_t xw_i) "{ x = 1 }, None" = Ok [VS [VI 1]; VO None] /\
  xw_run (xw_t (allowing xw_i)) "{ x = 1 }, None" = Ok [VS [VI 1]; VO None] /\
  (exists e, xw_run (xw_t xw_i) "{ x = 1, y }, None" = Err e) /\
  xw_run (xw_t (allowing xw_i)) "{ x = 1, y }, None" = Ok [VS [VI 1]; VO None].
Proof. repeat split; try (eexists; vm_compute; reflexivity); vm_compute; reflexivity. Qed.
Lemma xw_eruns :
  xrun (xw_e xw_i) "a({ x = 1 })" = Ok (0, [VS [VI 1]]) /\ xrun (xw_e xw_i) "b(x = 1)" = Ok (1, [VS [VI 1]]) /\
  xrun (xw_e xw_i) "z(x = 1), y = 2" = Ok (2, [VI 2; VS [VI 1]]) /\
  xrun (xw_e (allowing xw_i)) "z(x = 1), y = 2" = Ok (2, [VI 2; VS [VI 1]]) /\
  (exists e, xrun (xw_e xw_i) "z(x = 1, q), y = 2" = Err e) /\
  xrun (xw_e (allowing xw_i)) "z(x = 1, q), y = 2" = Ok (2, [VI 2; VS [VI 1]]).
Proof. repeat split; try (eexists; vm_compute; reflexivity); vm_compute; reflexivity. Qed.
Definition xw_node := ONode [al ["m"] "v(x = 3), a(x = 1)"; al ["other"] "1"; al ["m"] "c(x = 5), b = { x = 2 }, v(x = 4)"].
Lemma xw_attrs :
  struct_parse_attributes (xw_o xw_i) cv xw_node = Ok xw_vs /\
  fst (struct_extract_attributes (xw_o xw_i) cv xw_node) = Ok xw_vs /\
  enum_parse_attributes (xw_e xw_i) cv (ONode [al ["m"] "z(x = 1)"; al ["m"] "y = 2"]) = Ok (2, [VI 2; VS [VI 1]]) /\
  fst (enum_extract_attributes (xw_e xw_i) cv (ONode [al ["m"] "z(x = 1)"; al ["m"] "y = 2"])) = Ok (2, [VI 2; VS [VI 1]]).
Proof. repeat split; vm_compute; reflexivity. Qed.
Definition xw_lib {A} (d : dict A) (t : string) := fst (d_inline d Unnamed (xin t)).
Lemma xw_libs :
  xw_lib (array_dict 2 (sd xw_i)) "{ x = 1 }, { x = 2 }" = Ok [VS [VI 1]; VS [VI 2]] /\
  xw_lib (tuple_dict [i32; sd xw_i]) "1, { x = 2 }" = Ok [VI 1; VS [VI 2]] /\
  xw_lib (map_dict veq vstr ident_ (sd xw_i)) "q = { x = 1 }, p(x = 2)" = Ok [(VT "q", VS [VI 1]); (VT "p", VS [VI 2])] /\
  xw_lib (set_dict (fun _ _ => false) (sd xw_i)) "{ x = 1 }, { x = 2 }" = Ok [VS [VI 1]; VS [VI 2]] /\
  xw_lib (vec_dict (sd (allowing xw_i))) "{ x = 1, y }, { x = 2 }" = Ok [VS [VI 1]; VS [VI 2]].
Proof. repeat split; vm_compute; reflexivity. Qed.
Lemma xw_withs :
  xw_lib (quoted_dict (sd xw_i)) """{ x = 1 }""" = Ok (VS [VI 1]) /\
  (exists e, xw_lib (quoted_dict (sd xw_i)) """{ x = 1, y }""" = Err e) /\
  xw_lib (quoted_dict (sd (allowing xw_i))) """{ x = 1, y }""" = Ok (VS [VI 1]) /\
  xw_lib (maybe_quoted_dict (sd xw_i)) "{ x = 1 }" = Ok (VS [VI 1]) /\
  xw_lib (with_vec_dict (sd xw_i)) "{ x = 1 }, { x = 2 }" = Ok [VS [VI 1]; VS [VI 2]] /\
  xw_lib (with_map_dict veq vstr ident_ (sd xw_i)) "q = { x = 1 }, p = { x = 2 }" = Ok [(VT "q", VS [VI 1]); (VT "p", VS [VI 2])] /\
  xw_lib (punctuated_dict ";" (sd xw_i)) "{ x = 1 };" = Ok [VS [VI 1]].
Proof. repeat split; try (eexists; vm_compute; reflexivity); vm_compute; reflexivity. Qed.
