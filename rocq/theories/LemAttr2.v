(** Attribute parsing by derived implementations, and the items of a named struct *)
From Verif Require Export LemAttr LemRun.

Section A.
Context {env : Env} {V : Type}.
Lemma l_struct_attributes : forall (s : sdef V) conv o ws, accepted_struct s ->
  let l := ref_tokens (derived_matches (s_attributes s)) o in
  let body := struct_attr_body s (conv o) (attr_names l) in
  struct_parse_attributes s conv o = Ok ws <->
  exists cs, Forall2 attr_content l cs /\ fst (body cs) = Ok ws /\ Forall2 all_parsed l (snd (body cs)).
Proof.
  intros s conv o ws A l body. unfold struct_parse_attributes. fold l.
  apply (l_attributes_ok (struct_attr_body s (conv o)) (fun p => struct_attr_body_good s (conv o) p A)).
Qed.
Lemma l_enum_attributes : forall (e : edef V) conv o x,
  (forall pn, accepted_enum (TAttrs pn (conv o)) e) -> no_transparent_and_then e ->
  let l := ref_tokens (derived_matches (e_attributes e)) o in
  let body := enum_attr_body e (conv o) (attr_names l) in
  enum_parse_attributes e conv o = Ok x <->
  exists cs, Forall2 attr_content l cs /\ fst (body cs) = Ok x /\ Forall2 all_parsed l (snd (body cs)).
Proof.
  intros e conv o x A N l body. unfold enum_parse_attributes. fold l.
  apply (l_attributes_ok (enum_attr_body e (conv o)) (fun p => enum_attr_body_good e (conv o) p A N)).
Qed.
Lemma l_struct_attributes_err : forall (s : sdef V) conv o cs e, accepted_struct s ->
  let l := ref_tokens (derived_matches (s_attributes s)) o in
  let body := struct_attr_body s (conv o) (attr_names l) in
  Forall2 attr_content l cs -> fst (body cs) = Err e ->
  (Forall parsed_up (snd (body cs)) -> struct_parse_attributes s conv o = Err e) /\
  (struct_parse_attributes s conv o = Err e \/ exists sp, struct_parse_attributes s conv o = Err (err1 sp unexpected_token)).
Proof.
  intros s conv o cs e A l body F E. unfold struct_parse_attributes. fold l. split.
  - intro P. apply (l_attributes_err (struct_attr_body s (conv o)) (fun p => struct_attr_body_good s (conv o) p A) l cs e F E P).
  - apply (l_attributes_lost (struct_attr_body s (conv o)) (fun p => struct_attr_body_good s (conv o) p A) l cs e F E).
Qed.
Lemma l_enum_attributes_err : forall (en : edef V) conv o cs e,
  (forall pn, accepted_enum (TAttrs pn (conv o)) en) -> no_transparent_and_then en ->
  let l := ref_tokens (derived_matches (e_attributes en)) o in
  let body := enum_attr_body en (conv o) (attr_names l) in
  Forall2 attr_content l cs -> fst (body cs) = Err e ->
  (Forall parsed_up (snd (body cs)) -> enum_parse_attributes en conv o = Err e) /\
  (enum_parse_attributes en conv o = Err e \/ exists sp, enum_parse_attributes en conv o = Err (err1 sp unexpected_token)).
Proof.
  intros en conv o cs e A N l body F E. unfold enum_parse_attributes. fold l. split.
  - intro P. apply (l_attributes_err (enum_attr_body en (conv o)) (fun p => enum_attr_body_good en (conv o) p A N) l cs e F E P).
  - apply (l_attributes_lost (enum_attr_body en (conv o)) (fun p => enum_attr_body_good en (conv o) p A N) l cs e F E).
Qed.
Lemma l_items : forall (s : sdef V) tm prefix v sp inputs ws i f k ksp body seg,
  parse_run s tm prefix v sp inputs (Ok ws) -> named_struct s -> distinct_names s ->
  Forall local_field (s_raw s) ->
  In seg (items_of inputs) ->
  (exists k ksp body, item_key seg = Some (k, ksp, body)) /\
  (item_key seg = Some (k, ksp, body) -> nth_error (s_raw s) i = Some f -> pitem f = true -> named_by prefix f k ->
   exists w, accepts (item_named f (first_name f) ksp) body w).
Proof.
  intros s tm prefix v sp inputs ws i f k ksp body seg R NS DN LF I.
  destruct (run_body _ _ _ _ _ _ _ R) as [m E]; [apply NS|]. symmetry in E. apply struct_text in E as [vs [[IO _] _]]; auto.
  rewrite Forall_forall in IO. specialize (IO seg I). split.
  - destruct IO as [[j [w [k' [ksp' [b [g [K _]]]]]]]|[k' [ksp' [b [K _]]]]]; eauto.
  - intros K N P NB. pose proof (named_owner s tm prefix v k i f DN N P NB) as O.
    destruct IO as [[j [w [k' [ksp' [b [g [K' [O' A]]]]]]]]|[k' [ksp' [b [K' [O' _]]]]]]; rewrite K in K'; injection K' as <- <- <-; [|congruence].
    rewrite O in O'. injection O' as <- <-. eauto.
Qed.
End A.
