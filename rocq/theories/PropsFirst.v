(** Property theorems: values that stand in a single attribute (C95).  Every proof is one
    [exact]; vocabulary in SpecAttr.v.

    [parse_first m item]: what a type that only says how its item is read does with the contents
    of all attributes. *)
From Verif Require Import SourceKit ExAttr ExEnum ExFirst.

(** ** C95 A value that is no list is read from the first attribute; the others are empty *)
(** For a transparent struct around such a type: that there are further attributes changes
    nothing, and they contain nothing but a comma. *)
Theorem C95_attributes : forall (env : Env) V (s : sdef V) conv a rest ws item,
  accepted_struct s -> s_is_transparent s = true ->
  (forall m l, d_inline (snd (s_inner s)) m l = parse_first m item l) ->
  derived_matches (s_attributes s) (a_path a) = true ->
  struct_parse_attributes s conv (ONode (a :: rest)) = Ok ws <->
  struct_parse_attributes s (fun _ => conv (ONode (a :: rest))) (ONode [a]) = Ok ws /\
  (forall b, In b rest -> derived_matches (s_attributes s) (a_path b) = true ->
   exists c, attr_content (attr_item b) c /\ used_up c).
Proof. exact @l_first_attribute. Qed.
Print Assumptions C95_attributes.

(** If there is no attribute, the errors are those for an empty one; the first of them is placed
    at the name, if one is known. *)
Theorem C95_none : forall (env : Env) A m (f : mode -> parser A) e, fst (parse_first m f []) = Err e ->
  exists e0, parse2 (f m) [] = Err e0 /\ map e_msg (errs_of e) = map e_msg (errs_of e0) /\ se_tl e = se_tl e0 /\
    e_span (se_hd e) = match m with Named sp => sp | Unnamed => SCall end.
Proof. exact @l_first_none. Qed.
Print Assumptions C95_none.

(** refuted: that [parse_first] itself ensures it, as its comment says; the other streams are left
    as they are *)
Theorem C95_helper_refuted : exists (env : Env) (f : mode -> parser Z) m s other v, toks other <> [] /\
  parse_first m f [s; other] = (Ok v, [mkStream [] (scope s) None; other]).
Proof. exact ex_first_rest. Qed.
Print Assumptions C95_helper_refuted.

Example C95_ex : accepted_struct xone /\ s_is_transparent xone = true /\
  (forall m l, d_inline (snd (s_inner xone)) m l = parse_first m (d_item i32) l) /\
  derived_matches (s_attributes xone) xname = true /\
  struct_parse_attributes xone (fun _ => VU) (xtwo "1" "") = Ok [VI 1] /\
  struct_parse_attributes xone (fun _ => VU) (xtwo "1" ",") = Ok [VI 1] /\
  is_ok (struct_parse_attributes xone (fun _ => VU) (xtwo "1" "2")) = false /\
  is_ok (struct_parse_attributes xone (fun _ => VU) (xtwo "" "2")) = false.
Proof. refine (conj xone_ok (conj eq_refl (conj xone_first (conj eq_refl ex_first)))). Qed.
Example C95_none_ex : let f m := d_item i32 m in
  match fst (parse_first (Named (SAt 4)) f []) with Err e => map (fun x => (e_msg x, e_span x)) (errs_of e) | _ => [] end =
  [("unexpected end of input, expected integer literal", SAt 4)].
Proof. vm_compute. reflexivity. Qed.

(** ** C91, continued: the default of the field of a transparent struct *)
(** refuted: the default is used if the struct is not transparent, and not if it is *)
Theorem C91_transparent_refuted : exists env : Env,
  deluxe_parse2 (struct_dict (src_sdef seven_world sx0 "struct S { #[deluxe(default = 7)] a: i32 }")) [] = Ok [VI 7] /\
  xmsgs (deluxe_parse2 (struct_dict (src_sdef seven_world sx0 "#[deluxe(transparent)] struct S { #[deluxe(default = 7)] a: i32 }")) []) =
  ["unexpected end of input, expected integer literal"].
Proof. exact ex_idle_transparent. Qed.
Print Assumptions C91_transparent_refuted.

(** it never matters *)
Theorem C91_transparent_idle : forall (env : Env) V (s t : sdef V), alike_transparent s t ->
  (forall m st, d_item (struct_dict s) m st = d_item (struct_dict t) m st) /\
  (forall m l, d_inline (struct_dict s) m l = d_inline (struct_dict t) m l) /\
  (forall sp, d_flag (struct_dict s) sp = d_flag (struct_dict t) sp) /\
  (forall n sp, d_missing (struct_dict s) n sp = d_missing (struct_dict t) n sp) /\
  (forall obj spans l, struct_attr_body s obj spans l = struct_attr_body t obj spans l).
Proof. exact @l_idle_transparent. Qed.
Print Assumptions C91_transparent_idle.

Example C91_transparent_ex : alike_transparent (seven None) (seven (Some (VI 7))) /\
  deluxe_parse2 (struct_dict (seven (Some (VI 7)))) (tk "3") = Ok [VI 3].
Proof. split; [exact seven_alike|vm_compute; reflexivity]. Qed.
