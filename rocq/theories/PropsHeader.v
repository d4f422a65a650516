(** C69: the headers of the generated ParseAttributes and ExtractAttributes impls. *)
From Verif Require Import LemHeader ExHeader ExSchema.

(** *** C69 *)

(** With a container field the impl is for the type held in that field (or the type given),
    under the lifetime given or implied; it asks for Clone exactly where the object is held
    by value.  Without one, it is for every type of object that has attributes, under new
    parameters. *)
Theorem C69_struct : forall ty_of m g d,
  (forall f c, first_says (i_fields d) f c ->
     exists h, struct_header ty_of m g d = Ok h /\ header_holding ty_of m g (ty_of (sf_ty (g_src f))) c h) /\
  (none_says (i_fields d) -> exists h, struct_header ty_of m g d = Ok h /\ header_for_all m g h).
Proof. exact @l_struct_header. Qed.
Print Assumptions C69_struct.
Theorem C69_enum : forall ty_of m g d, let fs := flat_map h_fields (j_variants d) in
  (forall f c, first_says fs f c ->
     exists h, enum_header ty_of m g d = Ok h /\ header_holding ty_of m g (ty_of (sf_ty (g_src f))) c h) /\
  (none_says fs -> exists h, enum_header ty_of m g d = Ok h /\ header_for_all m g h).
Proof. exact @l_enum_header. Qed.
Print Assumptions C69_enum.
(** every field type holds an object in exactly one way, and some lifetime or none is
    implied *)
Theorem C69_inside : forall fty, (exists ref rl t, inside fty ref rl t) /\
  (forall ref rl t ref' rl' t', inside fty ref rl t -> inside fty ref' rl' t' -> ref = ref' /\ rl = rl' /\ t = t') /\
  (forall lt0 rl t, exists lt, implied lt0 rl t lt).
Proof. exact @l_inside. Qed.
Print Assumptions C69_inside.
Example C69_ex_container : exists d, read_struct xsy x_cont = Ok d /\
  struct_header x_ty MParse (mkGen [PLife "t"] []) d =
  Ok (mkHeader [PLife "t"] [] (Some "t") (SPath false false [mkSeg "DeriveInput" ANone])).
Proof. exact x_cont_header. Qed.
Example C69_ex_says : forall d, read_struct xsy x_cont = Ok d -> exists f c, first_says (i_fields d) f c.
Proof. exact x_cont_says. Qed.
Example C69_ex_all : 
  make_header MParse (mkGen [PType "T"; PLife "t"; PType "T_"] []) None =
  Ok (mkHeader [PLife "t_"; PType "T__"; PType "T"; PLife "t"; PType "T_"]
               [WAttrs (SPath false false [mkSeg "T__" ANone])] (Some "t_") (SPath false false [mkSeg "T__" ANone])).
Proof. exact x_all_header. Qed.

(** the impl's parameters are distinct, and the item's are among them; full statement:
    without the condition on const parameters, which the search for a free name overlooks *)
Theorem C69_params_partial : forall ty_of m g fs h,
  impl_header ty_of m g fs h ->
  distinct_params (gn_params g) -> (forall k, ~ In (PConst (marked "T" k)) (gn_params g)) ->
  distinct_params (hd_params h) /\ incl (gn_params g) (hd_params h).
Proof. exact @l_header_params. Qed.
Print Assumptions C69_params_partial.
Theorem C69_params_refuted : forall ty_of d, none_says (i_fields d) ->
  exists m g h, distinct_params (gn_params g) /\ struct_header ty_of m g d = Ok h /\ ~ distinct_params (hd_params h).
Proof. exact @l_header_params_refuted. Qed.
Print Assumptions C69_params_refuted.

(** the lifetime and the type the impl names are ones it declares *)
Theorem C69_scoped : forall ty_of m g fs h,
  impl_header ty_of m g fs h ->
  (forall f c, first_says fs f c -> names_declared (ty_of (sf_ty (g_src f))) c g) ->
  (forall x, hd_lifetime h = Some x -> declared (hd_params h) x) /\
  (m = MParse -> hd_lifetime h <> None) /\
  (none_says fs -> is_param (hd_params h) (hd_ty h)).
Proof. exact @l_header_scoped. Qed.
Print Assumptions C69_scoped.

(** an item none of whose fields is a container should be parsed from any object, but
    `container = false` decides the type *)
Theorem C69_false_refuted : exists sy ty_of i d g h,
  read_struct (env := lexer_env) sy i = Ok d /\
  (forall f, In f (i_fields d) -> g_is_container f = false) /\
  struct_header ty_of MParse g d = Ok h /\
  ~ is_param (hd_params h) (hd_ty h).
Proof. exact @l_false_refuted. Qed.
Print Assumptions C69_false_refuted.

(** an impl for a type parameter should require that it has attributes, but with
    `container(ty = T)` it does not *)
Theorem C69_bound_refuted : exists m g fty lt0 ty0 h,
  make_header m g (Some (fty, lt0, ty0)) = Ok h /\
  is_param (gn_params g) (hd_ty h) /\ ~ In (WAttrs (hd_ty h)) (hd_where h).
Proof. exact @l_bound_refuted. Qed.
Print Assumptions C69_bound_refuted.

(** a container field is filled with the object; full statement: for every kind of field,
    but parsing panics for a mutable reference *)
Theorem C69_fill_partial : forall A m h (obj : A), (m = MExtract \/ (h <> HMut /\ h <> HSomeMut)) ->
  exists st, container_from m h obj = Ok st /\ fills h obj st.
Proof. exact @l_fill. Qed.
Print Assumptions C69_fill_partial.
Theorem C69_fill_refuted : exists m h (obj : nat), container_from m h obj = Bad Panic.
Proof. exact @l_fill_refuted. Qed.
Print Assumptions C69_fill_refuted.
