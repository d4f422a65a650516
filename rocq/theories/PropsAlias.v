(** Property theorems: the different names of a field or variant.  Every proof is one [exact];
    vocabulary in SpecAlias.v, types of the examples in ExAlias.v.

    [rekeyed same]: the same item, or the same value after another key, as [same] allows. *)
From Verif Require Import SourceKit ExAlias.
Local Open Scope string_scope.

(** ** C105 Any of its names can be used for a field or variant *)
(** [aliases s prefix k k']: the keys are two names of one field of [s].  The flattened fields
    see only their own keys ([routes], [separate]: C23). *)
Theorem C105_struct : forall (env : Env) V (s : sdef V) tm prefix v sp inputs inputs' r r' ws,
  parse_run s tm prefix v sp inputs r -> parse_run s tm prefix v sp inputs' r' ->
  named_struct s -> Forall local_field (s_raw s) -> is_prefix prefix -> Forall (routes prefix) (s_raw s) -> separate s ->
  Forall2 (rekeyed (aliases s prefix)) (items_of inputs) (items_of inputs') ->
  r = Ok ws <-> r' = Ok ws.
Proof. exact @l_alias. Qed.
Print Assumptions C105_struct.
(** So it is for the names of a flattened struct, ... *)
Theorem C105_flattened : forall (env : Env) V (s : sdef V) prefix,
  named_struct s -> Forall local_field (s_raw s) -> is_prefix prefix -> Forall (routes prefix) (s_raw s) -> separate s ->
  interchangeable prefix (struct_fn s) (aliases s prefix).
Proof. exact @l_alias_flattened. Qed.
Print Assumptions C105_flattened.
(** ... at any depth: [same] are the names of something inside of the type [u]. *)
Theorem C105_nested : forall (env : Env) V (s : sdef V) tm prefix v sp inputs inputs' r r' ws f p u (same : string -> string -> Prop),
  parse_run s tm prefix v sp inputs r -> parse_run s tm prefix v sp inputs' r' ->
  named_struct s -> Forall local_field (s_raw s) -> is_prefix prefix -> Forall (routes prefix) (s_raw s) -> separate s ->
  (v = true -> prefix = "") -> In f (s_raw s) -> pflat f = true -> f_kind f = KFlatN p u ->
  interchangeable (below prefix p) u same -> among (below prefix p) u same ->
  Forall2 (rekeyed same) (items_of inputs) (items_of inputs') ->
  r = Ok ws -> r' = Ok ws.
Proof. exact @l_alias_nested. Qed.
Print Assumptions C105_nested.
Theorem C105_deeper : forall (env : Env) V (s : sdef V) prefix f p u (same : string -> string -> Prop),
  named_struct s -> Forall local_field (s_raw s) -> is_prefix prefix -> Forall (routes prefix) (s_raw s) -> separate s ->
  In f (s_raw s) -> pflat f = true -> f_kind f = KFlatN p u ->
  interchangeable (below prefix p) u same -> among (below prefix p) u same ->
  interchangeable prefix (struct_fn s) same.
Proof. exact @l_alias_deeper. Qed.
Print Assumptions C105_deeper.
(** Append fields: the items can have any of its names, the value is the same list. *)
Theorem C105_append : forall (env : Env) V (s : sdef V) tm prefix v sp inputs inputs' r r' ws f a,
  parse_run s tm prefix v sp inputs r -> parse_run s tm prefix v sp inputs' r' ->
  named_struct s -> Forall local_field (s_raw s) -> is_prefix prefix -> Forall (routes prefix) (s_raw s) -> separate s ->
  (v = true -> prefix = "") -> In f (s_raw s) -> pflat f = true -> f_kind f = KAppend a -> append_any_name a ->
  Forall2 (rekeyed (fun k k' => named_by prefix f k /\ named_by prefix f k')) (items_of inputs) (items_of inputs') ->
  r = Ok ws <-> r' = Ok ws.
Proof. exact @l_alias_append. Qed.
Print Assumptions C105_append.
Theorem C105_append_vec : forall (env : Env) B C (d : dict B) (g : list B -> C), fine d -> nameless_value d ->
  append_any_name (fun ps => pmap g (vec_append d ps)).
Proof. exact @l_alias_vec. Qed.
Print Assumptions C105_append_vec.
Theorem C105_append_set : forall (env : Env) B C eqb (d : dict B) (g : list B -> C), fine d -> nameless_value d ->
  append_any_name (fun ps => pmap g (set_append eqb d ps)).
Proof. exact @l_alias_set. Qed.
Print Assumptions C105_append_set.
(** Variants: [variant_aliases e prefix k k']: the keys are two names of one variant of [e]. *)
Theorem C105_enum : forall (env : Env) V (e : edef V) tm prefix validate sp inputs inputs' r r' x,
  enum_run e tm prefix validate sp inputs r -> enum_run e tm prefix validate sp inputs' r' ->
  proper_enum tm e -> flat_local e ->
  (forall v, In v (e_variants e) -> v_flatten v = true -> Forall textual_field (v_raw v)) ->
  (validate = true -> prefix = "") -> (forall v, In v (e_variants e) -> any_name v) ->
  Forall2 (rekeyed (variant_aliases e prefix)) (items_of inputs) (items_of inputs') ->
  r = Ok x <-> r' = Ok x.
Proof. exact @l_enum_alias. Qed.
Print Assumptions C105_enum.
(** Not true for the fields of flattened variants: one of the names of a field may be a name of
    a field of another variant. *)
Theorem C105_flattened_variant_refuted : exists (env : Env) (e : edef val), e = src_edef lone_types ex0
    "enum E { #[deluxe(flatten)] V { #[deluxe(alias = z)] y: i32 }, #[deluxe(flatten)] W { #[deluxe(alias = x)] z: i32 } }" /\
  deluxe_parse2 (enum_dict e) (tk "y = 1") = Ok (0, [VI 1]) /\
  deluxe_parse2 (enum_dict e) (tk "z = 1") = Ok (1, [VI 1]).
Proof. exact ex_alias_flat. Qed.
Print Assumptions C105_flattened_variant_refuted.

Example C105_struct_ex : named_struct xl /\ Forall local_field (s_raw xl) /\ Forall (routes "") (s_raw xl) /\ separate xl /\
  Forall2 (rekeyed (aliases xl "")) (items_of (xl_in "a" "x")) (items_of (xl_in "b" "x")) /\
  fst (d_inline (struct_dict xl) Unnamed (xl_in "a" "x")) = Ok [VI 1; VS [VI 2]] /\
  fst (d_inline (struct_dict xl) Unnamed (xl_in "b" "x")) = Ok [VI 1; VS [VI 2]].
Proof.
  refine (conj xl_named (conj xl_local (conj xl_routes (conj xl_separate (conj xl_own _))))). split; vm_compute; reflexivity.
Qed.
Example C105_nested_ex :
  interchangeable (below "" (Some "p")) (sfn xl_c) (aliases xl_c "p::") /\ among (below "" (Some "p")) (sfn xl_c) (aliases xl_c "p::") /\
  Forall2 (rekeyed (aliases xl_c "p::")) (items_of (xl_in "a" "x")) (items_of (xl_in "a" "y")) /\
  fst (d_inline (struct_dict xl) Unnamed (xl_in "a" "y")) = Ok [VI 1; VS [VI 2]].
Proof.
  refine (conj (proj1 xl_inner_ok) (conj (proj2 xl_inner_ok) (conj xl_inner _))). vm_compute. reflexivity.
Qed.
Example C105_enum_ex : proper_enum TMeta xk /\ flat_local xk /\ (forall v, In v (e_variants xk) -> any_name v) /\
  Forall2 (rekeyed (variant_aliases xk "")) (items_of (xin "n(5)")) (items_of (xin "k(5)")) /\
  fst (d_inline (enum_dict xk) Unnamed (xin "n(5)")) = Ok (0, [VI 5]) /\
  fst (d_inline (enum_dict xk) Unnamed (xin "k(5)")) = Ok (0, [VI 5]).
Proof.
  refine (conj xk_proper (conj xk_local (conj xk_any (conj xk_items _)))). split; vm_compute; reflexivity.
Qed.
Example C105_append_ex : named_struct ex_app /\ Forall local_field (s_raw ex_app) /\ Forall (routes "") (s_raw ex_app) /\ separate ex_app /\
  append_any_name (fun ps => pmap VL (vec_append i32 ps)) /\
  fst (d_inline (struct_dict ex_app) Unnamed (xin "v = 1, a = 1, v = 2")) = Ok [VI 1; VL [VI 1; VI 2]] /\
  fst (d_inline (struct_dict ex_app) Unnamed (xin "v = 1, a = 1, w = 2")) = Ok [VI 1; VL [VI 1; VI 2]].
Proof.
  destruct ex_append as [N [L _]]. refine (conj N (conj L (conj xapp_routes (conj xapp_separate (conj xapp_any _))))). split; vm_compute; reflexivity.
Qed.
