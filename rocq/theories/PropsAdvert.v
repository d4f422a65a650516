(** C44 for enums: the names an enum advertises. *)
From Verif Require Import ExAdvert.
Local Open Scope string_scope.
Local Open Scope list_scope.

(** ** C44 Advertised field names are exactly the keys that parse *)
(** An enum without a default parses only inputs whose keys it advertises, unless it or one of
    its flattened variants takes unknown keys. *)
Theorem C44_enum_rejected : forall (env : Env) V (e : edef V) tm sp inputs x,
  enum_run e tm "" true sp inputs (Ok x) -> proper_enum tm e -> flat_local e ->
  e_unknown_ok e = false -> e_default e = None ->
  (forall v, In v (e_variants e) -> v_flatten v = true -> ~ takes_all v) ->
  forall k ksp, In (k, ksp) (keys_in inputs) -> In k (fn_names (enum_fn e)).
Proof. exact @l_enum_known. Qed.
Print Assumptions C44_enum_rejected.
(** the name of a variant is advertised ... *)
Theorem C44_enum_listed : forall (env : Env) V (e : edef V) n,
  In n (variant_names e) -> In n (fn_names (enum_fn e)).
Proof. exact @variant_names_in. Qed.
Print Assumptions C44_enum_listed.
(** ... and looked at, with any prefix (C44_flattened: also if the enum is flattened) *)
Theorem C44_enum_looks : forall (env : Env) V (e : edef V) prefix n,
  proper_enum TMeta e -> In n (variant_names e) -> looks_at prefix (enum_fn e) n.
Proof. exact @l_enum_looks. Qed.
Print Assumptions C44_enum_looks.
(** the names of the fields of flattened variants are advertised ... *)
Theorem C44_enum_fields : forall (env : Env) V (e : edef V) v n,
  In v (e_variants e) -> v_flatten v = true -> In n (flat_names_of v) -> In n (fn_names (enum_fn e)).
Proof. exact @advert_fields. Qed.
Print Assumptions C44_enum_fields.
(** ... but beside the name of a variant nothing looks at them: `a, x = 1, x = q` is variant `a` *)
Theorem C44_enum_listed_refuted : exists (env : Env) (e : edef val) inputs sp x n,
  enum_run e TMeta "" true sp inputs (Ok x) /\ proper_enum TMeta e /\ flat_local e /\
  e_unknown_ok e = false /\ e_default e = None /\ In n (fn_names (enum_fn e)) /\
  length (part "" [n] (items_of inputs)) = 2.
Proof. exact ex_enum_unseen. Qed.
Print Assumptions C44_enum_listed_refuted.

Example C44_enum_ex :
  fn_names (enum_fn xf) = ["a"; "x"; "y"; "z"; "x"; "d"] /\ variant_names xf = ["a"] /\
  proper_enum TMeta xf /\ flat_local xf /\
  (forall v, In v (e_variants xf) -> v_flatten v = true -> ~ takes_all v) /\
  enum_run xf TMeta "" true (to_full_span Unnamed (xin "y = 2, x = 1")) (xin "y = 2, x = 1")
    (Ok (1, [VI 1; VO (Some (VI 2))])) /\
  map fst (keys_in (xin "y = 2, x = 1")) = ["y"; "x"] /\
  xmsgs (xrun xf "x = 1, y = 2, w = 2") = ["unknown field `w`"] /\
  xmsgs (xrun xf "a, w = 2") = ["unknown field `w`"].
Proof.
  split; [reflexivity|]. split; [reflexivity|]. split; [apply xf_proper|]. split; [apply xf_local|].
  split; [exact xf_bounded|].
  split. { assert (E : xrun xf "y = 2, x = 1" = Ok (1, [VI 1; VO (Some (VI 2))])) by (vm_compute; reflexivity). rewrite <- E. exact (xrun_run xf "y = 2, x = 1"). }
  repeat split; vm_compute; reflexivity.
Qed.
