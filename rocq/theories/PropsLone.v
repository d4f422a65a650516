(** Property theorems: an enum with a single variant, which is flattened.  Every proof is one
    [exact]; vocabulary in SpecEnum.v and SpecVariant.v.

    [as_struct v]: the struct with the fields of the variant [v].  [enum_run], [parse_run]: runs
    of the parsers generated for an enum and for a struct, here on the same input. *)
From Verif Require Import SourceKit ExLone.

(** ** C94 An enum with a single flattened variant is its struct *)
(** If all fields without a default are given ([all_present]), it accepts the same input, with
    the same values; if not, only its own default can be its value, whatever the keys are.  Its
    and_then functions come after that. *)
Theorem C94_enum : forall (env : Env) V (e : edef V) v tm validate validate' sp inputs r r' x,
  e_variants e = [v] -> v_flatten v = true -> v_skip v = false ->
  proper_enum tm e -> flat_local e ->
  enum_run e tm "" validate sp inputs r ->
  parse_run (as_struct v) tm "" validate' sp inputs r' -> (validate' = false <-> lenient (as_struct v)) ->
  r = Ok x <-> exists y, chained (e_and_thens e) y x /\
    ((exists vs, y = (0, vs) /\ r' = Ok vs /\ all_present v "" inputs) \/
     (~ all_present v "" inputs /\ keyed inputs /\ e_default e = Some y)).
Proof. exact @l_lone. Qed.
Print Assumptions C94_enum.

Example C94_ex : let env := lexer_env in
  (forall tm d ts, proper_enum tm (lone_e d ts)) /\ (forall d ts, flat_local (lone_e d ts)) /\
  all_present xf_X "" (xin "y = 2, x = 1") /\
  (forall d ts, e_variants (lone_e d ts) = [xf_X]) /\ v_flatten xf_X = true /\
  (true = false <-> lenient (as_struct xf_X)) /\
  fst (d_inline (struct_dict (as_struct xf_X)) Unnamed (xin "y = 2, x = 1")) = Ok [VI 1; VO (Some (VI 2))] /\
  xrun (lone_e None []) "y = 2, x = 1" = Ok (0, [VI 1; VO (Some (VI 2))]) /\
  fst (d_inline (struct_dict (as_struct xf_X)) Unnamed (xin "x = 1")) = Ok [VI 1; VO None] /\
  xmsgs (xrun (lone_e None []) "x = 1") = ["expected one of (`x`, `y`)"] /\
  xrun (lone_e (Some (0, [VI 7; VO None])) [lone_post]) "x = 1" = Ok (0, [VO None; VI 7]) /\
  xrun (lone_e (Some (0, [VI 7; VO None])) []) "q = 1" = Ok (0, [VI 7; VO None]).
Proof.
  refine (conj lone_proper (conj lone_local (conj lone_present (conj (fun _ _ => eq_refl) (conj eq_refl (conj _ _)))))).
  - split; [discriminate|]. intros [H|(f & [<-|[<-|[]]] & H)]; [discriminate H|destruct H|destruct H].
  - repeat split; vm_compute; reflexivity.
Qed.

(** It is not for every input: the struct accepts that an Option is left out, the enum does not. *)
Theorem C94_option_refuted : exists env : Env,
  deluxe_parse2 (struct_dict (src_sdef lone_types sx0 "struct T { a: Option<i32> }")) [] = Ok [VO None] /\
  xmsgs (deluxe_parse2 (enum_dict (src_edef lone_types ex0 "enum E { #[deluxe(flatten)] V { a: Option<i32> } }")) []) =
  ["expected one of `a`"].
Proof. exact ex_lone_option. Qed.
Print Assumptions C94_option_refuted.
(** Flattened with a prefix, a variant whose fields all have defaults does not accept its own keys:
    T is struct T { #[deluxe(default)] a: i32 }, and E is
    enum E { #[deluxe(flatten)] V { #[deluxe(default)] a: i32 } }. *)
Theorem C94_prefix_refuted : exists env : Env,
  deluxe_parse2 (struct_dict (src_sdef lone_more sx0 "struct S { #[deluxe(flatten(prefix = p))] f: T }")) (tk "p::a = 1") =
  Ok [VS [VI 1]] /\
  xmsgs (deluxe_parse2 (struct_dict (src_sdef lone_more sx0 "struct S { #[deluxe(flatten(prefix = p))] f: E }")) (tk "p::a = 1")) =
  ["unknown field `p::a`"; "expected one of p::fields from `V`"].
Proof. exact ex_lone_prefix. Qed.
Print Assumptions C94_prefix_refuted.
