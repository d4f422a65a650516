(** C88: what a bare name means. *)
From Verif Require Import LemBare ExBare.

(** ** C88 What an item means that is only a name *)
(** Every type has its answer, among those listed in [bare]: an error at the name for a type that
    needs a value, `true`, the empty value, what the type reads from nothing, or the answer of the
    type inside. *)
Theorem C88_answer : forall (env : Env) A (d : dict A) sp,
  has_answer A d -> exists own, bare A d sp own (d_flag d sp).
Proof. exact @l_bare_any. Qed.
Print Assumptions C88_answer.

(** and it has no other *)
Theorem C88_exact : forall (env : Env) A (d : dict A) sp own r, bare A d sp own r -> d_flag d sp = r.
Proof. exact @l_bare_sound. Qed.
Print Assumptions C88_exact.

(** The first error is at the name, unless it is the error of an `and_then` function. *)
Theorem C88_position : forall (env : Env) A (d : dict A) sp e,
  bare A d sp true (Err e) -> e_span (se_hd e) = sp.
Proof. exact @l_bare_at. Qed.
Print Assumptions C88_position.

(** This is what happens where neither `=` nor parentheses follow the name; nothing is read. *)
Theorem C88_spelled : forall (env : Env) A (d : dict A) n sp s,
  regular A d -> name_only (toks s) -> d_named d n sp s = (d_flag d sp, s).
Proof. exact @l_bare_spelled. Qed.
Print Assumptions C88_spelled.

(** The name of a variant alone *)
Theorem C88_variant : forall (env : Env) V (v : vdef V) tm prefix sp s r, name_only (toks s) ->
  v_named v tm prefix sp s = (r, s) <-> bare_variant v tm prefix sp r.
Proof. exact @l_bare_variant. Qed.
Print Assumptions C88_variant.

Example C88_ex : forall (sp : span),
  has_answer _ (option_dict (spanned_dict (struct_dict xb_s))) /\
  d_flag (option_dict (spanned_dict (struct_dict xb_s))) sp =
    Err (mkSyn (mkErr sp "missing required field `a`") [mkErr sp "missing required field `b`"]) /\
  d_flag (struct_dict xb_t) sp = Ok [VI 1; VI 7] /\
  d_flag (struct_dict xb_u) sp = Err (no_value sp) /\ needs_value _ (struct_dict xb_u) /\
  has_answer _ (struct_dict xt) /\ d_flag (struct_dict xt) sp = Err (no_value sp).
Proof. exact xb_bare. Qed.
Example C88_ex2 : name_only (tk ", b = 1") /\ regular _ (struct_dict xb_t).
Proof.
  split; [discriminate|]. apply Im_struct; [|discriminate|discriminate].
  intros f [<-|[<-|[]]]; cbn; apply Ft_item, Us_regular, Im_convert, Im_int.
Qed.
