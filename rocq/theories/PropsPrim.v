(** Property theorems: the types whose values are one or two tokens.  Every proof is one
    [exact]; vocabulary in SpecPrim.v.

    [simple_type A d w bare gone]: the type [A] is read by the implementation [d], [w b v]
    says that the tokens [b] are a spelling of the value [v], [bare v] that the name alone
    means [v], [gone v] that a missing item means [v]. *)
From Verif Require Import ExColl LemPrim.

(** ** C77 Every primitive type has exactly the spellings of its table *)
(** [reads p w]: [p] succeeds exactly when the input starts with a spelling, gives its value
    and leaves the rest *)
Theorem C77_item : forall (env : Env) A (d : dict A) w bare gone, simple_type A d w bare gone ->
  forall m, reads (d_item d m) w.
Proof. exact @l_reads. Qed.
Print Assumptions C77_item.

(** everything else is one error, placed at the next token or at the end *)
Theorem C77_error : forall (env : Env) A (d : dict A) w bare gone, simple_type A d w bare gone -> forall m s,
  (exists v s', d_item d m s = (Ok v, s')) \/
  exists sp msg s', d_item d m s = (Err (mkSyn (mkErr sp msg) []), s') /\ placed_next s sp.
Proof. exact @l_simple_err. Qed.
Print Assumptions C77_error.

(** after the name of an item: `= value`, `(value)`, `(value,)`, or nothing where the type allows it *)
Theorem C77_named : forall (env : Env) A (d : dict A) w bare gone, simple_type A d w bare gone -> forall n sp s v s',
  d_named d n sp s = (Ok v, s') <-> after_name w bare s v (toks s') /\ scope s' = scope s /\ cell s' = cell s.
Proof. exact @l_simple_named. Qed.
Print Assumptions C77_named.

Theorem C77_missing : forall (env : Env) A (d : dict A) w bare gone, simple_type A d w bare gone -> forall n sp v,
  d_missing d n sp = Ok v <-> gone v.
Proof. exact @l_simple_missing. Qed.
Print Assumptions C77_missing.

(** the content of one attribute: one value, with an optional trailing comma *)
Theorem C77_inline : forall (env : Env) A (d : dict A) w bare gone, simple_type A d w bare gone -> forall m s v s',
  d_inline d m [s] = (Ok v, [s']) <->
    exists b tl, w b v /\ (tl = [] \/ exists t, comma_tok t /\ tl = [t]) /\ toks s = b ++ tl /\
      s' = mkStream [] (scope s) (cell s).
Proof. exact @l_simple_inline. Qed.
Print Assumptions C77_inline.

Example C77_ex :
  fst (d_item (int_dict (sbits 8)) Unnamed (root_stream (tk "-128, x"))) = Ok (-128)%Z /\
  (exists e, fst (d_item (int_dict (sbits 8)) Unnamed (root_stream (tk "128"))) = Err e) /\
  fst (d_item u8_dict Unnamed (root_stream [TLit (LByte 65) SCall])) = Ok 65%Z /\
  fst (d_item float_dict Unnamed (root_stream (tk "-1.5"))) = Ok (true, "1.5") /\
  fst (d_named bool_dict "b" SCall (root_stream (tk ", c"))) = Ok true /\
  fst (d_named bool_dict "b" SCall (root_stream (tk "(false,), c"))) = Ok false /\
  (exists e, fst (d_named string_dict "s" SCall (root_stream (tk ", c"))) = Err e) /\
  (exists e, fst (d_item punct_dict Unnamed (root_stream (tk "'a"))) = Err e).
Proof. repeat split; try (eexists); vm_compute; reflexivity. Qed.
