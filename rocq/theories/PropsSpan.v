(** C89: the span a SpannedValue carries. *)
From Verif Require Import LibPrim LibColl SpecDrop SpecSpan LemSpan Lexer TestKit.
Import ListNotations.
Open Scope string_scope.
Open Scope list_scope.

(** ** C89 Where a SpannedValue says it was *)
(** [next_at s]: the span of the next token of [s] (for a group, of its opening delimiter), or
    of the end of [s].  [from_to a b]: [b] and [a] joined, [a] if they cannot be.  So the
    span runs from the first token of the value to the token behind it. *)
Theorem C89_item : forall (env : Env) A (d : dict A) m s v sp s1,
  d_item (spanned_dict d) m s = (Ok (v, sp), s1) <->
  d_item d m s = (Ok v, s1) /\ sp = from_to (next_at s) (next_at s1).
Proof. exact @l_span_item. Qed.
Print Assumptions C89_item.

(** after a key, from the key *)
Theorem C89_named : forall (env : Env) A (d : dict A) n at_ s v sp s1,
  d_named (spanned_dict d) n at_ s = (Ok (v, sp), s1) <->
  d_named d n at_ s = (Ok v, s1) /\ sp = from_to at_ (next_at s1).
Proof. exact @l_span_named. Qed.
Print Assumptions C89_named.

(** for a key alone, the key *)
Theorem C89_flag : forall (env : Env) A (d : dict A) at_ v sp,
  d_flag (spanned_dict d) at_ = Ok (v, sp) <-> d_flag d at_ = Ok v /\ sp = at_.
Proof. exact @l_span_flag. Qed.
Print Assumptions C89_flag.

(** inline, from the first stream to where the last one is afterwards; the macro call if these
    cannot be joined or there is no stream *)
Theorem C89_inline : forall (env : Env) A (d : dict A) m s l v sp l1 z,
  d_inline (spanned_dict d) m (s :: l) = (Ok (v, sp), l1 ++ [z]) <->
  d_inline d m (s :: l) = (Ok v, l1 ++ [z]) /\
  sp = match env_join (next_at z) (next_at s) with Some c => c | None => SCall end.
Proof. exact @l_span_inline. Qed.
Print Assumptions C89_inline.
Theorem C89_inline_none : forall (env : Env) A (d : dict A) m v sp l1,
  d_inline (spanned_dict d) m [] = (Ok (v, sp), l1) <-> d_inline d m [] = (Ok v, l1) /\ sp = SCall.
Proof. exact @l_span_nothing. Qed.
Print Assumptions C89_inline_none.

(** flattened, appended and rest fields: from where all the streams were to where they are
    afterwards *)
Theorem C89_flat : forall (env : Env) A (u : flat_unnamed A) (w : flat_named A) (a : append_fn A) (r : rest_fn A)
    inputs v sp l1,
  (forall m i, fu_parse (spanned_fu u) m i inputs = (Ok (v, sp), l1) <->
     fu_parse u m i inputs = (Ok v, l1) /\ sp = on_to (all_at inputs) (all_at l1)) /\
  (forall m p b, fn_parse (spanned_fn w) m p b inputs = (Ok (v, sp), l1) <->
     fn_parse w m p b inputs = (Ok v, l1) /\ sp = on_to (all_at inputs) (all_at l1)) /\
  (forall ps, spanned_append a ps inputs = (Ok (v, sp), l1) <->
     a ps inputs = (Ok v, l1) /\ sp = on_to (all_at inputs) (all_at l1)) /\
  (forall ex, spanned_rest r ex inputs = (Ok (v, sp), l1) <->
     r ex inputs = (Ok v, l1) /\ sp = on_to (all_at inputs) (all_at l1)).
Proof. exact @l_span_flat. Qed.
Print Assumptions C89_flat.

(** where spans cannot be joined, an inline SpannedValue forgets where its tokens were *)
Theorem C89_inline_refuted : exists (env : Env) A (d : dict A) s t rest v,
  toks s = t :: rest /\ tok_open_span t <> SCall /\
  d_inline (spanned_dict d) Unnamed [s] = (Ok (v, SCall), [set_toks s []]).
Proof. exact l_span_inline_lost. Qed.
Print Assumptions C89_inline_refuted.

Example C89_ex :
  let s := mkStream [TIdent "true" (SAt 4); TPunct comma_c false (SAt 8)] (SAt 9) None in
  let s1 := mkStream [TPunct comma_c false (SAt 8)] (SAt 9) None in
  @d_item (bool * span) (@spanned_dict stable_env bool bool_dict) Unnamed s = (Ok (true, SAt 4), s1) /\
  @d_item (bool * span) (@spanned_dict lexer_env bool bool_dict) Unnamed s = (Ok (true, SAt 8), s1) /\
  @d_inline (bool * span) (@spanned_dict lexer_env bool bool_dict) Unnamed [s] =
    (Ok (true, SAt 9), [set_toks s []]).
Proof. vm_compute. repeat split; reflexivity. Qed.
