(** C74: the texts of map keys. *)
From Verif Require Import LemKeyStr.

(** ** C74 Every key has one text, and distinct keys have distinct texts *)

(** with_key_string passes the documented text, whether the impl overrides it or formats into
    a SmallString, and does not panic *)
Theorem C74_text : forall R v (f : string -> R), with_key v f = Some (f (key_text v)).
Proof. exact l_with_key. Qed.
Print Assumptions C74_text.
Theorem C74_to_string : forall v, exists s, key_to_string v = Some s /\ ss_as_str s = key_text v.
Proof. exact l_key_to_string. Qed.
Print Assumptions C74_to_string.

(** keys of one type whose parts are not empty and contain no `,`, `)`, `]`, `}` or space *)
Theorem C74_distinct_partial : forall t v w,
  key_of clear_text t v -> key_of clear_text t w -> key_text v = key_text w -> v = w.
Proof. exact l_distinct. Qed.
Print Assumptions C74_distinct_partial.
(** not of other parts: `["a, b"]` and `["a", "b"]`, `[""]` and `[]` *)
Theorem C74_distinct_refuted : exists v w v' w',
  v <> w /\ key_of (fun _ => True) (TSeq TStr) v /\ key_of (fun _ => True) (TSeq TStr) w /\ key_text v = key_text w /\
  v' <> w' /\ key_of no_comma (TSeq TStr) v' /\ key_of no_comma (TSeq TStr) w' /\ key_text v' = key_text w'.
Proof. exact l_not_distinct. Qed.
Print Assumptions C74_distinct_refuted.

Example C74_ex :
  let v := KvTuple [KvPath [("a", None); ("b", None)]; KvOpt (Some (KvSeq [KvText "1"; KvText "2"]))] in
  key_of clear_text (TTuple [TPath; TOpt (TSeq TText)]) v /\ key_text v = "(a::b, Some([1, 2]))" /\
  with_key (KvMap [(KvStr "x", KvUnit); (KvStr "y", KvUnit)]) String.length = Some 16 /\
  key_text (KvMap [(KvStr "x", KvUnit); (KvStr "y", KvUnit)]) = "{x = (), y = ()}".
Proof. exact x_key. Qed.
