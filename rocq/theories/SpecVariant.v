(** Vocabulary for C65: what can be written after the name of a variant. *)
From Verif Require Export SpecEnum SpecColl.

(** [body] is `(ts)`, `= {ts}` (named fields) or `= (ts)` (tuple and unit variants) *)
Inductive content (sh : shape) : list token -> list token -> Prop :=
| Co_list ts gsp : content sh [TGroup Paren ts gsp] ts
| Co_equals j esp ts gsp :
    content sh [TPunct eq_c j esp;
                TGroup (match sh with ShNamed => Brace | _ => Paren end) ts gsp] ts.
(** nothing, or only a comma *)
Definition blank (ts : list token) : Prop := ts = [] \/ exists t, comma_tok t /\ ts = [t].

Section V.
Context {V : Type}.
(** the struct with the fields of the variant *)
Definition as_struct (v : vdef V) : sdef V :=
  mkStruct (v_shape v) (v_raw v) None false (v_unknown_ok v) [] [].
(** a variant that the macro accepts, without flattened, appended or rest fields, and not
    transparent *)
Definition plain_variant (tm : tmode V) (v : vdef V) : Prop :=
  accepted_variant tm v /\ v_transparent v = false /\ existsb is_flat (v_raw v) = false.
(** the items [its] of a list of values that is written as [ts]: a list for a variant that
    takes no values may consist of a lone comma *)
Definition values_in (v : vdef V) (ts : list token) (its : list (list token)) : Prop :=
  its = items ts \/
  (its = [] /\ blank ts /\ forall f, In f (v_raw v) -> is_parsable f = false).
(** all values can be left out, by their defaults *)
Definition all_default (v : vdef V) : Prop :=
  forall f, In f (v_raw v) -> is_parsable f = true -> f_default f <> None.
End V.
