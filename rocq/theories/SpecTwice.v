(** Vocabulary for derive attributes that are given twice (PropsTwice.v) *)
From Verif Require Export SpecDiag.
Local Open Scope string_scope.
Local Open Scope list_scope.

(** among the entries [xs] there is one with key [k], which stands at [sp] and is not for
    another kind of item, after an earlier one with this key *)
Definition given_again {O} (k : string) (sp : span) (xs : list (aentry O)) : Prop :=
  exists a x b, xs = a ++ x :: b /\ In k (map entry_key a) /\
    ((exists o, x = Good k sp o) \/ (exists e, x = Wrong k sp e)).
(** the result is an error with, among others, the message [msg] at [sp] *)
Definition complains {A} (r : res A) (sp : span) (msg : string) : Prop :=
  exists e, r = Err e /\ In (mkErr sp msg) (errs_of e).
