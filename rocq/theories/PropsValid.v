(** C100: the prefix given to a validation. *)
From Verif Require Export SpecValid.
From Verif Require Import LemValid.

(** ** C100 The prefix given to a validation is part of every name it reports *)
(** `only_one` with a prefix is `only_one` of the attributes under their full names *)
Theorem C100_only_one : forall attrs prefix es,
  only_one attrs prefix es = only_one (under prefix attrs) "" es.
Proof. exact @l_valid_only. Qed.
Print Assumptions C100_only_one.

(** For `all_or_none` it is not so, although the documentation says it is: the name of the
    attribute that is present is reported without the prefix. *)
Theorem C100_all_or_none_refuted : exists attrs prefix es,
  all_or_none attrs prefix es <> all_or_none (under prefix attrs) "" es.
Proof. exact @l_valid_bad. Qed.
Print Assumptions C100_all_or_none_refuted.

(** That is all that differs: as many errors, at the same places, with the same text up to the last
    name. *)
Theorem C100_all_or_none_partial : forall attrs prefix es,
  exists new new',
    all_or_none attrs prefix es = es ++ new /\
    all_or_none (under prefix attrs) "" es = es ++ new' /\
    Forall2 (same_up_to_prefix prefix attrs) new new'.
Proof. exact @l_valid_all. Qed.
Print Assumptions C100_all_or_none_partial.

Example C100_ex :
  only_one [("a", Some (SAt 1)); ("b", Some (SAt 2))] "p" []
  = [mkErr (SAt 1) "only one of `p::a`, `p::b` is allowed";
     mkErr (SAt 2) "only one of `p::a`, `p::b` is allowed"] /\
  all_or_none [("a", None); ("b", Some (SAt 2))] "p" []
  = [mkErr (SAt 2) "`p::a` must also be set in order to use `b`"] /\
  all_or_none (under "p" [("a", None); ("b", Some (SAt 2))]) "" []
  = [mkErr (SAt 2) "`p::a` must also be set in order to use `p::b`"].
Proof. repeat split; reflexivity. Qed.
