(** Property theorems about the error accumulator (C90).  Lemmas in LemAccum.v,
    specification in SpecAccum.v. *)
From Verif Require Import LemAccum.

(** ** C90 An Errors holds what was added since it was last cleared *)
Theorem C90_contents : forall b ops, exists all, holds b ops all /\
  forall A (v : A) Q (item : list Q),
  let c := fold_left run_any ops (start_of b) in
  c_into_result c v = match all with [] => Ok v | e :: l => Err (mkSyn e l) end /\
  c_into_compile_error c = match all with [] => None | _ => Some all end /\
  c_into_iter c = map (fun e => mkSyn e []) all /\
  c_output_with c item = map inl item ++ map inr all.
Proof. exact l_made_errors. Qed.
Print Assumptions C90_contents.

(** collecting the single errors again gives the same accumulator *)
Theorem C90_collected : forall c, c_from_iter (c_into_iter c) = c.
Proof. exact l_iter_again. Qed.
Print Assumptions C90_collected.

(** into_compile_errors: "each token stream will contain one invocation" is not so *)
Theorem C90_one_each_refuted : exists c s,
  In s (c_into_compile_errors c) /\ length s = 2.
Proof. exact l_streams_refuted. Qed.
Print Assumptions C90_one_each_refuted.

(** all invocations are there, in order, but in a single stream *)
Theorem C90_one_each_partial : forall c,
  flat_map (fun s => s) (c_into_compile_errors c) = c_to_tokens c /\
  length (c_into_compile_errors c) <= 1.
Proof. exact l_streams. Qed.
Print Assumptions C90_one_each_partial.

Example C90_ex :
  let a := mkErr (SAt 1) "a" in let b := mkErr (SAt 2) "b" in let d := mkErr SCall "d" in
  let ops := [Adds (EPush (SAt 9) "x"); Clears; Adds (EExtend [mkSyn a [b]]);
              Adds (EPushCallSite "d")] in
  holds (FromError (err1 SCall "z")) ops [a; b; d] /\
  c_output_with (fold_left run_any ops (start_of (FromError (err1 SCall "z")))) [true]
  = [inl true; inr a; inr b; inr d].
Proof.
  split; [|reflexivity].
  apply (HoldsSince _ [Adds (EPush (SAt 9) "x")]
           [EExtend [mkSyn (mkErr (SAt 1) "a") [mkErr (SAt 2) "b"]]; EPushCallSite "d"]).
Qed.
