(** Specification of C90: where an Errors comes from, and what happens to it. *)
From Verif Require Export SpecSmall.

(** *** How an Errors is made *)
Inductive start_errors : Type :=
| FromNothing
| FromError (e : synerr)
| FromErrors (l : list synerr).

Definition start_of (b : start_errors) : cerrors :=
  match b with
  | FromNothing => c_new
  | FromError e => c_from e
  | FromErrors l => c_from_iter l
  end.

Definition start_messages (b : start_errors) : list err :=
  match b with
  | FromNothing => []
  | FromError e => se_hd e :: se_tl e
  | FromErrors l => flat_map (fun e => se_hd e :: se_tl e) l
  end.

(** *** What is done to it afterwards *)
Inductive any_eop : Type :=
| Adds (o : eop)
| Clears.

Definition run_any (c : cerrors) (o : any_eop) : cerrors :=
  match o with Adds o => run_eop c o | Clears => c_clear c end.

(** The messages held in the end: all of them if it was never cleared, otherwise the ones
    that were added after it was cleared for the last time. *)
Inductive holds (b : start_errors) : list any_eop -> list err -> Prop :=
| HoldsAll : forall l, holds b (map Adds l) (start_messages b ++ flat_map pushed l)
| HoldsSince : forall before l, holds b (before ++ Clears :: map Adds l) (flat_map pushed l).
