(** The span a SpannedValue carries. *)
From Verif Require Import SpecDrop.

Section S.
Context `{env : Env}.
(** from [a] to [b]: the two joined if they can be, and [a] otherwise *)
Definition from_to (a b : span) : span := match env_join b a with Some c => c | None => a end.
(** the same in the other order *)
Definition on_to (a b : span) : span := match env_join a b with Some c => c | None => a end.
(** where a list of streams is *)
Definition all_at (l : list stream) : span := joined (map next_at l).
End S.
