(** The order of strings, of sets of strings and of sets of those: that of a dictionary *)
From Verif Require Export Base.
From Coq Require Export Sorting.Sorted.

(** *** Order *)
(** the order of a dictionary *)
Inductive before {A} (lt : A -> A -> Prop) : list A -> list A -> Prop :=
| Be_end y l : before lt [] (y :: l)
| Be_here x y l m : lt x y -> before lt (x :: l) (y :: m)
| Be_later x l m : before lt l m -> before lt (x :: l) (x :: m).
Definition str_before (a b : string) : Prop :=
  before (fun c d => (N_of_ascii c < N_of_ascii d)%N)
         (list_ascii_of_string a) (list_ascii_of_string b).
Definition set_before : list string -> list string -> Prop := before str_before.
Definition sets_before : list (list string) -> list (list string) -> Prop := before set_before.
