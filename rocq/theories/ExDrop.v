(** Concrete inputs for the examples of PropsDrop.v. *)
From Verif Require Export LemDrop4 ExStop.
Local Open Scope string_scope.
Local Open Scope list_scope.

Definition dr_vec : list token := Eval vm_compute in tk "1, true, 2 3, 4".
Definition dr_vec2 : list token := Eval vm_compute in tk "1, true, x y, 4".
Definition dr_set : list token := Eval vm_compute in tk "x, x, 3, y".
Definition dr_map : list token := Eval vm_compute in tk "a = 1, b = true, a = 2".
Definition dr_map2 : list token := Eval vm_compute in tk "b = true, a = 2, 3, c".
Definition dr_rest : list token := Eval vm_compute in tk "b = 1, a = 1 2, x = y, b = 2".
Definition dr_rest2 : list token := Eval vm_compute in tk "b = 1, a = 1 2, x = 4, b = 2".
Definition dr_rest3 : list token := Eval vm_compute in tk "x = y".
Definition dr_app : list token := Eval vm_compute in tk "a = 1, b = true, c, a = 2 3, a = 4".
Definition dr_row : list token := Eval vm_compute in tk "true, 1, 2 3".
Definition dr_row2 : list token := Eval vm_compute in tk "true, 1 2, 3".
Definition dr_row3 : list token := Eval vm_compute in tk "true, 1".
