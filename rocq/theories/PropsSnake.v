(** C76: the key of an enum variant, from its name. *)
From Verif Require Import LemSnake.

(** ** C76 A variant's key is its name in snake case *)

Theorem C76_text : forall s, snake_case s = snake_form s.
Proof. exact snake_case_form. Qed.
Print Assumptions C76_text.

(** in snake case, it does not change any more *)
Theorem C76_stable : forall s, snake_case (snake_case s) = snake_case s.
Proof. exact l_snake_stable. Qed.
Print Assumptions C76_stable.

(** it can be used as an identifier exactly if the first letter or digit is a letter *)
Theorem C76_identifier : forall s, identifier (snake_case s) <-> letter_first s.
Proof. exact l_snake_identifier. Qed.
Print Assumptions C76_identifier.
Theorem C76_ident_new : forall s, ident_text s = true <-> identifier s.
Proof. exact ident_text_eq. Qed.
Print Assumptions C76_ident_new.

Example C76_ex :
  map snake_form ["FooBar"; "HTTPServer2Go"; "__A__b1C"; "already_snake"; "X1"; "_1a"]%string =
    ["foo_bar"; "http_server2_go"; "a_b1_c"; "already_snake"; "x1"; "1a"]%string /\
  letter_first "__A__b1C" /\ ~ letter_first "_1a" /\ ~ letter_first "__".
Proof.
  split; [vm_compute; reflexivity|].
  split; [apply l_snake_ident; vm_compute; reflexivity|].
  split; rewrite <- l_snake_ident; vm_compute; discriminate.
Qed.
