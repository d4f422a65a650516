(** Concrete inputs for the examples of PropsStop.v. *)
From Verif Require Export LemStop ExFlat.
Local Open Scope string_scope.
Local Open Scope list_scope.

Lemma keeps_fine (f : field val) : match f_kind f with KItem d => fine d | _ => True end -> keeps_field f.
Proof.
  intros F P n nsp. unfold item_named, pitem, is_flat in *.
  destruct (f_kind f) as [d| | | |]; try (cbn [negb] in P; rewrite andb_false_r in P; discriminate).
  now apply fine_keeps_named.
Qed.
Lemma fx_p_keeps : Forall keeps_field (s_raw fx_p).
Proof. repeat (apply Forall_cons; [apply keeps_fine; cbn; auto using fine_i32, fine_str, fine_opt_|]). apply Forall_nil. Qed.

(** tokens left after a value: `n = 1, a = 1 2, n = 3` *)
Definition over_toks : list token := Eval vm_compute in tk "n = 1, a = 1 2, n = 3".
Definition over_seg1 : list token := Eval vm_compute in firstn 3 over_toks.
Definition over_tl1 : list token := Eval vm_compute in skipn 3 over_toks.
Definition over_seg2 : list token := Eval vm_compute in firstn 4 (skipn 4 over_toks).
Definition over_tl2 : list token := Eval vm_compute in skipn 8 over_toks.
Definition over_seg3 : list token := Eval vm_compute in skipn 9 over_toks.
Definition ex_over : list stream := [root_stream over_toks].
Lemma ex_over_reading :
  reading (struct_reader ex_s TMeta "" true) ex_over
    [(over_seg1, over_tl1); (over_seg2, over_tl2)] [mkErr (SAt 13) "expected `,`"].
Proof.
  apply (Rd_left_over _ ex_over [] (root_stream over_toks) [] [(over_seg1, over_tl1)] over_seg2 over_tl2 [(over_seg3, [])]
           "a" (SAt 7) (tl over_seg2) 0 (it "a" i32) (TLit (LInt 2) (SAt 13)) []).
  - reflexivity.
  - vm_compute. reflexivity.
  - apply Forall_cons; [|apply Forall_nil]. sound1 acc.
  - vm_compute. reflexivity.
  - reflexivity.
  - eexists. intros tl sc c E. split; reflexivity.
Qed.

(** an item without a key in an input for a struct with flattened fields: `x = 2, a::, zz = 1` *)
Definition bad_toks : list token := Eval vm_compute in tk "x = 2, a::, zz = 1".
Definition bad_seg1 : list token := Eval vm_compute in firstn 3 bad_toks.
Definition bad_tl1 : list token := Eval vm_compute in skipn 3 bad_toks.
Definition bad_seg2 : list token := Eval vm_compute in firstn 3 (skipn 4 bad_toks).
Definition bad_tl2 : list token := Eval vm_compute in skipn 7 bad_toks.
Definition bad_seg3 : list token := Eval vm_compute in skipn 8 bad_toks.
Definition fx_bad : list stream := [root_stream bad_toks].
Lemma fx_bad_reading :
  reading (struct_reader fx_p TMeta "" true) fx_bad [(bad_seg1, bad_tl1)] [mkErr (SAt 10) "expected path segment"].
Proof.
  apply (Rd_no_key _ fx_bad [] (root_stream bad_toks) [] [(bad_seg1, bad_tl1)] bad_seg2 bad_tl2 [(bad_seg3, [])]).
  - reflexivity.
  - vm_compute. reflexivity.
  - apply Forall_cons; [|apply Forall_nil]. sound1 idtac.
  - eapply (NK_dangling SCall [] [("a", SAt 7)] [TIdent "a" (SAt 7)]).
    + constructor.
    + constructor.
    + intros i sp r H. discriminate H.
    + apply AN_token.
Qed.
