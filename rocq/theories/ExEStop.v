(** Concrete enums and inputs for PropsEStop.v. *)
From Verif Require Export SpecEStop LemEStop ExEnum.
Local Open Scope string_scope.
Local Open Scope list_scope.

(** `b(1), zz, t = 3 4, n(s = 1)` for the enum P of ExEnum.v: tokens are left after `t = 3` *)
Definition es_toks : list token := Eval vm_compute in tk "b(1), zz, t = 3 4, n(s = 1)".
Definition es_seg1 : list token := Eval vm_compute in firstn 2 es_toks.
Definition es_tl1 : list token := Eval vm_compute in skipn 2 es_toks.
Definition es_seg2 : list token := Eval vm_compute in firstn 1 (skipn 3 es_toks).
Definition es_tl2 : list token := Eval vm_compute in skipn 4 es_toks.
Definition es_seg3 : list token := Eval vm_compute in firstn 4 (skipn 5 es_toks).
Definition es_tl3 : list token := Eval vm_compute in skipn 9 es_toks.
Definition es_seg4 : list token := Eval vm_compute in skipn 10 es_toks.
Definition es_in : list stream := [root_stream es_toks].
Lemma es_reading : enum_reading xp TMeta "" es_in
  [(es_seg1, es_tl1); (es_seg2, es_tl2); (es_seg3, es_tl3)] [mkErr (SAt 16) "expected `,`"].
Proof.
  apply (ER_left_over xp TMeta "" es_in [] (root_stream es_toks) [] [(es_seg1, es_tl1); (es_seg2, es_tl2)] es_seg3 es_tl3
           [(es_seg4, [])] "t" (SAt 10) (tl es_seg3) 2 (mkVariant "T" ["t"] ShUnnamed [pos i32] false true false false)
           (TLit (LInt 4) (SAt 16)) []).
  - reflexivity.
  - vm_compute. reflexivity.
  - apply Forall_cons; [|apply Forall_cons; [|apply Forall_nil]].
    + eexists "b", _, _. split; [vm_compute; reflexivity|]. intros i v [N [O [n [I K]]]]. left. cbn [append] in K. subst n.
      destruct i as [|[|[|[|[|[|i]]]]]]; cbn in N; try discriminate; injection N as <-; cbn in I; try (intuition discriminate).
      exists [VI 1]. apply VV_fields; [reflexivity|]. intros tl sc c En. split; reflexivity.
    + eexists "zz", _, _. split; [vm_compute; reflexivity|]. intros i v [N [O [n [I K]]]]. exfalso. cbn [append] in K. subst n.
      destruct i as [|[|[|[|[|[|i]]]]]]; cbn in N; try discriminate; injection N as <-; cbn in I; intuition discriminate.
  - vm_compute. reflexivity.
  - split; [reflexivity|]. split; [split; reflexivity|]. exists "t". split; [cbn; auto|reflexivity].
  - cbn [variant_leaves v_transparent]. exists 0, (pos i32), i32. repeat split; try reflexivity. exists (VI 3).
    intros tl sc c E. split; reflexivity.
Qed.
Lemma xp_has_names : forall v, In v (e_variants xp) -> v_skip v = false -> v_names v <> [].
Proof. intros v I _. cbn in I. intuition (subst; discriminate). Qed.
Lemma es_result : xrun xp "b(1), zz, t = 3 4, n(s = 1)" =
  Err (mkSyn (two_variants "" "b" "t" (SAt 10)) [mkErr (SAt 16) "expected `,`"; mkErr (SAt 6) "unknown field `zz`"]).
Proof. vm_compute. reflexivity. Qed.
