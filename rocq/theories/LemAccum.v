(** Proofs about the error accumulator (C90). *)
From Verif Require Export LemSmall SpecAccum.

Lemma view_start : forall b, view (start_of b) = start_messages b.
Proof.
  intros [|[h t]|[|x l]]; try reflexivity. cbn [start_of c_from_iter view].
  rewrite view_extend. reflexivity.
Qed.

Lemma view_any : forall ops c, view (fold_left run_any (map Adds ops) c)
  = view c ++ flat_map pushed ops.
Proof.
  intros ops c. replace (fold_left run_any (map Adds ops) c) with (fold_left run_eop ops c);
    [apply view_run|].
  revert c. induction ops as [|o ops IH]; intros c; [reflexivity|]. cbn. apply IH.
Qed.

Lemma l_holds_some : forall b ops, exists all, holds b ops all.
Proof.
  intros b ops. induction ops as [|o ops IH] using rev_ind.
  - eexists. apply (HoldsAll b []).
  - destruct o as [o|].
    + destruct IH as [all H]. destruct H as [l|before l].
      * exists (start_messages b ++ flat_map pushed (l ++ [o])).
        replace (map Adds l ++ [Adds o]) with (map Adds (l ++ [o])) by apply map_app.
        constructor.
      * exists (flat_map pushed (l ++ [o])). rewrite <- app_assoc. cbn [app].
        replace (map Adds l ++ [Adds o]) with (map Adds (l ++ [o])) by apply map_app.
        constructor.
    + exists []. apply (HoldsSince b ops []).
Qed.

Lemma holds_view : forall b ops all, holds b ops all ->
  view (fold_left run_any ops (start_of b)) = all.
Proof.
  intros b ops all [l|before l].
  - now rewrite view_any, view_start.
  - rewrite fold_left_app. cbn [fold_left]. rewrite view_any. reflexivity.
Qed.

Lemma l_made_errors : forall b ops, exists all, holds b ops all /\
  forall A (v : A) Q (item : list Q),
  let c := fold_left run_any ops (start_of b) in
  c_into_result c v = match all with [] => Ok v | e :: l => Err (mkSyn e l) end /\
  c_into_compile_error c = match all with [] => None | _ => Some all end /\
  c_into_iter c = map (fun e => mkSyn e []) all /\
  c_output_with c item = map inl item ++ map inr all.
Proof.
  intros b ops. destruct (l_holds_some b ops) as [all H]. exists all. split; [exact H|].
  intros A v Q item. cbv zeta. apply holds_view in H.
  destruct (fold_left run_any ops (start_of b)) as [[h t]|]; cbn in H; subst all;
    repeat split; try reflexivity.
Qed.

Lemma l_iter_again : forall c, c_from_iter (c_into_iter c) = c.
Proof.
  intros [[h t]|]; [|reflexivity].
  cbn [c_into_iter syn_iter errs_of map c_from_iter se_hd se_tl]. f_equal.
  pose proof (view_extend (map (fun x => mkSyn x []) t) (mkSyn h [])) as H.
  destruct (syn_extend _ _) as [h' t']. unfold errs_of in H. cbn in H.
  injection H as -> ->. f_equal.
  clear. induction t as [|x t IH]; cbn; [reflexivity|now rewrite IH].
Qed.

Lemma l_streams : forall c,
  flat_map (fun s => s) (c_into_compile_errors c) = c_to_tokens c /\
  length (c_into_compile_errors c) <= 1.
Proof. intros [e|]; cbn; [rewrite app_nil_r|]; auto. Qed.

Lemma l_streams_refuted : exists c s,
  In s (c_into_compile_errors c) /\ length s = 2.
Proof.
  exists (Some (mkSyn (mkErr (SAt 1) "a") [mkErr (SAt 2) "b"])). eexists.
  split; [left; reflexivity|reflexivity].
Qed.
