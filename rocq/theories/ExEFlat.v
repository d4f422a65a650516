(** Concrete enums and inputs for PropsEFlat.v. *)
From Verif Require Export SpecEFlat LemEFlat ExEnum ExStop.
Local Open Scope string_scope.
Local Open Scope list_scope.

(** `x = 1, z = 2, y = 3, k::` for the enum of ExEnum.v with flattened variants: both X and Z have
    their fields *)
Definition ef_toks : list token := Eval vm_compute in tk "x = 1, z = 2, y = 3, k::, a".
Definition ef_seg1 : list token := Eval vm_compute in firstn 3 ef_toks.
Definition ef_tl1 : list token := Eval vm_compute in skipn 3 ef_toks.
Definition ef_seg2 : list token := Eval vm_compute in firstn 3 (skipn 4 ef_toks).
Definition ef_tl2 : list token := Eval vm_compute in skipn 7 ef_toks.
Definition ef_seg3 : list token := Eval vm_compute in firstn 3 (skipn 8 ef_toks).
Definition ef_tl3 : list token := Eval vm_compute in skipn 11 ef_toks.
Definition ef_seg4 : list token := Eval vm_compute in firstn 3 (skipn 12 ef_toks).
Definition ef_tl4 : list token := Eval vm_compute in skipn 15 ef_toks.
Definition ef_seg5 : list token := Eval vm_compute in skipn 16 ef_toks.
Definition ef_in : list stream := [root_stream ef_toks].
Lemma ef_reading : enum_reading xf TMeta "" ef_in
  [(ef_seg1, ef_tl1); (ef_seg2, ef_tl2); (ef_seg3, ef_tl3)] [mkErr (SAt 24) "expected path segment"].
Proof.
  apply (ER_no_key xf TMeta "" ef_in [] (root_stream ef_toks) [] [(ef_seg1, ef_tl1); (ef_seg2, ef_tl2); (ef_seg3, ef_tl3)]
           ef_seg4 ef_tl4 [(ef_seg5, [])]).
  - reflexivity.
  - vm_compute. reflexivity.
  - repeat (apply Forall_cons; [eexists _, _, _; split; [vm_compute; reflexivity|]; intros i v [N [O [n [I K]]]]; exfalso; cbn [append] in K; subst n;
      destruct i as [|[|[|[|i]]]]; cbn in N; [| | | |destruct i; discriminate]; injection N as <-; cbn in I; intuition discriminate|]).
    apply Forall_nil.
  - eapply (NK_dangling SCall [] [("k", SAt 21)] [TIdent "k" (SAt 21)]).
    + constructor.
    + constructor.
    + intros i sp r H. discriminate H.
    + apply AN_token.
Qed.
Lemma xf_keeps d : flat_keeps (mkEnum xf_vs d [] false []).
Proof.
  intros v I F. simpl in I. destruct I as [<-|[<-|[<-|[<-|[]]]]]; try discriminate;
    repeat (apply Forall_cons; [apply keeps_fine; cbn; auto using fine_i32, fine_str, fine_opt_|]); apply Forall_nil.
Qed.
Lemma xf_names d : forall v, In v (e_variants (mkEnum xf_vs d [] false [])) -> v_flatten v = false -> v_skip v = false -> v_names v <> [].
Proof. intros v I F _. simpl in I. destruct I as [<-|[<-|[<-|[<-|[]]]]]; discriminate. Qed.
Definition xf_X : vdef val := mkVariant "X" [] ShNamed [it "x" i32; it "y" (opt_ i32)] true false false false.
Lemma xf_choice l : map en_key l = ["x"; "z"; "y"] -> chosen_in xf "" l 1 xf_X.
Proof.
  intro KL. assert (KR : forall n, key_read "" n l <-> In n ["x"; "z"; "y"]).
  { intro n. unfold key_read. rewrite <- KL, in_map_iff. cbn [append]. firstorder. }
  assert (PX : present_in xf_X "" l).
  { intros f I _. destruct I as [<-|[<-|[]]]; [exists "x"|exists "y"]; (split; [now left|]); apply KR; cbn; auto. }
  assert (ND : needs xf_X) by (exists (it "x" i32); split; [now left|split; reflexivity]).
  split; [repeat split|]. split; auto. intros j w FW PW. split; auto. intros [NW|NN] a b RA RB; [|contradiction].
  assert (FNX : fields_named xf_X) by (intros f J _; simpl in J; repeat (destruct J as [<-|J]; [discriminate|]); destruct J).
  apply required_sets_of in RA; auto. subst a.
  destruct (flattened_in _ _ _ FW) as [IW FF]. apply required_sets_of in RB; [|apply (xf_local None w IW FF)]. subst b.
  destruct FW as [N _]. destruct j as [|[|[|[|j]]]]; cbn in N; [| | | |destruct j; discriminate]; injection N as <-.
  - discriminate FF.
  - right. split; [reflexivity|lia].
  - left. apply key_cmp_before. vm_compute. reflexivity.
  - exfalso. destruct NW as [f [[<-|[]] [_ D]]]. discriminate D.
Qed.
Lemma ef_result : fst (d_inline (enum_dict xf) Unnamed ef_in) =
  Err (mkSyn (mkErr (SAt 24) "expected path segment")
             [mkErr (SAt 7) "unknown field `z`"; mkErr (SAt 24) "expected path segment"]).
Proof. vm_compute. reflexivity. Qed.
