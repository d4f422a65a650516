(** Inputs in two orders for the examples beside the theorems of PropsPerm.v; the struct P of
    ExFlat.v and the enum F of ExEnum.v *)
From Verif Require Export LemPerm ExPick.

Definition each (l : list string) : list stream := map (fun t => root_stream (tk t)) l.
Definition xq_in := each ["p::q::z = 4"; "v = 5"; "x = 2"; "a(1)"; "p::x = 3"; "v = 6"].
Definition xq_in2 := each ["a(1)"; "x = 2"; "v = 5"; "p::x = 3"; "v = 6"; "p::q::z = 4"].
Lemma fx_e_unordered : unordered (sfn fx_e).
Proof.
  apply l_unordered_map, l_struct_unordered; [apply fx_e_named|apply fx_e_local|]. apply Forall_cons; [discriminate|apply Forall_nil].
Qed.
Lemma fx_d_unordered : unordered (sfn fx_d).
Proof.
  apply l_unordered_map, l_struct_unordered; [apply fx_d_named|apply fx_d_local|].
  apply Forall_cons; [discriminate|]. apply Forall_cons; [intros _; exact fx_e_unordered|apply Forall_nil].
Qed.
Lemma fx_c_unordered : unordered (sfn fx_c).
Proof.
  apply l_unordered_map, l_struct_unordered; [apply fx_c_named|apply fx_c_local|]. repeat (apply Forall_cons; [discriminate|]). apply Forall_nil.
Qed.
Lemma xq_order : Forall (in_order "" xq_in xq_in2) (s_raw fx_p).
Proof.
  apply Forall_cons; [discriminate|]. apply Forall_cons; [intros _; exact fx_c_unordered|]. apply Forall_cons; [intros _; exact fx_d_unordered|].
  apply Forall_cons; [|apply Forall_nil]. intros _. cbn [f_kind fld]. split; [now left|]. split; [apply (l_vec_append_keys i32 VL), fine_i32|].
  vm_compute. reflexivity.
Qed.
Lemma items_each l : items_of (each l) = flat_map (fun t => items_of [root_stream (tk t)]) l.
Proof.
  unfold items_of, all_pieces, each. induction l as [|t l IH]; auto. cbn [map flat_map]. rewrite !map_app, IH. cbn [flat_map map app]. now rewrite app_nil_r.
Qed.
Lemma each_perm l l' : Permutation l l' -> Permutation (items_of (each l)) (items_of (each l')).
Proof. intro P. rewrite !items_each. now apply Permutation_flat_map. Qed.
Lemma xq_perm : Permutation (items_of xq_in) (items_of xq_in2).
Proof.
  apply each_perm. apply NoDup_Permutation; [repeat constructor; cbn; intuition discriminate|repeat constructor; cbn; intuition discriminate|].
  intro x. cbn. tauto.
Qed.
Lemma xq_run : fst (fn_parse (struct_fn fx_p) (Named SCall) "" true xq_in) = Ok fx_vs /\
  fst (fn_parse (struct_fn fx_p) (Named SCall) "" true xq_in2) = Ok fx_vs.
Proof. split; vm_compute; reflexivity. Qed.
Lemma xo_unordered : forall v, In v (e_variants xo) -> v_flatten v = true -> Forall unordered_field (v_raw v).
Proof.
  intros v I F. destruct I as [<-|[<-|[<-|[]]]]; [discriminate| |]; repeat (apply Forall_cons; [discriminate|]); apply Forall_nil.
Qed.
Lemma xo_textual : forall v, In v (e_variants xo) -> v_flatten v = true -> Forall textual_field (v_raw v).
Proof.
  intros v I F. destruct I as [<-|[<-|[<-|[]]]]; [discriminate| |]; repeat (apply Forall_cons; [discriminate|]); apply Forall_nil.
Qed.
(** `z = 3, b = 1` in one attribute and in two *)
Definition xo_two : list (list token) := [tk "z = 3"; tk "b = 1"].
Definition xo_one : list token := tk "z = 3" ++ TPunct "," false (SAt 9) :: tk "b = 1".
