(** Concrete sources for the examples of PropsTwice.v *)
From Verif Require Export LemTwice ExDiag.
Local Open Scope string_scope.
Local Open Scope list_scope.
Local Existing Instance lexer_env.

(** where the key is given again *)
Fixpoint again_at {O} (k : string) (seen : bool) (xs : list (aentry O)) : option span :=
  match xs with
  | [] => None
  | x :: xs' =>
    let on := String.eqb k (entry_key x) in
    match x with
    | Good _ sp _ | Wrong _ sp _ => if seen && on then Some sp else again_at k (seen || on) xs'
    | _ => again_at k (seen || on) xs'
    end
  end.
Lemma again_at_ok {O} k sp : forall (xs a : list (aentry O)) seen, again_at k seen xs = Some sp -> (seen = true -> In k (map entry_key a)) -> given_again k sp (a ++ xs).
Proof.
  induction xs as [|x xs IH]; intros a seen; cbn [again_at]; [discriminate|]. intros H S.
  assert (N : again_at k (seen || String.eqb k (entry_key x)) xs = Some sp -> given_again k sp (a ++ x :: xs)).
  { intro G. replace (a ++ x :: xs) with ((a ++ [x]) ++ xs) by (now rewrite <- app_assoc). apply (IH _ _ G). intro T. rewrite map_app. apply in_or_app.
    apply orb_true_iff in T as [T|T]; [left; auto|]. apply String.eqb_eq in T. subst k. right. now left. }
  destruct x as [k' sp' o|k' sp' e|k' sp' m|k' sp']; auto; cbn [entry_key] in *.
  - destruct (seen && String.eqb k k') eqn:T; auto. injection H as ->. apply andb_true_iff in T as [T1 T2]. apply String.eqb_eq in T2. subst k'. exists a, (Good k sp o), xs. split; auto. split; eauto.
  - destruct (seen && String.eqb k k') eqn:T; auto. injection H as ->. apply andb_true_iff in T as [T1 T2]. apply String.eqb_eq in T2. subst k'. exists a, (Wrong k sp e), xs. split; auto. split; eauto.
Qed.
Lemma use_again {O} (G : grammar O) k l sp : match entries_for G l with Some xs => again_at k false xs | None => None end = Some sp -> exists xs, has_entries G l xs /\ given_again k sp xs.
Proof.
  destruct (entries_for G l) as [xs|] eqn:E; [|discriminate]. apply entries_for_ok in E. intro H. exists xs. split; auto. apply (again_at_ok k sp xs [] false H). discriminate.
Qed.

(** #[deluxe(default, rest, default = 1)] a *)
Definition xt_f : src_field := nf "a" "default, rest, default = 1".
Lemma xt_f_again : exists sp xs, has_entries (grammar_f xsy xt_f) (sf_attrs xt_f) xs /\ given_again "default" sp xs.
Proof. eexists. apply use_again. vm_compute. reflexivity. Qed.
(** #[deluxe(crate = k, crate = l)] struct { .. } *)
Lemma xt_s_again : exists gs fes sp xs, fields_read xsy (ss_fields x_bads) gs fes /\ has_entries (grammar_s xsy (ss_shape x_bads) gs) (ss_attrs x_bads) xs /\ given_again "crate" sp xs.
Proof.
  assert (X : exists sp, match fields_for (ss_fields x_bads) with
    | Some (gs, fes) => match entries_for (grammar_s xsy (ss_shape x_bads) gs) (ss_attrs x_bads) with Some xs => again_at "crate" false xs | None => None end
    | None => None end = Some sp) by (eexists; vm_compute; reflexivity).
  destruct X as [sp X]. destruct (fields_for (ss_fields x_bads)) as [[gs fes]|] eqn:F; [|discriminate X]. apply fields_for_ok in F.
  apply use_again in X as [xs X]. exists gs, fes, sp, xs. auto.
Qed.
(** #[deluxe(skip, skip)] D *)
Definition xt_v : src_variant := sv "D" ShUnit [] "skip, skip".
Lemma xt_v_again : snake_ok xt_v /\ exists sp xs, fields_read xsy (sv_fields xt_v) [] [] /\ has_entries (grammar_v xt_v []) (sv_attrs xt_v) xs /\ given_again "skip" sp xs.
Proof.
  split; [apply snake_ok_text; reflexivity|]. assert (X : exists sp xs, has_entries (grammar_v xt_v []) (sv_attrs xt_v) xs /\ given_again "skip" sp xs).
  { eexists. apply use_again. vm_compute. reflexivity. }
  destruct X as [sp [xs X]]. exists sp, xs. split; [constructor|exact X].
Qed.
(** #[deluxe(crate = k, crate = l)] enum {} *)
Definition xt_e : src_enum := mkSrcEnum [] (at_ "crate = k, crate = l").
Lemma xt_e_again : exists sp xs, written_enum xt_e /\ variants_read xsy (se_variants xt_e) [] [] /\ has_entries (grammar_e xsy) (se_attrs xt_e) xs /\
  flatten_faults [] [] [] [] /\ default_fault [] xs [] /\ given_again "crate" sp xs.
Proof.
  assert (X : exists sp xs, has_entries (grammar_e xsy) (se_attrs xt_e) xs /\ given_again "crate" sp xs) by (eexists; apply use_again; vm_compute; reflexivity).
  destruct X as [sp [xs [X Y]]]. exists sp, xs. split; [constructor|]. split; [constructor|]. split; auto. split; [constructor|]. split; auto.
  apply DF_fine. right. intros h [].
Qed.
(** #[deluxe(skip, skip)] a *)
Lemma xt_skip : exists (env : Env) sy f xs sp, good_syn_lib sy /\ has_entries (grammar_f sy f) (sf_attrs f) xs /\ given_again "skip" sp xs /\
  exists e, read_field sy f = Err e /\ errs_of e = [mkErr sp "duplicate attribute for `container`"].
Proof.
  exists lexer_env, xsy, (nf "a" "skip, skip").
  assert (X : exists sp, match entries_for (grammar_f xsy (nf "a" "skip, skip")) (sf_attrs (nf "a" "skip, skip")) with Some xs => again_at "skip" false xs | None => None end = Some sp /\
    exists e, read_field xsy (nf "a" "skip, skip") = Err e /\ errs_of e = [mkErr sp "duplicate attribute for `container`"]).
  { eexists. split; [vm_compute; reflexivity|]. eexists. split; vm_compute; reflexivity. }
  destruct X as [sp [X Y]]. apply use_again in X as [xs [X Z]]. exists xs, sp. split; [apply xsy_good|]. auto.
Qed.
