(** Proofs about the span a SpannedValue carries. *)
From Verif Require Import LibPrim SpecDrop SpecSpan Lexer TestKit.
Import ListNotations.
Open Scope list_scope.

Section S.
Context `{env : Env}.

Lemma at_same s : in_span s = next_at s.
Proof. unfold in_span, next_at. destruct (toks s); reflexivity. Qed.

Lemma fold_same : forall l a, fold_left (fun sp n => join_or sp (in_span n) sp) l a =
  fold_left (fun a b => match env_join a b with Some c => c | None => a end) (map next_at l) a.
Proof.
  induction l as [|s l IH]; intros a; [reflexivity|]. cbn [fold_left map]. rewrite IH.
  unfold join_or. rewrite at_same. reflexivity.
Qed.
Lemma all_same l : inputs_span l = all_at l.
Proof.
  unfold all_at, joined, inputs_span. destruct l as [|s l]; [reflexivity|]. cbn [map].
  rewrite fold_same, at_same. reflexivity.
Qed.

Lemma with_span {A S} (r : res A) (s1 s1' : S) (f : span) v sp :
  (rmap (fun v => (v, f)) r, s1) = (Ok (v, sp), s1') <-> (r, s1) = (Ok v, s1') /\ sp = f.
Proof.
  split.
  - destruct r; cbn [rmap]; intros H; inversion H; subst. split; reflexivity.
  - intros [H ->]. inversion H. subst. reflexivity.
Qed.

Lemma l_span_item {A} (d : dict A) m s v sp s1 :
  d_item (spanned_dict d) m s = (Ok (v, sp), s1) <->
  d_item d m s = (Ok v, s1) /\ sp = from_to (next_at s) (next_at s1).
Proof.
  unfold spanned_dict, sv_item. cbn [d_item]. destruct (d_item d m s) as [r s2] eqn:E. rewrite with_span.
  unfold join_or, from_to. rewrite !at_same.
  split; intros [H ->]; (split; [exact H|]); inversion H; subst; reflexivity.
Qed.

Lemma l_span_named {A} (d : dict A) n at_ s v sp s1 :
  d_named (spanned_dict d) n at_ s = (Ok (v, sp), s1) <->
  d_named d n at_ s = (Ok v, s1) /\ sp = from_to at_ (next_at s1).
Proof.
  unfold spanned_dict, sv_named. cbn [d_named]. destruct (d_named d n at_ s) as [r s2] eqn:E. rewrite with_span.
  unfold join_or, from_to. rewrite !at_same.
  split; intros [H ->]; (split; [exact H|]); inversion H; subst; reflexivity.
Qed.

Lemma l_span_flag {A} (d : dict A) at_ v sp :
  d_flag (spanned_dict d) at_ = Ok (v, sp) <-> d_flag d at_ = Ok v /\ sp = at_.
Proof.
  unfold spanned_dict. cbn [d_flag]. destruct (d_flag d at_) as [x|e|k]; cbn [rmap].
  - split; [intros H; inversion H; subst; auto|intros [H ->]; inversion H; reflexivity].
  - split; [discriminate|intros [H _]; discriminate].
  - split; [discriminate|intros [H _]; discriminate].
Qed.

Lemma l_span_inline {A} (d : dict A) m s l v sp l1 z :
  d_inline (spanned_dict d) m (s :: l) = (Ok (v, sp), l1 ++ [z]) <->
  d_inline d m (s :: l) = (Ok v, l1 ++ [z]) /\
  sp = match env_join (next_at z) (next_at s) with Some c => c | None => SCall end.
Proof.
  unfold spanned_dict, sv_inline. cbn [d_inline]. destruct (d_inline d m (s :: l)) as [r l2] eqn:E. rewrite with_span.
  assert (X : l2 = l1 ++ [z] -> match l2 with [] => SCall | _ :: _ => join_or (in_span (last l2 s)) (in_span s) SCall end =
    match env_join (next_at z) (next_at s) with Some c => c | None => SCall end).
  { intros ->. rewrite last_last, (at_same z), (at_same s). destruct l1; reflexivity. }
  split; intros [H ->]; (split; [exact H|]).
  - apply X. congruence.
  - symmetry. apply X. congruence.
Qed.
Lemma l_span_nothing {A} (d : dict A) m v sp l1 :
  d_inline (spanned_dict d) m [] = (Ok (v, sp), l1) <-> d_inline d m [] = (Ok v, l1) /\ sp = SCall.
Proof.
  unfold spanned_dict, sv_inline. cbn [d_inline]. destruct (d_inline d m []) as [r l2] eqn:E. apply with_span.
Qed.

Lemma sv_multi_span {A} (p : mparser A) inputs v sp l1 :
  sv_multi p inputs = (Ok (v, sp), l1) <->
  p inputs = (Ok v, l1) /\ sp = on_to (all_at inputs) (all_at l1).
Proof.
  unfold sv_multi. destruct (p inputs) as [r l2] eqn:E. rewrite with_span. unfold join_or, on_to. rewrite !all_same.
  split; intros [H ->]; (split; [exact H|]); inversion H; subst; reflexivity.
Qed.
Lemma l_span_flat {A} (u : flat_unnamed A) (w : flat_named A) (a : append_fn A) (r : rest_fn A) inputs v sp l1 :
  (forall m i, fu_parse (spanned_fu u) m i inputs = (Ok (v, sp), l1) <->
     fu_parse u m i inputs = (Ok v, l1) /\ sp = on_to (all_at inputs) (all_at l1)) /\
  (forall m p b, fn_parse (spanned_fn w) m p b inputs = (Ok (v, sp), l1) <->
     fn_parse w m p b inputs = (Ok v, l1) /\ sp = on_to (all_at inputs) (all_at l1)) /\
  (forall ps, spanned_append a ps inputs = (Ok (v, sp), l1) <->
     a ps inputs = (Ok v, l1) /\ sp = on_to (all_at inputs) (all_at l1)) /\
  (forall ex, spanned_rest r ex inputs = (Ok (v, sp), l1) <->
     r ex inputs = (Ok v, l1) /\ sp = on_to (all_at inputs) (all_at l1)).
Proof. refine (conj _ (conj _ (conj _ _))); intros; apply sv_multi_span. Qed.
End S.

(** a compiler on which spans cannot be joined *)
Definition stable_env : Env :=
  mkEnv (fun _ _ => None) (@env_sim lexer_env) (@env_show lexer_env) (@env_shows lexer_env) (@env_lex lexer_env).
Lemma l_span_inline_lost : exists (env : Env) A (d : dict A) s t rest v,
  toks s = t :: rest /\ tok_open_span t <> SCall /\
  d_inline (spanned_dict d) Unnamed [s] = (Ok (v, SCall), [set_toks s []]).
Proof.
  exists stable_env, bool, bool_dict, (root_stream [TIdent "true" (SAt 0)]), (TIdent "true" (SAt 0)), [], true.
  split; [reflexivity|]. split; [discriminate|vm_compute; reflexivity].
Qed.
