(** Proofs about the default of the field of a transparent struct (C91). *)
From Verif Require Export LemIdle.
From Verif Require Import Attrs.

Section I.
Context {env : Env} {V : Type}.
Implicit Types f g : field V.
Implicit Types fs : list (field V).

Lemma wd_parsable o f : is_parsable (with_default o f) = is_parsable f.
Proof. reflexivity. Qed.
Lemma wd_item o f : pitem (with_default o f) = pitem f.
Proof. reflexivity. Qed.
Lemma item_parsable f : pitem f = true -> f_skip f = false /\ f_container f = false /\ exists d, f_kind f = KItem d.
Proof.
  unfold pitem, is_parsable, is_flat. intro H. apply andb_true_iff in H as [H K]. apply andb_true_iff in H as [C S].
  apply negb_true_iff in C. apply negb_true_iff in S. split; [exact S|]. split; [exact C|].
  destruct (f_kind f); try discriminate K. eauto.
Qed.

Lemma field_wd o before f after : pitem f = true ->
  transparent_field (before ++ f :: after) = transparent_field (before ++ with_default o f :: after).
Proof.
  intros _. unfold transparent_field. generalize 0. induction before as [|b before IH]; intro i; cbn [app].
  - rewrite wd_parsable. reflexivity.
  - rewrite IH. reflexivity.
Qed.
Lemma set_wd o f v es : set_field f (FSome v) es = set_field (with_default o f) (FSome v) es.
Proof. unfold set_field. cbn [f_default f_transforms with_default]. destruct (f_default f), o; reflexivity. Qed.

Lemma meta_containers fs sl : set_containers TMeta fs sl = sl.
Proof. destruct fs; reflexivity. Qed.
Lemma sets_wd tm f g v : f_container f = false -> f_container g = false ->
  (forall es, set_field f (FSome v) es = set_field g (FSome v) es) ->
  forall after before es,
  field_sets (before ++ f :: after) (set_containers tm (before ++ f :: after)
    (upd_nth (length before) (FSome v) (init_slots (before ++ f :: after)))) es =
  field_sets (before ++ g :: after) (set_containers tm (before ++ g :: after)
    (upd_nth (length before) (FSome v) (init_slots (before ++ g :: after)))) es.
Proof.
  intros CF CG E after before. induction before as [|b before IH]; intro es.
  - destruct tm as [|pn obj]; cbn [app length upd_nth init_slots map set_containers field_sets]; rewrite ?CF, ?CG, E; reflexivity.
  - destruct tm as [|pn obj]; rewrite ?meta_containers; cbn [app length upd_nth init_slots map set_containers field_sets];
      (destruct (set_field b _ es) as [st1 es1]); specialize (IH es1); rewrite ?meta_containers in IH; unfold init_slots in IH; rewrite IH; reflexivity.
Qed.

Lemma fields_wd tm (s t : sdef V) before f o after : pitem f = true -> s_default s = s_default t ->
  s_raw s = before ++ f :: after -> s_raw t = before ++ with_default o f :: after ->
  exists b a, length b = length before /\ s_fields tm s = b ++ f :: a /\ s_fields tm t = b ++ with_default o f :: a.
Proof.
  intros P D S T. apply item_parsable in P as [K [C _]].
  assert (K1 : skip_default f = f) by (unfold skip_default; destruct (f_default f); rewrite ?K; reflexivity).
  assert (K2 : skip_default (with_default o f) = with_default o f) by (unfold skip_default; cbn [f_default f_skip with_default]; destruct o; rewrite ?K; reflexivity).
  assert (C1 : container_default f = f) by (unfold container_default; destruct (f_default f); rewrite ?C; reflexivity).
  assert (C2 : container_default (with_default o f) = with_default o f) by (unfold container_default; cbn [f_default f_container with_default]; destruct o; rewrite ?C; reflexivity).
  assert (H : exists b a, length b = length before /\ s_fields_attr s = b ++ f :: a /\ s_fields_attr t = b ++ with_default o f :: a).
  { unfold s_fields_attr. rewrite <- D. destruct (has_target (s_default s)).
    - exists before, after. auto.
    - exists (map skip_default before), (map skip_default after). rewrite S, T, !map_app, map_length. cbn [map]. rewrite K1, K2. auto. }
  destruct tm; cbn [s_fields]; [|exact H]. destruct H as (b & a & L & E1 & E2). unfold s_fields_meta.
  exists (map container_default b), (map container_default a). rewrite E1, E2, !map_app, map_length. cbn [map]. rewrite C1, C2. auto.
Qed.

Lemma none_before fs f after : length (filter pitem (fs ++ f :: after)) = 1 -> pitem f = true ->
  forall d, f_kind f = KItem d -> transparent_field (fs ++ f :: after) = Some (length fs, d).
Proof.
  intros L P d K. assert (N : filter pitem fs = []).
  { rewrite filter_app, app_length in L. cbn [filter] in L. rewrite P in L. cbn [length] in L. destruct (filter pitem fs); [reflexivity|].
    cbn [length] in L. Lia.lia. }
  clear L. unfold transparent_field. change (length fs) with (0 + length fs). generalize 0. induction fs as [|b fs IH]; intro i; cbn [app length].
  - rewrite K. unfold pitem in P. apply andb_true_iff in P as [-> _]. now rewrite Nat.add_0_r.
  - cbn [filter] in N. destruct (pitem b) eqn:B; [discriminate N|]. specialize (IH N). rewrite IH. rewrite Nat.add_succ_r.
    destruct (f_kind b) eqn:KB; try reflexivity. unfold pitem, is_flat in B. rewrite KB in B. cbn [negb] in B. rewrite andb_true_r in B. now rewrite B.
Qed.

Lemma inner_wd (s t : sdef V) : alike_transparent s t ->
  s_is_transparent t = true /\ s_inner s = s_inner t /\
  forall tm v es, transparent_post (s_fields tm s) tm (s_default s) (fst (s_inner s)) v es =
    transparent_post (s_fields tm t) tm (s_default t) (fst (s_inner t)) v es.
Proof.
  intros [[A1 A2] (before & f & o & after & P & S & T) D Th At].
  assert (A3 : s_is_transparent t = true).
  { unfold s_is_transparent in *. rewrite A2. rewrite S in A1. rewrite T. apply andb_true_iff in A1 as [_ A1].
    rewrite filter_app in *. cbn [filter] in *. rewrite wd_item. rewrite P in *. rewrite app_length in *. exact A1. }
  split; [exact A3|].
  assert (I : s_inner s = s_inner t) by (unfold s_inner; rewrite S, T, (field_wd o before f after P); reflexivity).
  split; [exact I|]. intros tm v es. rewrite <- I, <- D. unfold transparent_post.
  destruct (item_parsable f P) as (K & C & d & KD).
  assert (L : s_inner s = (length before, d)).
  { unfold s_inner. rewrite S. rewrite (none_before before f after) with (d := d); auto. unfold s_is_transparent in A1. apply andb_true_iff in A1 as [_ A1].
    apply Nat.eqb_eq in A1. now rewrite S in A1. }
  rewrite L. cbn [fst]. destruct (fields_wd tm s t before f o after P D S T) as (b & a & LB & E1 & E2).
  rewrite E1, E2, <- LB. rewrite (sets_wd tm f (with_default o f) v C C (set_wd o f v)). reflexivity.
Qed.

Lemma l_idle_transparent (s t : sdef V) : alike_transparent s t ->
  (forall m st, d_item (struct_dict s) m st = d_item (struct_dict t) m st) /\
  (forall m l, d_inline (struct_dict s) m l = d_inline (struct_dict t) m l) /\
  (forall sp, d_flag (struct_dict s) sp = d_flag (struct_dict t) sp) /\
  (forall n sp, d_missing (struct_dict s) n sp = d_missing (struct_dict t) n sp) /\
  (forall obj spans l, struct_attr_body s obj spans l = struct_attr_body t obj spans l).
Proof.
  intro A. destruct (inner_wd s t A) as (T2 & I & Q). destruct A as [[T1 _] _ D Th At].
  assert (W : forall S tm (p : pm S V) st, s_transparent_with s tm p (fst (s_inner s)) st = s_transparent_with t tm p (fst (s_inner t)) st).
  { intros S tm p st. unfold s_transparent_with, p_and_thens, pbind. rewrite <- Th. destruct (p st) as [[v|e|b] st1]; auto. now rewrite Q. }
  unfold struct_dict, struct_attr_body. rewrite T1, T2, <- At, <- D. rewrite <- I in *. destruct (s_inner s) as [i d]. cbn [fst d_item d_inline d_flag d_missing] in *.
  repeat split; intros; rewrite ?W; reflexivity.
Qed.
End I.
