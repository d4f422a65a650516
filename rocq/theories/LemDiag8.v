(** Attributes that are not read to their ends: the errors are lost. *)
From Verif Require Import LemWf LemWfD LemWfE LemSmall LemItems LemAttr LemAttr2.
From Verif Require Export LemDiag7.

Section A.
Context {env : Env} {R : Type}.
Variable func : list (string * span) -> mparser R.
Hypothesis WF : forall paths, well_behaved_m (func paths).
Definition reported (o : option span) (r : res R) : res R :=
  match o with Some sp => Err (err1 sp unexpected_token) | None => r end.
Lemma next_err : forall l cs, Forall2 attr_content l cs -> forall bufs paths e b1,
  func (paths ++ attr_names l) (bufs ++ cs) = (Err e, b1) ->
  parse_next l bufs paths func = (reported (first_left l (skipn (length bufs) b1)) (Err e), map dropped b1).
Proof.
  intros l cs H. induction H as [|it c l cs AC H IH]; intros bufs paths e b1 FN.
  - cbn [attr_names map parse_next first_left]. rewrite !app_nil_r in FN. rewrite FN. reflexivity.
  - destruct it as [[ts n] sp]. rewrite names_cons in FN.
    assert (STEP : forall root_after, (ts = [] /\ root_after = [] \/ (exists content gsp, ts = TGroup Paren content gsp :: root_after /\ c = mkStream content (SClose gsp) None)) -> root_ends root_after ->
      (ts = [] -> c = mkStream [] SCall None) ->
      parse_next (@cons item (ts, n, sp) l) bufs paths func =
      (let (r, bufs1) := parse_next l (bufs ++ [c]) (paths ++ [(n, sp)]) func in
       (close_root r (mkStream root_after SCall (match ts with [] => None | _ => item_cell bufs1 (length bufs) end)), bufs1))).
    { intros ra [[-> ->]|[content [gsp [-> ->]]]] RE CE; cbn [parse_next].
      - rewrite (CE eq_refl). unfold fork, root_stream. cbn [toks scope]. destruct (parse_next l (bufs ++ [mkStream [] SCall None]) (paths ++ [(n, sp)]) func). reflexivity.
      - unfold group_content. destruct (parse_next l (bufs ++ [mkStream content (SClose gsp) None]) (paths ++ [(n, sp)]) func). reflexivity. }
    assert (ST : exists ra, root_ends ra /\ parse_next (@cons item (ts, n, sp) l) bufs paths func =
      (let (r, bufs1) := parse_next l (bufs ++ [c]) (paths ++ [(n, sp)]) func in
       (close_root r (mkStream ra SCall (match ts with [] => None | _ => item_cell bufs1 (length bufs) end)), bufs1))).
    { inversion AC; subst.
      - exists []. split; [now left|]. apply STEP; auto. now left.
      - exists []. split; [now left|]. apply STEP; [right; eauto|now left|discriminate].
      - exists [c0]. split; [right; eauto|]. apply STEP; [right; eauto|right; eauto|discriminate]. }
    destruct ST as [ra [RE ->]]. clear STEP.
    assert (LB : length b1 = length bufs + S (length cs)).
    { pose proof (LemAttr.adv_len _ _ (proj2 (WF (paths ++ (n, sp) :: attr_names l) (bufs ++ c :: cs)))) as L. rewrite FN in L. cbn [snd] in L. rewrite L, app_length. reflexivity. }
    pose proof (parse_next_good func WF l (bufs ++ [c]) (paths ++ [(n, sp)])) as RT.
    rewrite (IH (bufs ++ [c]) (paths ++ [(n, sp)]) e b1) in * by (rewrite <- !app_assoc; exact FN). cbn [fst] in RT.
    rewrite (close_any _ _ _ RE RT). rewrite app_length. cbn [length]. rewrite Nat.add_1_r.
    assert (SK : exists s, nth_error b1 (length bufs) = Some s /\ skipn (length bufs) b1 = s :: skipn (S (length bufs)) b1).
    { clear - LB. revert b1 LB. generalize (length bufs) as k. induction k as [|k IHk]; intros [|s b1] LB; cbn in LB; try discriminate LB; try lia.
      - exists s. auto.
      - destruct (IHk b1) as [s' [E1 E2]]; [lia|]. exists s'. auto. }
    destruct SK as [s [N SK]]. rewrite SK. cbn [first_left].
    assert (IC : item_cell (map dropped b1) (length bufs) = left_at s).
    { unfold item_cell. rewrite nth_error_map, N. reflexivity. }
    rewrite IC. destruct ts as [|t ts]; [reflexivity|]. destruct (left_at s); reflexivity.
Qed.
Lemma l_attributes_lost_at l cs e : Forall2 attr_content l cs -> fst (func (attr_names l) cs) = Err e ->
  parse_struct_attr_tokens l func = reported (first_left l (snd (func (attr_names l) cs))) (Err e).
Proof.
  intros F V. unfold parse_struct_attr_tokens. destruct (func (attr_names l) cs) as [r b1] eqn:FN. cbn [fst snd] in *. subst r.
  pose proof (next_err l cs F [] [] e b1 FN) as N. cbn [length skipn app] in N.
  replace (parse_next l [] [] func) with (reported (first_left l b1) (Err e), map dropped b1) by (symmetry; exact N). reflexivity.
Qed.
End A.
Section L.
Context {env : Env} {V : Type}.
Lemma l_struct_lost : forall (s : sdef V) conv o cs e, accepted_struct s ->
  let l := ref_tokens (derived_matches (s_attributes s)) o in
  let body := struct_attr_body s (conv o) (attr_names l) in
  Forall2 attr_content l cs -> fst (body cs) = Err e ->
  struct_parse_attributes s conv o =
  match first_left l (snd (body cs)) with Some sp => Err (err1 sp unexpected_token) | None => Err e end.
Proof.
  intros s conv o cs e A l body F E. unfold struct_parse_attributes. fold l.
  exact (l_attributes_lost_at (struct_attr_body s (conv o)) (fun p => struct_attr_body_good s (conv o) p A) l cs e F E).
Qed.
Lemma l_enum_lost : forall (en : edef V) conv o cs e,
  (forall pn, accepted_enum (TAttrs pn (conv o)) en) -> no_transparent_and_then en ->
  let l := ref_tokens (derived_matches (e_attributes en)) o in
  let body := enum_attr_body en (conv o) (attr_names l) in
  Forall2 attr_content l cs -> fst (body cs) = Err e ->
  enum_parse_attributes en conv o =
  match first_left l (snd (body cs)) with Some sp => Err (err1 sp unexpected_token) | None => Err e end.
Proof.
  intros en conv o cs e A N l body F E. unfold enum_parse_attributes. fold l.
  exact (l_attributes_lost_at (enum_attr_body en (conv o)) (fun p => enum_attr_body_good en (conv o) p A N) l cs e F E).
Qed.
End L.

(** the entry point without attributes *)
Lemma l_parse2 : forall (env : Env) A (d : dict A) ts r s, d_inline d (Named SCall) [root_stream ts] = (r, [s]) ->
  deluxe_parse2 d ts =
  match r, left_at s with Ok _, Some sp => Err (err1 sp unexpected_token) | _, _ => r end.
Proof.
  intros env A d ts r s E. unfold deluxe_parse2, parse2, on_single. rewrite E. cbn [hd]. unfold left_at.
  destruct r; [destruct (cell s); [|destruct (toks s)]|..]; reflexivity.
Qed.
