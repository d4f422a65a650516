(** Proofs about reading paths (PropsPath.v). *)
From Verif Require Import Base Tokens Syn Errors Helpers SpecStruct LemRun.
Import ListNotations.
Local Open Scope string_scope.
Local Open Scope list_scope.

Section P.
Context {env : Env}.
Lemma path_segs_inv : forall n ts segs r, length ts <= n -> path_segs ts = (segs, false, r) -> segs <> [] ->
  exists pt, path_toks segs pt /\ ts = pt ++ r /\ ~ starts_sep r.
Proof.
  induction n as [|n IH]; intros ts segs r L H NE.
  { destruct ts; [|cbn in L; lia]. injection H as <- _. contradiction. }
  destruct ts as [|t ts1]; [injection H as <- _; contradiction|].
  destruct t as [i sp| | |]; try (injection H as <- _; contradiction).
  cbn [path_segs] in H.
  assert (One : forall q, ([(i, sp)], false, q) = (segs, false, r) -> ~ starts_sep q ->
            exists pt, path_toks segs pt /\ TIdent i sp :: q = pt ++ r /\ ~ starts_sep r).
  { intros q E N. injection E as <- <-. exists [TIdent i sp]. split; [constructor|]. auto. }
  destruct ts1 as [|t1 ts2]; [apply One; auto; intros (? & ? & ? & ? & X); discriminate X|].
  destruct t1 as [|c1 j1 s1| |]; try (apply One; auto; intros (? & ? & ? & ? & X); discriminate X).
  destruct ts2 as [|t2 ts3]; [apply One; auto; intros (? & ? & ? & ? & X); discriminate X|].
  destruct t2 as [|c2 j2 s2| |]; try (apply One; auto; intros (? & ? & ? & ? & X); discriminate X).
  destruct (Ascii.eqb c1 colon_c && Ascii.eqb c2 colon_c && j1) eqn:E.
  - apply andb_true_iff in E as [E ->]. apply andb_true_iff in E as [E1 E2]. apply Ascii.eqb_eq in E1, E2. subst c1 c2.
    destruct (path_segs ts3) as [[segs' tr] r'] eqn:R. destruct segs' as [|x segs']; [discriminate H|].
    injection H as <- -> <-. destruct (IH ts3 (x :: segs') r') as [pt [P [-> N]]]; auto; [cbn in L; lia|discriminate|].
    exists (TIdent i sp :: TPunct colon_c true s1 :: TPunct colon_c j2 s2 :: pt). split; [now constructor|]. auto.
  - apply One; auto. intros (? & ? & ? & ? & X). injection X as -> -> _ -> _ _ _.
    discriminate E.
Qed.

Lemma last_any : forall l (z : string * span) d d', last (z :: l) d = last (z :: l) d'.
Proof. induction l as [|w l IH]; intros z d d'; [reflexivity|]. exact (IH w d d'). Qed.
Lemma path_head l pt : path_toks l pt -> exists i sp l', l = (i, sp) :: l'.
Proof. intros []; eauto. Qed.

Lemma l_path_read : forall s p s',
  parse_any_path s = (Ok p, s') <->
  exists l pt, path_toks l pt /\ ~ starts_sep (toks s') /\
    p_segs p = map fst l /\ s' = set_toks s (toks s') /\
    ((p_leading p = false /\ toks s = pt ++ toks s' /\ p_span p = path_span l) \/
     (p_leading p = true /\ exists a j b,
        toks s = TPunct colon_c true a :: TPunct colon_c j b :: pt ++ toks s' /\
        p_span p = match env_join a (snd (last l ("", a))) with Some x => x | None => a end)).
Proof.
  intros s p s'. split.
  - unfold parse_any_path. intro H.
    assert (G : forall (lead : bool) ts0 (l : list (string * span)) r, path_segs ts0 = (l, false, r) -> l <> [] ->
      (let first : span := if lead then in_span s else snd (hd ("", SCall) l) in
       (Ok (mkPath lead (map fst l)
         (match l, lead with [_], false => first | _, _ => join_or first (snd (last l ("", snd (hd ("", SCall) l)))) first end)),
        set_toks s r)) = (Ok p, s') ->
      exists pt, path_toks l pt /\ ~ starts_sep (toks s') /\ ts0 = pt ++ toks s' /\
        p_segs p = map fst l /\ s' = set_toks s (toks s') /\ p_leading p = lead).
    { intros lead ts0 l r PS NE E. injection E as <- <-. destruct (path_segs_inv _ _ _ _ (le_n _) PS NE) as [pt [P [E N]]].
      exists pt. cbn [toks set_toks p_segs p_leading]. repeat (split; [assumption||reflexivity|]). reflexivity. }
    destruct (punct_rest [colon_c; colon_c] (toks s)) as [ts0|] eqn:PR.
    + destruct (path_segs ts0) as [[l tr] r] eqn:PS. destruct l as [|[i sp] l]; [discriminate H|]. destruct tr; [discriminate H|].
      destruct (G true ts0 ((i, sp) :: l) r) as [pt [P [N [E [S [T L]]]]]]; [exact PS|discriminate|destruct l; exact H|].
      exists ((i, sp) :: l), pt. split; [auto|]. split; [auto|]. split; [auto|]. split; [auto|]. right. split; [auto|].
      destruct (toks s) as [|[|c1 j1 a| |] ts1] eqn:TS; try discriminate PR. cbn [punct_rest] in PR.
      destruct (Ascii.eqb colon_c c1 && j1) eqn:E1; [|discriminate PR]. apply andb_true_iff in E1 as [E1 ->]. apply Ascii.eqb_eq in E1. subst c1.
      destruct ts1 as [|[|c2 j2 b| |] ts2]; try discriminate PR.
      destruct (Ascii.eqb colon_c c2 && true) eqn:E2; [|discriminate PR]. apply andb_true_iff in E2 as [E2 _]. apply Ascii.eqb_eq in E2. subst c2.
      injection PR as ->. exists a, j2, b. rewrite E. split; auto.
      unfold in_span in H. rewrite TS in H. cbn [fst snd] in H. unfold join_or in H.
      destruct l as [|y l]; injection H as <- _; cbn [p_span]; [reflexivity|].
      now rewrite (last_any (y :: l) (i, sp) ("", a) ("", sp)).
    + destruct (path_segs (toks s)) as [[l tr] r] eqn:PS. destruct l as [|[i sp] l]; [discriminate H|]. destruct tr; [discriminate H|].
      destruct (G false (toks s) ((i, sp) :: l) r) as [pt [P [N [E [S [T L]]]]]]; [exact PS|discriminate|destruct l; exact H|].
      exists ((i, sp) :: l), pt. split; [auto|]. split; [auto|]. split; [auto|]. split; [auto|]. left. split; [auto|]. split; [auto|].
      cbn [fst snd] in H. unfold join_or in H. unfold path_span. destruct l; injection H as <- _; reflexivity.
  - intros [l [pt [P [N [S [T H]]]]]]. unfold parse_any_path. destruct p as [lead segs psp]. cbn [p_segs p_leading p_span] in *. subst segs.
    destruct H as [[-> [E SP]]|[-> [a [j [b [E SP]]]]]].
    + rewrite E. destruct (path_first l pt P) as [i [sp [r Q]]]. rewrite punct_colons by (rewrite Q; cbn; eauto).
      rewrite (path_segs_toks _ _ _ P N). rewrite <- T. rewrite SP. destruct P as [i' sp'|i' sp' s1 s2 j2 l ts P]; [reflexivity|].
      destruct P as [k kp|k kp s3 s4 j4 l' ts' P']; unfold join_or, path_span; auto.
    + rewrite E. cbn [punct_rest]. change (Ascii.eqb colon_c colon_c) with true. cbn [andb].
      rewrite (path_segs_toks _ _ _ P N). rewrite <- T. rewrite SP. unfold in_span. rewrite E. unfold join_or.
      destruct (path_head l pt P) as [i' [sp' [l' ->]]].
      rewrite (last_any l' (i', sp') ("", a) ("", sp')). destruct l'; reflexivity.
Qed.

Lemma l_path_else : forall s, (exists p s', parse_any_path s = (Ok p, s')) \/ (exists e s', parse_any_path s = (Err e, s')).
Proof.
  intro s. unfold parse_any_path. destruct (match punct_rest _ _ with Some _ => _ | None => _ end) as [lead ts0].
  destruct (path_segs ts0) as [[segs tr] r]. destruct segs as [|[i sp] segs]; [eauto|]. destruct tr; eauto.
Qed.
End P.
Lemma l_path_leading : forall l l' segs sp,
  path_key (mkPath l segs sp) = path_key (mkPath l' segs sp) /\
  forall names, path_matches (mkPath l segs sp) names = path_matches (mkPath l' segs sp) names.
Proof. split; reflexivity. Qed.
