(** The library's and the derived implementations read only their own item, and what they
    make of it does not depend on what follows. *)
From Verif Require Export LemBlindD LemStructP.

Lemma nc_nil : no_comma [].
Proof. constructor. Qed.
Lemma nc_one t : is_comma t = false -> no_comma [t].
Proof. intro H. apply nc_cons. split; auto. constructor. Qed.
#[export] Hint Resolve nc_nil nc_one : nc.

(** *** stays *)
Section S.
Context {env : Env}.
Lemma st_refl {A} (f : stream -> res A) : stays (fun s => (f s, s)).
Proof. intro s. exists []. split; auto with nc. Qed.
Lemma st_ret {A} (a : A) : stays (pret a).
Proof. apply (st_refl (fun _ => Ok a)). Qed.
Lemma st_bind {A B} (p : parser A) (f : A -> parser B) : stays p -> (forall a, stays (f a)) -> stays (pbind p f).
Proof.
  intros Hp Hf s. unfold pbind. destruct (Hp s) as [a [E N]]. destruct (p s) as [r s1]. cbn [snd] in E.
  destruct r; try (exists a; auto; fail). destruct (Hf a0 s1) as [b [E2 N2]]. exists (a ++ b).
  rewrite E, E2, app_assoc. split; auto. apply nc_app. auto.
Qed.
Lemma st_map {A B} (f : A -> B) p : stays p -> stays (pmap f p).
Proof. intros H s. unfold pmap. specialize (H s). destruct (p s). exact H. Qed.
Lemma st_group {A} d (f : parser A) : stays (with_group d f).
Proof.
  intro s. unfold with_group. destruct (toks s) as [|t ts] eqn:E; [exists []; auto with nc|].
  destruct t; try (exists []; auto with nc; fail). destruct (delim_eqb d d0); [|exists []; auto with nc].
  destruct (f _). exists [TGroup d0 ts0 sp]. simpl. auto with nc.
Qed.
Lemma st_kw k : stays (parse_kw k).
Proof.
  intro s. unfold parse_kw. destruct (toks s) as [|t ts] eqn:E; [exists []; auto with nc|].
  destruct t; try (exists []; auto with nc; fail). destruct (String.eqb s0 k); [|exists []; auto with nc].
  exists [TIdent s0 sp]. simpl. auto with nc.
Qed.
Lemma st_ident : stays parse_any_ident.
Proof.
  intro s. unfold parse_any_ident. destruct (toks s) as [|t ts] eqn:E; [exists []; auto with nc|].
  destruct t; try (exists []; auto with nc; fail). exists [TIdent s0 sp]. simpl. auto with nc.
Qed.
Lemma not_minus_comma c : Ascii.eqb c "-" = true -> Ascii.eqb c comma_c = false.
Proof. intro H. apply Ascii.eqb_eq in H. subst. reflexivity. Qed.
Lemma lit_rest_nc ts l sp r : lit_rest ts = Some (l, sp, r) -> exists p, ts = p ++ r /\ no_comma p.
Proof.
  destruct ts as [|[i isp|c j csp|x xsp|d g gsp] ts]; simpl; try discriminate.
  - destruct (String.eqb i "true"); [|destruct (String.eqb i "false"); [|discriminate]];
      intro H; injection H as <- <- <-; eexists [_]; (split; [reflexivity|]; auto with nc).
  - destruct ts as [|[| |y ysp|] ts]; try discriminate. destruct (Ascii.eqb c "-") eqn:M; [|discriminate].
    destruct y; try discriminate; intro H; injection H as <- <- <-; eexists [_; _]; (split; [reflexivity|]);
      apply nc_cons; split; auto with nc; now apply not_minus_comma.
  - intro H. injection H as <- <- <-. eexists [_]. split; [reflexivity|]. auto with nc.
Qed.
Lemma st_lit {A} w (sel : plit -> option A) : stays (parse_lit_as w sel).
Proof.
  intro s. unfold parse_lit_as. destruct (lit_rest (toks s)) as [[[l sp] r]|] eqn:E; [|exists []; auto with nc].
  apply lit_rest_nc in E as [p [E N]]. destruct (sel l); exists p; auto.
Qed.
Lemma st_eq : stays parse_eq.
Proof.
  intro s. unfold parse_eq, parse_punct. cbn [punct_rest].
  destruct (toks s) as [|[| c j sp| |] ts] eqn:E; try (exists []; auto with nc; fail).
  destruct (Ascii.eqb eq_c c && true) eqn:C; [|exists []; auto with nc].
  rewrite andb_true_r in C. apply Ascii.eqb_eq in C. subst c.
  exists [TPunct eq_c j sp]. simpl. auto with nc.
Qed.
Lemma path_segs_nc : forall n ts, length ts <= n -> exists p, ts = p ++ snd (path_segs ts) /\ no_comma p.
Proof.
  induction n as [|n IH]; intros ts L.
  { destruct ts; [exists []; split; auto with nc; fail|simpl in L; lia]. }
  destruct ts as [|t ts1]; [exists []; auto with nc|]. destruct t as [i sp| | |]; try (exists []; auto with nc; fail).
  cbn [path_segs]. destruct ts1 as [|[|c1 j1 sp1| |] [|[|c2 j2 sp2| |] r]]; try (exists [TIdent i sp]; auto with nc; fail).
  destruct (Ascii.eqb c1 colon_c && Ascii.eqb c2 colon_c && j1) eqn:C; [|exists [TIdent i sp]; auto with nc].
  rewrite !andb_true_iff, !Ascii.eqb_eq in C. destruct C as [[-> ->] _].
  assert (L2 : length r <= n) by (simpl in L; lia).
  destruct (IH r L2) as [p [E N]]. destruct (path_segs r) as [[segs tr] r']. cbn [snd] in *.
  exists (TIdent i sp :: TPunct colon_c j1 sp1 :: TPunct colon_c j2 sp2 :: p). rewrite E. split; auto.
  repeat (apply nc_cons; split; [reflexivity|]). exact N.
Qed.
Lemma st_path : stays parse_any_path.
Proof.
  intro s. unfold parse_any_path. destruct (punct_rest [colon_c; colon_c] (toks s)) as [r0|] eqn:P.
  - assert (exists p0, toks s = p0 ++ r0 /\ no_comma p0) as [p0 [E0 N0]].
    { cbn [punct_rest] in P. destruct (toks s) as [|[|c1 j1 sp1| |] [|[|c2 j2 sp2| |] r]]; try discriminate;
        destruct (Ascii.eqb colon_c c1 && j1) eqn:C1; try discriminate.
      destruct (Ascii.eqb colon_c c2 && true) eqn:C2; [|discriminate]. injection P as <-.
      rewrite !andb_true_iff, !Ascii.eqb_eq in C1, C2. destruct C1 as [<- _], C2 as [<- _].
      exists [TPunct colon_c j1 sp1; TPunct colon_c j2 sp2]. split; auto.
      repeat (apply nc_cons; split; [reflexivity|]). auto with nc. }
    destruct (path_segs_nc _ r0 (le_n _)) as [p [E N]]. destruct (path_segs r0) as [[segs tr] r]. cbn [snd] in E.
    exists (p0 ++ p). split; [|apply nc_app; auto].
    destruct segs as [|[i sp1] segs]; [|destruct tr]; cbn [snd set_toks toks]; rewrite E0, E at 1; now rewrite app_assoc.
  - destruct (path_segs_nc _ (toks s) (le_n _)) as [p [E N]]. destruct (path_segs (toks s)) as [[segs tr] r]. cbn [snd] in E.
    exists p. split; auto. destruct segs as [|[i sp1] segs]; [|destruct tr]; cbn [snd set_toks toks]; exact E.
Qed.
Lemma st_tokenstream m : stays (tokenstream_item m).
Proof.
  intro s. unfold tokenstream_item. destruct (peek_comma s); [exists []; auto with nc|].
  destruct (until_comma (toks s)); [exists []; auto with nc|]. exact (stays_skip s).
Qed.
Lemma st_and_thens {A} (fs : list (A -> A + synerr)) p : stays p -> stays (p_and_thens fs p).
Proof. intros H s. unfold p_and_thens. specialize (H s). destruct (p s). exact H. Qed.

(** *** The span that errors at the end of the input get is not changed *)
Lemma kp_refl {A} (f : stream -> res A) : keeps (fun s => (f s, s)).
Proof. intro. reflexivity. Qed.
Lemma kp_ret {A} (a : A) : keeps (pret a).
Proof. intro. reflexivity. Qed.
Lemma kp_bind {A B} (p : parser A) (f : A -> parser B) : keeps p -> (forall a, keeps (f a)) -> keeps (pbind p f).
Proof.
  intros Hp Hf s. unfold pbind. specialize (Hp s). destruct (p s) as [[a|e|b] s1]; auto. cbn [snd] in Hp.
  rewrite <- Hp. apply Hf.
Qed.
Lemma kp_map {A B} (f : A -> B) p : keeps p -> keeps (pmap f p).
Proof. intros H s. unfold pmap. specialize (H s). destruct (p s). exact H. Qed.
Lemma kp_group {A} d (f : parser A) : keeps (with_group d f).
Proof.
  intro s. unfold with_group. destruct (toks s) as [|[] ts]; auto. destruct (delim_eqb d d0); auto. now destruct (f _).
Qed.
Lemma kp_delimited {A} d (f : parser A) : keeps (parse_delimited_with d f).
Proof. apply kp_group. Qed.
Lemma kp_kw k : keeps (parse_kw k).
Proof. intro s. unfold parse_kw. destruct (toks s) as [|[] ts]; auto. destruct (String.eqb s0 k); auto. Qed.
Lemma kp_ident : keeps parse_any_ident.
Proof. intro s. unfold parse_any_ident. destruct (toks s) as [|[] ts]; auto. Qed.
Lemma kp_lit {A} w (sel : plit -> option A) : keeps (parse_lit_as w sel).
Proof. intro s. unfold parse_lit_as. destruct (lit_rest (toks s)) as [[[l sp] r]|]; auto. destruct (sel l); auto. Qed.
Lemma kp_punct cs n : keeps (parse_punct cs n).
Proof. intro s. unfold parse_punct. destruct (punct_rest cs (toks s)); auto. Qed.
Lemma kp_if {A} (b : stream -> bool) (p q : parser A) : keeps p -> keeps q -> keeps (fun s => if b s then p s else q s).
Proof. intros P Q s. destruct (b s); auto. Qed.
Lemma kp_named_with {A} (item : mode -> parser A) inline flag sp :
  (forall m, keeps (item m)) -> keeps (parse_named_with item inline flag sp).
Proof.
  intro H. unfold parse_named_with. apply kp_if. { apply kp_bind; [apply kp_punct|]. auto. }
  apply kp_if. { apply kp_delimited. } apply kp_refl.
Qed.
Lemma kp_path : keeps parse_any_path.
Proof.
  intro s. unfold parse_any_path. destruct (match punct_rest _ _ with Some _ => _ | None => _ end) as [lead ts0].
  destruct (path_segs ts0) as [[segs tr] r]. destruct segs as [|[i sp] segs]; auto. destruct tr; auto.
Qed.
Lemma kp_tokenstream m : keeps (tokenstream_item m).
Proof. intro s. unfold tokenstream_item. destruct (peek_comma s); auto. destruct (until_comma (toks s)); auto. Qed.
Lemma kp_and_thens {A} (fs : list (A -> A + synerr)) p : keeps p -> keeps (p_and_thens fs p).
Proof. intros H s. unfold p_and_thens. specialize (H s). destruct (p s). exact H. Qed.

(** *** local *)
Lemma suffix_nc body tl rest (s : stream) : no_comma body -> (exists pre, body ++ tl = pre ++ toks s /\ no_comma pre) ->
  toks s = rest ++ tl -> no_comma rest.
Proof.
  intros N [pre [E _]] T. rewrite T, app_assoc in E. apply app_inv_tail in E. subst. now apply nc_app in N.
Qed.
Lemma lc_ret {A} (a : A) : local (pret a).
Proof. split; [apply st_ret|]. intros body N. left. exists a, body. intros. split; reflexivity. Qed.
Lemma lc_bind {A B} (p : parser A) (f : A -> parser B) : local p -> (forall a, local (f a)) -> local (pbind p f).
Proof.
  intros [SP HP] HF. split; [apply st_bind; auto; intro a; apply HF|]. intros body N. unfold pbind.
  destruct (HP body N) as [[v [rest H]]|H].
  - assert (NR : no_comma rest).
    { destruct (H [] SCall None (or_introl eq_refl)) as [_ T]. eapply suffix_nc; [exact N| |exact T]. apply (SP (mkStream (body ++ []) SCall None)). }
    destruct (HF v) as [_ HV]. destruct (HV rest NR) as [[w [rest2 H2]]|H2].
    + left. exists w, rest2. intros tl sc c E. destruct (H tl sc c E) as [R T].
      destruct (p (mkStream (body ++ tl) sc c)) as [r [ts sc' c']]. cbn [fst snd toks] in R, T. subst. apply H2, E.
    + right. intros tl sc c E. destruct (H tl sc c E) as [R T].
      destruct (p (mkStream (body ++ tl) sc c)) as [r [ts sc' c']]. cbn [fst snd toks] in R, T. subst. apply H2, E.
  - right. intros tl sc c E. destruct (H tl sc c E) as [e R]. destruct (p (mkStream (body ++ tl) sc c)) as [r s1].
    cbn [fst] in R. subst. eexists. reflexivity.
Qed.
Lemma lc_res {A} (r : res A) : returns r -> local (fun s => (r, s)).
Proof.
  intro G. split; [apply (st_refl (fun _ => r))|]. intros body N. destruct r as [v|e|]; [left|right|destruct G].
  - exists v, body. intros. split; reflexivity.
  - intros. eexists. reflexivity.
Qed.
Lemma lc_map {A B} (f : A -> B) p : local p -> local (pmap f p).
Proof.
  intros [SP H]. split; [now apply st_map|]. intros body N. unfold pmap. destruct (H body N) as [[v [rest G]]|G].
  - left. exists (f v), rest. intros tl sc c E. destruct (G tl sc c E) as [R T].
    destruct (p (mkStream (body ++ tl) sc c)). cbn [fst snd] in *. subst. auto.
  - right. intros tl sc c E. destruct (G tl sc c E) as [e R]. destruct (p (mkStream (body ++ tl) sc c)).
    cbn [fst] in R. subst. eexists. reflexivity.
Qed.
Lemma lc_then {A B} (p : parser A) (f : A -> res B) : local p -> (forall a, returns (f a)) ->
  local (pbind p (fun a s => (f a, s))).
Proof. intros H G. apply lc_bind; auto. intro a. now apply lc_res. Qed.
(** the parser's decision depends on the first tokens of the item *)
Lemma lc_if {A} (b : stream -> bool) (p q : parser A) :
  (forall body tl tl' sc c sc' c', no_comma body -> ends tl -> ends tl' ->
     b (mkStream (body ++ tl) sc c) = b (mkStream (body ++ tl') sc' c')) ->
  local p -> local q -> local (fun s => if b s then p s else q s).
Proof.
  intros HB [SP HP] [SQ HQ]. split.
  { intro s. destruct (b s); auto. }
  intros body N. destruct (b (mkStream (body ++ []) SCall None)) eqn:B.
  - destruct (HP body N) as [[v [rest H]]|H]; [left; exists v, rest|right]; intros tl sc c E;
      rewrite (HB body tl [] sc c SCall None N E (or_introl eq_refl)), B; now apply H.
  - destruct (HQ body N) as [[v [rest H]]|H]; [left; exists v, rest|right]; intros tl sc c E;
      rewrite (HB body tl [] sc c SCall None N E (or_introl eq_refl)), B; now apply H.
Qed.
Lemma lc_fail {A} (f : stream -> synerr) : local (A := A) (fun s => (Err (f s), s)).
Proof. split; [apply (st_refl (fun s => Err (f s)))|]. right. intros. eexists. reflexivity. Qed.

Lemma ends_inv tl : ends tl -> tl = [] \/ exists t r, tl = t :: r /\ is_comma t = true.
Proof. destruct tl as [|t r]; [now left|]. intro H. right. exists t, r. split; auto. now apply ends_cons in H. Qed.
Lemma comma_punct t : is_comma t = true -> exists j sp, t = TPunct comma_c j sp.
Proof. destruct t; try discriminate. simpl. intro H. apply Ascii.eqb_eq in H. subst. eauto. Qed.
Ltac tailcase E :=
  let t := fresh "t" in let r := fresh "r" in let C := fresh "C" in let j := fresh "j" in let csp := fresh "csp" in
  destruct (ends_inv _ E) as [-> | [t [r [-> C]]]]; [|destruct (comma_punct t C) as [j [csp ->]]].
Lemma lc_group {A} d (f : parser A) : unaware f -> (forall s, returns (fst (f s))) -> local (with_group d f).
Proof.
  intros U G. split; [apply st_group|]. intros body N. destruct body as [|t body].
  { right. intros tl sc c E. tailcase E; simpl; eexists; reflexivity. }
  destruct t; try (right; intros; eexists; reflexivity).
  cbn [app]. unfold with_group. cbn [toks cell scope]. destruct (delim_eqb d d0); [|right; intros; eexists; reflexivity].
  destruct (f (group_content ts sp None)) as [r0 s0] eqn:F0.
  assert (K : forall c, fst (f (group_content ts sp c)) = r0).
  { intro c. destruct (U (group_content ts sp c) (group_content ts sp None) eq_refl) as [K _]. now rewrite K, F0. }
  destruct r0 as [v|e|b].
  - left. exists v, body. intros tl sc c E. specialize (K c). destruct (f (group_content ts sp c)). cbn [fst] in K. subst. auto.
  - right. intros tl sc c E. specialize (K c). destruct (f (group_content ts sp c)). cbn [fst] in K. subst. eexists; reflexivity.
  - specialize (G (group_content ts sp None)). rewrite F0 in G. destruct G.
Qed.
Lemma lc_delimited {A} d (f : parser A) : unaware f -> well_behaved f -> local (parse_delimited_with d f).
Proof.
  intros U W. apply lc_group.
  - apply ub_bind; auto. intro a. apply ub_bind; [apply ub_eof|]. intros _. apply ub_ret.
  - intro s. apply wb_bind; auto. intro a. apply wb_bind; [apply wb_eof|]. intros _. apply wb_ret.
Qed.
Lemma lc_kw k : local (parse_kw k).
Proof.
  split; [apply st_kw|]. intros body N. destruct body as [|t body].
  { right. intros tl sc c E. tailcase E; simpl; eexists; reflexivity. }
  destruct t; try (right; intros; eexists; reflexivity). unfold parse_kw. cbn [toks app].
  destruct (String.eqb s k); [left; exists tt, body; intros; split; reflexivity|right; intros; eexists; reflexivity].
Qed.
Lemma lc_ident : local parse_any_ident.
Proof.
  split; [apply st_ident|]. intros body N. destruct body as [|t body].
  { right. intros tl sc c E. tailcase E; simpl; eexists; reflexivity. }
  destruct t; try (right; intros; eexists; reflexivity). left. exists (s, sp), body. intros; split; reflexivity.
Qed.
Lemma lit_rest_app body tl : ends tl ->
  lit_rest (body ++ tl) = match lit_rest body with Some (l, sp, r) => Some (l, sp, r ++ tl) | None => None end.
Proof.
  intro E. destruct body as [|t body].
  { tailcase E; [reflexivity|]. simpl. destruct r as [|[]]; reflexivity. }
  destruct t as [i sp|c j sp|l sp|]; cbn [app lit_rest]; try reflexivity.
  - destruct (String.eqb i "true"); auto. destruct (String.eqb i "false"); auto.
  - destruct body as [|t2 body]; cbn [app].
    + tailcase E; reflexivity.
    + destruct t2; try reflexivity. destruct (Ascii.eqb c "-"); auto. destruct l; reflexivity.
Qed.
Lemma lc_lit {A} w (sel : plit -> option A) : local (parse_lit_as w sel).
Proof.
  split; [apply st_lit|]. intros body N. unfold parse_lit_as. cbn [toks].
  destruct (lit_rest body) as [[[l sp] r]|] eqn:L.
  2: { right. intros tl sc c E. rewrite (lit_rest_app _ _ E), L. eexists; reflexivity. }
  destruct (sel l) as [a|] eqn:S.
  - left. exists (a, sp), r. intros tl sc c E. rewrite (lit_rest_app _ _ E), L, S. auto.
  - right. intros tl sc c E. rewrite (lit_rest_app _ _ E), L, S. eexists; reflexivity.
Qed.
Lemma peek_lit_app {A} (sel : plit -> option A) body tl tl' sc c sc' c' : ends tl -> ends tl' ->
  peek_lit sel (mkStream (body ++ tl) sc c) = peek_lit sel (mkStream (body ++ tl') sc' c').
Proof.
  intros E E'. unfold peek_lit. cbn [toks]. rewrite (lit_rest_app _ _ E), (lit_rest_app _ _ E').
  destruct (lit_rest body) as [[[l sp] r]|]; reflexivity.
Qed.
Lemma peek_kw_app k body tl tl' sc c sc' c' : ends tl -> ends tl' ->
  peek_kw k (mkStream (body ++ tl) sc c) = peek_kw k (mkStream (body ++ tl') sc' c').
Proof.
  intros E E'. unfold peek_kw. cbn [toks]. destruct body; [|reflexivity]. tailcase E; tailcase E'; reflexivity.
Qed.
Lemma peek_eq_app body tl tl' sc c sc' c' : ends tl -> ends tl' ->
  peek_eq (mkStream (body ++ tl) sc c) = peek_eq (mkStream (body ++ tl') sc' c').
Proof.
  intros E E'. unfold peek_eq, peek_punct. cbn [toks punct_rest]. destruct body as [|t body]; [tailcase E; tailcase E'; reflexivity|].
  cbn [app]. destruct t; try reflexivity. destruct (Ascii.eqb eq_c c0 && true); reflexivity.
Qed.
Lemma peek_group_app d body tl tl' sc c sc' c' : ends tl -> ends tl' ->
  peek_group d (mkStream (body ++ tl) sc c) = peek_group d (mkStream (body ++ tl') sc' c').
Proof.
  intros E E'. unfold peek_group. cbn [toks]. destruct body; [|reflexivity]. tailcase E; tailcase E'; reflexivity.
Qed.
Lemma lc_eq : local parse_eq.
Proof.
  split; [apply st_eq|]. intros body N. unfold parse_eq, parse_punct. cbn [toks punct_rest].
  destruct body as [|t body].
  { right. intros tl sc c E. tailcase E; simpl; eexists; reflexivity. }
  cbn [app]. destruct t; try (right; intros; eexists; reflexivity).
  destruct (Ascii.eqb eq_c c && true); [left; exists tt, body; intros; split; reflexivity|right; intros; eexists; reflexivity].
Qed.
Lemma lc_named_with {A} (item : mode -> parser A) inline flag sp :
  (forall m, local (item m)) -> (forall m, unaware_m (inline m)) -> (forall m, well_behaved_m (inline m)) ->
  (forall sp, returns (flag sp)) -> local (parse_named_with item inline flag sp).
Proof.
  intros HI HU HW HF. unfold parse_named_with.
  apply lc_if. { intros; now apply peek_eq_app. }
  { apply lc_bind; [apply lc_eq|]. intros _. apply HI. }
  apply lc_if. { intros; now apply peek_group_app. }
  { apply lc_delimited; [apply ub_single, HU|apply wb_single, HW]. }
  now apply lc_res.
Qed.
Lemma lc_path : local parse_any_path.
Proof.
  split; [apply st_path|]. intros body N. destruct (parse_any_path (root_stream body)) as [[p|e|b] s1] eqn:P.
  - left. exists p, (toks s1). intros tl sc c E. pose proof (path_item body tl sc c E) as H. rewrite P in H. rewrite H. auto.
  - right. intros tl sc c E. pose proof (path_item body tl sc c E) as H. rewrite P in H.
    destruct H as [e' [s2 H]]. rewrite H. eexists; reflexivity.
  - destruct (wb_path (root_stream body)) as [W _]. rewrite P in W. destruct W.
Qed.
Lemma until_app body tl : no_comma body -> ends tl -> until_comma (body ++ tl) = body.
Proof.
  intros N E. induction body as [|t body IH].
  { tailcase E; reflexivity. }
  apply nc_cons in N as [C N]. cbn [app until_comma]. rewrite C, (IH N). reflexivity.
Qed.
Lemma lc_tokenstream m : local (tokenstream_item m).
Proof.
  split; [apply st_tokenstream|]. intros body N. unfold tokenstream_item. destruct body as [|t body].
  { right. intros tl sc c E. tailcase E; simpl; eexists; reflexivity. }
  left. exists (t :: body), []. intros tl sc c E.
  assert (P : peek_comma (mkStream ((t :: body) ++ tl) sc c) = false).
  { apply nc_cons in N as [C _]. unfold peek_comma, peek_punct. cbn [toks app punct_rest]. destruct t; auto.
    simpl in C. rewrite Ascii.eqb_sym in C. now rewrite C. }
  rewrite P. cbn [toks]. rewrite (until_app _ _ N E). cbn [fst snd skip_item set_toks toks]. split; auto.
  rewrite (skip_toks_app _ _ N E). reflexivity.
Qed.
Lemma lc_and_thens {A} (fs : list (A -> A + synerr)) p : local p -> local (p_and_thens fs p).
Proof.
  intros [SP H]. split; [now apply st_and_thens|]. intros body N. unfold p_and_thens. destruct (H body N) as [[v [rest G]]|G].
  - destruct (after_and_thens fs (Ok v)) as [w|e|b] eqn:K.
    + left. exists w, rest. intros tl sc c E. destruct (G tl sc c E) as [R T].
      destruct (p (mkStream (body ++ tl) sc c)). cbn [fst snd] in *. subst. auto.
    + right. intros tl sc c E. destruct (G tl sc c E) as [R T].
      destruct (p (mkStream (body ++ tl) sc c)). cbn [fst snd] in *. subst. exists e. auto.
    + pose proof (returns_and_thens fs (Ok v) I) as W. rewrite K in W. destruct W.
  - right. intros tl sc c E. destruct (G tl sc c E) as [e R]. destruct (p (mkStream (body ++ tl) sc c)).
    cbn [fst snd] in *. subst. pose proof (returns_and_thens fs (Err e) I) as W.
    assert (K : forall w, after_and_thens fs (Err e) <> Ok w).
    { intro w. clear. unfold after_and_thens. destruct fs; discriminate. }
    destruct (after_and_thens fs (Err e)); [congruence|eexists; reflexivity|destruct W].
Qed.
End S.
