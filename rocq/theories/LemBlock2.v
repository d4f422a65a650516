(** The library types that can be flattened into a tuple take blocks of items. *)
From Verif Require Import LemAppend LemTuple LemItems LemSplit.
From Verif Require Export LemBlock.

Lemma skipn_nth {A} (l : list A) : forall c d, nth_error l c = Some d -> skipn c l = d :: skipn (S c) l.
Proof. induction l as [|a l IH]; intros [|c] d H; cbn in *; try discriminate; [congruence|]. now apply IH. Qed.
Section I.
Context {env : Env} {A : Type}.
Lemma item_fw (d : dict A) s segs v s1 : fine d -> listed segs (toks s) -> ~ In [] segs -> segs <> [] ->
  d_item d Unnamed s = (Ok v, s1) -> ends (toks s1) ->
  exists seg rest, segs = seg :: rest /\ accepts (d_item d Unnamed) seg v.
Proof.
  intros F L NB NE H EN. destruct (listed_ne _ _ L NE NB) as [seg [segs' [tl [-> [E [N [NC [ET _]]]]]]]].
  exists seg, segs'. split; auto. destruct s as [ts sc c]. cbn [toks] in E. subst ts.
  destruct (stays_cut (d_item d Unnamed) seg tl sc c (proj1 (fi_item d F Unnamed)) NC ET) as [seg' [T [pre P]]].
  rewrite H in T. cbn [snd] in T. assert (seg' = []).
  { destruct seg' as [|t seg']; auto. exfalso. rewrite T in EN. revert EN. apply not_end; [discriminate|]. subst seg. unfold no_comma in *. apply Forall_app in NC. tauto. }
  subst seg'. apply (local_accepts_at (d_item d Unnamed) seg tl sc c v); auto; [apply F| |]; now rewrite H.
Qed.
Lemma item_bw (d : dict A) seg more v ts tl sc c : accepts (d_item d Unnamed) seg v -> block [seg] more ts tl ->
  exists s1, d_item d Unnamed (mkStream ts sc c) = (Ok v, s1) /\ toks s1 = tl.
Proof.
  intros AC B. apply block_inv in B as [N [NC [[_ [-> F]]|[X _]]]]; [|tauto]. destruct (AC tl sc c (follows_ends _ _ F)) as [H1 H2].
  destruct (d_item d Unnamed (mkStream (seg ++ tl) sc c)) as [r s1]. cbn [fst snd] in *. exists s1. split; congruence.
Qed.
Lemma tail_state blk more ts tl s1 : block blk more ts tl -> (blk <> [] \/ more = false) -> toks s1 = tl -> if more then toks s1 = tl else used_up s1.
Proof. intros B D E. apply block_tail in B; auto. destruct more; auto. apply follows_used. now rewrite E. Qed.
End I.

(** *** Arrays *)
Section Ar.
Context {env : Env} {A : Type} (N : nat) (d : dict A) (F : fine d).
Local Definition aT (c : nat) (blk : list (list token)) (more : bool) (v : A) : Prop :=
  exists seg, blk = [seg] /\ accepts (d_item d Unnamed) seg v.
Local Definition aupd (c : nat) (v : A) (st : arr_st A) : arr_st A := LibColl.mkArr (LibColl.ar_vals st ++ [v]) (LibColl.ar_errs st) (LibColl.ar_failed st).
Local Definition aclean (st : arr_st A) : Prop := LibColl.ar_errs st = [].
Local Definition ainv (c : nat) (st : arr_st A) : Prop := length (LibColl.ar_vals st) = c.
Lemma a_inv c v st : ainv c st -> ainv (S c) (aupd c v st).
Proof. unfold ainv, aupd. cbn [LibColl.ar_vals]. intros <-. rewrite app_length. cbn. lia. Qed.
Lemma push_syn_ne (es : errors) e : push_syn es e <> [].
Proof. unfold push_syn. destruct e as [h t]. intro H. apply app_eq_nil in H as [_ H]. discriminate. Qed.
Lemma check_nil (es : errors) : check es = Ok tt -> es = [].
Proof. unfold check, into_result. destruct es; [auto|discriminate]. Qed.
Lemma a_fw c st s segs st1 l : c < N -> listed segs (toks s) -> ~ In [] segs -> segs <> [] ->
  arr_fn N d c st [s] = (Ok tt, st1, l) -> aclean st1 ->
  aclean st /\ exists s1, l = [s1] /\
    (ends (toks s1) -> exists blk rest v, segs = blk ++ rest /\ blk <> [] /\ aT c blk (some_items rest) v /\ st1 = aupd c v st).
Proof.
  intros LT L NB NE H C. unfold arr_fn in H. destruct (d_item d Unnamed s) as [[v|e|b] s1] eqn:E; [| |discriminate].
  - destruct (Nat.ltb (length (LibColl.ar_vals st)) N); [|discriminate]. injection H as <- <-. split; [exact C|]. exists s1. split; auto. intro EN.
    destruct (item_fw d s segs v s1 F L NB NE E EN) as [seg [rest [-> AC]]]. exists [seg], rest, v. split; auto. split; [discriminate|]. split; auto. now exists seg.
  - injection H as <- <-. unfold aclean in C. cbn [LibColl.ar_errs] in C. now apply push_syn_ne in C.
Qed.
Lemma a_dirty c st l r st1 l1 : arr_fn N d c st l = (r, st1, l1) -> aclean st1 -> aclean st.
Proof.
  unfold arr_fn. destruct l as [|s rest]; [congruence|]. destruct (d_item d Unnamed s) as [[v|e|b] s1].
  - destruct (Nat.ltb _ N); intros H C; [injection H as <- <- <-; exact C|congruence].
  - intros H C. injection H as <- <- <-. unfold aclean in C. cbn [LibColl.ar_errs] in C. now apply push_syn_ne in C.
  - congruence.
Qed.
Lemma a_bw c st blk more v ts tl sc cl : ainv c st -> c < N -> blk <> [] -> aT c blk more v -> aclean st -> block blk more ts tl ->
  exists s1, arr_fn N d c st [mkStream ts sc cl] = (Ok tt, aupd c v st, [s1]) /\ (if more then toks s1 = tl else used_up s1).
Proof.
  intros I LT NE [seg [-> AC]] C B. destruct (item_bw d seg more v ts tl sc cl AC B) as [s1 [E T]]. exists s1. unfold arr_fn. rewrite E.
  unfold ainv in I. rewrite I, (proj2 (Nat.ltb_lt _ _) LT). split; auto. eapply tail_state; eauto.
Qed.
Lemma a_chain more c blk vs : chain N aT more c blk vs <-> Forall2 (accepts (d_item d Unnamed)) blk vs /\ (vs = [] \/ c + length vs <= N) /\ (more = true -> N <= c + length vs).
Proof.
  split.
  - induction 1 as [c D|c blk rest v vs LC NE [seg [-> AC]] CH IH].
    + split; [constructor|]. split; auto. cbn. rewrite Nat.add_0_r. auto.
    + destruct IH as [I1 [I2 I3]]. cbn [app length]. split; [now constructor|]. split; [right; destruct I2 as [-> |I2]; cbn; lia|]. intro M. specialize (I3 M). lia.
  - intros [H D]. revert c D. induction H as [|seg v blk vs AC H IH]; intros c [D1 D2].
    + constructor. cbn in D2. rewrite Nat.add_0_r in D2. auto.
    + destruct D1 as [D1|D1]; [discriminate|]. cbn [length] in *. change (seg :: blk) with ([seg] ++ blk). constructor; [lia|discriminate|now exists seg|].
      apply IH. split; [right; lia|intro M; specialize (D2 M); lia].
Qed.
Lemma a_upds : forall vs c st, upds aupd c vs st = LibColl.mkArr (LibColl.ar_vals st ++ vs) (LibColl.ar_errs st) (LibColl.ar_failed st).
Proof.
  induction vs as [|v vs IH]; intros c st; cbn [upds]; [rewrite app_nil_r; now destruct st|]. rewrite IH. cbn. now rewrite <- app_assoc.
Qed.

Lemma array_fw i ts sc c segs vs l : listed segs ts -> ~ In [] segs -> array_flat N d i [mkStream ts sc c] = (Ok vs, l) ->
  exists s', l = [s'] /\ (segs = [] -> s' = mkStream ts sc c) /\
    (ends (toks s') -> exists blk rest, segs = blk ++ rest /\ (segs <> [] -> blk <> []) /\ length blk = N /\ Forall2 (accepts (d_item d Unnamed)) blk vs).
Proof.
  intros L NB H. unfold array_flat, parse_tuple_struct in H. cbn [length] in H.
  destruct (tuple_loop N (arr_fn N d) (S (N + 1)) 0 (LibColl.mkArr [] [] 0) [mkStream ts sc c]) as [[r st] l1] eqn:E.
  assert (X : l1 = l /\ exists n, r = Ok n /\ LibColl.ar_errs st = [] /\ length (LibColl.ar_vals st) = N /\ vs = LibColl.ar_vals st).
  { destruct r as [n|e|b]; [| |discriminate].
    - cbn [push_result] in H. injection H as H <-. split; auto. exists n. split; auto.
      match type of H with match check ?X with _ => _ end = _ => assert (CK : X = []) by (apply check_nil; destruct (check X) as [[]|?|?]; congruence) end.
      destruct (Nat.eqb _ N) in CK; [|now apply push_syn_ne in CK]. rewrite CK in H. unfold check, into_result in H.
      destruct (Nat.eqb (length (LibColl.ar_vals st)) N) eqn:Q in H; [|destruct (Nat.eqb _ N) in H; discriminate H].
      apply Nat.eqb_eq in Q. split; auto. split; auto.
      match type of H with match (match (if ?b then _ else _) with _ => _ end) with _ => _ end = _ => destruct b; [congruence|discriminate H] end.
    - exfalso. cbn [push_result] in H. injection H as H _.
      match type of H with match check ?X with _ => _ end = _ => assert (CK : X = []) by (apply check_nil; destruct (check X) as [[]|?|?]; congruence) end.
      destruct (Nat.eqb _ N) in CK; now apply push_syn_ne in CK. }
  destruct X as [-> [n [-> [C [LN ->]]]]].
  destruct (loop_forward N (arr_fn N d) aT aupd aclean ainv a_inv a_fw a_dirty a_bw _ 0 (LibColl.mkArr [] [] 0) (mkStream ts sc c) segs n st l eq_refl (Nat.le_0_l N) L NB E C) as [_ [s' [-> [E2 Y]]]].
  exists s'. split; auto. split; auto. intro EN. destruct (Y EN) as [blk [rest [ws [-> [NB1 [CH [-> ->]]]]]]]. rewrite a_upds in *. cbn [LibColl.ar_vals app] in *.
  apply a_chain in CH as [CH _]. exists blk, rest. split; auto. split; auto. split; auto. now rewrite (Forall2_len _ _ _ CH).
Qed.
Lemma array_bw i blk more ts tl sc c vs : length blk = N -> Forall2 (accepts (d_item d Unnamed)) blk vs -> (blk <> [] \/ more = false) -> block blk more ts tl ->
  exists s', array_flat N d i [mkStream ts sc c] = (Ok vs, [s']) /\ (if more then toks s' = tl else used_up s') /\ (blk = [] -> s' = mkStream ts sc c).
Proof.
  intros LN H D B. pose proof (Forall2_len _ _ _ H) as LV.
  assert (CH : chain N aT more 0 blk vs) by (apply a_chain; split; auto; split; [right; lia|lia]).
  destruct (loop_backward N (arr_fn N d) aT aupd aclean ainv a_inv (fun _ _ _ H => H) a_bw more 0 blk vs CH (S (N + 1)) (LibColl.mkArr [] [] 0) ts tl sc c eq_refl D B eq_refl ltac:(lia) ltac:(lia)) as [s' [E [U V]]].
  exists s'. split; auto. unfold array_flat, parse_tuple_struct. cbn [length]. rewrite E, a_upds. cbn [LibColl.ar_vals LibColl.ar_errs LibColl.ar_failed app push_result].
  assert (Q : Nat.eqb (length vs) N = true) by (apply Nat.eqb_eq; lia). assert (Q0 : Nat.eqb (length vs + 0) N = true) by (rewrite Nat.add_0_r; exact Q). rewrite Q0, Q. reflexivity.
Qed.
Lemma array_takes blk more vs : length blk = N -> Forall2 (accepts (d_item d Unnamed)) blk vs -> (blk <> [] \/ more = false) -> takes (array_fu N d) blk more vs.
Proof. intros LN H D i ts tl sc c B. destruct (array_bw i blk more ts tl sc c vs LN H D B) as [s' [E [U _]]]. eauto. Qed.
Lemma array_by_items : by_items (array_fu N d).
Proof.
  split; [|split].
  - intros i ts sc c segs v l L NB NE H. destruct (array_fw i ts sc c segs v l L NB H) as [s' [-> [_ X]]]. exists s'. split; auto. intro EN.
    destruct (X EN) as [blk [rest [E [NB1 [LN HF]]]]]. exists blk, rest. split; auto. split; auto. apply array_takes; auto.
  - intros i sc v l H. destruct (array_fw i [] sc None [] v l Li_none ltac:(tauto) H) as [s' [-> [ES X]]]. specialize (ES eq_refl). subst s'.
    destruct (X (or_introl eq_refl)) as [blk [rest [E [_ [LN HF]]]]]. symmetry in E. apply app_eq_nil in E as [-> ->]. assert (v = []) by (inversion HF; auto). subst v.
    intros j sc'. destruct (array_bw j [] false [] [] sc' None [] LN HF (or_intror eq_refl) Bk_none) as [s' [E [_ V]]]. rewrite (V eq_refl) in E. exact E.
  - intros i sc. cbn [array_fu fu_parse]. unfold array_flat, parse_tuple_struct. cbn [length]. rewrite Nat.add_comm. reflexivity.
Qed.
End Ar.

(** *** Tuples *)
Section Tp.
Context {env : Env} {A : Type} (ds : list (dict A)) (F : Forall fine ds).
Local Notation st0 := (list (fstatus A) * errors)%type.
Local Definition tT (c : nat) (blk : list (list token)) (more : bool) (v : A) : Prop :=
  exists d seg, nth_error ds c = Some d /\ blk = [seg] /\ accepts (d_item d Unnamed) seg v.
Local Definition tupd (c : nat) (v : A) (st : st0) : st0 := (upd_nth c (FSome v) (fst st), snd st).
Local Definition tclean (st : st0) : Prop := snd st = [].
Local Definition tinv (c : nat) (st : st0) : Prop := True.
Lemma t_inv c v st : tinv c st -> tinv (S c) (tupd c v st).
Proof. exact (fun x => x). Qed.
Lemma t_fine c d : nth_error ds c = Some d -> fine d.
Proof. intro H. rewrite Forall_forall in F. apply F. eapply nth_error_In; eauto. Qed.
Lemma t_fw c st s segs st1 l : c < length ds -> listed segs (toks s) -> ~ In [] segs -> segs <> [] ->
  tup_fn ds c st [s] = (Ok tt, st1, l) -> tclean st1 ->
  tclean st /\ exists s1, l = [s1] /\
    (ends (toks s1) -> exists blk rest v, segs = blk ++ rest /\ blk <> [] /\ tT c blk (some_items rest) v /\ st1 = tupd c v st).
Proof.
  intros LT L NB NE H C. unfold tup_fn in H. destruct (nth_error ds c) as [d|] eqn:ED; [|discriminate]. unfold fs_parse_unnamed in H.
  destruct (d_item d Unnamed s) as [[v|e|b] s1] eqn:E; [| |discriminate].
  - injection H as <- <-. split; [exact C|]. exists s1. split; auto. intro EN.
    destruct (item_fw d s segs v s1 (t_fine c d ED) L NB NE E EN) as [seg [rest [-> AC]]]. exists [seg], rest, v. split; auto. split; [discriminate|]. split; auto. exists d, seg. auto.
  - injection H as <- <-. unfold tclean in C. cbn [snd] in C. now apply push_syn_ne in C.
Qed.
Lemma t_dirty c st l r st1 l1 : tup_fn ds c st l = (r, st1, l1) -> tclean st1 -> tclean st.
Proof.
  unfold tup_fn. destruct l as [|s rest]; [congruence|]. destruct (nth_error ds c) as [d|]; [|congruence]. unfold fs_parse_unnamed.
  destruct (d_item d Unnamed s) as [[v|e|b] s1]; intros H C; injection H as <- <- <-; auto. unfold tclean in C. cbn [snd] in C. now apply push_syn_ne in C.
Qed.
Lemma t_bw c st blk more v ts tl sc cl : tinv c st -> c < length ds -> blk <> [] -> tT c blk more v -> tclean st -> block blk more ts tl ->
  exists s1, tup_fn ds c st [mkStream ts sc cl] = (Ok tt, tupd c v st, [s1]) /\ (if more then toks s1 = tl else used_up s1).
Proof.
  intros I LT NE [d [seg [ED [-> AC]]]] C B. destruct (item_bw d seg more v ts tl sc cl AC B) as [s1 [E T]]. exists s1. unfold tup_fn, fs_parse_unnamed. rewrite ED, E.
  split; auto. eapply tail_state; eauto.
Qed.
Lemma t_chain_len more c blk vs : chain (length ds) tT more c blk vs -> vs = [] \/ c + length vs <= length ds.
Proof. induction 1 as [c D|c blk rest v vs LC NE T CH IH]; auto. right. cbn [length]. destruct IH as [-> |IH]; cbn; lia. Qed.
Lemma t_chain_each more c blk vs : chain (length ds) tT more c blk vs -> c + length vs = length ds -> each_accepts (skipn c ds) blk vs.
Proof.
  induction 1 as [c D|c blk rest v vs LC NE [d [seg [ED [-> AC]]]] CH IH]; cbn [length]; intro LN.
  - rewrite skipn_all2 by lia. constructor.
  - rewrite (skipn_nth ds c d ED). constructor; auto. apply IH. lia.
Qed.
Lemma t_each_chain more : forall blk vs c, each_accepts (skipn c ds) blk vs -> chain (length ds) tT more c blk vs.
Proof.
  intros blk vs c H. remember (skipn c ds) as es eqn:E. revert c E. induction H as [|d es seg segs v vs AC H IH]; intros c E.
  - constructor. intros _. destruct (Nat.le_gt_cases (length ds) c); auto. exfalso. pose proof (skipn_length c ds) as X. rewrite <- E in X. cbn in X. lia.
  - assert (LC : c < length ds). { destruct (Nat.lt_ge_cases c (length ds)); auto. rewrite skipn_all2 in E by lia. discriminate. }
    destruct (nth_error ds c) as [d'|] eqn:ED; [|apply nth_error_None in ED; lia]. rewrite (skipn_nth ds c d' ED) in E. injection E as <- E.
    change (seg :: segs) with ([seg] ++ segs). constructor; auto; [discriminate|]. exists d, seg. auto.
Qed.
Lemma t_upds : forall vs c st, c + length vs <= length ds -> upds tupd c vs st = (fill (tup_look ds) c vs (fst st), snd st).
Proof.
  induction vs as [|v vs IH]; intros c st L; cbn [upds fill length] in *; [now destruct st|]. rewrite IH by lia.
  assert (X : exists d, tup_look ds c = Some (c, d)). { unfold tup_look. destruct (nth_error ds c) as [d|] eqn:E; [exists d; reflexivity|]. apply nth_error_None in E. lia. }
  destruct X as [d ->]. reflexivity.
Qed.
Lemma tuple_fw ts sc c segs vs l : listed segs ts -> ~ In [] segs -> tuple_flat ds [mkStream ts sc c] = (Ok vs, l) ->
  exists s', l = [s'] /\ (segs = [] -> s' = mkStream ts sc c) /\
    (ends (toks s') -> exists blk rest, segs = blk ++ rest /\ (segs <> [] -> blk <> []) /\ each_accepts ds blk vs).
Proof.
  intros L NB H. unfold tuple_flat, parse_tuple_struct in H. cbn [length] in H. set (i0 := (map (fun _ => FNone) ds, []) : st0) in *.
  destruct (tuple_loop (length ds) (tup_fn ds) (S (length ds + 1)) 0 i0 [mkStream ts sc c]) as [[r st] l1] eqn:E.
  assert (X : l1 = l /\ exists n, r = Ok n /\ snd st = [] /\ first_none 0 (fst st) = None /\ fst st = map FSome vs).
  { assert (Y : forall es, match first_none 0 (fst st) with Some i => (bail (push es (inputs_span l1) (tup_len_msg (length ds) i)), l1) | None => (rbind (check es) (fun _ => unwrap_all (fst st)), l1) end = (Ok vs, l) ->
      l1 = l /\ es = [] /\ first_none 0 (fst st) = None /\ fst st = map FSome vs).
    { intros es Z. destruct (first_none 0 (fst st)) as [i|]; injection Z as Z <-; [unfold bail in Z; destruct (push es _ _); discriminate|].
      destruct (check es) as [[]|?|?] eqn:CK; try discriminate. apply check_nil in CK. cbn in Z. apply unwrap_all_ok in Z. auto. }
    destruct r as [n|e|b]; [| |discriminate].
    - destruct (Y _ H) as [-> [E1 E2]]. split; auto. exists n. cbn [push_result] in E1. auto.
    - destruct (Y _ H) as [_ [E1 _]]. cbn [push_result] in E1. now apply push_syn_ne in E1. }
  destruct X as [-> [n [-> [C [FN EV]]]]].
  destruct (loop_forward (length ds) (tup_fn ds) tT tupd tclean tinv t_inv t_fw t_dirty t_bw _ 0 i0 (mkStream ts sc c) segs n st l I (Nat.le_0_l _) L NB E C) as [_ [s' [-> [E2 Y]]]].
  exists s'. split; auto. split; auto. intro EN. destruct (Y EN) as [blk [rest [ws [-> [NB1 [CH [-> ->]]]]]]].
  assert (LE : 0 + length ws <= length ds) by (destruct (t_chain_len _ _ _ _ CH) as [-> |]; cbn; lia).
  rewrite t_upds in * by exact LE. cbn [fst snd i0] in *.
  assert (LW : 0 + length ws = length ds).
  { destruct (Nat.lt_ge_cases (length ws) (length ds)) as [LT|]; [|cbn in *; lia]. exfalso.
    apply first_none_none in FN. rewrite Forall_forall in FN. apply (FN FNone); auto.
    apply nth_error_In with (n := length ws). rewrite fill_unset; [|intros k ri d; unfold tup_look; destruct (nth_error ds k); cbn; congruence|lia]. rewrite nth_map.
    destruct (nth_error ds (length ws)) eqn:X; auto. apply nth_error_None in X. lia. }
  assert (X := tup_fill ds ws 0 [] (map (fun _ => FNone) ds) eq_refl LW ltac:(rewrite map_length; cbn in *; lia)). cbn [app] in X.
  rewrite X in EV. assert (ws = vs). { clear -EV. revert vs EV. induction ws as [|w ws IH]; intros [|v vs] H; cbn in H; try discriminate; auto. injection H as -> H. f_equal. auto. }
  subst ws. exists blk, rest. split; auto. split; auto. exact (t_chain_each _ _ _ _ CH LW).
Qed.
Lemma tuple_bw blk more ts tl sc c vs : each_accepts ds blk vs -> (blk <> [] \/ more = false) -> block blk more ts tl ->
  exists s', tuple_flat ds [mkStream ts sc c] = (Ok vs, [s']) /\ (if more then toks s' = tl else used_up s') /\ (blk = [] -> s' = mkStream ts sc c).
Proof.
  intros H D B. destruct (each_accepts_len _ _ _ H) as [_ LV].
  set (i0 := (map (fun _ => FNone) ds, []) : st0).
  destruct (loop_backward (length ds) (tup_fn ds) tT tupd tclean tinv t_inv (fun _ _ _ H => H) t_bw more 0 blk vs (t_each_chain more blk vs 0 H) (S (length ds + 1)) i0 ts tl sc c I D B eq_refl ltac:(lia) ltac:(lia)) as [s' [E [U V]]].
  exists s'. split; auto. unfold tuple_flat, parse_tuple_struct. cbn [length]. fold i0. rewrite E, t_upds by lia. cbn [fst snd i0].
  assert (X := tup_fill ds vs 0 [] (map (fun _ => FNone) ds) eq_refl ltac:(simpl; lia) ltac:(rewrite map_length; lia)). cbn [app] in X.
  rewrite X, first_none_some. cbn [push_result check into_result rbind]. rewrite unwrap_some. reflexivity.
Qed.
Lemma tuple_takes blk more vs : each_accepts ds blk vs -> (blk <> [] \/ more = false) -> takes (tuple_fu ds) blk more vs.
Proof. intros H D i ts tl sc c B. destruct (tuple_bw blk more ts tl sc c vs H D B) as [s' [E [U _]]]. eauto. Qed.
Lemma tuple_by_items : by_items (tuple_fu ds).
Proof.
  split; [|split].
  - intros i ts sc c segs v l L NB NE H. destruct (tuple_fw ts sc c segs v l L NB H) as [s' [-> [_ X]]]. exists s'. split; auto. intro EN.
    destruct (X EN) as [blk [rest [E [NB1 HF]]]]. exists blk, rest. split; auto. split; auto. apply tuple_takes; auto.
  - intros i sc v l H. destruct (tuple_fw [] sc None [] v l Li_none ltac:(tauto) H) as [s' [-> [ES X]]]. specialize (ES eq_refl). subst s'.
    destruct (X (or_introl eq_refl)) as [blk [rest [E [_ HF]]]]. symmetry in E. apply app_eq_nil in E as [-> ->].
    intros j sc'. destruct (tuple_bw [] false [] [] sc' None v HF (or_intror eq_refl) Bk_none) as [s' [E [_ V]]]. rewrite (V eq_refl) in E. exact E.
  - intros i sc. cbn [tuple_fu fu_parse]. unfold tuple_flat, parse_tuple_struct. cbn [length]. rewrite Nat.add_comm. cbn. now destruct (first_none 0 _).
Qed.
End Tp.

(** *** Vectors take all that is left *)
Section Vc.
Context {env : Env} {A : Type} (d : dict A) (F : fine d).
Lemma comma_loop_end {St} (step : St -> stream -> res St * stream) : forall fuel st s st' s', comma_loop step fuel st s = (Ok st', s') -> toks s' = [].
Proof.
  induction fuel as [|n IH]; intros st s st' s' H; cbn [comma_loop] in H; [discriminate|]. destruct (is_empty s) eqn:E.
  - injection H as <- <-. unfold is_empty in E. now destruct (toks s).
  - destruct (step st s) as [[st1|?|?] s1]; try discriminate. destruct (is_empty s1) eqn:E1.
    + injection H as <- <-. unfold is_empty in E1. now destruct (toks s1).
    + destruct (parse_comma s1) as [[u|?|?] s2]; try discriminate. eauto.
Qed.
Lemma vec_end s vs l : vec_flat d [s] = (Ok vs, l) -> exists s', l = [s'] /\ toks s' = [] /\ (toks s = [] -> s' = s).
Proof.
  unfold vec_flat, finish. cbn [over_streams]. destruct (comma_stream (vec_step d) ([], []) s) as [[st|e|b] s1] eqn:E; cbn [rbind]; intro H; try discriminate.
  injection H as _ <-. exists s1. split; auto. unfold comma_stream in E. split; [eapply comma_loop_end; eauto|].
  intro T. cbn [comma_loop] in E. unfold is_empty in E. rewrite T in E. now injection E as _ <-.
Qed.
Lemma vec_run ts sc c segs vs : listed segs ts -> (exists s', vec_flat d [mkStream ts sc c] = (Ok vs, [s']) /\ toks s' = [] /\ (ts = [] -> s' = mkStream ts sc c)) <-> Forall2 (accepts (d_item d Unnamed)) segs vs.
Proof.
  intro L. assert (HI : items_of [mkStream ts sc c] = segs) by (rewrite items_of_one; now apply listed_items).
  rewrite <- HI, <- vec_ok by apply F. split.
  - intros [s' [E _]]. now rewrite E.
  - intro E. destruct (vec_flat d [mkStream ts sc c]) as [r l] eqn:V. cbn [fst] in E. subst r. destruct (vec_end _ _ _ V) as [s' [-> [T K]]]. exists s'. auto.
Qed.
Lemma vec_takes blk vs : Forall2 (accepts (d_item d Unnamed)) blk vs -> takes (vec_fu d) blk false vs.
Proof.
  intros H i ts tl sc c B. apply block_listed in B as [L _]. destruct (proj2 (vec_run ts sc c blk vs L) H) as [s' [E [T _]]]. exists s'. split; [exact E|now left].
Qed.
Lemma vec_by_items : by_items (vec_fu d).
Proof.
  split; [|split].
  - intros i ts sc c segs v l L NB NE H. cbn [vec_fu fu_parse] in H. destruct (vec_end _ _ _ H) as [s' [-> [T K]]]. exists s'. split; auto. intros _.
    exists segs, []. split; [now rewrite app_nil_r|]. split; auto. apply vec_takes. apply (vec_run ts sc c segs v L). exists s'. auto.
  - intros i sc v l H. cbn [vec_fu fu_parse] in H. destruct (vec_end _ _ _ H) as [s' [-> [T K]]]. rewrite (K eq_refl) in H.
    assert (X : Forall2 (accepts (d_item d Unnamed)) [] v). { apply (vec_run [] sc None [] v Li_none). exists (mkStream [] sc None). auto. }
    intros j sc'. destruct (proj2 (vec_run [] sc' None [] v Li_none) X) as [s2 [E [_ K2]]]. rewrite (K2 eq_refl) in E. exact E.
  - intros i sc. reflexivity.
Qed.
End Vc.

(** *** A wrapper around a type *)
Lemma map_takes {env : Env} {A B} (g : A -> B) u blk more v : takes u blk more v -> takes (fu_map g u) blk more (g v).
Proof.
  intros H i ts tl sc c BK. destruct (H i ts tl sc c BK) as [s' [E U]]. exists s'. split; auto. unfold fu_map, pmap. cbn. now rewrite E.
Qed.
Lemma map_by_items {env : Env} {A B} (g : A -> B) u : by_items u -> by_items (fu_map g u).
Proof.
  intros [H1 [H2 H3]]. split; [|split].
  - intros i ts sc c segs v l L NB NE H. unfold fu_map, pmap in H. cbn in H. destruct (fu_parse u Unnamed i [mkStream ts sc c]) as [[w|e|b] l1] eqn:E; try discriminate.
    injection H as <- <-. destruct (H1 i ts sc c segs w l1 L NB NE E) as [s' [-> X]]. exists s'. split; auto. intro EN. destruct (X EN) as [blk [rest [E1 [E2 T]]]]. exists blk, rest. split; auto. split; auto. now apply map_takes.
  - intros i sc v l H. unfold fu_map, pmap in H. cbn in H. destruct (fu_parse u Unnamed i [mkStream [] sc None]) as [[w|e|b] l1] eqn:E; try discriminate.
    injection H as <- <-. intros j sc'. unfold fu_map, pmap. cbn. rewrite (H2 i sc w l1 E j sc'). reflexivity.
  - intros i sc. unfold fu_map, pmap. cbn. specialize (H3 i sc). destruct (fu_parse u Unnamed i [mkStream [] sc None]) as [[w|e|b] l1]; exact H3.
Qed.
