(** Tuple structs with flattened fields take blocks of items. *)
From Verif Require Import LemAppend LemTuple LemItems LemSplit LemTStruct LemWfD.
From Verif Require Export LemBlock2.

Section S.
Context {env : Env} {V : Type}.
Local Notation field := (field V).
(** *** the slots *)
Definition slotted (fs : list field) : Prop :=
  Forall (fun f => is_parsable f = true -> (exists d, f_kind f = KItem d /\ fine d) \/ (exists u, f_kind f = KFlatU u /\ by_items u)) fs.
Lemma tf_take2 (f : field) fs k : is_parsable f = true -> (exists d, f_kind f = KItem d /\ fine d) \/ (exists u, f_kind f = KFlatU u /\ by_items u) ->
  tuple_fields (f :: fs) k = (k, f) :: tuple_fields fs (S k).
Proof. intros H [[d [K _]]|[u [K _]]]; cbn [tuple_fields]; now rewrite H, K. Qed.
Lemma tf_len fs : slotted fs -> forall k, length (tuple_fields fs k) = length (filter is_parsable fs).
Proof.
  induction 1 as [|f fs H P IH]; intro k; auto. destruct (is_parsable f) eqn:PF.
  - rewrite (tf_take2 f fs k PF (H eq_refl)). cbn [filter length]. rewrite PF. cbn. now rewrite IH.
  - rewrite (tf_skip f fs k PF). cbn [filter]. rewrite PF. apply IH.
Qed.
Lemma tf_in fs k ri f : slotted fs -> In (ri, f) (tuple_fields fs k) ->
  (exists d, f_kind f = KItem d /\ fine d) \/ (exists u, f_kind f = KFlatU u /\ by_items u).
Proof.
  intro P. revert k. induction P as [|g fs H P IH]; intros k I; [destruct I|]. destruct (is_parsable g) eqn:PF.
  - rewrite (tf_take2 g fs k PF (H eq_refl)) in I. destruct I as [I|I]; [injection I as <- <-; auto|eauto].
  - rewrite (tf_skip g fs k PF) in I. eauto.
Qed.
Fixpoint fill2 (look : nat -> option nat) (c : nat) (vs : list V) (sl : list (fstatus V)) : list (fstatus V) :=
  match vs with
  | [] => sl
  | v :: vs' => fill2 look (S c) vs' (match look c with Some ri => upd_nth ri (FSome v) sl | None => sl end)
  end.
Definition look2 (fs : list field) (k c : nat) : option nat := option_map fst (nth_error (tuple_fields fs k) c).
Lemma fill2_place fs ws : slotted fs -> forall look c pre, (forall j, look (c + j) = look2 fs (length pre) j) ->
  fill2 look c ws (pre ++ map (fun _ => FNone) fs) = pre ++ map o2s (place fs ws).
Proof.
  intro P. revert ws. induction P as [|f fs H P IH]; intros ws look c pre LK; cbn [map place].
  - rewrite !app_nil_r. revert c pre LK. induction ws as [|w ws IHw]; intros c pre LK; cbn [fill2]; auto.
    specialize (LK 0) as L0. rewrite Nat.add_0_r in L0. rewrite L0. unfold look2. cbn [tuple_fields nth_error option_map].
    apply IHw. intro j. specialize (LK (S j)). rewrite Nat.add_succ_comm. rewrite LK. unfold look2. cbn [tuple_fields]. destruct j; reflexivity.
  - destruct (is_parsable f) eqn:PF.
    + specialize (H eq_refl). destruct ws as [|w ws].
      * cbn [fill2 map o2s]. specialize (IH [] look (S c) (pre ++ [FNone])). cbn [fill2] in IH. rewrite <- !app_assoc in IH. cbn [app] in IH. apply IH.
        intro j. rewrite Nat.add_succ_comm, LK. unfold look2. rewrite (tf_take2 f fs _ PF H). cbn [nth_error]. rewrite app_length. cbn [length]. now rewrite Nat.add_1_r.
      * cbn [fill2 map o2s]. specialize (LK 0) as L0. rewrite Nat.add_0_r in L0. rewrite L0. unfold look2. rewrite (tf_take2 f fs _ PF H). cbn [nth_error option_map fst].
        assert (X : upd_nth (length pre) (FSome w) (pre ++ FNone :: map (fun _ => FNone) fs) = (pre ++ [FSome w]) ++ map (fun _ => FNone) fs).
        { clear. induction pre as [|b pre IH]; cbn; auto. now rewrite IH. }
        rewrite X, IH; [now rewrite <- app_assoc|]. intro j. rewrite Nat.add_succ_comm, LK. unfold look2. rewrite (tf_take2 f fs _ PF H). cbn [nth_error]. rewrite app_length. cbn [length]. now rewrite Nat.add_1_r.
    + specialize (IH ws look c (pre ++ [FNone])). rewrite <- !app_assoc in IH. cbn [app] in IH. cbn [map o2s]. apply IH.
      intro j. rewrite LK. unfold look2. rewrite (tf_skip f fs _ PF). rewrite app_length. cbn [length]. now rewrite Nat.add_1_r.
Qed.

(** *** the blocks *)
Definition slotT (f : field) (blk : list (list token)) (more : bool) (v : V) : Prop :=
  match f_kind f with
  | KItem d => exists seg, blk = [seg] /\ accepts (d_item d Unnamed) seg v
  | KFlatU u => takes u blk more v
  | _ => False
  end.
Inductive lch (more : bool) : list (nat * field) -> list (list token) -> list V -> Prop :=
| Lc_end l : (more = true -> l = []) -> lch more l [] []
| Lc_cons ri f l blk rest v vs : blk <> [] -> slotT f blk (more || some_items rest) v -> lch more l rest vs ->
    lch more ((ri, f) :: l) (blk ++ rest) (v :: vs).
Lemma lch_nil more l ws : lch more l [] ws -> ws = [].
Proof. intro H. remember [] as s eqn:E. destruct H as [|ri f l blk rest v vs NE]; auto. apply app_eq_nil in E as [E _]. congruence. Qed.
Lemma spread_lch more fs segs os : slotted fs -> forall k,
  spread more fs segs os <-> exists ws, lch more (tuple_fields fs k) segs ws /\ os = place fs ws.
Proof.
  intros P k. split.
  - intro H. revert k P. induction H as [|f d fs seg segs v os PF K AC X IH|f u fs blk segs v os PF K NE TK X IH|f fs os PF M X IH|f fs segs os PF X IH]; intros k P.
    + exists []. split; [constructor; auto|reflexivity].
    + inversion P as [|? ? HF P']; subst. destruct (IH (S k) P') as [ws [E ->]]. exists (v :: ws). rewrite (tf_take2 f fs k PF (HF PF)). cbn [place]. rewrite PF. split; auto.
      change (seg :: segs) with ([seg] ++ segs). constructor; auto; [discriminate|]. unfold slotT. rewrite K. eauto.
    + inversion P as [|? ? HF P']; subst. destruct (IH (S k) P') as [ws [E ->]]. exists (v :: ws). rewrite (tf_take2 f fs k PF (HF PF)). cbn [place]. rewrite PF. split; auto.
      constructor; auto. unfold slotT. now rewrite K.
    + inversion P as [|? ? HF P']; subst. destruct (IH (S k) P') as [ws [E ->]]. apply lch_nil in E as ->. exists []. cbn [place]. rewrite PF. split; auto. constructor. discriminate.
    + inversion P as [|? ? HF P']; subst. destruct (IH (S k) P') as [ws [E ->]]. exists ws. rewrite (tf_skip f fs k PF). cbn [place]. rewrite PF. auto.
  - intros [ws [E ->]]. revert k segs ws E. induction P as [|f fs HF P IH]; intros k segs ws E.
    + cbn [tuple_fields] in E. inversion E; subst. constructor.
    + cbn [place]. destruct (is_parsable f) eqn:PF.
      * rewrite (tf_take2 f fs k PF (HF eq_refl)) in E. inversion E as [l M|ri f' l blk rest v vs NE TT H]; subst.
        -- apply Sp_short; auto; [destruct more; auto; specialize (M eq_refl); discriminate|]. apply (IH (S k) []). constructor. intro Z. specialize (M Z). discriminate.
        -- unfold slotT in TT. destruct (HF eq_refl) as [[d [K _]]|[u [K _]]]; rewrite K in TT.
           ++ destruct TT as [seg [-> AC]]. cbn [app]. eapply Sp_item; eauto.
           ++ eapply Sp_flat; eauto.
      * rewrite (tf_skip f fs k PF) in E. apply Sp_other; eauto.
Qed.

Section Body.
Variable fs : list field.
Hypothesis SL : slotted fs.
Local Notation st0 := (list (fstatus V) * errors * nat)%type.
Local Notation L := (tuple_fields fs 0).
Local Notation n := (length (filter is_parsable fs)).
Definition bT (c : nat) (blk : list (list token)) (more : bool) (v : V) : Prop :=
  match nth_error L c with Some (_, f) => slotT f blk more v | None => False end.
Definition bbump (f : field) (index : nat) : nat :=
  if existsb pflat fs then index + match f_kind f with KFlatU u => fu_count0 u | _ => 1 end else index.
Definition bupd (c : nat) (v : V) (st : st0) : st0 :=
  match nth_error L c with
  | Some (ri, f) => (upd_nth ri (FSome v) (fst (fst st)), snd (fst st), bbump f (snd st))
  | None => st
  end.
Definition bclean (st : st0) : Prop := snd (fst st) = [].
Definition binv (c : nat) (st : st0) : Prop := True.
Lemma b_inv c v st : binv c st -> binv (S c) (bupd c v st).
Proof. exact (fun x => x). Qed.
Lemma b_slot c ri f : nth_error L c = Some (ri, f) -> (exists d, f_kind f = KItem d /\ fine d) \/ (exists u, f_kind f = KFlatU u /\ by_items u).
Proof. intro H. apply nth_error_In in H. eapply tf_in; eauto. Qed.
Lemma b_fw c st s segs st1 l : c < n -> listed segs (toks s) -> ~ In [] segs -> segs <> [] ->
  tuple_closure fs c st [s] = (Ok tt, st1, l) -> bclean st1 ->
  bclean st /\ exists s1, l = [s1] /\
    (ends (toks s1) -> exists blk rest v, segs = blk ++ rest /\ blk <> [] /\ bT c blk (some_items rest) v /\ st1 = bupd c v st).
Proof.
  intros LT LS NB NE H C. destruct st as [[sl es] index]. unfold tuple_closure in H. destruct (nth_error L c) as [[ri f]|] eqn:EL; [|discriminate].
  destruct (b_slot _ _ _ EL) as [[d [K FD]]|[u [K BI]]]; rewrite K in H.
  - unfold fs_parse_unnamed in H. destruct (d_item d Unnamed s) as [[v|e|b] s1] eqn:E; [| |discriminate].
    + injection H as <- <-. split; [exact C|]. exists s1. split; auto. intro EN. destruct (item_fw d s segs v s1 FD LS NB NE E EN) as [seg [rest [-> AC]]].
      exists [seg], rest, v. split; auto. split; [discriminate|]. unfold bT, bupd, slotT, bbump. rewrite EL, K. split; eauto.
    + injection H as <- <-. unfold bclean in C. cbn [fst snd] in C. now apply push_syn_ne in C.
  - destruct s as [ts sc cl]. destruct (fu_parse u Unnamed index [mkStream ts sc cl]) as [[v|e|b] l1] eqn:E; [| |discriminate].
    + injection H as <- <-. split; [exact C|]. destruct (proj1 BI index ts sc cl segs v l1 LS NB NE E) as [s1 [-> X]]. exists s1. split; auto. intro EN.
      destruct (X EN) as [blk [rest [-> [NB1 TK]]]]. exists blk, rest, v. split; auto. split; auto. unfold bT, bupd, slotT, bbump. rewrite EL, K. auto.
    + injection H as <- <-. unfold bclean in C. cbn [fst snd] in C. now apply push_syn_ne in C.
Qed.
Lemma b_dirty c st l r st1 l1 : tuple_closure fs c st l = (r, st1, l1) -> bclean st1 -> bclean st.
Proof.
  destruct st as [[sl es] index]. unfold tuple_closure. destruct l as [|s rest]; [intro H; injection H as <- <- <-; auto|].
  destruct (nth_error L c) as [[ri f]|]; [|intro H; injection H as <- <- <-; auto].
  destruct (f_kind f) as [d| |u| |]; try (intro H; injection H as <- <- <-; auto; fail).
  - unfold fs_parse_unnamed. destruct (d_item d Unnamed s) as [[v|e|b] s1]; intros H C; injection H as <- <- <-; auto. unfold bclean in C. cbn [fst snd] in C. now apply push_syn_ne in C.
  - destruct (fu_parse u Unnamed index (s :: rest)) as [[v|e|b] l2]; intros H C; injection H as <- <- <-; auto. unfold bclean in C. cbn [fst snd] in C. now apply push_syn_ne in C.
Qed.
Lemma b_cl c v st : bclean st -> bclean (bupd c v st).
Proof. unfold bclean, bupd. destruct (nth_error L c) as [[ri f]|]; auto. Qed.
Lemma b_bw c st blk more v ts tl sc cl : binv c st -> c < n -> blk <> [] -> bT c blk more v -> bclean st -> block blk more ts tl ->
  exists s1, tuple_closure fs c st [mkStream ts sc cl] = (Ok tt, bupd c v st, [s1]) /\ (if more then toks s1 = tl else used_up s1).
Proof.
  intros I LT NE TT C B. destruct st as [[sl es] index]. unfold bT in TT. unfold tuple_closure, bupd, bbump. destruct (nth_error L c) as [[ri f]|] eqn:EL; [|destruct TT].
  unfold slotT in TT. destruct (b_slot _ _ _ EL) as [[d [K FD]]|[u [K BI]]]; rewrite K in *.
  - destruct TT as [seg [-> AC]]. destruct (item_bw d seg more v ts tl sc cl AC B) as [s1 [E T]]. exists s1. unfold fs_parse_unnamed. rewrite E. split; auto. eapply tail_state; eauto.
  - destruct (TT index ts tl sc cl B) as [s1 [E U]]. exists s1. rewrite E. auto.
Qed.
Lemma b_chain more : forall c blk ws, c <= n -> chain n bT more c blk ws <-> lch more (skipn c L) blk ws.
Proof.
  assert (LN : length L = n) by (apply tf_len; exact SL).
  intros c blk ws LE. split.
  - intro H. revert LE. induction H as [c D|c blk rest v vs LC NE TT CH IH]; intro LE.
    + constructor. intro M. apply skipn_all2. rewrite LN. auto.
    + unfold bT in TT. destruct (nth_error L c) as [[ri f]|] eqn:EL; [|destruct TT]. rewrite (skipn_nth L c _ EL). constructor; auto.
  - intro H. remember (skipn c L) as l eqn:EL. revert c EL LE. induction H as [l M|ri f l blk rest v vs NE TT H IH]; intros c EL LE.
    + constructor. intro Z. specialize (M Z). rewrite EL in M. pose proof (skipn_length c L) as X. rewrite M in X. cbn in X. lia.
    + assert (LC : c < n). { destruct (Nat.lt_ge_cases c n); auto. rewrite skipn_all2 in EL by lia. discriminate. }
      destruct (nth_error L c) as [[ri' f']|] eqn:EN; [|apply nth_error_None in EN; lia]. rewrite (skipn_nth L c _ EN) in EL. injection EL as -> -> EL.
      constructor; auto. unfold bT. now rewrite EN.
Qed.
Lemma b_upds : forall ws c st, exists index', upds bupd c ws st = (fill2 (look2 fs 0) c ws (fst (fst st)), snd (fst st), index').
Proof.
  induction ws as [|w ws IH]; intros c [[sl es] index]; cbn [upds fill2].
  - exists index. auto.
  - destruct (IH (S c) (bupd c w (sl, es, index))) as [i' E]. exists i'. rewrite E. unfold bupd, look2. destruct (nth_error L c) as [[ri f]|]; reflexivity.
Qed.
Lemma b_place ws : fill2 (look2 fs 0) 0 ws (init_slots fs) = map o2s (place fs ws).
Proof. apply (fill2_place fs ws SL (look2 fs 0) 0 []). intro j. reflexivity. Qed.

(** *** after the loop *)
Definition flat_absent (vt : bool) (f : field) (st st2 : fstatus V) : Prop :=
  wants_error vt f && fs_is_none st = true /\ exists u w, f_kind f = KFlatU u /\ absent u w /\ st2 = FSome w.
Definition m_out2 (vt : bool) (f : field) (st st2 : fstatus V) : Prop := m_out vt f st st2 \/ flat_absent vt f st st2.
Definition m_good2 (f : field) : Prop := m_good f \/ exists u, f_kind f = KFlatU u /\ by_items u.
Lemma empty_flat (u : flat_unnamed V) index sp (es : errors) st' es' : by_items u ->
  parse_empty sp (fun s => let (r, l) := fu_parse u Unnamed index [s] in
     (match r with Ok v => Ok (FSome v, es) | Err e => Ok (FParseError, push_syn es e) | Bad b => Bad b end, hd s l)) = Ok (st', es') ->
  (exists v, absent u v /\ st' = FSome v /\ es' = es) \/ es' <> [].
Proof.
  intros BI H. unfold parse_empty, parse2, root_stream in H.
  destruct (fu_parse u Unnamed index [mkStream [] SCall None]) as [[v|e|b] l] eqn:E.
  - pose proof (proj1 (proj2 BI) index SCall v l E) as AB. rewrite (AB index SCall) in E. injection E as <-. cbn in H. injection H as <- <-. left. eauto.
  - right. cbn in H. destruct (cell (hd (mkStream [] SCall None) l)); [discriminate|]. destruct (toks (hd (mkStream [] SCall None) l)); [|discriminate]. injection H as <- <-. apply push_syn_ne.
  - discriminate.
Qed.
Lemma empty_absent (u : flat_unnamed V) index sp (es : errors) v : absent u v ->
  parse_empty sp (fun s => let (r, l) := fu_parse u Unnamed index [s] in
     (match r with Ok v => Ok (FSome v, es) | Err e => Ok (FParseError, push_syn es e) | Bad b => Bad b end, hd s l)) = Ok (FSome v, es).
Proof. intro AB. unfold parse_empty, parse2, root_stream. rewrite (AB index SCall). reflexivity. Qed.
Lemma um_ok2 tm vt variant m sp ins : forall gs sl es index cur ex sl2,
  Forall (fun f => wants_error vt f = true -> m_good2 f) gs -> length sl = length gs ->
  unnamed_missing tm vt variant m sp ins gs sl es index cur ex = Ok (sl2, []) <->
  es = [] /\ all3 (fun _ => m_out2 vt) 0 gs sl sl2.
Proof.
  induction gs as [|f gs IH]; intros sl es index cur ex sl2 G LS.
  { destruct sl; [|discriminate]. cbn [unnamed_missing]. split; [intro H; injection H as <- <-; split; auto; constructor|]. intros [-> H]. inversion H. auto. }
  destruct sl as [|st sl]; [discriminate|]. injection LS as LS. inversion G as [|? ? GF G']; subst. cbn [unnamed_missing].
  set (cur' := if f_container f then cur else if is_flatten f then cur else S cur).
  set (ex' := if f_container f then ex else match f_kind f with KFlatU u => ex + fu_count0 u | _ => ex end).
  assert (NX : forall st' es' index',
    match unnamed_missing tm vt variant m sp ins gs sl es' index' cur' ex' with
    | Ok (sl2, es2) => Ok (st' :: sl2, es2) | Err e => Err e | Bad b => Bad b end = Ok (sl2, []) <->
    (es' = [] /\ exists sl3, sl2 = st' :: sl3 /\ all3 (fun _ => m_out2 vt) 1 gs sl sl3)).
  { intros st' es' index'. specialize (IH sl es' index' cur' ex').
    assert (A0 : forall i j (P : field -> fstatus V -> fstatus V -> Prop) la lb lc, all3 (fun _ => P) i la lb lc -> all3 (fun _ => P) j la lb lc).
    { clear. intros i j P la lb lc H. revert j. induction H; intro k; constructor; auto. }
    split.
    - destruct (unnamed_missing tm vt variant m sp ins gs sl es' index' cur' ex') as [[sl3 es3]| |] eqn:U; try discriminate.
      intro H. injection H as <- ->. destruct (proj1 (IH sl3 G' LS) eq_refl) as [-> U2]. split; auto. exists sl3. split; auto. eapply A0; exact U2.
    - intros [-> [sl3 [-> A]]]. rewrite (proj2 (IH sl3 G' LS) (conj eq_refl (A0 _ 0 _ _ _ _ A))). reflexivity. }
  destruct (wants_error vt f && fs_is_none st) eqn:W.
  - apply andb_true_iff in W as W'. destruct W' as [W1 W2]. destruct (GF W1) as [[d [K [UM RT]]]|[u [K BI]]]; rewrite K.
    + set (nm := missing_name_unnamed tm (index + cur + ex)). set (fsp := to_full_span m ins).
      assert (MO : forall st2, m_out2 vt f st st2 <-> exists w, d_missing d nm fsp = Ok w /\ st2 = FSome w).
      { intro st2. unfold m_out2, flat_absent, m_out. rewrite W. split.
        - intros [[d' [w [n0 [s' [K' [D E]]]]]]|[_ [u [w [K' _]]]]]; [|congruence]. assert (d' = d) by congruence. subst d'. exists w. split; auto. eapply UM; eauto.
        - intros [w [D E]]. left. exists d, w, nm, fsp. auto. }
      specialize (RT nm fsp). destruct (d_missing d nm fsp) as [w|e|b] eqn:D; [| |destruct RT].
      * rewrite NX. split.
        -- intros [-> [sl3 [-> A]]]. split; auto. constructor; [apply MO; eauto|exact A].
        -- intros [-> H]. inversion H as [|? ? ? st2 ? ? sl3 M A]; subst. split; auto. apply MO in M as [w' [E ->]]. injection E as <-. exists sl3. auto.
      * rewrite NX. split.
        -- intros [H _]. now apply push_syn_ne in H.
        -- intros [_ H]. inversion H as [|? ? ? st2 ? ? sl3 M A]; subst. apply MO in M as [w' [E _]]. discriminate.
    + assert (MO : forall st2, m_out2 vt f st st2 <-> exists w, absent u w /\ st2 = FSome w).
      { intro st2. unfold m_out2, flat_absent, m_out. rewrite W. split.
        - intros [[d' [w [n0 [s' [K' _]]]]]|[_ [u' [w [K' [D E]]]]]]; [congruence|]. assert (u' = u) by congruence. subst u'. eauto.
        - intros [w [D E]]. right. split; auto. exists u, w. auto. }
      split.
      * match goal with |- match parse_empty ?x ?y with _ => _ end = _ -> _ => destruct (parse_empty x y) as [[st' es']|e|b] eqn:PE; try discriminate end.
        intro H. apply NX in H as [-> [sl3 [-> A]]]. apply empty_flat in PE as [[v [AB [-> <-]]]|X]; [|congruence|exact BI]. split; auto. constructor; [apply MO; eauto|exact A].
      * intros [-> H]. inversion H as [|? ? ? st2 ? ? sl3 M A]; subst. apply MO in M as [w [AB ->]]. rewrite (empty_absent u index _ [] w AB). apply NX. eauto.
  - rewrite NX. assert (MO : forall st2, m_out2 vt f st st2 <-> st2 = st).
    { intro. unfold m_out2, flat_absent, m_out. rewrite W. split; [intros [H|[H _]]; [auto|discriminate]|auto]. } split.
    + intros [-> [sl3 [-> A]]]. split; auto. constructor; [now apply MO|exact A].
    + intros [-> H]. inversion H as [|? ? ? st2 ? ? sl3 M A]; subst. split; auto. apply MO in M as ->. exists sl3. auto.
Qed.
Lemma um_es2 tm vt variant m sp ins : forall gs sl es index a b sl2,
  Forall (fun f => wants_error vt f = true -> m_good2 f) gs ->
  unnamed_missing tm vt variant m sp ins gs sl es index a b = Ok (sl2, []) -> es = [].
Proof.
  induction gs as [|f gs IH]; intros sl es index a b sl2 G U; cbn [unnamed_missing] in U; [injection U; auto|].
  destruct sl as [|st sl]; [injection U; auto|]. inversion G as [|? ? GF G']; subst.
  assert (NX : forall (st' : fstatus V) es' index' a' b', match unnamed_missing tm vt variant m sp ins gs sl es' index' a' b' with
    | Ok (sl2, es2) => Ok (st' :: sl2, es2) | Err e => Err e | Bad b => Bad b end = Ok (sl2, []) -> es' = []).
  { intros st' es' i' a' b' H. destruct (unnamed_missing tm vt variant m sp ins gs sl es' i' a' b') as [[sl3 es3]| |] eqn:Q; try discriminate.
    injection H as _ ->. eapply IH; eauto. }
  destruct (wants_error vt f && fs_is_none st) eqn:W; [|eapply NX; exact U].
  apply andb_true_iff in W as [W1 _]. destruct (GF W1) as [[d [K _]]|[u [K BI]]]; rewrite K in U.
  - match type of U with match d_missing ?d ?n ?s with _ => _ end = _ => destruct (d_missing d n s) as [w|e|x] end; [eapply NX; exact U| |discriminate].
    apply NX in U. now apply push_syn_ne in U.
  - match type of U with match parse_empty ?x ?y with _ => _ end = _ => destruct (parse_empty x y) as [[st' es']|e|x0] eqn:PE; try discriminate end.
    apply NX in U. subst es'. apply empty_flat in PE as [[v [AB [-> <-]]]|X]; [reflexivity|congruence|exact BI].
Qed.
Definition slot_value2 (tm : tmode V) (target : option (list V)) (i : nat) (f : field) (o : option V) (v : V) : Prop :=
  exists st2 st1, m_out2 (has_target target) f (after_container tm f (o2s o)) st2 /\ set_field f st2 [] = (st1, []) /\ value_of target i st1 v.
Lemma post_ok2 tm target variant m sp ins gs os es index vs :
  Forall (fun f => wants_error (has_target target) f = true -> m_good2 f) gs -> length os = length gs ->
  (forall t, target = Some t -> length t = length gs) ->
  unnamed_post gs tm target variant m sp ins (map o2s os) es index = Ok vs <->
  es = [] /\ all3 (slot_value2 tm target) 0 gs os vs.
Proof.
  intros G LO LT. unfold unnamed_post. rewrite containers_map by auto.
  set (sl := map (fun fo => after_container tm (fst fo) (o2s (snd fo))) (combine gs os)).
  assert (LS : length sl = length gs) by (unfold sl; rewrite map_length, combine_length; lia).
  assert (SN : forall j f o, nth_error gs j = Some f -> nth_error os j = Some o -> nth_error sl j = Some (after_container tm f (o2s o))).
  { unfold sl. clear -LO. revert os LO. induction gs as [|f0 gs IH]; intros [|o0 os] LO [|j] f o N1 N2; try discriminate; cbn in *.
    - congruence.
    - apply IH; auto. }
  split.
  - destruct (unnamed_missing tm (has_target target) variant m sp ins gs sl es index 0 0) as [[sl2 es2]| |] eqn:U; try discriminate. cbn [rbind].
    unfold post_finish. destruct (field_sets gs sl2 es2) as [sl1 es1] eqn:FS. destruct es1; [|discriminate]. cbn [check rbind into_result].
    intro R. assert (L2 : length sl2 = length gs).
    { exact (um_len _ _ _ _ _ _ _ _ _ _ _ _ _ _ LS U). }
    destruct (proj1 (sets_ok gs sl2 es2 sl1 0 L2) FS) as [-> FS']. clear FS. rename FS' into FS.
    destruct (proj1 (um_ok2 _ _ _ _ _ _ _ _ _ _ _ _ _ G LS) U) as [-> U']. clear U. rename U' into U. split; auto.
    assert (L1 : length sl1 = length gs) by (apply all3_nth in FS; lia).
    apply ret_ok in R; [|intros t E; rewrite L1; auto].
    apply all3_nth in U. apply all3_nth in FS. apply all3_nth in R. apply all3_nth. destruct U as [_ [_ U]]. destruct FS as [_ [_ FS]]. destruct R as [_ [L3 R]]. split; [auto|]. split; [lia|].
    intros j f o v N1 N2 N3. specialize (SN j f o N1 N2).
    destruct (nth_error sl2 j) as [st2|] eqn:E2; [|assert (j < length gs) by (apply nth_error_Some; congruence); apply nth_error_None in E2; lia].
    destruct (nth_error sl1 j) as [st1|] eqn:E1; [|assert (j < length gs) by (apply nth_error_Some; congruence); apply nth_error_None in E1; lia].
    exists st2, st1. cbn [Nat.add] in *. split; [eapply (U j f _ st2); eauto|]. split; [eapply (FS j f st2 st1); eauto|eapply (R j st1 st1 v); eauto].
  - intros [-> H].
    assert (X : exists sl2 sl1, all3 (fun _ => m_out2 (has_target target)) 0 gs sl sl2 /\
       all3 (fun _ f st st1 => set_field f st [] = (st1, [])) 0 gs sl2 sl1 /\ all3 (fun i _ st v => value_of target i st v) 0 sl1 sl1 vs).
    { unfold sl. clear -H. revert H. generalize 0. induction 1 as [i|i f o v gs os vs [st2 [st1 [A [B D]]]] H [sl2 [sl1 [X1 [X2 X3]]]]].
      - exists [], []. repeat split; constructor.
      - exists (st2 :: sl2), (st1 :: sl1). cbn [combine map fst snd]. split; [constructor; auto|]. split; constructor; auto. }
    destruct X as [sl2 [sl1 [X1 [X2 X3]]]].
    rewrite (proj2 (um_ok2 tm (has_target target) variant m sp ins gs sl [] index 0 0 sl2 G LS) (conj eq_refl X1)). cbn [rbind]. unfold post_finish.
    assert (L2 : length sl2 = length gs) by (apply all3_nth in X1; lia).
    assert (L1 : length sl1 = length gs) by (apply all3_nth in X2; lia).
    rewrite (proj2 (sets_ok gs sl2 [] sl1 0 L2) (conj eq_refl X2)). cbn [check rbind into_result].
    apply ret_ok; [intros t E; rewrite L1; auto|auto].
Qed.
Lemma post_es2 tm target variant m sp ins gs sl es index vs :
  Forall (fun f => wants_error (has_target target) f = true -> m_good2 f) gs ->
  unnamed_post gs tm target variant m sp ins sl es index = Ok vs -> es = [].
Proof.
  intros G. unfold unnamed_post.
  destruct (unnamed_missing tm (has_target target) variant m sp ins gs (set_containers tm gs sl) es index 0 0) as [[sl2 es2]| |] eqn:U; try discriminate. cbn [rbind].
  unfold post_finish. destruct (field_sets gs sl2 es2) as [sl1 es1] eqn:FS. destruct es1; [|discriminate]. intros _.
  apply sets_es in FS. subst. eapply um_es2; eauto.
Qed.

(** *** the whole body *)
Section Bd.
Variables (tm : tmode V) (target : option (list V)) (variant : bool) (m : mode) (sp : span).
Hypothesis G : Forall (fun f => wants_error (has_target target) f = true -> m_good2 f) fs.
Hypothesis LT : forall t, target = Some t -> length t = length fs.
Lemma no_parsable2 : existsb is_parsable fs = false -> forallb (fun f => negb (is_parsable f)) fs = true.
Proof. clear. induction fs as [|f l IH]; auto. cbn. intro H. apply orb_false_iff in H as [-> H]. cbn. auto. Qed.
Lemma spread_none more (l : list field) : forallb (fun f => negb (is_parsable f)) l = true -> forall segs os, spread more l segs os <-> segs = [] /\ os = place l [].
Proof.
  clear. induction l as [|f l IH]; intros H segs os; cbn [place].
  - split; [intro X; inversion X; auto|intros [-> ->]; constructor].
  - cbn [forallb] in H. apply andb_true_iff in H as [H1 H2]. apply negb_true_iff in H1. rewrite H1. split.
    + intro X. inversion X; subst; try congruence. match goal with Z : spread _ _ _ _ |- _ => apply IH in Z as [-> ->]; auto end.
    + intros [-> ->]. apply Sp_other; auto. now apply IH.
Qed.
Lemma body_fw index ts sc c segs vs l : listed segs ts -> ~ In [] segs ->
  unnamed_body fs tm target variant m sp index [mkStream ts sc c] = (Ok vs, l) ->
  exists s', l = [s'] /\ (segs = [] -> s' = mkStream ts sc c) /\
    (ends (toks s') -> exists blk rest os, segs = blk ++ rest /\ (segs <> [] -> blk <> []) /\
       spread (some_items rest) fs blk os /\ all3 (slot_value2 tm target) 0 fs os vs).
Proof.
  intros LS NB H. unfold unnamed_body in H. destruct (existsb is_parsable fs) eqn:EX.
  - unfold parse_tuple_struct in H. cbn [length] in H.
    destruct (tuple_loop n (tuple_closure fs) (S (n + 1)) 0 (init_slots fs, [], index) [mkStream ts sc c]) as [[r [[sl es] idx]] l1] eqn:E.
    assert (X : l1 = l /\ exists k, r = Ok k /\ es = [] /\ unnamed_post fs tm target variant m sp l1 sl [] idx = Ok vs).
    { destruct r as [k|e|b]; [| |discriminate].
      - cbn [push_result] in H. injection H as H <-. assert (es = []) by (eapply post_es2; eauto). subst es. eauto.
      - exfalso. cbn [push_result] in H. injection H as H _. apply post_es2 in H; auto. now apply push_syn_ne in H. }
    destruct X as [-> [k [-> [-> HP]]]].
    destruct (loop_forward n (tuple_closure fs) bT bupd bclean binv b_inv b_fw b_dirty b_bw _ 0 _ (mkStream ts sc c) segs k (sl, [], idx) l I (Nat.le_0_l _) LS NB E eq_refl) as [_ [s' [-> [E2 Y]]]].
    exists s'. split; auto. split; auto. intro EN. destruct (Y EN) as [blk [rest [ws [-> [NB1 [CH [_ EU]]]]]]].
    apply b_chain in CH; [|lia]. cbn [skipn] in CH. destruct (b_upds ws 0 (init_slots fs, [], index)) as [i' EU2]. rewrite EU2 in EU. cbn [fst snd] in EU. injection EU as -> _.
    rewrite b_place in HP. apply post_ok2 in HP as [_ HP]; auto; [|apply place_len].
    exists blk, rest, (place fs ws). split; auto. split; auto. split; auto. apply (spread_lch _ fs blk _ SL 0). eauto.
  - pose proof (no_parsable2 EX) as NP. cbn [each_eof] in H. destruct (parse_eof (mkStream ts sc c)) as [[[]|e|b] s1] eqn:PE; try discriminate. injection H as H <-.
    rewrite init_place in H. apply post_ok2 in H as [_ H]; auto; [|apply place_len].
    assert (U : used_up (mkStream ts sc c)) by (apply used_up_eof; now rewrite PE).
    assert (SG : segs = []).
    { destruct segs as [|g segs]; auto. exfalso. apply follows_used in U. apply follows_ends in U. revert U. cbn [toks]. destruct (listed_ne _ _ LS ltac:(discriminate) NB) as [seg [segs' [tl [_ [-> [N [NC _]]]]]]]. now apply not_end. }
    subst segs. exists s1. split; auto. inversion LS; subst. unfold parse_eof in PE. cbn [toks] in PE. injection PE as <-. split; auto. intros _.
    exists [], [], (place fs []). split; auto. split; [tauto|]. split; auto. now apply spread_none.
Qed.
Lemma body_bw index blk more ts tl sc c os vs : spread more fs blk os -> all3 (slot_value2 tm target) 0 fs os vs -> (blk <> [] \/ more = false) -> block blk more ts tl ->
  exists s', unnamed_body fs tm target variant m sp index [mkStream ts sc c] = (Ok vs, [s']) /\ (if more then toks s' = tl else used_up s') /\ (blk = [] -> s' = mkStream ts sc c).
Proof.
  intros S A D B. unfold unnamed_body. destruct (existsb is_parsable fs) eqn:EX.
  - apply (spread_lch _ fs blk _ SL 0) in S as [ws [CH ->]]. apply (b_chain more 0 blk ws (Nat.le_0_l _)) in CH.
    destruct (loop_backward n (tuple_closure fs) bT bupd bclean binv b_inv b_cl b_bw more 0 blk ws CH (S (n + 1)) (init_slots fs, [], index) ts tl sc c I D B eq_refl ltac:(lia) ltac:(lia)) as [s' [E [U Z]]].
    exists s'. split; auto. unfold parse_tuple_struct. cbn [length]. destruct (b_upds ws 0 (init_slots fs, [], index)) as [i' EU2]. rewrite E, EU2. cbn [fst snd push_result]. rewrite b_place.
    f_equal. apply post_ok2; auto. apply place_len.
  - pose proof (no_parsable2 EX) as NP. apply spread_none in S as [-> ->]; auto. destruct D as [D| ->]; [tauto|]. inversion B; subst.
    cbn [each_eof]. unfold parse_eof. cbn [toks]. exists (mkStream [] sc c). rewrite init_place. split; [|split; [now left|auto]].
    f_equal. apply post_ok2; auto. apply place_len.
Qed.
End Bd.
End Body.
End S.
