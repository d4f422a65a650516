(** Proofs for PropsMore.v *)
From Verif Require Export LemSmall SpecMore.

Lemma l_demanding : forall (env : Env) A (d : dict A), demanding A d -> no_missing_value d.
Proof.
  intros env A d H. induction H; intros n' sp'; try reflexivity; try (now apply IHdemanding).
  - cbn. now rewrite IHdemanding.
  - unfold struct_dict. rewrite H. cbv zeta. destruct (s_is_transparent s); [destruct (s_inner s)|]; reflexivity.
  - unfold enum_dict. cbn [d_missing]. now rewrite H.
Qed.

Lemma l_paren_only : forall (env : Env) A (f : mode -> parser A) flag nm sp value v rest sc c0 gsp s',
  d_named (dict_item_flag f flag) nm sp (mkStream (TGroup Paren value gsp :: rest) sc c0) = (Ok v, s') ->
  toks s' = rest /\ exists s1, f (Named sp) (mkStream value (SClose gsp) c0) = (Ok v, s1) /\ at_end s1.
Proof.
  intros env A f flag nm sp value v rest sc c0 gsp s' H. cbn [d_named dict_item_flag] in H. unfold def_named in H.
  rewrite (named_paren_case env A f _ flag sp _ value gsp rest) in H by reflexivity.
  rewrite (delimited_case env A _ Paren _ value gsp rest) in H by reflexivity.
  unfold on_single, def_inline, parse_first, pbind in H. cbn [scope cell] in H.
  destruct (f (Named sp) (mkStream value (SClose gsp) c0)) as [[w|e|b] s1] eqn:F; try discriminate.
  destruct (parse_eof_cases env s1) as [[Ha Q]|[Ha [e [c2 Q]]]]; rewrite Q in H; [|discriminate].
  cbn in H. injection H as -> <-. split; [reflexivity|]. exists s1. auto.
Qed.

Lemma l_ranges : forall n v,
  (in_range (ubits n) v <-> 0 <= v < 2 ^ n)%Z /\
  (in_range (sbits n) v <-> - 2 ^ (n - 1) <= v < 2 ^ (n - 1))%Z /\
  forall k, in_range (nonzero k) v <-> (ik_lo k <= v <= ik_hi k)%Z /\ v <> 0%Z.
Proof.
  intros n v. unfold in_range, ubits, sbits, nonzero. cbn. repeat split; intros; try discriminate; try lia; tauto.
Qed.

Lemma peek_byte_spec s : peek_lit sel_byte s = true -> exists b sp r, toks s = TLit (LByte b) sp :: r.
Proof.
  unfold peek_lit. destruct (lit_rest (toks s)) as [[[p sp] r]|] eqn:E; [|discriminate].
  destruct (toks s) as [|[i isp|c j psp|l lsp|d gts gsp] ts]; simpl in E; try discriminate.
  - destruct (String.eqb i "true"); [injection E as <- <- <-; discriminate|].
    destruct (String.eqb i "false"); [injection E as <- <- <-; discriminate|]. discriminate.
  - destruct ts as [|[i2 isp2|c2 j2 psp2|l2 lsp2|d2 gts2 gsp2] ts]; try discriminate.
    destruct (Ascii.eqb c "-"); [|discriminate]. destruct l2; try discriminate; injection E as <- <- <-; discriminate.
  - injection E as <- <- <-. destruct l; try discriminate. eauto.
Qed.
Lemma l_u8 : forall (env : Env) m s v s',
  d_item u8_dict m s = (Ok v, s') <->
  exists t, toks s = t :: toks s' /\ scope s' = scope s /\ cell s' = cell s /\
    ((exists b sp, t = TLit (LByte b) sp /\ v = Z.of_N b) \/
     (exists n sp, t = TLit (LInt n) sp /\ v = Z.of_N n /\ 0 <= v < 256)%Z).
Proof.
  intros env m s v s'. cbn [d_item u8_dict dict_item]. unfold parse_u8. split.
  - intro H. destruct (peek_lit sel_byte s) eqn:B.
    + apply peek_byte_spec in B as [b [sp [r E]]]. unfold pmap, pbind, parse_lit_as in H. rewrite E in H. cbn in H.
      injection H as <- <-. exists (TLit (LByte b) sp). rewrite E. repeat split; eauto.
    + destruct (peek_lit sel_int_sign s) eqn:I; [|discriminate]. change (parse_int k_u8 s) with (d_item (int_dict k_u8) m s) in H.
      pose proof H as H'. apply l_int_sound in H as [R [[n [sp [E ->]]]|[j [psp [n [sp [E ->]]]]]]]; [| |auto].
      * destruct (l_int_complete env k_u8 m s (fun _ => eq_refl)) as [C _]. destruct (C n sp _ E) as [C1 _]. rewrite (C1 R) in H'. injection H' as H'.
        assert (0 <= Z.of_N n < 256)%Z by (destruct R as [R _]; change (ik_lo k_u8) with 0%Z in R; change (ik_hi k_u8) with 255%Z in R; lia).
        exists (TLit (LInt n) sp). rewrite E. split; auto. rewrite <- H'. cbn. repeat split. right. eauto 6.
      * exfalso. cbn in H'. unfold parse_int, pbind, parse_lit_as in H'. rewrite E in H'. cbn in H'. discriminate.
  - intros [t [E [S [C [[b [sp [-> ->]]]|[n [sp [-> [-> R]]]]]]]]].
    + unfold peek_lit, pmap, pbind, parse_lit_as. rewrite E. cbn. unfold set_toks. destruct s'; cbn in *; subst. reflexivity.
    + unfold peek_lit. rewrite E. cbn [lit_rest sel_byte sel_int_sign]. 
      destruct (l_int_complete env k_u8 m s (fun _ => eq_refl)) as [X _]. destruct (X n sp _ E) as [C1 _].
      change (parse_int k_u8 s) with (d_item (int_dict k_u8) m s). rewrite C1.
      * destruct s'; cbn in *; subst. reflexivity.
      * split; [|discriminate]. change (ik_lo k_u8) with 0%Z. change (ik_hi k_u8) with 255%Z. lia.
Qed.
(** *** numerals *)
Lemma digit_get d : d < 10 -> String.get d "0123456789" = Some (digit d).
Proof. intro H. do 10 (destruct d as [|d]; [reflexivity|]). lia. Qed.
Lemma get_lt d c : String.get d "0123456789" = Some c -> d < 10 /\ c = digit d.
Proof.
  intro H. assert (L : d < 10). { do 10 (destruct d as [|d]; [lia|]). discriminate H. }
  split; auto. rewrite (digit_get d L) in H. congruence.
Qed.
Lemma show_fuel_app : forall k n a b, show_nat_fuel k n (a ++ b) = (show_nat_fuel k n a ++ b)%string.
Proof.
  induction k as [|k IH]; intros n a b; cbn [show_nat_fuel]; [reflexivity|].
  destruct (n / 10) as [|q]; [reflexivity|]. exact (IH (S q) (String (digit (n mod 10)) a) b).
Qed.
Lemma show_fuel_numeral : forall k n, n < k -> numeral n (show_nat_fuel k n "").
Proof.
  induction k as [|k IH]; intros n L; [lia|]. cbn [show_nat_fuel].
  pose proof (Nat.div_mod n 10 ltac:(lia)) as D. pose proof (Nat.mod_upper_bound n 10 ltac:(lia)) as U.
  destruct (n / 10) as [|q] eqn:Q.
  - rewrite Nat.mul_0_r in D. cbn [Nat.add] in D. rewrite <- D in *. apply N_digit. now apply digit_get.
  - change (String (digit (n mod 10)) "") with ("" ++ String (digit (n mod 10)) "")%string. rewrite show_fuel_app. rewrite D at 1.
    apply N_more; [discriminate| |now apply digit_get]. apply IH. lia.
Qed.
Lemma numeral_fun n s1 : numeral n s1 -> forall s2, numeral n s2 -> s1 = s2.
Proof.
  induction 1 as [d c G|n d c s Z N IH G]; intros s2 H; inversion H as [d' c' G'|n' d' c' s' Z' N' G' E]; subst.
  - congruence.
  - apply get_lt in G as [G _]. lia.
  - apply get_lt in G' as [G' _]. lia.
  - apply get_lt in G as [G ->], G' as [G' ->]. assert (n' = n /\ d' = d) as [-> ->] by lia. now rewrite (IH _ N').
Qed.
Lemma l_numeral n s : show_nat n = s <-> numeral n s.
Proof.
  assert (S : numeral n (show_nat n)) by (apply show_fuel_numeral; lia).
  split; [now intros <-|]. intro H. now apply (numeral_fun n).
Qed.
