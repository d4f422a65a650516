(** Lemmas about ToKeyString. *)
From Verif Require Import LemSmall.
From Verif Require Export SpecKeyStr.
Local Open Scope string_scope.
Local Open Scope list_scope.

Section Ind.
  Variable P : kval -> Prop.
  Hypothesis Htext : forall s, P (KvText s).
  Hypothesis Hstr : forall s, P (KvStr s).
  Hypothesis Hpath : forall p, P (KvPath p).
  Hypothesis Hunit : P KvUnit.
  Hypothesis Hnone : P (KvOpt None).
  Hypothesis Hsome : forall v, P v -> P (KvOpt (Some v)).
  Hypothesis Hseq : forall l, Forall P l -> P (KvSeq l).
  Hypothesis Hmap : forall l, Forall (fun kv => P (fst kv) /\ P (snd kv)) l -> P (KvMap l).
  Hypothesis Hpunct : forall l last, Forall (fun vp => P (fst vp)) l ->
    (forall v, last = Some v -> P v) -> P (KvPunct l last).
  Hypothesis Htup : forall l, Forall P l -> P (KvTuple l).
  Hypothesis Hwrap : forall v, P v -> P (KvWrap v).
  Fixpoint kval_all (v : kval) : P v.
  Proof.
    destruct v as [s|s|p| |[v|]|l|l|l last|l|v].
    - apply Htext.
    - apply Hstr.
    - apply Hpath.
    - apply Hunit.
    - apply Hsome, kval_all.
    - apply Hnone.
    - apply Hseq. induction l; constructor; auto.
    - apply Hmap. induction l as [|[k v] l IH]; constructor; cbn; auto.
    - apply Hpunct.
      + induction l as [|[v p] l IH]; constructor; cbn; auto.
      + intros v E. destruct last as [w|]; [|discriminate]. injection E as <-. apply kval_all.
    - apply Htup. induction l; constructor; auto.
    - apply Hwrap, kval_all.
  Qed.
End Ind.

(** *** what is written *)
Definition holds (o : option small_string) (t : string) : Prop := exists s, o = Some s /\ ss_as_str s = t.
Lemma put_holds : forall x o t, holds o t -> holds (put x o) (t ++ x)%string.
Proof. intros x o t [s [-> <-]]. apply push_str_text. Qed.
Lemma holds_eq : forall o a b, holds o a -> a = b -> holds o b.
Proof. intros o a b H <-. exact H. Qed.
Definition writes (v : kval) : Prop := forall o t, holds o t -> holds (kv_fmt v o) (t ++ key_text v)%string.

(** the text of the elements from the [i]th on: each after the separator, except the first *)
Fixpoint tail_text (sep : string) (i : nat) (l : list string) : string :=
  match l with
  | [] => ""
  | x :: l' => ((if Nat.ltb 0 i then sep else "") ++ x ++ tail_text sep (S i) l')%string
  end.
Lemma tail_text_S : forall sep l i, tail_text sep (S i) l = match l with [] => "" | _ => sep ++ String.concat sep l end%string.
Proof.
  induction l as [|x l IH]; intros i; [reflexivity|]. cbn [tail_text]. rewrite IH.
  destruct l as [|y l]; cbn; [now rewrite app_empty_r|reflexivity].
Qed.
Lemma tail_text_0 : forall sep l, tail_text sep 0 l = String.concat sep l.
Proof.
  intros sep [|x l]; [reflexivity|]. cbn [tail_text]. rewrite tail_text_S.
  destruct l as [|y l]; cbn; [now rewrite app_empty_r|reflexivity].
Qed.
Lemma join_concat : forall sep l, join_strs sep l = String.concat sep l.
Proof. induction l as [|x [|y l] IH]; [reflexivity|reflexivity|]. cbn in *. now rewrite IH. Qed.

Lemma elems_holds : forall l i, Forall writes l -> forall o t, holds o t ->
  holds ((fix elems (i : nat) (l : list kval) (o : option small_string) :=
      match l with
      | [] => o
      | v :: l' => elems (S i) l' (kv_fmt v (if Nat.ltb 0 i then put ", " o else o))
      end) i l o) (t ++ tail_text ", " i (map key_text l))%string.
Proof.
  induction l as [|v l IH]; intros i H o t HO; [cbn; now rewrite app_empty_r|]. inversion H; subst.
  cbn [map tail_text]. destruct (Nat.ltb 0 i).
  - eapply holds_eq; [apply IH; [assumption|]; apply H2; apply put_holds; exact HO|]. now rewrite !sapp_assoc.
  - eapply holds_eq; [apply IH; [assumption|]; apply H2; exact HO|]. now rewrite !sapp_assoc.
Qed.
Lemma telems_holds : forall l i, Forall writes l -> forall o t, holds o t ->
  holds ((fix elems (i : nat) (l : list kval) (o : option small_string) :=
      match l with
      | [] => o
      | v :: l' => elems (S i) l' (kv_fmt v (if Nat.eqb i 0 then o else put ", " o))
      end) i l o) (t ++ tail_text ", " i (map key_text l))%string.
Proof.
  induction l as [|v l IH]; intros i H o t HO; [cbn; now rewrite app_empty_r|]. inversion H; subst.
  cbn [map tail_text]. destruct i as [|i]; cbn [Nat.eqb Nat.ltb Nat.leb].
  - eapply holds_eq; [apply IH; [assumption|]; apply H2; exact HO|]. now rewrite !sapp_assoc.
  - eapply holds_eq; [apply IH; [assumption|]; apply H2; apply put_holds; exact HO|]. now rewrite !sapp_assoc.
Qed.
Lemma pairs_holds : forall l i, Forall (fun kv => writes (fst kv) /\ writes (snd kv)) l -> forall o t, holds o t ->
  holds ((fix elems (i : nat) (l : list (kval * kval)) (o : option small_string) :=
      match l with
      | [] => o
      | (k, v) :: l' =>
        let o1 := if Nat.ltb 0 i then put ", " o else o in
        elems (S i) l' (kv_fmt v (put " = " (kv_fmt k o1)))
      end) i l o)
    (t ++ tail_text ", " i (map (fun kv => key_text (fst kv) ++ " = " ++ key_text (snd kv)) l))%string.
Proof.
  induction l as [|[k v] l IH]; intros i H o t HO; [cbn; now rewrite app_empty_r|].
  inversion H as [|? ? [K W] F]; subst. cbn [map tail_text fst snd] in *. cbv zeta.
  destruct (Nat.ltb 0 i).
  - eapply holds_eq; [apply IH; [assumption|]; apply W; apply put_holds; apply K; apply put_holds; exact HO|].
    now rewrite !sapp_assoc.
  - eapply holds_eq; [apply IH; [assumption|]; apply W; apply put_holds; apply K; exact HO|].
    now rewrite !sapp_assoc.
Qed.
Lemma puncts_holds : forall l, Forall (fun vp : kval * string => writes (fst vp)) l -> forall o t, holds o t ->
  holds ((fix pairs (l : list (kval * string)) (o : option small_string) :=
      match l with
      | [] => o
      | (v, p) :: l' => pairs l' (put " " (put p (kv_fmt v o)))
      end) l o) (t ++ String.concat "" (map (fun vp => key_text (fst vp) ++ snd vp ++ " ") l))%string.
Proof.
  induction l as [|[v p] l IH]; intros H o t HO; [cbn; now rewrite app_empty_r|]. inversion H; subst.
  cbn [map]. rewrite LemSmall.concat_cons. cbn [fst snd] in *.
  eapply holds_eq; [apply IH; [assumption|]; do 2 apply put_holds; apply H2; exact HO|].
  now rewrite !sapp_assoc.
Qed.
Definition seg_text (s : string * option string) : string :=
  (fst s ++ match snd s with Some a => a | None => "" end)%string.
Lemma path_holds : forall p i o t, holds o t ->
  holds ((fix segs (i : nat) (p : gpath) (o : option small_string) :=
     match p with
     | [] => o
     | (ident, args) :: p' =>
       let o1 := if Nat.ltb 0 i then put "::" o else o in
       let o2 := put ident o1 in
       segs (S i) p' (match args with Some a => put a o2 | None => o2 end)
     end) i p o) (t ++ tail_text "::" i (map seg_text p))%string.
Proof.
  induction p as [|[x a] p IH]; intros i o t HO; [cbn; now rewrite app_empty_r|].
  cbn [map tail_text]. cbv zeta. unfold seg_text at 1. cbn [fst snd].
  destruct (Nat.ltb 0 i); destruct a as [b|].
  - eapply holds_eq; [apply IH; do 3 apply put_holds; exact HO|]. now rewrite !sapp_assoc.
  - eapply holds_eq; [apply IH; do 2 apply put_holds; exact HO|]. now rewrite app_empty_r, !sapp_assoc.
  - eapply holds_eq; [apply IH; do 2 apply put_holds; exact HO|]. now rewrite !sapp_assoc.
  - eapply holds_eq; [apply IH; apply put_holds; exact HO|]. now rewrite app_empty_r, !sapp_assoc.
Qed.

Lemma l_fmt : forall v, writes v.
Proof.
  induction v as [s|s|p| | |v IH|l IH|l IH|l last IH IHl|l IH|v IH] using kval_all; intros o t HO; cbn [key_text].
  - now apply put_holds.
  - now apply put_holds.
  - unfold gpath_key. rewrite join_concat, <- tail_text_0. now apply path_holds.
  - now apply put_holds.
  - now apply put_holds.
  - eapply holds_eq; [apply put_holds, IH, put_holds, HO|]. now rewrite !sapp_assoc.
  - eapply holds_eq; [apply put_holds, elems_holds, put_holds, HO; exact IH|].
    now rewrite tail_text_0, !sapp_assoc.
  - eapply holds_eq; [apply put_holds, pairs_holds, put_holds, HO; exact IH|].
    now rewrite tail_text_0, !sapp_assoc.
  - destruct last as [v|]; cbn [kv_fmt]; cbv zeta.
    + eapply holds_eq; [apply put_holds, (IHl v eq_refl), (puncts_holds l IH), put_holds, HO|].
      now rewrite !sapp_assoc.
    + eapply holds_eq; [apply put_holds, (puncts_holds l IH), put_holds, HO|].
      now rewrite !sapp_assoc.
  - eapply holds_eq; [apply put_holds, telems_holds, put_holds, HO; exact IH|].
    now rewrite tail_text_0, !sapp_assoc.
  - now apply IH.
Qed.

Lemma l_key_to_string : forall v, exists s, key_to_string v = Some s /\ ss_as_str s = key_text v.
Proof. intros v. 
  apply (l_fmt v (Some ss_new) ""). exists ss_new. now split. Qed.

Lemma l_with_key : forall R v (f : string -> R), with_key v f = Some (f (key_text v)).
Proof.
  intros R v f.
  assert (D : forall w, match key_to_string w with Some s => Some (f (ss_as_str s)) | None => None end = Some (f (key_text w))).
  { intros w. destruct (l_key_to_string w) as [s [-> ->]]. reflexivity. }
  induction v using kval_all; cbn [with_key]; auto; try apply D.
Qed.

(** *** different keys have different texts *)
Definition stops (r : string) : Prop := match r with "" => True | String c _ => ends_part c = true end.
Definition clear_all (s : string) : Prop := Forall (fun c => ends_part c = false) (list_ascii_of_string s).

Lemma clear_split : forall a b r1 r2, clear_all a -> clear_all b -> stops r1 -> stops r2 ->
  (a ++ r1)%string = (b ++ r2)%string -> a = b /\ r1 = r2.
Proof.
  unfold clear_all.
  induction a as [|c a IH]; intros b r1 r2 A B S1 S2 E.
  - destruct b as [|d b]; [now split|]. cbn in E. subst r1. unfold stops in S1; cbv iota beta in S1.
    cbn [list_ascii_of_string] in B. apply Forall_inv in B. congruence.
  - destruct b as [|d b].
    + cbn in E. subst r2. unfold stops in S2; cbv iota beta in S2. cbn [list_ascii_of_string] in A. apply Forall_inv in A. congruence.
    + cbn in E. injection E as <- E. cbn in A, B. inversion A; inversion B; subst.
      destruct (IH b r1 r2) as [-> ->]; auto.
Qed.

(** a key's text starts a part *)
Definition starts (s : string) : Prop := match s with "" => False | String c _ => ends_part c = false end.
Lemma clear_starts : forall s, clear_text s -> starts s.
Proof.
  intros [|c s] [N F]; [now apply N|]. cbn. now inversion F.
Qed.
Lemma starts_app : forall s r, starts s -> starts (s ++ r)%string.
Proof. intros [|c s] r; [easy|]. auto. Qed.
Lemma join_starts : forall sep x l, starts x -> starts (join_strs sep (x :: l)).
Proof. intros sep x [|y l] H; cbn; [exact H|]. now apply starts_app. Qed.
Lemma gpath_plain : forall segs, gpath_key (map (fun s => (s, None)) segs) = join_strs "::" segs.
Proof.
  intros segs. unfold gpath_key. rewrite map_map. f_equal. cbn.
  rewrite <- (map_id segs) at 2. apply map_ext. intros x. apply app_empty_r.
Qed.
Lemma key_starts : forall v t, key_of clear_text t v -> starts (key_text v).
Proof.
  induction v as [s|s|p| | |v IH|l IH|l IH|l last IH IHl|l IH|v IH] using kval_all; intros t H;
    inversion H; subst; cbn [key_text]; try reflexivity.
  - now apply clear_starts.
  - now apply clear_starts.
  - rewrite gpath_plain. destruct segs as [|x segs]; [contradiction|].
    apply join_starts, clear_starts. now match goal with F : Forall clear_text _ |- _ => inversion F end.
  - eapply IH; eassumption.
Qed.

Definition tells (t : ktype) (v : kval) : Prop :=
  key_of clear_text t v -> forall w r1 r2, key_of clear_text t w -> stops r1 -> stops r2 ->
  (key_text v ++ r1)%string = (key_text w ++ r2)%string -> v = w /\ r1 = r2.

Lemma concat_start : forall x l r, exists r', (String.concat ", " (x :: l) ++ r = x ++ r')%string /\
  (stops r -> stops r') /\
  r' = match l with [] => r | _ => ", " ++ String.concat ", " l ++ r end%string.
Proof.
  intros x [|y l] r.
  - exists r. cbn. auto.
  - exists (", " ++ String.concat ", " (y :: l) ++ r)%string. split; [|split; [easy|reflexivity]].
    cbn. now rewrite !sapp_assoc.
Qed.

Section Lists.
  Context {A : Type}.
  Variable txt : A -> string.
  (** [ok a b]: the texts of [a] and [b], each followed by the end of a part, differ if they do *)
  Variable ok : A -> Prop.
  Hypothesis ok_starts : forall a, ok a -> starts (txt a).

  Lemma list_tells : forall (l m : list A) r1 r2 c,
    ends_part c = true -> c <> ","%char ->
    Forall (fun a => ok a -> forall b s1 s2, ok b -> stops s1 -> stops s2 ->
              (txt a ++ s1)%string = (txt b ++ s2)%string -> a = b /\ s1 = s2) l ->
    Forall ok l -> Forall ok m ->
    (String.concat ", " (map txt l) ++ String c r1)%string = (String.concat ", " (map txt m) ++ String c r2)%string ->
    l = m /\ r1 = r2.
  Proof.
    induction l as [|a l IH]; intros m r1 r2 c EC NC I L M E.
    - destruct m as [|b m].
      + cbn in E. now injection E as <-.
      + inversion M; subst.
        destruct (concat_start (txt b) (map txt m) (String c r2)) as [r' [Q _]].
        cbn [map] in E. rewrite Q in E. cbn in E.
        pose proof (starts_app _ r' (ok_starts b H1)) as S. rewrite <- E in S. unfold starts in S; cbv iota beta in S. congruence.
    - inversion L as [|? ? La Ll]; inversion I as [|? ? Ia Il]; subst.
      destruct (concat_start (txt a) (map txt l) (String c r1)) as [r' [Q [S T]]].
      destruct m as [|b m].
      + cbn [map] in E. rewrite Q in E. cbn in E.
        pose proof (starts_app _ r' (ok_starts a La)) as S'. rewrite E in S'. unfold starts in S'; cbv iota beta in S'. congruence.
      + apply Forall_cons_iff in M as [Mb Mm].
        destruct (concat_start (txt b) (map txt m) (String c r2)) as [q' [Q' [S' T']]].
        cbn [map] in E. rewrite Q, Q' in E.
        destruct (Ia La b r' q' Mb (S EC) (S' EC) E) as [<- R].
        rewrite T, T' in R.
        destruct l as [|a' l]; destruct m as [|b' m]; cbn [map] in R.
        * injection R as <-. now split.
        * injection R as R _. exfalso. apply NC. congruence.
        * injection R as R _. exfalso. apply NC. congruence.
        * injection R as R.
          destruct (IH (b' :: m) r1 r2 c EC NC Il Ll Mm R) as [-> ->]. now split.
  Qed.
End Lists.

Lemma tuple_tells : forall ts l m r1 r2,
  Forall (fun v => forall t, tells t v) l ->
  Forall2 (key_of clear_text) ts l -> Forall2 (key_of clear_text) ts m ->
  (String.concat ", " (map key_text l) ++ String ")" r1)%string = (String.concat ", " (map key_text m) ++ String ")" r2)%string ->
  l = m /\ r1 = r2.
Proof.
  induction ts as [|t ts IH]; intros l m r1 r2 I L M E.
  - inversion L; inversion M; subst. cbn in E. injection E as <-. now split.
  - inversion L as [|? a ? l' La Ll]; inversion M as [|? b ? m' Mb Mm]; subst.
    inversion I as [|? ? Ia Il]; subst.
    destruct (concat_start (key_text a) (map key_text l') (String ")" r1)) as [r' [Q [S T]]].
    destruct (concat_start (key_text b) (map key_text m') (String ")" r2)) as [q' [Q' [S' T']]].
    cbn [map] in E. rewrite Q, Q' in E.
    destruct (Ia t La b r' q' Mb (S eq_refl) (S' eq_refl) E) as [<- R].
    rewrite T, T' in R.
    destruct l' as [|a' l]; destruct m' as [|b' m]; cbn [map] in R.
    + injection R as <-. now split.
    + inversion Ll; subst. inversion Mm.
    + inversion Mm; subst. inversion Ll.
    + injection R as R. destruct (IH (a' :: l) (b' :: m) r1 r2 Il Ll Mm R) as [-> ->]. now split.
Qed.

Lemma join_clear : forall segs, Forall clear_text segs -> clear_all (join_strs "::" segs).
Proof.
  assert (A : forall a b, clear_all a -> clear_all b -> clear_all (a ++ b)%string).
  { induction a as [|c a IH]; intros b H K; [exact K|]. cbn. inversion H; subst. constructor; auto. now apply IH. }
  induction segs as [|x segs IH]; intros F; [constructor|]. inversion F as [|? ? [_ X] G]; subst.
  destruct segs as [|y segs]; [exact X|].
  change (join_strs "::" (x :: y :: segs)) with (x ++ "::" ++ join_strs "::" (y :: segs))%string.
  apply A; [exact X|]. apply A; [repeat constructor|]. now apply IH.
Qed.

Lemma l_tells : forall v t, tells t v.
Proof.
  induction v as [s|s|p| | |v IH|l IH|l IH|l last IH IHl|l IH|v IH] using kval_all; intros t K w r1 r2 W S1 S2 E;
    inversion K; subst; inversion W; subst; cbn [key_text] in E.
  - match goal with X : clear_text s, Y : clear_text s0 |- _ =>
      destruct (clear_split s s0 r1 r2 (proj2 X) (proj2 Y) S1 S2 E) as [-> ->] end. now split.
  - match goal with X : clear_text s, Y : clear_text s0 |- _ =>
      destruct (clear_split s s0 r1 r2 (proj2 X) (proj2 Y) S1 S2 E) as [-> ->] end. now split.
  - rewrite !gpath_plain in E.
    match goal with X : Forall clear_text segs, Y : Forall clear_text segs0 |- _ =>
      destruct (clear_split _ _ r1 r2 (join_clear segs X) (join_clear segs0 Y) S1 S2 E) as [J ->] end.
    apply join_colon_inj in J; auto. now subst.
  - cbn in E. now injection E as <-.
  - cbn in E. now injection E as <-.
  - cbn in E. discriminate.
  - cbn in E. discriminate.
  - rewrite !sapp_assoc in E. cbn in E. injection E as E.
    match goal with X : key_of clear_text ?t v, Y : key_of clear_text ?t v0 |- _ =>
      destruct (IH t X v0 (String ")" r1) (String ")" r2) Y eq_refl eq_refl E) as [<- R] end.
    injection R as <-. now split.
  - rewrite !sapp_assoc in E. cbn [append] in E. injection E as E.
    match goal with |- KvSeq ?l = KvSeq ?m /\ _ => 
      destruct (list_tells key_text (key_of clear_text t0) (fun a => key_starts a t0) l m r1 r2 "]"%char eq_refl) as [<- <-]; auto;
      [discriminate|] end.
    eapply Forall_impl; [|exact IH]. intros a T. exact (T t0).
  - rewrite !sapp_assoc in E. cbn [append] in E. injection E as E.
    match goal with |- KvMap ?l = KvMap ?m /\ _ => 
      destruct (list_tells (fun kv => key_text (fst kv) ++ " = " ++ key_text (snd kv))%string
        (fun kv => key_of clear_text tk (fst kv) /\ key_of clear_text tv (snd kv))
        (fun a H => starts_app _ _ (key_starts (fst a) tk (proj1 H))) l m r1 r2 "}"%char eq_refl) as [<- <-]; auto;
      [discriminate| | |] end.
    + eapply Forall_impl; [|exact IH]. cbn beta. intros [k v] [T1 T2] [K1 K2] [k' v'] s1 s2 [M1 M2] Q1 Q2 E'.
      cbn [fst snd] in *. rewrite !sapp_assoc in E'.
      destruct (T1 tk K1 k' (" = " ++ key_text v ++ s1)%string (" = " ++ key_text v' ++ s2)%string M1 eq_refl eq_refl E') as [<- R].
      cbn in R. injection R as R. destruct (T2 tv K2 v' s1 s2 M2 Q1 Q2 R) as [<- <-]. now split.
    + rewrite Forall_forall in *. auto.
    + rewrite Forall_forall in *. auto.
  - rewrite !sapp_assoc in E. cbn [append] in E. injection E as E.
    match goal with L : Forall2 (key_of clear_text) ?ts l, M : Forall2 (key_of clear_text) ?ts ?m |- _ =>
      destruct (tuple_tells ts l m r1 r2 IH L M E) as [<- <-] end. now split.
  - match goal with X : key_of clear_text ?t v, Y : key_of clear_text ?t v0 |- _ =>
      destruct (IH t X v0 r1 r2 Y S1 S2 E) as [<- <-] end. now split.
Qed.

Lemma l_distinct : forall t v w, key_of clear_text t v -> key_of clear_text t w -> key_text v = key_text w -> v = w.
Proof.
  intros t v w V W E. apply (l_tells v t V w "" "" W I I). now rewrite E.
Qed.

Lemma l_not_distinct : exists v w v' w',
  v <> w /\ key_of (fun _ => True) (TSeq TStr) v /\ key_of (fun _ => True) (TSeq TStr) w /\ key_text v = key_text w /\
  v' <> w' /\ key_of no_comma (TSeq TStr) v' /\ key_of no_comma (TSeq TStr) w' /\ key_text v' = key_text w'.
Proof.
  exists (KvSeq [KvStr "a, b"]), (KvSeq [KvStr "a"; KvStr "b"]), (KvSeq [KvStr ""]), (KvSeq []).
  repeat split; try discriminate; repeat constructor. intros [].
Qed.
Lemma x_key :
  let v := KvTuple [KvPath [("a", None); ("b", None)]; KvOpt (Some (KvSeq [KvText "1"; KvText "2"]))] in
  key_of clear_text (TTuple [TPath; TOpt (TSeq TText)]) v /\ key_text v = "(a::b, Some([1, 2]))"%string /\
  with_key (KvMap [(KvStr "x", KvUnit); (KvStr "y", KvUnit)]) String.length = Some 16 /\
  key_text (KvMap [(KvStr "x", KvUnit); (KvStr "y", KvUnit)]) = "{x = (), y = ()}"%string.
Proof.
  cbv zeta. split; [|now repeat split].
  apply KO_tuple. constructor; [|constructor; [|constructor]].
  - apply (KO_path clear_text ["a"; "b"]); [discriminate| |]; repeat constructor; discriminate.
  - repeat constructor; discriminate.
Qed.
