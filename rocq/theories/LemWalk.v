(** parse_struct as a fold over the keys it reads. *)
From Verif Require Export SpecStruct LemWf LemSmall.

Section W.
Context {env : Env} {St : Type}.
Variable func : string -> span -> St -> stream -> res unit * St * stream.
Variable upd : entry -> St -> St.
Variable eat : entry -> stream.
Variable F : forall p sp st s,
  func p sp st s = (Ok tt, upd (mkEntry p sp s) st, eat (mkEntry p sp s)).
Variable E : forall en, advances (en_at en) (eat en).

Definition stop_res (o : option synerr) : res unit :=
  match o with Some e => Err e | None => Ok tt end.
Definition fold_entries (l : list entry) (st : St) : St :=
  fold_left (fun st en => upd en st) l st.

Lemma struct_loop_walk : forall fuel st s, length (toks s) < fuel ->
  struct_loop func fuel st s =
  (stop_res (snd (fst (walk fuel eat s))), fold_entries (fst (fst (walk fuel eat s))) st,
   snd (walk fuel eat s)).
Proof.
  induction fuel as [|n IH]; intros st s L; [lia|]. cbn [struct_loop walk].
  destruct (is_empty s); [reflexivity|].
  pose proof (wb_path s) as W. pose proof (path_consumes s) as PC.
  destruct (parse_any_path s) as [r s1]. destruct r as [p|e|b]; [|reflexivity|destruct W as [[] _]].
  specialize (PC _ _ eq_refl). rewrite F. cbv zeta. cbn iota beta.
  pose proof (E (mkEntry (path_key p) (p_span p) s1)) as A. apply adv_len in A. cbn [en_at] in A.
  set (s2 := eat _) in *. destruct (is_empty s2); [reflexivity|].
  pose proof (wb_comma s2) as C. pose proof (comma_consumes s2) as CC.
  destruct (parse_comma s2) as [r s3]. destruct r as [[]|e|b]; [|reflexivity|destruct C as [[] _]].
  specialize (CC _ eq_refl). rewrite IH by lia.
  destruct (walk n eat s3) as [[l stop] s4]. reflexivity.
Qed.

Lemma parse_struct_walk : forall l st,
  parse_struct func st l =
  (stop_res (snd (fst (walks eat l))), fold_entries (fst (fst (walks eat l))) st, snd (walks eat l)).
Proof.
  induction l as [|s l IH]; intro st; cbn [parse_struct walks]; [reflexivity|].
  rewrite struct_loop_walk by lia. unfold walk1.
  destruct (walk (S (length (toks s))) eat s) as [[es [e|]] s1]; cbn [fst snd stop_res]; [reflexivity|].
  rewrite IH. destruct (walks eat l) as [[es2 stop] l1]. cbn [fst snd].
  unfold fold_entries. rewrite fold_left_app. reflexivity.
Qed.
End W.
