(** Examples beside the theorems of PropsAllow.v *)
From Verif Require Import SourceKit.
From Verif Require Export LemAllow ExMove ExHold ExAlias.

Lemma xw_runs : (exists sp, parse_run fx_p TMeta "" true sp fx_in (Ok fx_vs)) /\
  fst (d_inline (struct_dict (allowing fx_p)) Unnamed fx_in) = Ok fx_vs /\
  (exists e, fst (d_inline (struct_dict fx_p) Unnamed (xin "p::q::z = 4, v = 5, x = 2, a(1), zz, p::x = 3, v = 6")) = Err e) /\
  fst (d_inline (struct_dict (allowing fx_p)) Unnamed (xin "p::q::z = 4, v = 5, x = 2, a(1), zz, p::x = 3, v = 6")) = Ok fx_vs.
Proof.
  split; [exact fx_p_run|]. split; [vm_compute; reflexivity|]. split; [eexists; vm_compute; reflexivity|vm_compute; reflexivity].
Qed.
Lemma xw_known : forall k ksp, In (k, ksp) (keys_in fx_in) -> In k (s_names fx_p).
Proof.
  assert (E : map fst (keys_in fx_in) = ["p::q::z"; "v"; "x"; "a"; "p::x"; "v"]) by (vm_compute; reflexivity).
  intros k ksp I. assert (J : In k (map fst (keys_in fx_in))) by (apply in_map_iff; exists (k, ksp); auto). rewrite E in J.
  change (s_names fx_p) with ["a"; "x"; "y"; "p::x"; "p::q::z"; "v"]. cbn in *. tauto.
Qed.
Lemma xw_enum : exists sp, enum_run xc TMeta "" true sp (xin "c = 3, b = 1") (Ok (1, [VI 1; VI 3])).
Proof.
  exists (to_full_span Unnamed (xin "c = 3, b = 1")).
  assert (E : fst (d_inline (enum_dict xc) Unnamed (xin "c = 3, b = 1")) = Ok (1, [VI 1; VI 3])) by (vm_compute; reflexivity).
  rewrite <- E. apply E_list.
Qed.
Lemma xw_keys : (exists sp, enum_run (e_allowing xk) TMeta "" true sp (xin "k(5)") (Ok (0, [VI 5]))) /\ no_flattened xk /\
  (forall k ksp, In (k, ksp) (keys_in (xin "k(5)")) -> In k (variant_names xk)).
Proof.
  split.
  - exists (to_full_span Unnamed (xin "k(5)")).
    assert (E : fst (d_inline (enum_dict (e_allowing xk)) Unnamed (xin "k(5)")) = Ok (0, [VI 5])) by (vm_compute; reflexivity).
    rewrite <- E. apply E_list.
  - split; [intros v [<-|[<-|[]]]; reflexivity|].
    assert (E : map fst (keys_in (xin "k(5)")) = ["k"]) by (vm_compute; reflexivity).
    intros k ksp I. assert (J : In k (map fst (keys_in (xin "k(5)")))) by (apply in_map_iff; exists (k, ksp); auto). rewrite E in J.
    destruct J as [<-|[]]. cbn. auto.
Qed.
Lemma ex_allow_variant : exists env : Env,
  enum_parse_attributes (src_edef lone_types ex0 "#[deluxe(attributes(my))] enum E { A, #[deluxe(flatten)] B { b: i32 } }") cv
    (ONode [al ["my"] "a, b = 1"]) = Ok (0, []) /\
  exists e, enum_parse_attributes (src_edef lone_types ex0 "#[deluxe(attributes(my))] enum E { A, #[deluxe(flatten, allow_unknown_fields)] B { b: i32 } }") cv
    (ONode [al ["my"] "a, b = 1"]) = Err e.
Proof. exists lexer_env. split; [vm_compute; reflexivity|]. eexists. vm_compute. reflexivity. Qed.
(** [xp] with `allow_unknown_fields` on the variant N *)
Definition xp_n : edef val :=
  mkEnum (firstn 3 (e_variants xp) ++ v_allowing (mkVariant "N" ["n"] ShNamed [it "s" i32] false false false false) :: skipn 4 (e_variants xp)) None [] false [].
Lemma xw_variant : allowing_in xp xp_n /\ (exists sp, enum_run xp TMeta "" true sp (xin "n(s = 1)") (Ok (3, [VI 1]))) /\
  xrun xp_n "n(s = 1)" = Ok (3, [VI 1]) /\ (exists e, xrun xp "n(s = 1, u = 2)" = Err e) /\ xrun xp_n "n(s = 1, u = 2)" = Ok (3, [VI 1]).
Proof.
  split; [|split].
  - split; try reflexivity. exists (firstn 3 (e_variants xp)), (mkVariant "N" ["n"] ShNamed [it "s" i32] false false false false), (skipn 4 (e_variants xp)).
    split; [reflexivity|]. split; reflexivity.
  - exists (to_full_span Unnamed (xin "n(s = 1)")).
    assert (E : fst (d_inline (enum_dict xp) Unnamed (xin "n(s = 1)")) = Ok (3, [VI 1])) by (vm_compute; reflexivity).
    rewrite <- E. apply E_list.
  - split; [vm_compute; reflexivity|]. split; [eexists; vm_compute; reflexivity|vm_compute; reflexivity].
Qed.
