(** Types for the examples beside the theorems of PropsLax.v: the struct P of ExFlat.v with
    `#[deluxe(default = 7)]` on its first field, and the enum of ExEnum.v with
    `#[deluxe(default = 7)]` on the field of the variant N *)
From Verif Require Import SourceKit.
From Verif Require Export LemLax ExGrow ExEnum ExHold.

Definition xo := named [itd "a" i32 (VI 7); flatn "c" None (sfn fx_c); flatn "d" (Some "p") (sfn fx_d);
                        fld "v" ["v"] (KAppend (append_ i32)) None].
Lemma must_i32 n : must_give (it n i32).
Proof. split; [reflexivity|]. split; [reflexivity|]. intros t name sp K. injection K as <-. cbn. eexists. reflexivity. Qed.
Lemma xo_named : named_struct xo.
Proof.
  fxn. repeat apply Forall_cons; try apply Forall_nil; unfold good_field; cbn.
  - ga0.
  - intros. apply good_fn_map, good_struct_fn, fx_c_named.
  - intros. apply good_fn_map, good_struct_fn, fx_d_named.
  - intros _ l. apply wbm_map. apply (good_vec_append i32 good_i32).
Qed.
Lemma xo_relaxed : relaxed fx_p (it "a" i32) (VI 7) xo.
Proof.
  constructor; try reflexivity; [|apply must_i32].
  exists [], [flatn "c" None (sfn fx_c); flatn "d" (Some "p") (sfn fx_d); fld "v" ["v"] (KAppend (append_ i32)) None]. split; reflexivity.
Qed.
Lemma xo_given : gives_field fx_p "" (it "a" i32) fx_in.
Proof.
  assert (E : map fst (keys_in fx_in) = ["p::q::z"; "v"; "x"; "a"; "p::x"; "v"]) by (vm_compute; reflexivity).
  assert (J : In "a" (map fst (keys_in fx_in))) by (rewrite E; cbn; tauto). apply in_map_iff in J as [[k ksp] [K J]]. cbn [fst] in K. subst k.
  exists "a", ksp, "a". split; auto. split; [reflexivity|]. split; [now left|].
  assert (Q : forall i g, nth_error (s_raw fx_p) i = Some g -> In "a" (f_names g) -> i = 0).
  { intros [|[|[|[|i]]]] g N I; auto; cbn in N; try (injection N as <-; cbn in I; intuition discriminate); try discriminate. destruct i; discriminate. }
  intros i j g N I M. rewrite (Q i g N I). symmetry. apply (Q j _ M). now left.
Qed.
Lemma xo_runs : (exists e, fst (d_inline (struct_dict fx_p) Unnamed (xin "p::q::z = 4, v = 5, x = 2, p::x = 3, v = 6")) = Err e) /\
  exists vs, fst (d_inline (struct_dict xo) Unnamed (xin "p::q::z = 4, v = 5, x = 2, p::x = 3, v = 6")) = Ok (VI 7 :: vs) /\ fx_vs = VI 1 :: vs.
Proof. split; [eexists; vm_compute; reflexivity|]. eexists. split; vm_compute; reflexivity. Qed.

Definition xo_v : vdef val := mkVariant "N" ["n"] ShNamed [it "s" i32] false false false false.
Definition xp_o : edef val :=
  mkEnum (firstn 3 (e_variants xp) ++ v_with_raw xo_v [itd "s" i32 (VI 7)] :: skipn 4 (e_variants xp)) None [] false [].
Lemma xo_variant : relaxed_in xp (it "s" i32) (VI 7) xp_o /\ (exists sp, enum_run xp TMeta "" true sp (xin "n(s = 1)") (Ok (3, [VI 1]))) /\
  xrun xp_o "n(s = 1)" = Ok (3, [VI 1]) /\ (exists e, xrun xp "n()" = Err e) /\ xrun xp_o "n()" = Ok (3, [VI 7]).
Proof.
  split; [|split].
  - constructor; try reflexivity; [|apply must_i32]. exists (firstn 3 (e_variants xp)), xo_v, (skipn 4 (e_variants xp)), [], []. repeat split.
  - exists (to_full_span Unnamed (xin "n(s = 1)")).
    assert (E : fst (d_inline (enum_dict xp) Unnamed (xin "n(s = 1)")) = Ok (3, [VI 1])) by (vm_compute; reflexivity).
    rewrite <- E. apply E_list.
  - split; [vm_compute; reflexivity|]. split; [eexists; vm_compute; reflexivity|vm_compute; reflexivity].
Qed.

Lemma ex_lax_flat : exists env : Env,
  deluxe_parse2 (enum_dict (src_edef lone_types ex0 "enum E { #[deluxe(flatten)] V { a: i32, c: i32, #[deluxe(default)] b: i32 }, #[deluxe(flatten)] W { b: i32, #[deluxe(default)] a: i32, #[deluxe(default)] c: i32 } }")) (tk "a = 1, b = 2, c = 3") =
  Ok (0, [VI 1; VI 3; VI 2]) /\
  deluxe_parse2 (enum_dict (src_edef lone_types ex0 "enum E { #[deluxe(flatten)] V { #[deluxe(default)] a: i32, c: i32, #[deluxe(default)] b: i32 }, #[deluxe(flatten)] W { b: i32, #[deluxe(default)] a: i32, #[deluxe(default)] c: i32 } }")) (tk "a = 1, b = 2, c = 3") =
  Ok (1, [VI 2; VI 1; VI 3]).
Proof. exists lexer_env. split; vm_compute; reflexivity. Qed.
Lemma ex_lax_option : exists (env : Env),
  deluxe_parse2 (struct_dict (named [it "a" (opt_ i32)])) (tk "") = Ok [VO None] /\
  deluxe_parse2 (struct_dict (named [defaulting (it "a" (opt_ i32)) (VO (Some (VI 7)))])) (tk "") = Ok [VO (Some (VI 7))].
Proof. exists lexer_env. split; vm_compute; reflexivity. Qed.
