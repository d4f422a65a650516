(** Types for the examples beside the theorems of PropsAka.v: the struct P of ExFlat.v with
    `#[deluxe(alias = aa)]` on its first field, and the enum C of ExMove.v with
    `#[deluxe(alias = aa)]` on its first variant *)
From Verif Require Import SourceKit.
From Verif Require Export LemAka ExGrow.

Definition xz := named [fld "a" ["a"; "aa"] (KItem i32) None; flatn "c" None (sfn fx_c); flatn "d" (Some "p") (sfn fx_d);
                        fld "v" ["v"] (KAppend (append_ i32)) None].
Lemma xz_named : named_struct xz.
Proof.
  fxn. repeat apply Forall_cons; try apply Forall_nil; unfold good_field; cbn.
  - ga0.
  - intros. apply good_fn_map, good_struct_fn, fx_c_named.
  - intros. apply good_fn_map, good_struct_fn, fx_d_named.
  - intros _ l. apply wbm_map. apply (good_vec_append i32 good_i32).
Qed.
Lemma xz_more : more_names fx_p ["aa"] xz.
Proof.
  constructor; auto. exists [], (it "a" i32), [flatn "c" None (sfn fx_c); flatn "d" (Some "p") (sfn fx_d); fld "v" ["v"] (KAppend (append_ i32)) None].
  split; [reflexivity|]. split; [reflexivity|]. split; [reflexivity|discriminate].
Qed.
Lemma xz_new : forall m, In m ["aa"] -> ~ In m (s_names fx_p).
Proof. intros m [<-|[]] I. cbn in I. intuition discriminate. Qed.
Lemma xz_runs : fst (d_inline (struct_dict xz) Unnamed fx_in) = Ok fx_vs /\
  (exists e, fst (d_inline (struct_dict fx_p) Unnamed (xin "p::q::z = 4, v = 5, x = 2, aa(1), p::x = 3, v = 6")) = Err e) /\
  fst (d_inline (struct_dict xz) Unnamed (xin "p::q::z = 4, v = 5, x = 2, aa(1), p::x = 3, v = 6")) = Ok fx_vs.
Proof. split; [vm_compute; reflexivity|]. split; [eexists; vm_compute; reflexivity|vm_compute; reflexivity]. Qed.

Definition xy_a := mkVariant "A" ["a"] ShUnit [] false false false false : vdef val.
Definition xy : edef val := mkEnum [v_with_names xy_a ["aa"]; xc_b] None [] false [].
Lemma xy_proper : proper_enum TMeta xy.
Proof.
  refine (conj _ (conj _ (conj _ (conj _ _)))).
  - repeat (apply Forall_cons; [split; [ga|split; [ga|split; ga0]]|]); try apply Forall_nil.
  - intros v f [<-|[<-|[]]]; discriminate.
  - intros i j v w n Ni Nj [O1 O2] [P1 P2] I J. destruct i as [|[|i]]; cbn in Ni; try (injection Ni as <-); try discriminate; try (destruct i; discriminate);
    destruct j as [|[|j]]; cbn in Nj; try (injection Nj as <-); try discriminate; auto; try (destruct j; discriminate); cbn in I, J; intuition congruence.
  - intros v f [<-|[<-|[]]] I; repeat (destruct I as [<-|I]; [apply unaware_fine, fine_i32|]); destruct I.
  - intros v f [<-|[<-|[]]]; discriminate.
Qed.
Lemma xy_more : more_variant_names xc ["aa"] xy.
Proof. constructor; try reflexivity. exists [], xy_a, [xc_b]. repeat split. Qed.
Lemma xy_new : forall n, In n ["aa"] -> ~ In n (fn_names (enum_fn xc)).
Proof. intros n [<-|[]] I. cbn in I. intuition discriminate. Qed.
Lemma xy_runs : xrun xy "c = 3, b = 1" = Ok (1, [VI 1; VI 3]) /\ (exists e, xrun xc "aa" = Err e) /\ xrun xy "aa" = Ok (0, []).
Proof. split; [vm_compute; reflexivity|]. split; [eexists; vm_compute; reflexivity|vm_compute; reflexivity]. Qed.

Lemma ex_aka_flat : exists env : Env,
  deluxe_parse2 (enum_dict (src_edef lone_types ex0 "enum E { #[deluxe(flatten)] V { b: i32, #[deluxe(default)] c: i32 }, #[deluxe(flatten)] W { c: i32, #[deluxe(default)] b: i32 } }")) (tk "b = 1, c = 2") =
  Ok (0, [VI 1; VI 2]) /\
  deluxe_parse2 (enum_dict (src_edef lone_types ex0 "enum E { #[deluxe(flatten)] V { b: i32, #[deluxe(default)] c: i32 }, #[deluxe(flatten)] W { #[deluxe(alias = a)] c: i32, #[deluxe(default)] b: i32 } }")) (tk "b = 1, c = 2") =
  Ok (1, [VI 2; VI 1]).
Proof. exists lexer_env. split; vm_compute; reflexivity. Qed.
