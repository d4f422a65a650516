(** Concrete enums and sources for C94. *)
From Verif Require Import SourceKit.
From Verif Require Export LemLone ExEnum ExEFlat.

Definition lone_e (d : option (evalue val)) (ts : list (evalue val -> evalue val + synerr)) : edef val := mkEnum [xf_X] d ts false [].
(** an and_then function that changes the value *)
Definition lone_post (y : evalue val) : evalue val + synerr := inl (fst y, rev (snd y)).
Lemma lone_proper tm d ts : proper_enum tm (lone_e d ts).
Proof.
  refine (conj _ (conj _ (conj _ (conj _ _)))).
  - repeat (apply Forall_cons; [split; [ga|split; [destruct tm; ga|split; ga0]]|]); try apply Forall_nil. apply good_opt.
  - intros v f I T F. simpl in I. destruct I as [<-|[]]; discriminate.
  - intros i j v w n Ni Nj [O1 _]. destruct i as [|[|i]]; cbn in Ni; try discriminate Ni. injection Ni as <-. discriminate O1.
  - intros v f I F. simpl in I. destruct I as [<-|[]]. repeat (destruct F as [<-|F]; [apply unaware_fine; auto using fine_i32, fine_opt_|]); destruct F.
  - intros v f I T F. simpl in I. destruct I as [<-|[]]; discriminate.
Qed.
Lemma lone_local d ts : flat_local (lone_e d ts).
Proof.
  intros v I F. simpl in I. destruct I as [<-|[]]. split; [fxl|]. intros f J _. simpl in J.
  repeat (destruct J as [<-|J]; [discriminate|]); destruct J.
Qed.
Lemma lone_present : all_present xf_X "" (xin "y = 2, x = 1").
Proof.
  intros f I _. destruct I as [<-|[<-|[]]].
  - exists "x", (SAt 7). split; [vm_compute; auto|]. exists "x". split; [now left|reflexivity].
  - exists "y", (SAt 0). split; [vm_compute; auto|]. exists "y". split; [now left|reflexivity].
Qed.

(** the types of the program *)
Definition lone_types : world := mkWorld [("Option<i32>", rt (opt_ i32) (VO None)); ("i32", rt i32 (VI 0))] [] [] [] [].
Definition lone_more : world :=
  add_enum "E" "enum E { #[deluxe(flatten)] V { #[deluxe(default)] a: i32 } }"
    (add_struct "T" VU "struct T { #[deluxe(default)] a: i32 }" lone_types).

Lemma ex_lone_option : exists env : Env,
  deluxe_parse2 (struct_dict (src_sdef lone_types sx0 "struct T { a: Option<i32> }")) [] = Ok [VO None] /\
  xmsgs (deluxe_parse2 (enum_dict (src_edef lone_types ex0 "enum E { #[deluxe(flatten)] V { a: Option<i32> } }")) []) =
  ["expected one of `a`"].
Proof. exists lexer_env. split; vm_compute; reflexivity. Qed.
Lemma ex_lone_prefix : exists env : Env,
  deluxe_parse2 (struct_dict (src_sdef lone_more sx0 "struct S { #[deluxe(flatten(prefix = p))] f: T }")) (tk "p::a = 1") =
  Ok [VS [VI 1]] /\
  xmsgs (deluxe_parse2 (struct_dict (src_sdef lone_more sx0 "struct S { #[deluxe(flatten(prefix = p))] f: E }")) (tk "p::a = 1")) =
  ["unknown field `p::a`"; "expected one of p::fields from `V`"].
Proof. exists lexer_env. split; vm_compute; reflexivity. Qed.
