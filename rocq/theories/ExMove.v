(** Enums for the examples beside the theorems of PropsMove.v:

    enum O: see ExPick.v

    enum C {
      A,
      #[deluxe(flatten)] B { b: i32, #[deluxe(default = 7)] c: i32 },
    } *)
From Verif Require Import SourceKit.
From Verif Require Export LemMove ExPick ExLone.

Lemma xo_free : forall v, In v (e_variants xo) -> v_flatten v = false -> prefix_free v.
Proof. intros v I F. destruct I as [<-|[<-|[<-|[]]]]; discriminate. Qed.
Lemma i32_nameless : nameless i32.
Proof. intros n n' sp v H. discriminate H. Qed.
Lemma xo_fields : forall v, In v (e_variants xo) -> v_flatten v = true -> Forall movable_field (v_raw v) /\ takes_all v.
Proof.
  intros v I F. destruct I as [<-|[<-|[<-|[]]]]; [discriminate| |]; (split; [|now left]);
    repeat (apply Forall_cons; [exact i32_nameless|]); apply Forall_nil.
Qed.
Definition xc_b := mkVariant "B" [] ShNamed [it "b" i32; itd "c" i32 (VI 7)] true false false false.
Definition xc : edef val := mkEnum [mkVariant "A" ["a"] ShUnit [] false false false false; xc_b] None [] false [].
Lemma xc_proper : proper_enum TMeta xc.
Proof.
  refine (conj _ (conj _ (conj _ (conj _ _)))).
  - repeat (apply Forall_cons; [split; [ga|split; [ga|split; ga0]]|]); try apply Forall_nil.
  - intros v f [<-|[<-|[]]]; discriminate.
  - intros i j v w n Ni Nj [O1 O2] [P1 P2] I J. destruct i as [|[|i]]; cbn in Ni; try (injection Ni as <-); try discriminate; [|destruct i; discriminate].
    destruct j as [|[|j]]; cbn in Nj; try (injection Nj as <-); try discriminate; auto. destruct j; discriminate.
  - intros v f [<-|[<-|[]]] I; repeat (destruct I as [<-|I]; [apply unaware_fine, fine_i32|]); destruct I.
  - intros v f [<-|[<-|[]]]; discriminate.
Qed.
Lemma xc_local : flat_local xc.
Proof.
  intros v I F. destruct I as [<-|[<-|[]]]; [discriminate|]; (split; [fxl|]); intros f J _; simpl in J;
    repeat (destruct J as [<-|J]; [discriminate|]); destruct J.
Qed.
Lemma xc_free : forall v, In v (e_variants xc) -> v_flatten v = false -> prefix_free v.
Proof. intros v I F. destruct I as [<-|[<-|[]]]; discriminate. Qed.
Lemma xc_plain P : P = "" \/ P = "p::" -> plain_fields P xc_b.
Proof.
  intro E. split; [exists (it "b" i32); split; [now left|split; reflexivity]|]. intros f I. split; [destruct I as [<-|[<-|[]]]; reflexivity|].
  intros NE n m J. destruct E as [-> | ->]; [congruence|]. destruct I as [<-|[<-|[]]]; destruct J as [<-|[]]; discriminate.
Qed.
Lemma xc_fields : forall v, In v (e_variants xc) -> v_flatten v = true -> Forall movable_field (v_raw v) /\
  (takes_all v \/ (plain_fields "" v /\ plain_fields "p::" v)).
Proof.
  intros v I F. destruct I as [<-|[<-|[]]]; [discriminate|]. split; [|right; split; apply xc_plain; auto].
  repeat (apply Forall_cons; [exact i32_nameless|]); apply Forall_nil.
Qed.
Definition p_colons := [TIdent "p" (SAt 0); TPunct ":" true (SAt 0); TPunct ":" false (SAt 0)].
Definition xc_in' := [root_stream (p_colons ++ tk "b = 1")].
Lemma xc_moved : Forall2 (moved "" "p::") (items_of (xin "b = 1")) (items_of xc_in').
Proof.
  match goal with |- Forall2 _ ?a ?b => let x := eval vm_compute in a in let y := eval vm_compute in b in change a with x; change b with y end.
  constructor; [|constructor]. eexists "b", "p::b", (SAt 0), _. split; [vm_compute; reflexivity|]. split; [vm_compute; reflexivity|].
  intro m. cbn [append]. split; congruence.
Qed.
Lemma xc_under : under "" (xin "b = 1").
Proof. intros k ksp _. now exists k. Qed.

(** a struct flattened into the flattened variant *)
Definition move_types : world :=
  add_enum "E" "enum E { #[deluxe(flatten)] V { a: i32, #[deluxe(flatten(prefix = q))] c: C } }"
    (add_struct "C" VU "struct C { x: i32 }" lone_types).
Lemma ex_move_nested : exists env : Env,
  deluxe_parse2 (struct_dict (src_sdef move_types sx0 "struct S { #[deluxe(flatten)] f: E }")) (tk "a = 1, q::x = 2") =
  Ok [VE 0 [VI 1; VS [VI 2]]] /\
  xmsgs (deluxe_parse2 (struct_dict (src_sdef move_types sx0 "struct S { #[deluxe(flatten(prefix = p))] f: E }")) (tk "p::a = 1, p::q::x = 2")) =
  ["unknown field `p::q::x`"].
Proof. exists lexer_env. split; vm_compute; reflexivity. Qed.
