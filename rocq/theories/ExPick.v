(** An enum for the examples beside the theorems of PropsPick.v:

    enum O {
      A,
      #[deluxe(flatten, allow_unknown_fields)] B { b: i32 },
      #[deluxe(flatten, allow_unknown_fields)] L { b: i32, c: i32 },
    } *)
From Verif Require Export LemOwn ExEnum.

Definition xo_b := mkVariant "B" [] ShNamed [it "b" i32] true false false true.
Definition xo_l := mkVariant "L" [] ShNamed [it "b" i32; it "c" i32] true false false true.
Definition xo : edef val :=
  mkEnum [mkVariant "A" ["a"] ShUnit [] false false false false; xo_b; xo_l] None [] false [].
Lemma xo_proper : proper_enum TMeta xo.
Proof.
  refine (conj _ (conj _ (conj _ (conj _ _)))).
  - repeat (apply Forall_cons; [split; [ga|split; [ga|split; ga0]]|]); try apply Forall_nil.
  - intros v f [<-|[<-|[<-|[]]]]; discriminate.
  - intros i j v w n Ni Nj [O1 O2] [P1 P2] I J. destruct i as [|[|[|i]]]; cbn in Ni; try (injection Ni as <-); try discriminate; [|destruct i; discriminate].
    destruct j as [|[|[|j]]]; cbn in Nj; try (injection Nj as <-); try discriminate; auto. destruct j; discriminate.
  - intros v f [<-|[<-|[<-|[]]]] I; repeat (destruct I as [<-|I]; [apply unaware_fine, fine_i32|]); destruct I.
  - intros v f [<-|[<-|[<-|[]]]]; discriminate.
Qed.
Lemma xo_local : flat_local xo.
Proof.
  intros v I F. destruct I as [<-|[<-|[<-|[]]]]; [discriminate| |]; (split; [fxl|]); intros f J _; simpl in J;
    repeat (destruct J as [<-|J]; [discriminate|]); destruct J.
Qed.
Lemma xo_open prefix : forall v, In v (e_variants xo) -> v_flatten v = true -> takes_all v /\ Forall (routes prefix) (v_raw v).
Proof.
  intros v I F. destruct I as [<-|[<-|[<-|[]]]]; [discriminate| |]; (split; [now left|]); repeat apply Forall_cons; try apply Forall_nil; intro P; discriminate.
Qed.
Lemma xo_present v txt : (v = xo_b \/ v = xo_l) -> txt = "b = 1, c = 2, z = 3" -> all_present v "" (xin txt).
Proof.
  intros [-> | ->] -> f I _; cbn in I; repeat (destruct I as [<-|I]); try destruct I.
  1, 2: exists "b", (SAt 0); split; [vm_compute; auto|]; exists "b"; split; [now left|reflexivity].
  exists "c", (SAt 7). split; [vm_compute; auto|]. exists "c". split; [now left|reflexivity].
Qed.
Lemma xo_first : first_chosen xo "" (xin "b = 1, c = 2, z = 3") 1 xo_b /\ chosen xo "" (xin "b = 1, c = 2, z = 3") 2 xo_l.
Proof.
  assert (NB : needs xo_b) by (exists (it "b" i32); split; [now left|split; reflexivity]).
  assert (NL : needs xo_l) by (exists (it "b" i32); split; [now left|split; reflexivity]).
  assert (CB : chosen xo "" (xin "b = 1, c = 2, z = 3") 1 xo_b) by (split; [repeat split|split; [apply xo_present; auto|now left]]).
  split; [|split; [repeat split|split; [apply xo_present; auto|now left]]].
  destruct (proj2 (l_flat_one xo "" (xin "b = 1, c = 2, z = 3") xo_local)) as [_ X].
  destruct X as [i [v FC]]; [eauto|]. pose proof FC as [[[N [F _]] _] H].
  destruct i as [|[|[|i]]]; cbn in N; try (injection N as <-); [discriminate|exact FC| |destruct i; discriminate].
  assert (FB : fields_named xo_b) by (apply (xo_local xo_b); [right; now left|reflexivity]).
  assert (FLn : fields_named xo_l) by (apply (xo_local xo_l); [right; right; now left|reflexivity]).
  destruct (H 1 xo_b CB (field_key xo_l) (field_key xo_b)) as [S|[S _]].
  - apply (required_sets_of xo_l _ FLn). reflexivity.
  - apply (required_sets_of xo_b _ FB). reflexivity.
  - exfalso. change (field_key xo_l) with [["b"]; ["c"]] in S. change (field_key xo_b) with [["b"]] in S. unfold sets_before in S.
    inversion S as [|? ? ? ? B|? ? ? B]; subst.
    + apply (sets_irrefl [["b"]]). constructor. exact B.
    + inversion B.
  - exfalso. vm_compute in S. discriminate.
Qed.
