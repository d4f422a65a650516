(** Vocabulary for tuple structs with flattened fields: a flattened field takes a block of
    consecutive items. *)
From Verif Require Export SpecColl.

(** what follows a block: a comma and more items, or at most a trailing comma *)
Definition follows (more : bool) (tl : list token) : Prop :=
  if more then exists t r, tl = t :: r /\ comma_tok t /\ r <> []
  else tl = [] \/ exists t, tl = [t] /\ comma_tok t.
(** [block blk more ts tl]: the tokens [ts] are the items [blk], then [tl] *)
Inductive block : list (list token) -> bool -> list token -> list token -> Prop :=
| Bk_none : block [] false [] []
| Bk_last seg more tl : seg <> [] -> no_comma seg -> follows more tl -> block [seg] more (seg ++ tl) tl
| Bk_more seg blk more t ts tl : seg <> [] -> no_comma seg -> comma_tok t -> blk <> [] ->
    block blk more ts tl -> block (seg :: blk) more (seg ++ t :: ts) tl.
Definition some_items (l : list (list token)) : bool := match l with [] => false | _ => true end.

Section B.
Context {env : Env} {A : Type}.
(** flattened into a tuple, the type reads exactly the items [blk] as the value [v], at every
    place where they are followed by more items ([more]), or by none *)
Definition takes (u : flat_unnamed A) (blk : list (list token)) (more : bool) (v : A) : Prop :=
  forall i ts tl sc c, block blk more ts tl ->
    exists s', fu_parse u Unnamed i [mkStream ts sc c] = (Ok v, [s']) /\
      if more then toks s' = tl else used_up s'.
(** the value when there are no items left *)
Definition absent (u : flat_unnamed A) (v : A) : Prop :=
  forall i sc, fu_parse u Unnamed i [mkStream [] sc None] = (Ok v, [mkStream [] sc None]).
(** a flattened type whose value depends on the items it takes only, not on the position, the
    spans or the trailing comma; when it stops in the middle of an item nothing is said.
    Where there are no items it reads nothing. *)
Definition by_items (u : flat_unnamed A) : Prop :=
  (forall i ts sc c segs v l, listed segs ts -> ~ In [] segs -> segs <> [] ->
     fu_parse u Unnamed i [mkStream ts sc c] = (Ok v, l) ->
     exists s', l = [s'] /\
       (ends (toks s') -> exists blk rest, segs = blk ++ rest /\ blk <> [] /\ takes u blk (some_items rest) v)) /\
  (forall i sc v l, fu_parse u Unnamed i [mkStream [] sc None] = (Ok v, l) -> absent u v) /\
  (forall i sc, snd (fu_parse u Unnamed i [mkStream [] sc None]) = [mkStream [] sc None]).
End B.

Section T.
Context {env : Env} {V : Type}.
(** the items [segs] are spread over the fields: one for each parsed field, a block for each
    flattened one; the last fields may get nothing, if no more items follow *)
Inductive spread (more : bool) : list (field V) -> list (list token) -> list (option V) -> Prop :=
| Sp_none : spread more [] [] []
| Sp_item f d fs seg segs v os : is_parsable f = true -> f_kind f = KItem d ->
    accepts (d_item d Unnamed) seg v -> spread more fs segs os ->
    spread more (f :: fs) (seg :: segs) (Some v :: os)
| Sp_flat f u fs blk segs v os : is_parsable f = true -> f_kind f = KFlatU u -> blk <> [] ->
    takes u blk (more || some_items segs) v -> spread more fs segs os ->
    spread more (f :: fs) (blk ++ segs) (Some v :: os)
| Sp_short f fs os : is_parsable f = true -> more = false -> spread more fs [] os ->
    spread more (f :: fs) [] (None :: os)
| Sp_other f fs segs os : is_parsable f = false -> spread more fs segs os ->
    spread more (f :: fs) segs (None :: os).
(** a tuple struct that the macro accepts *)
Definition any_tuple_struct (s : sdef V) : Prop :=
  accepted_struct s /\ s_shape s = ShUnnamed /\
  (forall t, s_default s = Some t -> length t = length (s_raw s)).
Definition flat_items_ok (s : sdef V) : Prop :=
  Forall (fun f => forall u, is_parsable f = true -> f_kind f = KFlatU u -> by_items u) (s_raw s).
(** the value of each field: from what is written, or as for a field that is left out; a
    flattened field without default is then the value of its type for no items *)
Definition spread_values (s : sdef V) (tm : tmode V) (os : list (option V)) (vs : list V) : Prop :=
  length vs = length (s_raw s) /\
  forall i f o v, nth_error (s_raw s) i = Some f -> nth_error os i = Some o -> nth_error vs i = Some v ->
    match o with
    | Some w => transformed (f_transforms f) w v
    | None => left_out s tm "" SCall i f v \/
        exists u w, f_container f = false /\ field_default s tm f = None /\ s_default s = None /\
          f_kind f = KFlatU u /\ absent u w /\ transformed (f_transforms f) w v
    end.
End T.

(** *** The number of a missing item *)
Section N.
Context {env : Env} {V : Type}.
Local Notation field := (field V).
(** how many items a field is counted as; for a flattened field, what its type declares *)
Definition size (f : field) : nat :=
  match f_kind f with
  | KFlatU u => match fu_count u with Some n => n | None => 0 end
  | KFlatN _ _ => 0
  | _ => 1
  end.
Definition sizes (l : list field) : nat := list_sum (map size l).
Definition flattened (f : field) : bool :=
  is_parsable f && match f_kind f with KFlatU _ => true | _ => false end.
Definition has_some {A} (o : option A) : bool := match o with Some _ => true | None => false end.
(** the fields that got items *)
Definition got (fs : list field) (os : list (option V)) : list field :=
  map fst (filter (fun p => has_some (snd p)) (combine fs os)).
(** the flattened fields that got none and have no default *)
Definition got_none (fs : list field) (os : list (option V)) : list field :=
  map fst (filter (fun p => flattened (fst p) && negb (has_some (f_default (fst p))) && negb (has_some (snd p))) (combine fs os)).
Definition not_container (f : field) : bool := negb (f_container f).
(** the number that is reported for field [i] *)
Definition said_number (fs : list field) (os : list (option V)) (i : nat) : nat :=
  (if existsb flattened fs then sizes (got fs os) else 0) +
  sizes (filter not_container (firstn i fs)) +
  sizes (got_none (firstn i fs) (firstn i os)).
End N.
