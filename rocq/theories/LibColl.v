(** Collections, sets, maps, arrays, tuples, Punctuated.
    Models core/parse_meta.rs 458-857, 1203-1258, 1474-1551. *)
From Verif Require Export LibPrim.

Section C.
Context {env : Env}.

(** Running one single-stream loop over every input in turn (`for input in inputs`);
    the state is what the loop accumulates. *)
Fixpoint over_streams {St} (body : St -> stream -> res St * stream)
         (st : St) (inputs : list stream) : res St * list stream :=
  match inputs with
  | [] => (Ok st, [])
  | s :: rest =>
    match body st s with
    | (Ok st1, s1) => let (r, rest1) := over_streams body st1 rest in (r, s1 :: rest1)
    | (Err e, s1) => (Err e, s1 :: rest)
    | (Bad b, s1) => (Bad b, s1 :: rest)
    end
  end.

(** `loop { if empty break; step; if !empty { parse::<,>()? } }`, the shape shared by
    551-562, 638-653, 748-767, 787-810.  A step's Err is an early return. *)
Section Comma.
  Context {St : Type}.
  Variable step : St -> stream -> res St * stream.
  Fixpoint comma_loop (fuel : nat) (st : St) (s : stream) : res St * stream :=
    match fuel with
    | 0 => (Bad Diverge, s)
    | S n =>
      if is_empty s then (Ok st, s)
      else match step st s with
           | (Ok st1, s1) =>
             if is_empty s1 then (Ok st1, s1)
             else match parse_comma s1 with
                  | (Ok _, s2) => comma_loop n st1 s2
                  | (Err e, s2) => (Err e, s2)
                  | (Bad b, s2) => (Bad b, s2)
                  end
           | (Err e, s1) => (Err e, s1)
           | (Bad b, s1) => (Bad b, s1)
           end
    end.
  Definition comma_stream (st : St) (s : stream) : res St * stream :=
    comma_loop (S (length (toks s))) st s.
End Comma.

(** `errors.check()?; Ok(v)` at the end of the loops *)
Definition finish {A St} (get : St -> A) (es : St -> errors)
           (x : res St * list stream) : res A * list stream :=
  let (r, l) := x in
  (rbind r (fun st => into_result (es st) (get st)), l).

(** *** Vec, VecDeque, LinkedList, BinaryHeap (524-594).
    Simplification: a BinaryHeap is the list of its elements in insertion order. *)
(** 555-558 *)
Definition vec_step {A} (d : dict A) (st : list A * errors) (s : stream)
  : res (list A * errors) * stream :=
  match d_item d Unnamed s with
  | (Ok v, s1) => (Ok (fst st ++ [v], snd st), s1)
  | (Err e, s1) => (Ok (fst st, push_syn (snd st) e), skip_item s1)
  | (Bad b, s1) => (Bad b, s1)
  end.
(** 542-566 *)
Definition vec_flat {A} (d : dict A) : mparser (list A) :=
  fun inputs => finish fst snd (over_streams (comma_stream (vec_step d)) ([], []) inputs).
(** 537-567 *)
Definition vec_fu {A} (d : dict A) : flat_unnamed (list A) :=
  mkFU None (fun _ _ => vec_flat d).
(** 526-535 *)
Definition vec_dict {A} (d : dict A) : dict (list A) :=
  dict_inline (fun _ => parse_delimited_with Bracket (on_single (vec_flat d)))
              (fun _ => vec_flat d).
(** 580-590: the closure *)
Definition vec_append_fn {A} (d : dict A) (paths : list string)
           (p : string) (psp : span) (st : list A * errors) (s : stream)
  : res unit * (list A * errors) * stream :=
  if mem_str p paths then
    match d_named d p psp s with
    | (Ok v, s1) => (Ok tt, (fst st ++ [v], snd st), s1)
    | (Err e, s1) => (Ok tt, (fst st, push_syn (snd st) e), skip_item s1)
    | (Bad b, s1) => (Bad b, st, s1)
    end
  else (Ok tt, st, skip_item s).
(** 570-593 *)
Definition vec_append {A} (d : dict A) : append_fn (list A) :=
  fun paths inputs =>
    match parse_struct (vec_append_fn d paths) ([], []) inputs with
    | (Ok _, st, l) => (into_result (snd st) (fst st), l)
    | (Err e, st, l) => (into_result (push_syn (snd st) e) (fst st), l)
    | (Bad b, _, l) => (Bad b, l)
    end.

(** *** BTreeSet, HashSet (611-693), for an element equality.  Simplification: a
    set is the duplicate-free list of its elements in insertion order. *)
Definition set_ins {A} (eqb : A -> A -> bool) (v : A) (l : list A) : bool * list A :=
  if existsb (eqb v) l then (false, l) else (true, l ++ [v]).
(** 642-649 *)
Definition set_step {A} (eqb : A -> A -> bool) (d : dict A)
           (st : list A * errors) (s : stream) : res (list A * errors) * stream :=
  let sp := in_span s in
  match d_item d Unnamed s with
  | (Ok v, s1) =>
    let (fresh, l) := set_ins eqb v (fst st) in
    (Ok (l, if fresh then snd st
            else push (snd st) (join_or (in_span s1) sp sp) "Duplicate key"), s1)
  | (Err e, s1) => (Ok (fst st, push_syn (snd st) e), skip_item s1)
  | (Bad b, s1) => (Bad b, s1)
  end.
(** 629-657 *)
Definition set_flat {A} (eqb : A -> A -> bool) (d : dict A) : mparser (list A) :=
  fun inputs => finish fst snd (over_streams (comma_stream (set_step eqb d)) ([], []) inputs).
Definition set_fu {A} (eqb : A -> A -> bool) (d : dict A) : flat_unnamed (list A) :=
  mkFU None (fun _ _ => set_flat eqb d).
(** 613-622 *)
Definition set_dict {A} (eqb : A -> A -> bool) (d : dict A) : dict (list A) :=
  dict_inline (fun _ => parse_delimited_with Bracket (on_single (set_flat eqb d)))
              (fun _ => set_flat eqb d).
(** 674-689 the closure *)
Definition set_append_fn {A} (eqb : A -> A -> bool) (d : dict A) (paths : list string)
           (p : string) (psp : span) (st : list A * errors) (s : stream)
  : res unit * (list A * errors) * stream :=
  if mem_str p paths then
    let sp := in_span s in
    match d_named d p psp s with
    | (Ok v, s1) =>
      let (fresh, l) := set_ins eqb v (fst st) in
      (Ok tt, (l, if fresh then snd st
                  else push (snd st) (join_or (in_span s1) sp sp) "Duplicate key"), s1)
    | (Err e, s1) => (Ok tt, (fst st, push_syn (snd st) e), skip_item s1)
    | (Bad b, s1) => (Bad b, st, s1)
    end
  else (Ok tt, st, skip_item s).
(** 661-692: `parse_struct(..)?` drops the collected errors. *)
Definition set_append {A} (eqb : A -> A -> bool) (d : dict A) : append_fn (list A) :=
  fun paths inputs =>
    match parse_struct (set_append_fn eqb d paths) ([], []) inputs with
    | (Ok _, st, l) => (into_result (snd st) (fst st), l)
    | (Err e, _, l) => (Err e, l)
    | (Bad b, _, l) => (Bad b, l)
    end.

(** *** BTreeMap, HashMap (710-815), for a key equality and a key string function.
    Simplification: a map is an association list in insertion order;
    `insert(..).is_none()`: false when the key was present (the value is replaced). *)
Fixpoint map_ins {K V} (eqb : K -> K -> bool) (k : K) (v : V) (l : list (K * V))
  : bool * list (K * V) :=
  match l with
  | [] => (true, [(k, v)])
  | (k', v') :: l' =>
    if eqb k k' then (false, (k', v) :: l')
    else let (f, l1) := map_ins eqb k v l' in (f, (k', v') :: l1)
  end.
(** 752-763 *)
Definition map_step {K V} (eqb : K -> K -> bool) (kstr : K -> string)
           (dk : dict K) (dv : dict V)
           (st : list (K * V) * errors) (s : stream)
  : res (list (K * V) * errors) * stream :=
  let start := in_span s in
  match d_item dk Unnamed s with
  | (Ok k, s1) =>
    let sp := join_or (in_span s1) start start in
    match d_named dv (kstr k) start s1 with
    | (Ok v, s2) =>
      let (fresh, l) := map_ins eqb k v (fst st) in
      (Ok (l, if fresh then snd st else push (snd st) sp "Duplicate key"), s2)
    | (Err e, s2) => (Ok (fst st, push_syn (snd st) e), skip_item s2)
    | (Bad b, s2) => (Bad b, s2)
    end
  | (Err e, s1) => (Err e, s1)
  | (Bad b, s1) => (Bad b, s1)
  end.
(** 739-771 *)
Definition map_flat {K V} (eqb : K -> K -> bool) (kstr : K -> string)
           (dk : dict K) (dv : dict V) : mparser (list (K * V)) :=
  fun inputs =>
    finish fst snd (over_streams (comma_stream (map_step eqb kstr dk dv)) ([], []) inputs).
Definition map_fu {K V} (eqb : K -> K -> bool) (kstr : K -> string)
           (dk : dict K) (dv : dict V) : flat_unnamed (list (K * V)) :=
  mkFU None (fun _ _ => map_flat eqb kstr dk dv).
(** 715-728 (Brace) *)
Definition map_dict {K V} (eqb : K -> K -> bool) (kstr : K -> string)
           (dk : dict K) (dv : dict V) : dict (list (K * V)) :=
  dict_inline (fun _ => parse_delimited_with Brace (on_single (map_flat eqb kstr dk dv)))
              (fun _ => map_flat eqb kstr dk dv).
(** 791-806: no skip after a failed value *)
Definition rest_step {K V} (eqb : K -> K -> bool) (kstr : K -> string)
           (dk : dict K) (dv : dict V) (exclude : list string)
           (st : list (K * V) * errors) (s : stream)
  : res (list (K * V) * errors) * stream :=
  let start := in_span s in
  match d_item dk Unnamed s with
  | (Ok k, s1) =>
    let sp := join_or (in_span s1) start start in
    if mem_str (kstr k) exclude then (Ok st, skip_item s1)
    else
      match d_named dv (kstr k) start s1 with
      | (Ok v, s2) =>
        let (fresh, l) := map_ins eqb k v (fst st) in
        (Ok (l, if fresh then snd st else push (snd st) sp "Duplicate key"), s2)
      | (Err e, s2) => (Ok (fst st, push_syn (snd st) e), s2)
      | (Bad b, s2) => (Bad b, s2)
      end
  | (Err e, s1) => (Err e, s1)
  | (Bad b, s1) => (Bad b, s1)
  end.
(** 779-815 *)
Definition map_rest {K V} (eqb : K -> K -> bool) (kstr : K -> string)
           (dk : dict K) (dv : dict V) : rest_fn (list (K * V)) :=
  fun exclude inputs =>
    finish fst snd
      (over_streams (comma_stream (rest_step eqb kstr dk dv exclude)) ([], []) inputs).

(** *** [T; N] (458-509) *)
Record arr_st (A : Type) := mkArr { ar_vals : list A; ar_errs : errors; ar_failed : nat }.
#[global] Arguments mkArr {A}. #[global] Arguments ar_vals {A}.
#[global] Arguments ar_errs {A}. #[global] Arguments ar_failed {A}.
(** 485-494 the closure; ArrayVec::push panics beyond the capacity *)
Definition arr_fn {A} (N : nat) (d : dict A) (_ : nat) (st : arr_st A) (inputs : list stream)
  : res unit * arr_st A * list stream :=
  match inputs with
  | [] => (Bad Panic, st, [])
  | s :: rest =>
    match d_item d Unnamed s with
    | (Ok v, s1) =>
      if Nat.ltb (length (ar_vals st)) N
      then (Ok tt, mkArr (ar_vals st ++ [v]) (ar_errs st) (ar_failed st), s1 :: rest)
      else (Bad Panic, st, s1 :: rest)
    | (Err e, s1) =>
      (Ok tt, mkArr (ar_vals st) (push_syn (ar_errs st) e) (S (ar_failed st)),
       skip_item s1 :: rest)
    | (Bad b, s1) => (Bad b, st, s1 :: rest)
    end
  end.
Definition arr_len_msg (index N got : nat) : string :=
  ("Expected array at index " ++ show_nat index ++ " of length " ++ show_nat N
   ++ ", got " ++ show_nat got)%string.
(** 477-508 *)
Definition array_flat {A} (N : nat) (d : dict A) (index : nat) : mparser (list A) :=
  fun inputs =>
    let '(r, st, l) := parse_tuple_struct N (arr_fn N d) (mkArr [] [] 0) inputs in
    match r with
    | Bad b => (Bad b, l)
    | _ =>
      let es := push_result (ar_errs st) r in
      let got := length (ar_vals st) + ar_failed st in
      let es := if Nat.eqb got N then es
                else push es (inputs_span l) (arr_len_msg index N got) in
      (match check es with
       | Ok _ => if Nat.eqb (length (ar_vals st)) N then Ok (ar_vals st) else Bad Panic
       | Err e => Err e
       | Bad b => Bad b
       end, l)
    end.
Definition array_fu {A} (N : nat) (d : dict A) : flat_unnamed (list A) :=
  mkFU (Some N) (fun _ i => array_flat N d i).
Definition array_dict {A} (N : nat) (d : dict A) : dict (list A) :=
  dict_inline (fun _ => parse_delimited_with Bracket (on_single (array_flat N d 0)))
              (fun _ => array_flat N d 0).

(** *** Tuples (1474-1551), as heterogeneous lists over a common value type. *)
(** 1499-1505 the closure *)
Definition tup_fn {A} (ds : list (dict A)) (index : nat)
           (st : list (fstatus A) * errors) (inputs : list stream)
  : res unit * (list (fstatus A) * errors) * list stream :=
  match inputs, nth_error ds index with
  | s :: rest, Some d =>
    match fs_parse_unnamed (d_item d) (snd st) s with
    | (Ok (f, es), s1) => (Ok tt, (upd_nth index f (fst st), es), s1 :: rest)
    | (Err e, s1) => (Err e, st, s1 :: rest)
    | (Bad b, s1) => (Bad b, st, s1 :: rest)
    end
  | _, _ => (Bad Panic, st, inputs)
  end.
(** 1506-1512: index of the first status that is None *)
Fixpoint first_none {A} (i : nat) (l : list (fstatus A)) : option nat :=
  match l with
  | [] => None
  | FNone :: _ => Some i
  | _ :: l' => first_none (S i) l'
  end.
(** `unwrap_or_else(|| unreachable!())` on every variable *)
Fixpoint unwrap_all {A} (l : list (fstatus A)) : res (list A) :=
  match l with
  | [] => Ok []
  | FSome v :: l' => rmap (cons v) (unwrap_all l')
  | _ :: _ => Bad Panic
  end.
Definition tup_len_msg (len got : nat) : string :=
  ("Expected tuple of length " ++ show_nat len ++ ", got " ++ show_nat got)%string.
(** 1492-1516 *)
Definition tuple_flat {A} (ds : list (dict A)) : mparser (list A) :=
  fun inputs =>
    let len := length ds in
    let '(r, st, l) :=
      parse_tuple_struct len (tup_fn ds) (map (fun _ => FNone) ds, []) inputs in
    match r with
    | Bad b => (Bad b, l)
    | _ =>
      let es := push_result (snd st) r in
      match first_none 0 (fst st) with
      | Some i => (bail (push es (inputs_span l) (tup_len_msg len i)), l)
      | None => (rbind (check es) (fun _ => unwrap_all (fst st)), l)
      end
    end.
Definition tuple_fu {A} (ds : list (dict A)) : flat_unnamed (list A) :=
  mkFU (Some (length ds)) (fun _ _ => tuple_flat ds).
Definition tuple_dict {A} (ds : list (dict A)) : dict (list A) :=
  dict_inline (fun _ => parse_delimited_with Paren (on_single (tuple_flat ds)))
              (fun _ => tuple_flat ds).

(** *** Punctuated<T, P> (1203-1258), P a single-character punctuation [pc].
    Simplification: only the elements are kept. *)
(** 1244-1250 skip to the next P *)
Fixpoint punct_skip (pc : ascii) (ts : list token) : list token :=
  match ts with
  | [] => []
  | t :: r => match punct_rest [pc] ts with
              | Some r' => r'
              | None => punct_skip pc r
              end
  end.
Fixpoint punct_loop {A} (pc : ascii) (d : dict A) (fuel : nat)
         (st : list A * errors) (s : stream) : res (list A * errors) * stream :=
  match fuel with
  | 0 => (Bad Diverge, s)
  | S n =>
    if is_empty s then (Ok st, s)
    else match d_item d Unnamed s with
         | (Ok v, s1) =>
           let vs := fst st ++ [v] in
           if is_empty s1 then punct_loop pc d n (vs, snd st) s1
           else match parse_punct [pc] (String pc "") s1 with
                | (Ok _, s2) => (Ok (vs, snd st), s2)          (* 1238-1240 break *)
                | (Err e, s2) => punct_loop pc d n (vs, push_syn (snd st) e) s2
                | (Bad b, s2) => (Bad b, s2)
                end
         | (Err e, s1) =>
           punct_loop pc d n (fst st, push_syn (snd st) e)
                      (set_toks s1 (punct_skip pc (toks s1)))
         | (Bad b, s1) => (Bad b, s1)
         end
  end.
(** 1222-1257 *)
Definition punctuated_flat {A} (pc : ascii) (d : dict A) : mparser (list A) :=
  fun inputs =>
    finish fst snd
      (over_streams (fun st s => punct_loop pc d (S (S (length (toks s)))) st s) ([], []) inputs).
Definition punctuated_fu {A} (pc : ascii) (d : dict A) : flat_unnamed (list A) :=
  mkFU None (fun _ _ => punctuated_flat pc d).
Definition punctuated_dict {A} (pc : ascii) (d : dict A) : dict (list A) :=
  dict_inline (fun _ => parse_delimited_with Bracket (on_single (punctuated_flat pc d)))
              (fun _ => punctuated_flat pc d).
End C.
