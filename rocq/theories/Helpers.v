(** The parse helpers.  Models core/parse_helpers.rs. *)
From Verif Require Export Syn Errors FieldStatus.

(** core/parse_meta.rs 17-25 ParseMode *)
Inductive mode : Type := Named (sp : span) | Unnamed.

(** core/parse_meta.rs 42-47 *)
Definition named_span (m : mode) : option span :=
  match m with Named s => Some s | Unnamed => None end.
(** core/parse_meta.rs 32-37 *)
Definition to_named (m : mode) (s : stream) : mode :=
  match m with Unnamed => Named (in_span s) | m => m end.
(** core/parse_meta.rs 53-55 *)
Definition to_span (m : mode) (s : stream) : span :=
  match named_span m with Some sp => sp | None => in_span s end.

Section H.
Context {env : Env}.

(** `a.join(b).unwrap_or(b')` patterns *)
Definition join_or (a b d : span) : span :=
  match env_join a b with Some s => s | None => d end.

(** 862-876 inputs_span *)
Definition inputs_span (inputs : list stream) : span :=
  match inputs with
  | [] => SCall
  | s :: l => fold_left (fun sp n => join_or sp (in_span n) sp) l (in_span s)
  end.

(** core/parse_meta.rs 60-62 *)
Definition to_full_span (m : mode) (inputs : list stream) : span :=
  match named_span m with Some sp => sp | None => inputs_span inputs end.

(** 314-326 parse_eof_or_trailing_comma *)
Definition parse_eof : parser unit :=
  fun s =>
    let s1 := match toks s with
              | t :: r => if is_comma t then set_toks s r else s
              | [] => s
              end in
    match toks s1 with
    | t :: _ => (Err (err1 (tok_span t) ("unexpected token " ++ tick (env_show t))%string), s1)
    | [] => (Ok tt, s1)
    end.

(** 306-308 peek_eof_or_trailing_comma *)
Definition peek_eof (s : stream) : bool := is_ok (fst (parse_eof (fork s))).

(** 255-263 ParseDelimited::parse_delimited_with *)
Definition parse_delimited_with {A} (d : delim) (f : parser A) : parser A :=
  with_group d (a <- f ;; parse_eof ;;; pret a).

(** run a multi-stream parser on `&[input]` *)
Definition on_single {A} (f : mparser A) : parser A :=
  fun s => let (r, l) := f [s] in (r, hd s l).

(** 333-345 parse_empty: the first message gets [span], the others keep theirs. *)
Definition parse_empty {A} (sp : span) (f : parser A) : res A :=
  match parse2 f [] with
  | Ok a => Ok a
  | Err e => Err (mkSyn (mkErr sp (e_msg (se_hd e))) (se_tl e))
  | Bad b => Bad b
  end.

(** 363-384 parse_first.  `next.parse::<Nothing>()` does nothing. *)
Definition parse_first {A} (m : mode) (f : mode -> parser A) : mparser A :=
  fun inputs =>
    match inputs with
    | s :: rest =>
      let (r, s1) := (a <- f m ;; parse_eof ;;; pret a) s in
      (r, s1 :: rest)
    | [] =>
      let sp := match m with Named sp => sp | Unnamed => SCall end in
      (parse_empty sp (f m), [])
    end.

(** 448-471 parse_named_meta_item_with (400-409 parse_named_meta_item is the same
    with the trait's functions) *)
Definition parse_named_with {A} (item : mode -> parser A) (inline : mode -> mparser A)
           (flag : span -> res A) (sp : span) : parser A :=
  fun s =>
    if peek_eq s then (parse_eq ;;; item (Named sp)) s
    else if peek_group Paren s then
      parse_delimited_with Paren (on_single (inline (Named sp))) s
    else (flag sp, s).

(** 429-439 try_parse_named_meta_item: which of the three spellings follows. *)
Inductive named_parse : Type := NEquals | NParen | NFlag.
Definition try_parse_named (s : stream) : named_parse :=
  if peek_eq s then NEquals else if peek_group Paren s then NParen else NFlag.

(** 606-621 skip_meta_item *)
Fixpoint skip_toks (ts : list token) : list token :=
  match ts with
  | [] => []
  | t :: r => if is_comma t then ts else skip_toks r
  end.
Definition skip_item (s : stream) : stream := set_toks s (skip_toks (toks s)).

(** 625-641 skip_all *)
Definition skip_all (inputs : list stream) : list stream :=
  map (fun s => set_toks s []) inputs.

(** 1025-1030 fork_inputs *)
Definition fork_inputs (inputs : list stream) : list stream := map fork inputs.

(** 540-565 parse_any_path: segments, whether a separator is dangling, rest. *)
Fixpoint path_segs (ts : list token) : list (string * span) * bool * list token :=
  match ts with
  | TIdent i sp :: ts1 =>
    match ts1 with
    | TPunct c1 j1 _ :: TPunct c2 _ _ :: r =>
      if Ascii.eqb c1 colon_c && Ascii.eqb c2 colon_c && j1 then
        match path_segs r with
        | (segs, tr, r') =>
          ((i, sp) :: segs, match segs with [] => true | _ => tr end, r')
        end
      else ([(i, sp)], false, ts1)
    | _ => ([(i, sp)], false, ts1)
    end
  | _ => ([], false, ts)
  end.

(** syn::Path without arguments: leading `::`, segments; [p_span] is path.span()
    (first token joined with the last one). *)
Record path : Type := mkPath { p_leading : bool; p_segs : list string; p_span : span }.

Definition parse_any_path : parser path :=
  fun s =>
    let '(lead, ts0) :=
      match punct_rest [colon_c; colon_c] (toks s) with
      | Some r => (true, r)
      | None => (false, toks s)
      end in
    let '(segs, tr, r) := path_segs ts0 in
    let s1 := set_toks s r in
    match segs with
    | [] => (Err (error_at s1 "expected path"), s1)
    | (_, sp1) :: _ =>
      if tr then (Err (error_at s1 "expected path segment"), s1)
      else
        let first := if lead then in_span s else sp1 in
        let lastsp := snd (last segs ("", sp1)) in
        let psp := match segs, lead with
                   | [_], false => first
                   | _, _ => join_or first lastsp first
                   end in
        (Ok (mkPath lead (map fst segs) psp), s1)
    end.

(** core/parse_meta.rs 1404-1418 ToKeyString for syn::Path; 726-739 key_to_string *)
Definition path_key (p : path) : string := join_strs "::" (p_segs p).

(** 795-808 path_matches, on the paths the model parses (no generic arguments) *)
Definition path_matches (p : path) (segs : list string) : bool :=
  if Nat.eqb (length (p_segs p)) (length segs)
  then forallb (fun ab => String.eqb (fst ab) (snd ab)) (combine (p_segs p) segs)
  else false.

(** A syn::Path with generic arguments: the arguments of a segment are kept as their
    text (PathArguments::None is None).
    core/parse_meta.rs 1404-1418 ToKeyString for syn::Path *)
Definition gpath : Type := list (string * option string).
Definition gpath_key (p : gpath) : string :=
  join_strs "::" (map (fun s => (fst s ++ match snd s with Some a => a | None => "" end)%string) p).
(** 795-808 path_matches: the length test, then the loop with its early returns *)
Fixpoint gpath_matches_loop (p : gpath) (segs : list string) : bool :=
  match p, segs with
  | (i, a) :: p', x :: segs' =>
    match a with
    | Some _ => false
    | None => if String.eqb i x then gpath_matches_loop p' segs' else false
    end
  | _, _ => true
  end.
Definition gpath_matches (p : gpath) (segs : list string) : bool :=
  if Nat.eqb (length p) (length segs) then gpath_matches_loop p segs else false.

(** *** 581-600 parse_struct.  The closure is a state-passing function; the state
    stands for the variables it captures. *)
Section PS.
  Context {St : Type}.
  Variable func : string -> span -> St -> stream -> res unit * St * stream.

  (** the inner `loop` (586-597) on one stream *)
  Fixpoint struct_loop (fuel : nat) (st : St) (s : stream) : res unit * St * stream :=
    match fuel with
    | 0 => (Bad Diverge, st, s)
    | S n =>
      if is_empty s then (Ok tt, st, s)
      else
        match parse_any_path s with
        | (Ok p, s1) =>
          match func (path_key p) (p_span p) st s1 with
          | (Ok _, st1, s2) =>
            if is_empty s2 then (Ok tt, st1, s2)
            else match parse_comma s2 with
                 | (Ok _, s3) => struct_loop n st1 s3
                 | (Err e, s3) => (Err e, st1, s3)
                 | (Bad b, s3) => (Bad b, st1, s3)
                 end
          | (Err e, st1, s2) => (Err e, st1, s2)
          | (Bad b, st1, s2) => (Bad b, st1, s2)
          end
        | (Err e, s1) => (Err e, st, s1)
        | (Bad b, s1) => (Bad b, st, s1)
        end
    end.

  (** the outer `for input in inputs` (586).  Fuel: an iteration that continues has
      consumed a comma. *)
  Fixpoint parse_struct (st : St) (inputs : list stream) : res unit * St * list stream :=
    match inputs with
    | [] => (Ok tt, st, [])
    | s :: rest =>
      match struct_loop (S (length (toks s))) st s with
      | (Ok _, st1, s1) =>
        match parse_struct st1 rest with
        | (r, st2, rest1) => (r, st2, s1 :: rest1)
        end
      | (Err e, st1, s1) => (Err e, st1, s1 :: rest)
      | (Bad b, st1, s1) => (Bad b, st1, s1 :: rest)
      end
    end.
End PS.

(** *** 513-537 parse_tuple_struct.  The closure sees the current stream and all the
    following ones; one fuel for both loops (bounded by items plus streams). *)
Section PT.
  Context {St : Type}.
  Variable len : nat.
  Variable func : nat -> St -> list stream -> res unit * St * list stream.

  Fixpoint tuple_loop (fuel counter : nat) (st : St) (inputs : list stream)
    : res nat * St * list stream :=
    match fuel with
    | 0 => (Bad Diverge, st, inputs)
    | S n =>
      match inputs with
      | [] => (Ok counter, st, [])
      | s :: rest =>
        if is_empty s then
          match tuple_loop n counter st rest with
          | (r, st1, rest1) => (r, st1, s :: rest1)
          end
        else if Nat.leb len counter then (Ok counter, st, inputs)
        else
          match func counter st inputs with
          | (Ok _, st1, inputs1) =>
            match inputs1 with
            | [] => (Bad Panic, st1, [])
            | s1 :: rest1 =>
              if negb (is_empty s1) && Nat.ltb (S counter) len then
                match parse_comma s1 with
                | (Ok _, s2) => tuple_loop n (S counter) st1 (s2 :: rest1)
                | (Err e, s2) => (Err e, st1, s2 :: rest1)
                | (Bad b, s2) => (Bad b, st1, s2 :: rest1)
                end
              else tuple_loop n (S counter) st1 inputs1
            end
          | (Err e, st1, inputs1) => (Err e, st1, inputs1)
          | (Bad b, st1, inputs1) => (Bad b, st1, inputs1)
          end
      end
    end.

  Definition parse_tuple_struct (st : St) (inputs : list stream)
    : res nat * St * list stream :=
    tuple_loop (S (len + length inputs)) 0 st inputs.
End PT.

(** *** FieldStatus parsing methods *)
(** 155-181 parse_named_item_with.  Returns Bad only if the parser does. *)
Definition fs_parse_named {A} (name : string) (sp : span)
           (f : string -> span -> parser A)
           (st : fstatus A) (es : errors) (s : stream)
  : res (fstatus A * errors) * stream :=
  let es1 := if fs_is_none st then es
             else push es sp ("duplicate attribute for " ++ tick name)%string in
  match f name sp s with
  | (Ok v, s1) => (Ok (if fs_is_none st then FSome v else st, es1), s1)
  | (Err e, s1) =>
    (Ok (if fs_is_none st then FParseError else st, push_syn es1 e), skip_item s1)
  | (Bad b, s1) => (Bad b, s1)
  end.

(** 192-203 parse_unnamed_item_with *)
Definition fs_parse_unnamed {A} (f : mode -> parser A) (es : errors) (s : stream)
  : res (fstatus A * errors) * stream :=
  match f Unnamed s with
  | (Ok v, s1) => (Ok (FSome v, es), s1)
  | (Err e, s1) => (Ok (FParseError, push_syn es e), skip_item s1)
  | (Bad b, s1) => (Bad b, s1)
  end.

(** *** Path strings *)
(** 746-754 join_path *)
Definition join_path (prefix p : string) : string :=
  if is_empty_str prefix then p
  else if ends_with "::" prefix then (prefix ++ p)%string
  else (prefix ++ "::" ++ p)%string.

(** 762-776 join_prefix *)
Definition join_prefix (prefix p : string) : string :=
  if is_empty_str prefix then (p ++ "::")%string
  else if ends_with "::" prefix then (prefix ++ p ++ "::")%string
  else (prefix ++ "::" ++ p ++ "::")%string.

(** 780-782 join_paths *)
Definition join_paths (prefix : string) (l : list string) : list string :=
  map (join_path prefix) l.

(** *** The HashMap<SmallString, Span> of seen keys: an association list. *)
Definition pathmap : Type := list (string * span).
Definition pm_get (k : string) (m : pathmap) : option span :=
  match find (fun kv => String.eqb (fst kv) k) m with
  | Some (_, sp) => Some sp
  | None => None
  end.
Definition pm_remove (k : string) (m : pathmap) : pathmap :=
  filter (fun kv => negb (String.eqb (fst kv) k)) m.
(** HashMap::insert overwrites *)
Definition pm_insert (k : string) (sp : span) (m : pathmap) : pathmap :=
  (k, sp) :: pm_remove k m.
Definition pm_has (k : string) (m : pathmap) : bool :=
  match pm_get k m with Some _ => true | None => false end.

(** 815-818 has_paths *)
Definition has_paths (m : pathmap) (keys : list (list string)) : bool :=
  forallb (fun ks => existsb (fun k => pm_has k m) ks) keys.

(** 824-831 remove_paths *)
Definition remove_paths (m : pathmap) (keys : list (string * list string)) : pathmap :=
  fold_left (fun m pk =>
    fold_left (fun m k => pm_remove (join_path (fst pk) k) m) (snd pk) m) keys m.

(** 838-855 disallow_paths *)
Definition disallow_paths (m : pathmap) (keys : list (string * list string))
           (cur : string) (es : errors) : errors :=
  fold_left (fun es pk =>
    fold_left (fun es k =>
      let p := join_path (fst pk) k in
      match pm_get p m with
      | Some sp =>
        push es sp (tick p ++ " not allowed with variant " ++ tick cur)%string
      | None => es
      end) (snd pk) es) keys es.

(** *** Standard errors *)
(** 882-884 *)
Definition missing_field_error (name : string) (sp : span) : synerr :=
  err1 sp ("missing required field " ++ name)%string.
(** 890-892 *)
Definition flag_disallowed_error (sp : span) : synerr :=
  err1 sp "unexpected flag, expected `=` or parentheses".

(** 900-916 unknown_error *)
Definition sim_step (p : string) (best : option (N * string)) (f : string)
  : option (N * string) :=
  let sim := env_sim p f in
  if (800 <? sim)%N &&
     match best with Some (s, _) => (s <? sim)%N | None => true end
  then Some (sim, f) else best.
Definition closest (p : string) (fields : list string) : option (N * string) :=
  fold_left (sim_step p) fields None.
Definition unknown_error (p : string) (sp : span) (fields : list string) : synerr :=
  match closest p fields with
  | Some (_, c) =>
    err1 sp ("unknown field " ++ tick p ++ ", did you mean " ++ tick c ++ "?")%string
  | None => err1 sp ("unknown field " ++ tick p)%string
  end.

(** 923-929 check_unknown_attribute *)
Definition check_unknown (p : string) (sp : span) (fields : list string) (es : errors)
  : errors :=
  if mem_str p fields then es else push_syn es (unknown_error p sp fields).

(** 1037-1046 only_one_variant *)
Definition only_one_variant (sp : span) (prefix va vb : string) (es : errors) : errors :=
  push es sp ("expected only one enum variant, got " ++ tick (join_path prefix va)
              ++ " and " ++ tick (join_path prefix vb))%string.

(** 1056-1081 variant_required *)
Definition variant_msg (prefix : string) (keys : list (list string)) : string :=
  let alts := map (fun ids => join_strs "|" (map (join_path prefix) ids)) keys in
  match alts with
  | [x] => x
  | _ => ("(" ++ join_strs ", " alts ++ ")")%string
  end.
Definition variant_required (sp : span) (prefix : string)
           (variants : list (list (list string))) (es : errors) : errors :=
  push es sp ("expected one of " ++ join_strs ", " (map (variant_msg prefix) variants))%string.

(** 1008-1018 first_span, first_path_name *)
Definition first_span (l : list (string * span)) : span :=
  match l with (_, sp) :: _ => sp | [] => SCall end.
Definition first_path_name (l : list (string * span)) : option string :=
  match l with (n, _) :: _ => Some n | [] => None end.

End H.
