(** Attributes on syntax-tree nodes.  Models core/parse_helpers.rs 643-721, 935-1018,
    core/parse_attributes.rs and src/lib.rs 640-778. *)
From Verif Require Export DeriveEnum.

(** syn::Meta (dependency): `#[path]`, `#[path(..)]`, `#[path = expr]` *)
Inductive ameta : Type :=
| MPath
| MList (d : delim) (ts : list token)
| MNameValue (ts : list token).

(** syn::Attribute (dependency) *)
Record attr : Type := mkAttr { a_path : path; a_meta : ameta; a_span : span }.

(** core/parse_attributes.rs 37-91: what can hold attributes.  A single attribute and a
    slice refuse mutable access; [ONode] stands for Vec<Attribute> and for the syn nodes
    with an `attrs` field; [ONodeRO] for the nodes for which attrs_mut returns an error
    (HasAttrs.v has the syn nodes one by one). *)
Inductive owner : Type :=
| OSingle (a : attr)
| OSlice (l : list attr)
| ONode (l : list attr)
| ONodeRO (l : list attr) (e : synerr).

(** HasAttributes::attrs *)
Definition attrs (o : owner) : list attr :=
  match o with OSingle a => [a] | OSlice l => l | ONode l => l | ONodeRO l _ => l end.

Section A.
Context {env : Env}.

(** HasAttributes::attrs_mut; the spans of the errors follow 50-58 and 66-76 *)
Definition attrs_mut (o : owner) : res (list attr) :=
  match o with
  | ONode l => Ok l
  | OSingle a =>
    Err (err1 (a_span a) "`HasAttributes::attrs_mut()` not supported on single `syn::Attribute`, try moving it into a `Vec<syn::Attribute>`")
  | OSlice l =>
    let sp := fold_left (fun s a => Some (match s with
                                          | Some s' => join_or (a_span a) s' (a_span a)
                                          | None => a_span a
                                          end)) l None in
    Err (err1 (match sp with Some s => s | None => SCall end)
              "`HasAttributes::attrs_mut()` not supported on immutable `[syn::Attribute]`, try using a `Vec<syn::Attribute>`")
  | ONodeRO _ e => Err e
  end.

(** 946-959, 984-997: the tokens an attribute contributes.  Group::new gives the group
    the call-site span. *)
Definition attr_tokens (a : attr) : list token :=
  match a_meta a with
  | MPath => []
  | MList d ts => [TGroup d ts SCall]
  | MNameValue ts => ts
  end.

Definition item : Type := (list token * string * span)%type.
Definition attr_item (a : attr) : item :=
  (attr_tokens a, path_key (a_path a), p_span (a_path a)).

(** 935-960 ref_tokens *)
Definition ref_tokens (matches : path -> bool) (o : owner) : list item :=
  map attr_item (filter (fun a => matches (a_path a)) (attrs o)).

(** 968-1002 take_tokens: the index loop with `attrs.remove(index)`.  Each round
    removes an element or moves the index. *)
Fixpoint remove_nth {A} (i : nat) (l : list A) : list A :=
  match l, i with
  | [], _ => []
  | _ :: l', 0 => l'
  | x :: l', S j => x :: remove_nth j l'
  end.
Fixpoint take_loop (fuel : nat) (matches : path -> bool) (l : list attr) (index : nat)
         (out : list item) : res (list item) * list attr :=
  match fuel with
  | 0 => (Bad Diverge, l)
  | S n =>
    match nth_error l index with
    | None => (Ok out, l)
    | Some a =>
      if matches (a_path a)
      then take_loop n matches (remove_nth index l) index (out ++ [attr_item a])
      else take_loop n matches l (S index) out
    end
  end.
(** returns the items and the owner with the remaining attributes *)
Definition take_tokens (matches : path -> bool) (o : owner) : res (list item) * owner :=
  match attrs_mut o with
  | Ok l => let (r, l1) := take_loop (S (length l)) matches l 0 [] in (r, ONode l1)
  | Err e => (Err e, o)
  | Bad b => (Bad b, o)
  end.

(** *** 643-721 parse_tokens / parse_struct_attr_tokens *)

(** what parse2 (649-664), errors.check()? and ret.unwrap() (665-666) make of the
    closure's result [r] and of the root stream after it *)
Definition close_root {R} (r : res R) (root : stream) : res R :=
  match r with
  | Bad b => Bad b
  | _ =>
    let es := push_result [] r in
    let (re, root1) := parse_eof root in
    let es1 := push_result es re in
    match cell root1 with
    | Some sp => Err (err1 sp unexpected_token)
    | None =>
      match toks root1 with
      | t :: _ => Err (err1 (tok_span t) unexpected_token)
      | [] => rbind (check es1) (fun _ => match r with Ok v => Ok v | _ => Bad Panic end)
      end
    end
  end.

(** all buffers end dropped: only their cells matter from here on *)
Definition dropped (s : stream) : stream := mkStream [] (scope s) (drop_cell s).

(** 690-719 parse_next.  Each attribute has its own root (and cell); all content
    buffers are dropped when the innermost call returns. *)
Fixpoint parse_next {R} (l : list item) (bufs : list stream) (paths : list (string * span))
         (func : list (string * span) -> mparser R) : res R * list stream :=
  match l with
  | [] =>
    let (r, bufs1) := func paths bufs in
    match r with
    | Ok v =>
      let (re, bufs2) := each_eof bufs1 in
      (rbind re (fun _ => Ok v), map dropped bufs2)
    | _ => (r, map dropped bufs1)
    end
  | (ts, name, sp) :: rest =>
    let root := root_stream ts in
    match ts with
    | [] =>
      let (r, bufs1) := parse_next rest (bufs ++ [fork root]) (paths ++ [(name, sp)]) func in
      (close_root r root, bufs1)
    | TGroup Paren content gsp :: after =>
      let (r, bufs1) := parse_next rest (bufs ++ [group_content content gsp None])
                                   (paths ++ [(name, sp)]) func in
      let c := match nth_error bufs1 (length bufs) with Some s => cell s | None => None end in
      (close_root r (mkStream after SCall c), bufs1)
    | _ =>
      (close_root (Err (error_at root (expected_delim Paren))) root, map dropped bufs)
    end
  end.

(** 680-721 parse_struct_attr_tokens *)
Definition parse_struct_attr_tokens {R} (l : list item)
           (func : list (string * span) -> mparser R) : res R :=
  fst (parse_next l [] [] func).

(** macros/parse_attributes.rs 302-312 path_matches *)
Definition derived_matches (attributes : list (list string)) (p : path) : bool :=
  match attributes with
  | [] => true
  | _ => existsb (path_matches p) attributes
  end.

(** macros/parse_attributes.rs 343-361: derived ParseAttributes / ExtractAttributes.
    [conv] is ContainerFrom::container_from(_mut) (core/parse_attributes.rs 550-627). *)
Context {V : Type}.
Definition struct_parse_attributes (s : sdef V) (conv : owner -> V) (o : owner) : res (list V) :=
  parse_struct_attr_tokens (ref_tokens (derived_matches (s_attributes s)) o)
                           (struct_attr_body s (conv o)).
Definition struct_extract_attributes (s : sdef V) (conv : owner -> V) (o : owner)
  : res (list V) * owner :=
  match take_tokens (derived_matches (s_attributes s)) o with
  | (Ok l, o1) => (parse_struct_attr_tokens l (struct_attr_body s (conv o1)), o1)
  | (Err e, o1) => (Err e, o1)
  | (Bad b, o1) => (Bad b, o1)
  end.
Definition enum_parse_attributes (e : edef V) (conv : owner -> V) (o : owner) : res (evalue V) :=
  parse_struct_attr_tokens (ref_tokens (derived_matches (e_attributes e)) o)
                           (enum_attr_body e (conv o)).
Definition enum_extract_attributes (e : edef V) (conv : owner -> V) (o : owner)
  : res (evalue V) * owner :=
  match take_tokens (derived_matches (e_attributes e)) o with
  | (Ok l, o1) => (parse_struct_attr_tokens l (enum_attr_body e (conv o1)), o1)
  | (Err x, o1) => (Err x, o1)
  | (Bad b, o1) => (Bad b, o1)
  end.

(** src/lib.rs 658-666 deluxe::parse2 *)
Definition deluxe_parse2 {A} (d : dict A) (ts : list token) : res A :=
  parse2 (on_single (d_inline d (Named SCall))) ts.

(** src/lib.rs 704-778: the `_optional` functions: the value (or Default::default())
    and the accumulator *)
Definition optional {A} (r : res A) (dflt : A) (es : errors) : res (A * errors) :=
  match r with
  | Ok a => Ok (a, es)
  | Err e => Ok (dflt, push_syn es e)
  | Bad b => Bad b
  end.
End A.
