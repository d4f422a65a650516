(** syn 2 primitives deluxe calls (trusted reading of the dependency).

    - ParseBuffer::error / Lookahead1::error: at end of input the message is
      prefixed by "unexpected end of input, " and spanned to the scope.
    - Token![p]: compares characters; all but the last must be Joint, the spacing of
      the last one is not checked.
    - parenthesized!/braced!/bracketed!: the content shares the parent's unexpected
      cell; dropping it with leftover tokens marks the cell.
    - Parser::parse2: runs the function, then fails with "unexpected token" if the
      cell is marked or tokens are left.
    - syn::parse::Nothing::parse: succeeds without looking at the input.
    - syn::LitX::parse: consumes one literal (also of the wrong kind), an
      ident `true`/`false`, or `-` and a number.

    Used throughout core/parse_helpers.rs and core/parse_meta.rs. *)
From Verif Require Export Tokens.

Definition parser (A : Type) : Type := pm stream A.
Definition mparser (A : Type) : Type := pm (list stream) A.

(** ParseBuffer::error(msg) *)
Definition error_at (s : stream) (m : string) : synerr :=
  match toks s with
  | [] => err1 (scope s) ("unexpected end of input, " ++ m)%string
  | t :: _ => err1 (tok_open_span t) m
  end.

(** *** Punctuation *)
Fixpoint punct_rest (cs : list ascii) (ts : list token) : option (list token) :=
  match cs with
  | [] => Some ts
  | c :: cs' =>
    match ts with
    | TPunct c' j _ :: ts' =>
      if Ascii.eqb c c' && (match cs' with [] => true | _ => j end)
      then punct_rest cs' ts' else None
    | _ => None
    end
  end.

Definition comma_c : ascii := ",".
Definition eq_c : ascii := "=".
Definition colon_c : ascii := ":".

(** input.peek(Token![p]) *)
Definition peek_punct (cs : list ascii) (s : stream) : bool :=
  match punct_rest cs (toks s) with Some _ => true | None => false end.

(** input.parse::<Token![p]>() *)
Definition parse_punct (cs : list ascii) (name : string) : parser unit :=
  fun s => match punct_rest cs (toks s) with
           | Some ts => (Ok tt, set_toks s ts)
           | None => (Err (err1 (in_span s) ("expected " ++ tick name)%string), s)
           end.

Definition peek_comma : stream -> bool := peek_punct [comma_c].
Definition parse_comma : parser unit := parse_punct [comma_c] ",".
Definition peek_eq : stream -> bool := peek_punct [eq_c].
Definition parse_eq : parser unit := parse_punct [eq_c] "=".

Definition is_comma (t : token) : bool :=
  match t with TPunct c _ _ => Ascii.eqb c comma_c | _ => false end.

(** *** Groups *)
Definition expected_delim (d : delim) : string :=
  match d with
  | Paren => "expected parentheses"
  | Brace => "expected curly braces"
  | Bracket => "expected square brackets"
  end.

(** input.peek(token::Paren) etc. *)
Definition peek_group (d : delim) (s : stream) : bool :=
  match toks s with
  | TGroup d' _ _ :: _ => delim_eqb d d'
  | _ => false
  end.

(** The buffer opened for the content of a group. *)
Definition group_content (ts : list token) (sp : span) (c : option span) : stream :=
  mkStream ts (SClose sp) c.

(** `let content; parenthesized!(content in input); f(&content)` followed by the
    drop of [content] at the end of its scope, on success and on error alike. *)
Definition with_group {A} (d : delim) (f : parser A) : parser A :=
  fun s =>
    match toks s with
    | TGroup d' ts sp :: rest =>
      if delim_eqb d d' then
        let (r, c) := f (group_content ts sp (cell s)) in
        (r, mkStream rest (scope s) (drop_cell c))
      else (Err (error_at s (expected_delim d)), s)
    | _ => (Err (error_at s (expected_delim d)), s)
    end.

(** *** Identifiers and keywords *)
(** custom_keyword!(k): input.peek(k) *)
Definition peek_kw (k : string) (s : stream) : bool :=
  match toks s with TIdent i _ :: _ => String.eqb i k | _ => false end.

Definition parse_kw (k : string) : parser unit :=
  fun s => match toks s with
           | TIdent i _ :: rest =>
             if String.eqb i k then (Ok tt, set_toks s rest)
             else (Err (error_at s ("expected " ++ tick k)%string), s)
           | _ => (Err (error_at s ("expected " ++ tick k)%string), s)
           end.

(** Ident::parse_any *)
Definition parse_any_ident : parser (string * span) :=
  fun s => match toks s with
           | TIdent i sp :: rest => (Ok (i, sp), set_toks s rest)
           | _ => (Err (error_at s "expected ident"), s)
           end.

(** *** Literals *)
(** A literal as syn::Lit sees it: sign and literal, or a boolean keyword. *)
Inductive plit : Type :=
| PLit (neg : bool) (l : lit)
| PBool (b : bool).

(** syn::Lit::parse *)
Definition lit_rest (ts : list token) : option (plit * span * list token) :=
  match ts with
  | TLit l sp :: r => Some (PLit false l, sp, r)
  | TIdent i sp :: r =>
    if String.eqb i "true" then Some (PBool true, sp, r)
    else if String.eqb i "false" then Some (PBool false, sp, r)
    else None
  | TPunct c _ sp :: TLit l _ :: r =>
    if Ascii.eqb c "-" then
      match l with
      | LInt _ | LFloat _ => Some (PLit true l, sp, r)
      | _ => None
      end
    else None
  | _ => None
  end.

(** syn::LitX::parse: [sel] keeps the wanted kind. *)
Definition parse_lit_as {A} (what : string) (sel : plit -> option A) : parser (A * span) :=
  fun s => match lit_rest (toks s) with
           | Some (l, sp, r) =>
             match sel l with
             | Some a => (Ok (a, sp), set_toks s r)
             | None => (Err (error_at s ("expected " ++ what)%string), set_toks s r)
             end
           | None => (Err (error_at s ("expected " ++ what)%string), s)
           end.

Definition peek_lit {A} (sel : plit -> option A) (s : stream) : bool :=
  match lit_rest (toks s) with
  | Some (l, _, _) => match sel l with Some _ => true | None => false end
  | None => false
  end.

(** sign is needed too: "-0" is not a u8 *)
Definition sel_int_sign (l : plit) : option (bool * N) :=
  match l with PLit neg (LInt n) => Some (neg, n) | _ => None end.
Definition sel_float (l : plit) : option (bool * string) :=
  match l with PLit neg (LFloat d) => Some (neg, d) | _ => None end.
Definition sel_str (l : plit) : option string :=
  match l with PLit false (LStr x) => Some x | _ => None end.
Definition sel_char (l : plit) : option N :=
  match l with PLit false (LChar x) => Some x | _ => None end.
Definition sel_byte (l : plit) : option N :=
  match l with PLit false (LByte x) => Some x | _ => None end.
Definition sel_bool (l : plit) : option bool :=
  match l with PBool b => Some b | _ => None end.

Definition parse_lit_str : parser (string * span) :=
  parse_lit_as "string literal" sel_str.

(** *** Roots: Parser::parse2 *)
Definition unexpected_token : string := "unexpected token".

Definition root_stream (ts : list token) : stream := mkStream ts SCall None.

Definition parse2 {A} (f : parser A) (ts : list token) : res A :=
  let (r, s) := f (root_stream ts) in
  match r with
  | Ok a =>
    match cell s with
    | Some sp => Err (err1 sp unexpected_token)
    | None => match toks s with
              | [] => Ok a
              | t :: _ => Err (err1 (tok_span t) unexpected_token)
              end
    end
  | Err e => Err e
  | Bad b => Bad b
  end.
