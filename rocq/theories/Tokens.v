(** Token trees and parse buffers (proc_macro2::TokenTree, syn::parse::ParseBuffer).

    Dependency types; deluxe's parsers are written against them
    (core/parse_helpers.rs 1-16, core/parse_meta.rs 1-14). *)
From Verif Require Export Base.

Inductive delim : Type := Paren | Brace | Bracket.

Definition delim_eqb (a b : delim) : bool :=
  match a, b with
  | Paren, Paren | Brace, Brace | Bracket, Bracket => true
  | _, _ => false
  end.

(** Literals, already classified and decoded the way syn::Lit::new does.
    Simplification: the suffix of an integer literal is dropped (base10_parse
    ignores it), floats are kept as their digits text, C strings are left out. *)
Inductive lit : Type :=
| LInt (n : N)
| LFloat (digits : string)
| LStr (s : string)
| LByteStr (s : string)
| LChar (c : N)
| LByte (b : N).

(** proc_macro2::TokenTree.  Simplification: no None-delimited groups (syn's
    Cursor looks through them). *)
Inductive token : Type :=
| TIdent (s : string) (sp : span)
| TPunct (c : ascii) (joint : bool) (sp : span)
| TLit (l : lit) (sp : span)
| TGroup (d : delim) (ts : list token) (sp : span).

(** TokenTree::span *)
Definition tok_span (t : token) : span :=
  match t with
  | TIdent _ sp | TPunct _ _ sp | TLit _ sp | TGroup _ _ sp => sp
  end.

(** syn::buffer::open_span_of_group: span of the token, opening delimiter for
    groups. *)
Definition tok_open_span (t : token) : span :=
  match t with
  | TGroup _ _ sp => SOpen sp
  | _ => tok_span t
  end.

(** syn::parse::ParseBuffer: remaining tokens (cursor), scope span used at end of
    input, and the shared `unexpected` cell. *)
Record stream : Type := mkStream {
  toks : list token;
  scope : span;
  cell : option span
}.

Definition set_toks (s : stream) (ts : list token) : stream :=
  mkStream ts (scope s) (cell s).

(** ParseBuffer::is_empty *)
Definition is_empty (s : stream) : bool :=
  match toks s with [] => true | _ => false end.

(** ParseBuffer::fork: same position, a fresh unexpected cell. *)
Definition fork (s : stream) : stream := mkStream (toks s) (scope s) None.

(** ParseBuffer::span *)
Definition in_span (s : stream) : span :=
  match toks s with [] => scope s | t :: _ => tok_open_span t end.

(** Cursor::span at the current position (used directly by the proc_macro2 impls).
    At end of input syn 2 yields the span of the closing delimiter / call_site. *)
Definition cur_span (s : stream) : span :=
  match toks s with [] => scope s | t :: _ => tok_span t end.

(** The cell after `Drop for ParseBuffer`: leftover tokens mark it, unless it is
    already marked. *)
Definition drop_cell (s : stream) : option span :=
  match cell s with
  | Some x => Some x
  | None => match toks s with [] => None | t :: _ => Some (tok_span t) end
  end.

(** Oracles for dependency functions; every theorem quantifies over all of them.
    - [env_join]: Span::join (None when spans are in different files / on stable)
    - [env_sim]: strsim::jaro_winkler, scaled so that 0.8 is 800 (only the order
      of results and the comparison with 0.8 are observable)
    - [env_show]: Display of a TokenTree
    - [env_shows]: Display of a TokenStream
    - [env_lex]: TokenStream::from_str; [inr msg] is a lex error. *)
Class Env : Type := mkEnv {
  env_join : span -> span -> option span;
  env_sim : string -> string -> N;
  env_show : token -> string;
  env_shows : list token -> string;
  env_lex : string -> list token + string
}.
