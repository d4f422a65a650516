(** The token types of the compiler's own crate.  Models core/parse_meta.rs 1084-1201
    (feature "proc-macro").

    Their values are written with the type [token] as well.  Trusted reading of proc_macro:
    Group::new and Punct::new give the span of the call site; Ident::new keeps text and span,
    and panics unless the text is an identifier (the text of a raw identifier, with its `r#`,
    is none: for these there is Ident::new_raw); Span::unwrap does not panic in a macro.
    Simplification: the groups inside a group, which proc_macro2 converts, stay as they are. *)
From Verif Require Export LibPrim.

(** proc_macro2::Ident::to_string: raw identifiers start with `r#` *)
Definition raw_text (s : string) : bool :=
  match s with String "r" (String "#" _) => true | _ => false end.
(** proc_macro::Ident::new *)
Definition pm_ident_new (s : string) (sp : span) : res token :=
  if raw_text s then Bad Panic else Ok (TIdent s sp).
(** proc_macro::Group::new, proc_macro::Punct::new *)
Definition pm_group_new (d : delim) (ts : list token) : token := TGroup d ts SCall.
Definition pm_punct_new (c : ascii) (joint : bool) : token := TPunct c joint SCall.

(** syn::token accept_as_ident: the words that are no identifiers *)
Definition keywords : list string :=
  ["_"; "abstract"; "as"; "async"; "await"; "become"; "box"; "break"; "const"; "continue";
   "crate"; "do"; "dyn"; "else"; "enum"; "extern"; "false"; "final"; "fn"; "for"; "if"; "impl";
   "in"; "let"; "loop"; "macro"; "match"; "mod"; "move"; "mut"; "override"; "priv"; "pub";
   "ref"; "return"; "Self"; "self"; "static"; "struct"; "super"; "trait"; "true"; "try"; "type";
   "typeof"; "unsafe"; "unsized"; "use"; "virtual"; "where"; "while"; "yield"].

Section P.
Context {env : Env}.
(** `l.to_string().parse::<proc_macro::Literal>()`: the literal, or a message *)
Variable relex : lit -> lit + string.

(** 1086-1123 convert_token_tree *)
Definition convert_token_tree (t : token) : res token :=
  match t with
  | TGroup d ts _ => Ok (pm_group_new d ts)
  | TIdent s sp => pm_ident_new s sp
  | TPunct c j _ => Ok (pm_punct_new c j)
  | TLit l sp => match relex l with
                 | inl l' => Ok (TLit l' sp)
                 | inr m => Err (err1 sp m)
                 end
  end.

(** syn's Parse for the token types of proc_macro2: one token, of a kind *)
Definition parse_token (what : string) (pick : token -> bool) : parser token :=
  fun s => match toks s with
           | t :: r => if pick t then (Ok t, set_toks s r) else (Err (error_at s what), s)
           | [] => (Err (error_at s what), s)
           end.
(** syn's Parse for Ident *)
Definition parse_ident : parser token :=
  fun s => match toks s with
           | TIdent i sp :: r =>
             if mem_str i keywords
             then (Err (error_at s ("expected identifier, found keyword " ++ tick i)%string), s)
             else (Ok (TIdent i sp), set_toks s r)
           | _ => (Err (error_at s "expected identifier"), s)
           end.
(** parse, convert, and `match .. { kind(x) => Ok(x), _ => unreachable!() }` *)
Definition converted (p : parser token) (kind : token -> bool) : dict token :=
  dict_item (fun _ s =>
    let (r, s1) := p s in
    (rbind r (fun t => rbind (convert_token_tree t) (fun u => if kind u then Ok u else Bad Panic)), s1)).

Definition is_lit (t : token) : bool := match t with TLit _ _ => true | _ => false end.
Definition is_punct (t : token) : bool := match t with TPunct _ _ _ => true | _ => false end.
Definition is_group (t : token) : bool := match t with TGroup _ _ _ => true | _ => false end.
Definition is_ident (t : token) : bool := match t with TIdent _ _ => true | _ => false end.

(** 1127-1132 TokenTree *)
Definition pm_tokentree_dict : dict token :=
  converted (parse_token "expected token tree" (fun _ => true)) (fun _ => true).
(** 1138-1143 TokenStream: syn's Parse for TokenStream takes all that is left *)
Definition pm_tokenstream_dict : dict (list token) := dict_item (fun _ s => (Ok (toks s), set_toks s [])).
(** 1149-1157 Literal *)
Definition pm_literal_dict : dict token := converted (parse_token "expected literal token" is_lit) is_lit.
(** 1163-1171 Punct; Cursor::punct leaves out the quote of a lifetime *)
Definition pm_punct_dict : dict token :=
  converted (parse_token "expected punctuation token"
               (fun t => match t with TPunct c _ _ => negb (Ascii.eqb c "'") | _ => false end)) is_punct.
(** 1177-1185 Group *)
Definition pm_group_dict : dict token := converted (parse_token "expected group token" is_group) is_group.
(** 1191-1199 Ident *)
Definition pm_ident_dict : dict token := converted parse_ident is_ident.
End P.
