(** Vocabulary for the theorems of PropsAttr.v: what the attributes of a node contain. *)
From Verif Require Export SpecMore SpecColl.

(** What an attribute that can be parsed contains: nothing in `#[name]`, the tokens between
    the parentheses in `#[name(..)]`.  Each has its own record of unparsed tokens. *)
Inductive attr_content : item -> stream -> Prop :=
| AC_path name sp : attr_content ([], name, sp) (mkStream [] SCall None)
| AC_list content gsp name sp :
    attr_content ([TGroup Paren content gsp], name, sp) (mkStream content (SClose gsp) None)
(** `#[name = (..),]`: not Rust *)
| AC_comma content gsp c name sp : is_comma c = true ->
    attr_content ([TGroup Paren content gsp; c], name, sp) (mkStream content (SClose gsp) None).
(** the names of the attributes and their spans *)
Definition attr_names (l : list item) : list (string * span) := map (fun '(_, n, sp) => (n, sp)) l.
(** all tokens of the content have been parsed, also in the groups inside of it *)
Definition parsed_up (s : stream) : Prop := toks s = [] /\ cell s = None.
(** ... all but a trailing comma; there is nothing to check in `#[name]` *)
Definition all_parsed (it : item) (s : stream) : Prop :=
  used_up s /\ (fst (fst it) = [] \/ cell s = None).
