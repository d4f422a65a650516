(** A small executable lexer and a concrete environment.  Not part of the model of
    deluxe: it only makes examples and replayed tests (Conformance.v) readable, and gives
    a concrete instance of the oracles.  It covers identifiers, decimal integers, floats,
    raw identifiers, strings and chars without escapes, lifetimes, punctuation and groups. *)
From Verif Require Export Tokens.

Definition in_rng (lo hi : N) (c : ascii) : bool :=
  let n := N_of_ascii c in (lo <=? n)%N && (n <=? hi)%N.
Definition is_digit := in_rng 48 57.
Definition is_alpha (c : ascii) : bool :=
  in_rng 65 90 c || in_rng 97 122 c || Ascii.eqb c "_".
Definition is_word (c : ascii) : bool := is_alpha c || is_digit c.
Definition is_space (c : ascii) : bool :=
  Ascii.eqb c " " || Ascii.eqb c "010" || Ascii.eqb c "009".
Definition is_punct (c : ascii) : bool :=
  existsb (Ascii.eqb c) (list_ascii_of_string "!#$%&*+,-./:;<=>?@^|~").

Fixpoint span_while (f : ascii -> bool) (s : string) : string * string :=
  match s with
  | String c s' => if f c then let (a, b) := span_while f s' in (String c a, b) else ("", s)
  | "" => ("", "")
  end.

Definition num_of (s : string) : N :=
  fold_left (fun n c => (n * 10 + (N_of_ascii c - 48))%N) (list_ascii_of_string s) 0%N.

Definition open_of (c : ascii) : option delim :=
  if Ascii.eqb c "(" then Some Paren else if Ascii.eqb c "{" then Some Brace
  else if Ascii.eqb c "[" then Some Bracket else None.
Definition close_of (c : ascii) : option delim :=
  if Ascii.eqb c ")" then Some Paren else if Ascii.eqb c "}" then Some Brace
  else if Ascii.eqb c "]" then Some Bracket else None.

Definition dquote : ascii := "034".
Definition squote : ascii := "'".

Fixpoint lex_go (fuel : nat) (total : nat) (s : string)
         (stack : list (delim * span * list token)) (cur : list token)
  : list token + string :=
  match fuel with
  | 0 => inr "lexer out of fuel"
  | S n =>
    let sp := SAt (N.of_nat (total - String.length s)) in
    match s with
    | "" => match stack with [] => inl (rev cur) | _ => inr "unclosed delimiter" end
    | String c s' =>
      if is_space c then lex_go n total s' stack cur
      else match open_of c with
      | Some d => lex_go n total s' ((d, sp, cur) :: stack) []
      | None =>
      match close_of c with
      | Some d =>
        match stack with
        | (d', sp', prev) :: stack' =>
          if delim_eqb d d' then lex_go n total s' stack' (TGroup d (rev cur) sp' :: prev)
          else inr "mismatched delimiter"
        | [] => inr "unexpected closing delimiter"
        end
      | None =>
        if Ascii.eqb c dquote then
          let (txt, r) := span_while (fun x => negb (Ascii.eqb x dquote)) s' in
          match r with
          | String _ r' => lex_go n total r' stack (TLit (LStr txt) sp :: cur)
          | "" => inr "unterminated string"
          end
        else if Ascii.eqb c squote then
          match s' with
          | String x (String q r') =>
            if Ascii.eqb q squote
            then lex_go n total r' stack (TLit (LChar (N_of_ascii x)) sp :: cur)
            else lex_go n total s' stack (TPunct squote true sp :: cur)
          | _ => lex_go n total s' stack (TPunct squote true sp :: cur)
          end
        else if is_digit c then
          let (w, r) := span_while is_digit s in
          match r with
          | String "." (String d r1) =>
            if is_digit d then
              let (w2, r2) := span_while is_digit (String d r1) in
              lex_go n total r2 stack (TLit (LFloat (w ++ "." ++ w2)%string) sp :: cur)
            else lex_go n total r stack (TLit (LInt (num_of w)) sp :: cur)
          | _ => lex_go n total r stack (TLit (LInt (num_of w)) sp :: cur)
          end
        else if is_alpha c then
          let (w, r) := span_while is_word s in
          match strip_prefix "#" r with
          | Some (String c1 r1) =>
            if String.eqb w "r" && is_alpha c1 then
              let (w1, r2) := span_while is_word (String c1 r1) in
              lex_go n total r2 stack (TIdent ("r#" ++ w1) sp :: cur)
            else lex_go n total r stack (TIdent w sp :: cur)
          | _ => lex_go n total r stack (TIdent w sp :: cur)
          end
        else if is_punct c then
          let joint := match s' with String c2 _ => is_punct c2 | "" => false end in
          lex_go n total s' stack (TPunct c joint sp :: cur)
        else inr "unexpected character"
      end
      end
    end
  end.

Definition lex (s : string) : list token + string :=
  lex_go (S (String.length s)) (String.length s) s [] [].

(** tokens of a well-formed text; [] if it does not lex *)
Definition tk (s : string) : list token :=
  match lex s with inl ts => ts | inr _ => [] end.

Definition show_delim (d : delim) : string * string :=
  match d with Paren => ("(", ")") | Brace => ("{ ", " }") | Bracket => ("[", "]") end.

Fixpoint show_tok (t : token) : string :=
  match t with
  | TIdent i _ => i
  | TPunct c _ _ => String c ""
  | TLit l _ =>
    match l with
    | LInt n => show_nat (N.to_nat n)
    | LFloat d => d
    | LStr s => (String dquote s ++ String dquote "")%string
    | LByteStr s => ("b" ++ String dquote s ++ String dquote "")%string
    | LChar c => (String squote (String (ascii_of_N c) (String squote "")))%string
    | LByte c => ("b" ++ String squote (String (ascii_of_N c) (String squote "")))%string
    end
  | TGroup d ts _ =>
    let (o, c) := show_delim d in
    (o ++ join_strs " " (map show_tok ts) ++ c)%string
  end.

(** strsim is replaced by: 1000 if one string is the other without its last
    character, else 0. *)
Definition sim_toy (a b : string) : N :=
  let drop1 s := String.substring 0 (String.length s - 1) s in
  if String.eqb a (drop1 b) || String.eqb (drop1 a) b then 1000%N else 0%N.

(** Span::join as on a nightly compiler: keeps the first span. *)
Definition lexer_env : Env :=
  mkEnv (fun a _ => Some a) sim_toy show_tok
        (fun ts => join_strs " " (map show_tok ts)) lex.
