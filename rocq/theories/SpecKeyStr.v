(** The text of a key, and which keys have different texts. *)
From Verif Require Export KeyStr SpecSmall.

(** the documented text: elements between brackets, separated by `, ` *)
Fixpoint key_text (v : kval) : string :=
  match v with
  | KvText s | KvStr s => s
  | KvPath p => gpath_key p
  | KvUnit => "()"
  | KvOpt None => "None"
  | KvOpt (Some v) => "Some(" ++ key_text v ++ ")"
  | KvSeq l => "[" ++ String.concat ", " (map key_text l) ++ "]"
  | KvMap l => "{" ++ String.concat ", " (map (fun kv => key_text (fst kv) ++ " = " ++ key_text (snd kv)) l) ++ "}"
  | KvPunct l last =>
    "[" ++ String.concat "" (map (fun vp => key_text (fst vp) ++ snd vp ++ " ") l)
        ++ match last with Some v => key_text v | None => "" end ++ "]"
  | KvTuple l => "(" ++ String.concat ", " (map key_text l) ++ ")"
  | KvWrap v => key_text v
  end%string.

(** types of keys; [TText] is any type formatted by Display *)
Inductive ktype : Type :=
| TText | TStr | TPath | TUnit | TOpt (t : ktype) | TSeq (t : ktype) | TMap (k v : ktype)
| TTuple (ts : list ktype) | TWrap (t : ktype).

(** no text of a part is empty or contains a character that ends a part: , ) ] } space *)
Definition ends_part (c : ascii) : bool :=
  existsb (Ascii.eqb c) [","; ")"; "]"; "}"; " "]%char.
Definition clear_text (s : string) : Prop :=
  s <> "" /\ Forall (fun c => ends_part c = false) (list_ascii_of_string s).

(** [v] is a key of type [t] the texts of whose parts satisfy [P] *)
Inductive key_of (P : string -> Prop) : ktype -> kval -> Prop :=
| KO_text s : P s -> key_of P TText (KvText s)
| KO_str s : P s -> key_of P TStr (KvStr s)
| KO_path segs : segs <> [] -> Forall ident_like segs -> Forall P segs ->
    key_of P TPath (KvPath (map (fun s => (s, None)) segs))
| KO_unit : key_of P TUnit KvUnit
| KO_none t : key_of P (TOpt t) (KvOpt None)
| KO_some t v : key_of P t v -> key_of P (TOpt t) (KvOpt (Some v))
| KO_seq t l : Forall (key_of P t) l -> key_of P (TSeq t) (KvSeq l)
| KO_map tk tv l : Forall (fun kv => key_of P tk (fst kv)) l -> Forall (fun kv => key_of P tv (snd kv)) l ->
    key_of P (TMap tk tv) (KvMap l)
| KO_tuple ts l : Forall2 (key_of P) ts l -> key_of P (TTuple ts) (KvTuple l)
| KO_wrap t v : key_of P t v -> key_of P (TWrap t) (KvWrap v).
Definition no_comma (s : string) : Prop := ~ In ","%char (list_ascii_of_string s).
