(** Base vocabulary of the model: spans, errors, results, string helpers.

    Models the dependency types that deluxe's code is written against
    (syn::Error, syn::Result, proc_macro2::Span) and Rust string operations.
    /repo only re-exports them: core/lib.rs 13-40. *)
From Coq Require Export String Ascii Bool Arith NArith ZArith Lia List.
Export ListNotations.
#[global] Open Scope string_scope.
#[global] Open Scope list_scope.

(** A proc_macro2::Span (dependency).  Simplification: a span is an opaque
    identity.  [SOpen]/[SClose] are the spans of the opening/closing delimiter of a
    group with span [s] (proc_macro2::Group::span_open/span_close).  [SCall] is
    Span::call_site(). *)
Inductive span : Type :=
| SCall
| SAt (n : N)
| SOpen (s : span)
| SClose (s : span).

(** One message of a syn::Error: (span, text). *)
Record err : Type := mkErr { e_span : span; e_msg : string }.

(** syn::Error: a non-empty list of messages (dependency; syn guarantees
    non-emptiness by construction, so does this record). *)
Record synerr : Type := mkSyn { se_hd : err; se_tl : list err }.

Definition errs_of (e : synerr) : list err := se_hd e :: se_tl e.

(** syn::Error::new(span, msg). *)
Definition err1 (sp : span) (m : string) : synerr := mkSyn (mkErr sp m) [].

(** Why a computation does not return: a Rust panic (unwrap, unreachable!, slice
    index), or exhausted fuel of a model loop, standing for an infinite loop. *)
Inductive bad : Type := Panic | Diverge.

(** Outcome of a Rust function returning syn::Result<A>. *)
Inductive res (A : Type) : Type :=
| Ok (a : A)
| Err (e : synerr)
| Bad (b : bad).
Arguments Ok {A} a.
Arguments Err {A} e.
Arguments Bad {A} b.

(** Result::map. *)
Definition rmap {A B} (f : A -> B) (r : res A) : res B :=
  match r with Ok a => Ok (f a) | Err e => Err e | Bad b => Bad b end.

Definition rbind {A B} (r : res A) (f : A -> res B) : res B :=
  match r with Ok a => f a | Err e => Err e | Bad b => Bad b end.

Definition is_ok {A} (r : res A) : bool :=
  match r with Ok _ => true | _ => false end.

(** Parsers: functions on a mutable input (ParseStream / &[ParseBuffer] behind
    shared interior-mutable cursors).  The input is returned on every path. *)
Definition pm (S A : Type) : Type := S -> res A * S.

Definition pret {S A} (a : A) : pm S A := fun s => (Ok a, s).
Definition perr {S A} (e : synerr) : pm S A := fun s => (Err e, s).

(** Rust's `?`. *)
Definition pbind {S A B} (p : pm S A) (f : A -> pm S B) : pm S B :=
  fun s => let (r, s1) := p s in
           match r with
           | Ok a => f a s1
           | Err e => (Err e, s1)
           | Bad b => (Bad b, s1)
           end.

Definition pmap {S A B} (f : A -> B) (p : pm S A) : pm S B :=
  fun s => let (r, s1) := p s in (rmap f r, s1).

Notation "x <- p ;; q" := (pbind p (fun x => q))
  (at level 61, p at next level, right associativity).
Notation "p ;;; q" := (pbind p (fun _ => q))
  (at level 61, right associativity).

(** *** Rust string operations used by deluxe (alloc/core, dependency). *)

(** str::strip_prefix *)
Fixpoint strip_prefix (p s : string) : option string :=
  match p with
  | EmptyString => Some s
  | String a p' =>
    match s with
    | EmptyString => None
    | String b s' => if Ascii.eqb a b then strip_prefix p' s' else None
    end
  end.

(** str::ends_with *)
Fixpoint ends_with (suf s : string) : bool :=
  if String.eqb s suf then true
  else match s with
       | EmptyString => false
       | String _ s' => ends_with suf s'
       end.

Definition is_empty_str (s : string) : bool :=
  match s with EmptyString => true | _ => false end.

(** [T]::join(sep) on strings. *)
Fixpoint join_strs (sep : string) (l : list string) : string :=
  match l with
  | [] => ""
  | [x] => x
  | x :: l' => (x ++ sep ++ join_strs sep l')%string
  end.

(** Display of usize: decimal digits, most significant first. *)
Definition digit (n : nat) : ascii := ascii_of_nat (48 + n).
Fixpoint show_nat_fuel (fuel n : nat) (acc : string) : string :=
  match fuel with
  | 0 => acc
  | S f =>
    let acc' := String (digit (n mod 10)) acc in
    match n / 10 with
    | 0 => acc'
    | m => show_nat_fuel f m acc'
    end
  end.
Definition show_nat (n : nat) : string := show_nat_fuel (S n) n "".

(** slice::contains on &str *)
Definition mem_str (x : string) (l : list string) : bool :=
  existsb (String.eqb x) l.

(** `` `name` `` *)
Definition tick (s : string) : string := ("`" ++ s ++ "`")%string.

(** replace position [i] of a list (mutable local variable number [i]). *)
Fixpoint upd_nth {A} (i : nat) (x : A) (l : list A) : list A :=
  match l with
  | [] => []
  | y :: l' => match i with 0 => x :: l' | S j => y :: upd_nth j x l' end
  end.
