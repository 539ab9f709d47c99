(** Abstract syntax of grammars: src/liboak/ast.rs and src/liboak/middle/typing/ast.rs. *)
From Verif Require Import Base.
Set Implicit Arguments.

Notation ident := string (only parsing).
(** A [syn::Path], reduced to the identifiers of its segments (generic arguments are dropped). *)
Notation path := (list string) (only parsing).

(** The Rust expression after [>] (ast.rs:174).  Only the distinction "is it a path" matters to the
    code generator (back/compiler/semantic_action.rs:41-50). *)
Inductive action :=
| ActPath (segs : list string)
| ActExpr (src : string).

(** typing/ast.rs:337-348 [Type]; a Rust type is an opaque string. *)
Inductive ty :=
| TUnit | TAtom
| TOptional (i : nat) | TList (i : nat)
| TTuple (l : list nat)
| TRust (t : string).

(** typing/ast.rs:173-281, 283-299 [RecKind], [RecPath], [RecSet], [IType]. *)
Inductive rec_kind := RUnit | RPoly.
Notation rec_path := (rec_kind * list string)%type (only parsing).
Notation rec_set := (list (rec_kind * list string)) (only parsing).
Inductive ity :=
| IInfer
| IRec (r : list (rec_kind * list string))
| IInvisible
| IExternal
| IRegular (t : ty).

(** ast.rs:182-194, 204-228: character classes as lists of closed intervals. *)
Notation cclass := (list (N * N)) (only parsing).

(** ast.rs:160-179 [Expression]; sub-expressions are arena indices. *)
Inductive expr :=
| EStr (lit : text)
| EAny
| EClass (cls : list (N * N))
| ENT (r : string)
| EExt (p : list string)
| ESeq (l : list nat)
| EAlt (l : list nat)
| EStar (i : nat)
| EPlus (i : nat)
| EOpt (i : nat)
| ENot (i : nat)
| EAnd (i : nat)
| EAct (i : nat) (boxed : bool) (f : action)
| EAsc (i : nat) (t : ity)
| ESpan (i : nat)
| ERange (i : nat).

(** ast.rs:132-144. *)
Record rule := mkRule { rname : string; rexpr : nat }.

(** ast.rs:40-50, restricted to what the middle and back ends read; [types] is the vector of
    [exprs_info] after typing (typing/ast.rs:93-103). *)
Record grammar := mkG { rules : list rule; exprs : list expr; types : list ty }.

(** ast.rs:120-125 and 105-112: both index operations panic out of bounds; here [None]. *)
Definition expr_of (G : grammar) (i : nat) : option expr := nth_error (exprs G) i.
Definition ty_of (G : grammar) (i : nat) : option ty := nth_error (types G) i.

(** ast.rs:69-78: first rule with that name. *)
Definition find_rule (G : grammar) (id : string) : option rule :=
  find (fun r => String.eqb (rname r) id) (rules G).

(** typing/ast.rs:370-379. *)
Definition ty_card (t : ty) : nat :=
  match t with TUnit => 0 | TTuple l => length l | _ => 1 end.

(** typing/ast.rs:350-364: the comparison with [Type::Unit]. *)
Definition ty_is_unit (t : ty) : bool := match t with TUnit => true | _ => false end.

Definition is_unit (G : grammar) (i : nat) : bool :=
  match ty_of G i with Some t => ty_is_unit t | None => false end.
Definition card (G : grammar) (i : nat) : nat :=
  match ty_of G i with Some t => ty_card t | None => 0 end.

(** Children of an expression (visitor.rs:102-161). *)
Definition children (e : expr) : list nat :=
  match e with
  | EStr _ | EAny | EClass _ | ENT _ | EExt _ => []
  | ESeq l | EAlt l => l
  | EStar i | EPlus i | EOpt i | ENot i | EAnd i | EAct i _ _ | EAsc i _ | ESpan i | ERange i => [i]
  end.

(** Membership of a character in a class: the documented meaning. *)
Definition in_class (c : N) (cls : list (N * N)) : Prop :=
  exists lo hi, In (lo, hi) cls /\ (lo <= c)%N /\ (c <= hi)%N.

(** back/compiler/semantic_action.rs:41-50: first letter of the last segment is upper case.
    ASCII letters only ([char::is_uppercase] is Unicode aware). *)
Definition starts_upper (s : string) : bool :=
  match s with
  | String a _ => let n := Ascii.N_of_ascii a in ((65 <=? n)%N && (n <=? 90)%N)
  | EmptyString => false
  end.
Definition unit_variant (f : action) (child_unit : bool) : bool :=
  match f with
  | ActPath segs => match rev segs with s :: _ => starts_upper s && child_unit | [] => false end
  | ActExpr _ => false
  end.

(** ast.rs:196-203, 215-242: the text of a class in error messages, [char::escape_default] included. *)
Definition hex_digit (n : N) : N := if (n <? 10)%N then (48 + n)%N else (87 + n)%N.
Fixpoint hex_digits (fuel : nat) (n : N) (acc : list N) : list N :=
  match fuel with
  | 0 => acc
  | S k => let acc := hex_digit (n mod 16) :: acc in
           if (n / 16 =? 0)%N then acc else hex_digits k (n / 16) acc
  end.
Definition escape_default (c : N) : list N :=
  if (c =? 9)%N then [92; 116]%N
  else if (c =? 13)%N then [92; 114]%N
  else if (c =? 10)%N then [92; 110]%N
  else if ((c =? 39) || (c =? 34) || (c =? 92))%N then [92; c]%N
  else if ((32 <=? c) && (c <=? 126))%N then [c]
  else [92; 117; 123]%N ++ hex_digits 6 c [] ++ [125%N].
Definition class_desc (cls : list (N * N)) : list N :=
  [91; 34]%N
  ++ flat_map (fun i => if (fst i =? snd i)%N then escape_default (fst i)
                        else escape_default (fst i) ++ [45%N] ++ escape_default (snd i)) cls
  ++ [34; 93]%N.
(** any_single_char.rs:62: "<character>". *)
Definition any_desc : list N := [60; 99; 104; 97; 114; 97; 99; 116; 101; 114; 62]%N.
