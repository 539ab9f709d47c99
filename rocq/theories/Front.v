(** The grammar parser: src/liboak/front/parser.rs and src/liboak/front/ast.rs.
    Spans and error messages are dropped; an error is [FErr] (CharClass.v). *)
From Coq Require Import Ascii.
From Verif Require Import Base Grammar CharClass Analysis.
Set Implicit Arguments. Unset Strict Implicit.
Open Scope char_scope. Open Scope string_scope. Open Scope nat_scope. Open Scope list_scope.

Definition fbind {A B} (r : fres A) (k : A -> fres B) : fres B :=
  match r with FOk a => k a | FErr => FErr | FLoop => FLoop end.

(** ---------------- token trees (crate proc_macro2) ---------------- *)
Inductive delim := Paren | Bracket | Brace.
(** A string literal by value; an identifier that is not a Rust keyword; a keyword; a punctuation
    character with its spacing ([true]: joint with the next one); a delimited group; any other token.
    Groups without delimiter (from [macro_rules]) are not modelled. *)
Inductive tok :=
| TStr (s : text)
| TId (s : string)
| TKw (s : string)
| TPunct (c : ascii) (joint : bool)
| TGroup (d : delim) (l : list tok)
| TOther (s : string).

(** Size of a token stream. *)
Fixpoint tok_size (t : tok) : nat :=
  match t with
  | TGroup _ l => S ((fix go (l : list tok) : nat := match l with [] => 0 | t :: l' => tok_size t + go l' end) l)
  | _ => 1
  end.
Fixpoint toks_size (l : list tok) : nat := match l with [] => 0 | t :: l' => tok_size t + toks_size l' end.

(** [ps.peek(Token![..])] and [ps.parse::<Token![..]>()] of the crate syn 1.0: the characters must follow
    each other, all but the last joint; the spacing of the last one is not looked at, so that [.] is also
    read at the start of [..].  Returns the remaining tokens. *)
Fixpoint eat (p : list ascii) (ts : list tok) : option (list tok) :=
  match p with
  | [] => Some ts
  | c :: p' =>
    match ts with
    | TPunct c' j :: ts' =>
      if Ascii.eqb c c' then match p' with [] => Some ts' | _ => if j then eat p' ts' else None end else None
    | _ => None
    end
  end.
Definition peek (p : list ascii) (ts : list tok) : bool := match eat p ts with Some _ => true | None => false end.

(** [syn::Path] restricted to identifiers; generic arguments are not modelled.  A leading [::] is dropped. *)
Definition segment (t : tok) : option string :=
  match t with
  | TId s => Some s
  | TKw s => if existsb (String.eqb s) ["super"; "self"; "Self"; "crate"] then Some s else None
  | _ => None
  end.
Fixpoint path_rest (ts : list tok) : option (list string * list tok) :=
  match ts with
  | TPunct c1 j1 :: TPunct c2 j2 :: r =>
    if Ascii.eqb c1 ":" && j1 && Ascii.eqb c2 ":" then
      match r with
      | t :: r' =>
        match segment t with
        | Some s => match path_rest r' with Some (l, q) => Some (s :: l, q) | None => None end
        | None => None
        end
      | [] => None
      end
    else Some ([], ts)
  | _ => Some ([], ts)
  end.
Definition parse_path (ts : list tok) : option (list string * list tok) :=
  match (match eat [":"; ":"]%char ts with Some r => r | None => ts end) with
  | t :: r =>
    match segment t with
    | Some s => match path_rest r with Some (l, q) => Some (s :: l, q) | None => None end
    | None => None
    end
  | [] => None
  end.

(** front/ast.rs:40-45. *)
Definition alloc (es : list expr) (e : expr) : nat * list expr := (length es, es ++ [e]).

(** What a parsing function returns: a value, the remaining tokens and the arena. *)
Notation pres A := (fres (A * list tok * list expr)) (only parsing).
Definition alloced {A} (f : nat -> A) (e : expr) (ts : list tok) (es : list expr) : pres A :=
  let (i, es') := alloc es e in FOk (f i, ts, es').

Section Parser.
(** The two parsers of syn the front end relies on: [syn::Type] and [syn::Item]. *)
Variable rust_type : list tok -> option (string * list tok).
Variable rust_item : list tok -> option (rust_item * list tok).

(** parser.rs:108-160; [peek_unit_type] looks at a parenthesised group.  The boolean tells that the group
    was read to its end: syn reports an error for the whole macro otherwise. *)
Definition parse_type (ts : list tok) : fres (ity * list tok * bool) :=
  match eat [":"]%char ts with
  | None => FOk (IInfer, ts, true)
  | Some r =>
    let rust := match rust_type r with Some (s, r') => FOk (IRegular (TRust s), r', true) | None => FErr end in
    match r with
    | TGroup Paren [] :: r' => FOk (IRegular TUnit, r', true)
    | TGroup Paren g :: r' =>
      match eat ["^"]%char g with
      | Some g' => FOk (IInvisible, r', match g' with [] => true | _ => false end)
      | None => rust
      end
    | _ => rust
    end
  end.
(** The same outside of a look-ahead: a group not read to its end is an error. *)
Definition parse_type' (ts : list tok) : fres (ity * list tok) :=
  fbind (parse_type ts) (fun q => let '(t, r, clean) := q in if clean then FOk (t, r) else FErr).

(** parser.rs:50-70. *)
Definition peek_rule_lhs (ts : list tok) : bool :=
  match ts with
  | TId _ :: r =>
    if peek ["="]%char r then true
    else match parse_type r with FOk (_, r', _) => peek ["="]%char r' | _ => false end
  | _ => false
  end.

Section Level.
(** [parse_rule_choice] on the contents of a group. *)
Variable sub : list tok -> list expr -> pres nat.

(** parser.rs:317-365 and 367-382; the chain of tests is cut in three: from [peek_path] on, *)
Definition atom_tail (ts : list tok) (es : list expr) : pres (option nat) :=
  match parse_path ts with
  | Some (p, r) => if peek_rule_lhs ts then FOk (None, ts, es) else alloced Some (EExt p) r es
  | None =>
    match ts with
    | TGroup Bracket g :: r =>
      match g with
      | [TStr s] => fbind (parse_char_class (S (length s)) s) (fun ivs => alloced Some (EClass ivs) r es)
      | _ => FErr                                     (* not a literal, or tokens after it *)
      end
    | _ => if peek ["."; "."]%char ts then FErr else FOk (None, ts, es)
    end
  end.
(** from [peek_paren] on, *)
Definition atom_group (ts : list tok) (es : list expr) : pres (option nat) :=
  match ts with
  | TGroup Paren g :: r =>
    match g with
    | [] => FErr                                    (* unit type must follow an expression *)
    | _ => fbind (sub g es) (fun q => let '(i, g', es') := q in
             match g' with [] => FOk (Some i, r, es') | _ => FErr end)   (* unexpected token *)
    end
  | _ => atom_tail ts es
  end.
(** and the whole. *)
Definition parse_rule_atom (ts : list tok) (es : list expr) : pres (option nat) :=
  match ts with
  | TStr s :: r => alloced Some (EStr s) r es
  | _ => match eat ["."]%char ts with Some r => alloced Some EAny r es | None => atom_group ts es end
  end.

(** parser.rs:260-283. *)
Definition parse_suffixed_expr (ts : list tok) (es : list expr) : pres (option nat) :=
  fbind (parse_rule_atom ts es) (fun q => let '(o, ts, es) := q in
  match o with
  | None => FOk (None, ts, es)
  | Some i =>
    match eat ["*"]%char ts with Some r => alloced Some (EStar i) r es | None =>
    match eat ["+"]%char ts with Some r => alloced Some (EPlus i) r es | None =>
    match eat ["?"]%char ts with Some r => alloced Some (EOpt i) r es | None => FOk (Some i, ts, es) end end end
  end).

(** parser.rs:240-258. *)
Definition parse_prefixed_expr2 (make : nat -> expr) (ts : list tok) (es : list expr) : pres (option nat) :=
  fbind (parse_suffixed_expr ts es) (fun q => let '(o, ts, es) := q in
  match o with Some i => alloced Some (make i) ts es | None => FErr end).
(** parser.rs:226-238. *)
Definition parse_prefixed_expr (ts : list tok) (es : list expr) : pres (option nat) :=
  match eat ["!"]%char ts with Some r => parse_prefixed_expr2 ENot r es | None =>
  match eat ["&"]%char ts with Some r => parse_prefixed_expr2 EAnd r es | None =>
  parse_suffixed_expr ts es end end.

(** parser.rs:212-224. *)
Definition parse_typed_expr (ts : list tok) (es : list expr) : pres (option nat) :=
  fbind (parse_prefixed_expr ts es) (fun q => let '(o, ts, es) := q in
  fbind (parse_type' ts) (fun q => let '(t, ts) := q in
  match t with
  | IInfer => FOk (o, ts, es)
  | _ => match o with None => FErr | Some i => alloced Some (EAsc i t) ts es end
  end)).

(** parser.rs:195-210: the loop, then the vector. *)
Fixpoint seq_loop (fuel : nat) (acc : list nat) (ts : list tok) (es : list expr) : pres (list nat) :=
  match fuel with
  | 0 => FLoop
  | S k => fbind (parse_typed_expr ts es) (fun q => let '(o, ts, es) := q in
      match o with Some i => seq_loop k (acc ++ [i]) ts es | None => FOk (acc, ts, es) end)
  end.
Definition parse_seq (fuel : nat) (ts : list tok) (es : list expr) : pres nat :=
  fbind (seq_loop fuel [] ts es) (fun q => let '(l, ts, es) := q in
  match l with [] => FErr | [i] => FOk (i, ts, es) | _ => alloced id (ESeq l) ts es end).

(** parser.rs:175-193. *)
Definition parse_spanned_expr (fuel : nat) (ts : list tok) (es : list expr) : pres nat :=
  match eat ["."; "."; "."]%char ts with
  | Some r => fbind (parse_seq fuel r es) (fun q => let '(i, ts, es) := q in
      let (u, es) := alloc es (EAsc i (IRegular TUnit)) in alloced id (ERange u) ts es)
  | None =>
  match eat ["."; "."]%char ts with
  | Some r => fbind (parse_seq fuel r es) (fun q => let '(i, ts, es) := q in alloced id (ESpan i) ts es)
  | None => parse_seq fuel ts es
  end end.

(** parser.rs:162-173. *)
Definition parse_semantic_action (i : nat) (ts : list tok) (es : list expr) : pres nat :=
  match eat [">"]%char ts with
  | Some r =>
    let (boxed, r) := match r with TKw s :: r' => if String.eqb s "box" then (true, r') else (false, r) | _ => (false, r) end in
    match parse_path r with
    | Some (p, r) => alloced id (EAct i boxed (ActPath p)) r es
    | None => FErr
    end
  | None => FOk (i, ts, es)
  end.

(** parser.rs:85-106: the loop, then the vector. *)
Fixpoint choice_loop (fuel sfuel : nat) (acc : list nat) (ts : list tok) (es : list expr) : pres (list nat) :=
  match fuel with
  | 0 => FLoop
  | S k =>
    fbind (parse_spanned_expr sfuel ts es) (fun q => let '(i, ts, es) := q in
    fbind (parse_semantic_action i ts es) (fun q => let '(i, ts, es) := q in
    match eat ["/"]%char ts with
    | Some r => choice_loop k sfuel (acc ++ [i]) r es
    | None => FOk (acc ++ [i], ts, es)
    end))
  end.
Definition choice_level (fuel : nat) (ts : list tok) (es : list expr) : pres nat :=
  fbind (choice_loop fuel fuel [] ts es) (fun q => let '(l, ts, es) := q in
  match l with [i] => FOk (i, ts, es) | _ => alloced id (EAlt l) ts es end).
End Level.

(** parser.rs:85-106, with at most [depth] nested groups and [fuel] iterations of each loop. *)
Fixpoint parse_rule_choice (depth fuel : nat) (ts : list tok) (es : list expr) : pres nat :=
  match depth with
  | 0 => FLoop
  | S d => choice_level (parse_rule_choice d fuel) fuel ts es
  end.

(** parser.rs:72-83 and front/ast.rs:47-49. *)
Definition parse_rule (fuel : nat) (ts : list tok) (es : list expr) : pres rule :=
  match ts with
  | TId name :: r =>
    fbind (parse_type' r) (fun q => let '(t, r) := q in
    match eat ["="]%char r with
    | None => FErr
    | Some r =>
      fbind (parse_rule_choice fuel fuel r es) (fun q => let '(i, ts, es) := q in
      match t with
      | IInfer => FOk (mkRule name i, ts, es)
      | _ => alloced (fun b => mkRule name b) (EAsc i t) ts es
      end)
    end)
  | _ => FErr
  end.

(** [Attribute::parse_inner] of syn: a sequence of [#![path ..]]. *)
Fixpoint parse_attrs (fuel : nat) (acc : list (list string)) (ts : list tok) : fres (list (list string) * list tok) :=
  match fuel with
  | 0 => FLoop
  | S k =>
    match eat ["#"]%char ts with
    | Some r =>
      match eat ["!"]%char r with
      | Some (TGroup Bracket g :: r') =>
        match parse_path g with Some (p, _) => parse_attrs k (acc ++ [p]) r' | None => FErr end
      | Some _ => FErr
      | None => FOk (acc, ts)
      end
    | None => FOk (acc, ts)
    end
  end.

(** parser.rs:37-48. *)
Fixpoint parse_blocks (fuel inner : nat) (ts : list tok) (g : fgrammar) : fres fgrammar :=
  match fuel with
  | 0 => FLoop
  | S k =>
    match ts with
    | [] => FOk g
    | _ =>
      fbind (parse_attrs inner [] ts) (fun q => let '(at_, ts) := q in
      let g := mkF (f_rules g) (f_exprs g) (f_items g) (f_attrs g ++ at_) in
      if peek_rule_lhs ts then
        fbind (parse_rule inner ts (f_exprs g)) (fun q => let '(r, ts, es) := q in
        parse_blocks k inner ts (mkF (f_rules g ++ [r]) es (f_items g) (f_attrs g)))
      else
        match rust_item ts with
        | Some (it, ts) => parse_blocks k inner ts (mkF (f_rules g) (f_exprs g) (f_items g ++ [it]) (f_attrs g))
        | None => FErr
        end)
    end
  end.

(** parser.rs:24-30 and front/ast.rs:29-38. *)
Definition parse_grammar (ts : list tok) : fres fgrammar :=
  let n := S (toks_size ts) in parse_blocks n n ts (mkF [] [] [] []).
End Parser.
