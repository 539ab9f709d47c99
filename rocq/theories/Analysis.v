(** The other analyses of the middle end: src/liboak/middle/analysis/{duplicate,resolve_non_terminal,
    useless_chaining,attribute,ast,mod}.rs and src/liboak/middle/mod.rs. *)
From Verif Require Import Base Grammar WellFormed.
Set Implicit Arguments. Unset Strict Implicit.
Open Scope string_scope. Open Scope nat_scope. Open Scope list_scope.

(** ---------------- the crate [partial] ---------------- *)
(** Not in the repository: its documented behaviour.  [Value]: fine; [Fake]: an error was reported,
    later passes still run; [Nothing]: stop. *)
Inductive partial (A : Type) := Value (a : A) | Fake (a : A) | Nothing.
Arguments Value {A} a. Arguments Fake {A} a. Arguments Nothing {A}.
(** [Partial::and_then]; the second pass may panic or diverge. *)
Definition pand {A B} (r : partial A) (k : A -> wres (partial B)) : wres (partial B) :=
  match r with
  | Value a => k a
  | Fake a => wbind (k a) (fun q => WOk (match q with Value b => Fake b | q => q end))
  | Nothing => WOk Nothing
  end.
(** [Partial::map]. *)
Definition pmap {A B} (f : A -> B) (r : partial A) : partial B :=
  match r with Value a => Value (f a) | Fake a => Fake (f a) | Nothing => Nothing end.

(** ---------------- duplicate.rs ---------------- *)
Section Duplicate.
Variables (A : Type) (name : A -> string).
(** duplicate.rs:69-85: [kept] is in insertion order; diagnostics are not modelled. *)
Fixpoint populate (items : list A) (kept : list (string * A)) (dup : bool) : list (string * A) * bool :=
  match items with
  | [] => (kept, dup)
  | a :: items' =>
    if existsb (fun q => String.eqb (fst q) (name a)) kept then populate items' kept true
    else populate items' (kept ++ [(name a, a)]) dup
  end.
(** duplicate.rs:57-67, 94-100. *)
Definition dup_analyse (items : list A) : partial (list (string * A)) :=
  let (kept, dup) := populate items [] false in if dup then Fake kept else Value kept.
End Duplicate.

(** A Rust item of the grammar: a function, a type alias, or anything else; [src] stands for its text. *)
Inductive rust_item := RFn (name src : string) | RAlias (name src : string) | ROther (src : string).
Definition fn_of (it : rust_item) : list (string * string) := match it with RFn n s => [(n, s)] | _ => [] end.
Definition not_fn (it : rust_item) : bool := match it with RFn _ _ => false | _ => true end.

(** analysis/ast.rs:44-50. *)
Inductive level := LDebug | LShow | LNothing.
(** analysis/ast.rs:53-61. *)
Definition merge (a b : level) : level :=
  match a, b with
  | LNothing, LDebug | LShow, LDebug => LDebug
  | LNothing, LShow => LShow
  | _, _ => LNothing
  end.

(** front/ast.rs:17-25 (spans dropped; an attribute is its path). *)
Record fgrammar := mkF { f_rules : list rule; f_exprs : list expr; f_items : list rust_item; f_attrs : list (list string) }.
(** ast.rs:40-50. *)
Record agrammar := mkA {
  a_rules : list rule; a_exprs : list expr;
  a_stream : string * string; a_funs : list (string * string); a_items : list rust_item; a_level : level
}.
(** What the later stages read. *)
Definition shape (g : agrammar) : grammar := mkG (a_rules g) (a_exprs g) [].

(** ast.rs:62. *)
Definition default_stream : string * string := ("Stream", "pub type Stream<'a> = StrStream<'a>;").
(** ast.rs:54-67. *)
Definition a_new (exprs : list expr) : agrammar := mkA [] exprs default_stream [] [] LNothing.
Definition with_rules (g : agrammar) r := mkA r (a_exprs g) (a_stream g) (a_funs g) (a_items g) (a_level g).
Definition with_rust (g : agrammar) f i := mkA (a_rules g) (a_exprs g) (a_stream g) f i (a_level g).
Definition with_exprs (g : agrammar) es := mkA (a_rules g) es (a_stream g) (a_funs g) (a_items g) (a_level g).
Definition with_level (g : agrammar) l := mkA (a_rules g) (a_exprs g) (a_stream g) (a_funs g) (a_items g) l.
Definition with_stream (g : agrammar) s i := mkA (a_rules g) (a_exprs g) s (a_funs g) i (a_level g).

(** duplicate.rs:20-27. *)
Definition rule_duplicate (g : agrammar) (rs : list rule) : partial agrammar :=
  pmap (fun kept => with_rules g (map snd kept)) (dup_analyse rname rs).
(** duplicate.rs:29-47; the HashMap of functions is an association list. *)
Definition rust_functions_duplicate (g : agrammar) (items : list rust_item) : partial agrammar :=
  pmap (fun kept => with_rust g (map snd kept) (filter not_fn items))
    (dup_analyse fst (flat_map fn_of items)).

(** ---------------- resolve_non_terminal.rs ---------------- *)
(** resolve_non_terminal.rs:50-58. *)
Definition resolve_here (rs : list rule) (e : expr) : expr :=
  match e with
  | EExt [id] => if existsb (fun r => String.eqb (rname r) id) rs then ENT id else e
  | _ => e
  end.
Definition update {A} (l : list A) (i : nat) (a : A) : list A := firstn i l ++ a :: skipn (S i) l.
(** visitor.rs:102-161 with the method above; the expressions are updated in place. *)
Fixpoint resolve_expr (fuel : nat) (rs : list rule) (i : nat) (es : list expr) : wres (list expr) :=
  match fuel with
  | 0 => WLoop
  | S k =>
    match nth_error es i with
    | None => WPanic
    | Some e =>
      match e with
      | EExt _ => WOk (update es i (resolve_here rs e))
      | _ => (fix go (l : list nat) (es : list expr) : wres (list expr) :=
                match l with [] => WOk es | j :: l' => wbind (resolve_expr k rs j es) (go l') end) (children e) es
      end
    end
  end.
(** resolve_non_terminal.rs:28-36. *)
Fixpoint resolve_from (fuel : nat) (rs : list rule) (idx : list nat) (es : list expr) : wres (list expr) :=
  match idx with [] => WOk es | i :: idx' => wbind (resolve_expr fuel rs i es) (resolve_from fuel rs idx') end.
Definition resolve (fuel : nat) (rs : list rule) (es : list expr) : wres (list expr) :=
  resolve_from fuel rs (map rexpr rs) es.

(** ---------------- useless_chaining.rs ---------------- *)
(** useless_chaining.rs:43-51. *)
Inductive oper := PAnd | PNot | POptional | POneOrMore | PZeroOrMore | PNone.
Definition oper_eqb (a b : oper) : bool :=
  match a, b with
  | PAnd, PAnd | PNot, PNot | POptional, POptional | POneOrMore, POneOrMore | PZeroOrMore, PZeroOrMore | PNone, PNone => true
  | _, _ => false
  end.
(** useless_chaining.rs:88-103: the operator of the suggested rewriting. *)
Definition check_chain (outer inner : oper) (crossed : bool) : option oper :=
  match outer, inner, crossed with
  | PNot, PNot, false => Some PAnd
  | PAnd, PAnd, _ => Some PAnd
  | PNot, PAnd, false => Some PNot
  | PAnd, PNot, _ => Some PNot
  | POptional, POptional, _ => Some POptional
  | POptional, POneOrMore, false => Some PZeroOrMore
  | POptional, PZeroOrMore, _ => Some PZeroOrMore
  | POneOrMore, POneOrMore, _ => Some POneOrMore
  | PZeroOrMore, POneOrMore, _ => Some POneOrMore
  | PZeroOrMore, PZeroOrMore, _ => Some PZeroOrMore
  | _, _, _ => None
  end.

Section Chaining.
Variable G : grammar.
(** useless_chaining.rs:162-170, after the first child. *)
Fixpoint same_oper (ve : nat -> wres (oper * bool)) (l : list nat) (p : oper) (crossed : bool) : wres (oper * bool) :=
  match l with
  | [] => WOk (p, crossed)
  | j :: l' => wbind (ve j) (fun q => if oper_eqb p (fst q) then same_oper ve l' p (crossed || snd q) else WOk (PNone, false))
  end.
(** useless_chaining.rs:129-171: the inner visitor. *)
Fixpoint inner (fuel : nat) (i : nat) : wres (oper * bool) :=
  match fuel with
  | 0 => WLoop
  | S k =>
    match expr_of G i with
    | None => WPanic
    | Some e =>
      match e with
      | EStr _ | EAny | EClass _ | EExt _ => WOk (PNone, false)
      | ENT id => match find_rule G id with
                  | None => WPanic
                  | Some rl => wbind (inner k (rexpr rl)) (fun q => WOk (fst q, true))
                  end
      | EOpt _ => WOk (POptional, false)
      | EPlus _ => WOk (POneOrMore, false)
      | EStar _ => WOk (PZeroOrMore, false)
      | ENot _ => WOk (PNot, false)
      | EAnd _ => WOk (PAnd, false)
      | ESeq [] | EAlt [] => WPanic
      | ESeq (j :: _) => inner k j
      | EAlt (j :: l) => wbind (inner k j) (fun q => same_oper (inner k) (j :: l) (fst q) (snd q))
      | EAct j _ _ | EAsc j _ | ESpan j | ERange j => inner k j
      end
    end
  end.

(** A warning: where, the two operators of the pattern, the operator proposed instead. *)
Record warning := mkW { w_at : nat; w_outer : oper; w_inner : oper; w_new : oper }.
(** useless_chaining.rs:180-206 with 105-110: the outer visitor. *)
Fixpoint outer (fuel ifuel : nat) (i : nat) : wres (list warning) :=
  match fuel with
  | 0 => WLoop
  | S k =>
    let chain op j :=
      wbind (inner ifuel j) (fun q =>
        match check_chain op (fst q) (snd q) with
        | Some new => WOk [mkW i op (fst q) new]
        | None => outer k ifuel j
        end) in
    match expr_of G i with
    | None => WPanic
    | Some e =>
      match e with
      | EPlus j => chain POneOrMore j
      | EStar j => chain PZeroOrMore j
      | EOpt j => chain POptional j
      | ENot j => chain PNot j
      | EAnd j => chain PAnd j
      | _ => (fix go (l : list nat) : wres (list warning) :=
                match l with
                | [] => WOk []
                | j :: l' => wbind (outer k ifuel j) (fun w => wbind (go l') (fun w' => WOk (w ++ w')))
                end) (children e)
      end
    end
  end.
(** useless_chaining.rs:62-72. *)
Fixpoint chaining_from (fuel ifuel : nat) (rs : list rule) : wres (list warning) :=
  match rs with
  | [] => WOk []
  | rl :: rs' => wbind (outer fuel ifuel (rexpr rl)) (fun w => wbind (chaining_from fuel ifuel rs') (fun w' => WOk (w ++ w')))
  end.
Definition chaining (fuel ifuel : nat) : wres (list warning) := chaining_from fuel ifuel (rules G).
End Chaining.

(** ---------------- attribute.rs ---------------- *)
(** attribute.rs:17-53; warnings: Warnings.v. *)
Definition merge_attr (l : level) (attr : list string) : level :=
  match attr with
  | [id] => if String.eqb id "debug_typing" then merge l LDebug
            else if String.eqb id "show_typing" then merge l LShow else l
  | _ => l
  end.
Definition merge_attrs (l : level) (attrs : list (list string)) : level := fold_left merge_attr attrs l.

(** ---------------- analysis/mod.rs:32-43, middle/mod.rs ---------------- *)
(** [fuel]/[passes] bound the loops of the passes. *)
Definition analyse (fuel passes : nat) (fg : fgrammar) : wres (partial agrammar) :=
  pand (rule_duplicate (a_new (f_exprs fg)) (f_rules fg)) (fun g =>
  pand (rust_functions_duplicate g (f_items fg)) (fun g =>
  wbind (resolve fuel (a_rules g) (a_exprs g)) (fun es => let g := with_exprs g es in
  wbind (is_well_formed (shape g) fuel passes) (fun b =>
  if b then
    wbind (chaining (shape g) fuel fuel) (fun _ => WOk (Value (with_level g (merge_attrs (a_level g) (f_attrs fg)))))
  else WOk Nothing)))).

(** middle/mod.rs:50-77. *)
Definition stream_alias_of (it : rust_item) : option (string * string) :=
  match it with RAlias n s => if String.eqb n "Stream" then Some (n, s) else None | _ => None end.
Fixpoint find_map {A B} (f : A -> option B) (l : list A) : option B :=
  match l with [] => None | a :: l' => match f a with Some b => Some b | None => find_map f l' end end.
Definition extract_stream_type (g : agrammar) : agrammar :=
  match find_map stream_alias_of (a_items g) with
  | Some ty => with_stream g ty (a_items g)
  | None => with_stream g (a_stream g) (a_items g ++ [RAlias (fst (a_stream g)) (snd (a_stream g))])
  end.

(** middle/mod.rs:28-47 up to typing: [None] is the abort of [ensure]. *)
Definition middle (fuel passes : nat) (fg : fgrammar) : wres (option agrammar) :=
  match f_rules fg with
  | [] => WOk None
  | _ => wbind (analyse fuel passes fg) (fun r =>
           WOk (match r with Value g => Some (extract_stream_type g) | _ => None end))
  end.
