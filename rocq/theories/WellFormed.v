(** The well-formedness analysis: src/liboak/middle/analysis/well_formedness.rs. *)
From Verif Require Import Base Grammar.
Set Implicit Arguments. Unset Strict Implicit.

(** well_formedness.rs:21-28. *)
Record wfa := mkWfa { can_fail : bool; can_succeed : bool; always_consume : bool; never_consume : bool }.
(** well_formedness.rs:32-39. *)
Definition always_succeed (nc : bool) : wfa := mkWfa false true false nc.
(** well_formedness.rs:42-51. *)
Definition wfa_default : wfa := mkWfa true true true false.
(** well_formedness.rs:20 [derive(PartialEq)]. *)
Definition wfa_eqb (a b : wfa) : bool :=
  eqb (can_fail a) (can_fail b) && eqb (can_succeed a) (can_succeed b) &&
  eqb (always_consume a) (always_consume b) && eqb (never_consume a) (never_consume b).

(** Result of the analysis: a value, a panic (assertion, failed lookup, index out of bounds), or
    no answer within the fuel. *)
Inductive wres (A : Type) := WOk (a : A) | WPanic | WLoop.
Arguments WOk {A} a. Arguments WPanic {A}. Arguments WLoop {A}.
Definition wbind {A B} (r : wres A) (k : A -> wres B) : wres B :=
  match r with WOk a => k a | WPanic => WPanic | WLoop => WLoop end.

(** The errors reported, with the expressions (or rules) that they name; the texts are well_formedness.rs:178-186 (a cycle of
    rules, in calling order, [display_path_cycle]), 193-195, 202-204, 211-215 and 223-230 (the choice, and the branch that
    always succeeds). *)
Inductive diag :=
| DLeft (cycle : list string)
| DNever (e : nat)
| DAlways (e : nat)
| DLoop (e : nat)
| DBranch (choice branch : nat).

(** well_formedness.rs:53-62.  [wdiag]: what was emitted, the last first.  [wpath] has the innermost rule first (the Vec has it last);
    the HashMap is a partial function, the HashSet a list. *)
Record wst := mkWst {
  wpath : list (string * bool);
  wcons : bool;
  wtab : string -> option wfa;
  wfix : bool;
  wok : bool;
  werrs : list nat;
  wdiag : list diag
}.
Definition with_cons (st : wst) (b : bool) := mkWst (wpath st) b (wtab st) (wfix st) (wok st) (werrs st) (wdiag st).
Definition with_path (st : wst) p := mkWst p (wcons st) (wtab st) (wfix st) (wok st) (werrs st) (wdiag st).
Definition with_fix (st : wst) (b : bool) := mkWst (wpath st) (wcons st) (wtab st) b (wok st) (werrs st) (wdiag st).
Definition with_ok (st : wst) (b : bool) := mkWst (wpath st) (wcons st) (wtab st) (wfix st) b (werrs st) (wdiag st).
Definition with_tab (st : wst) t := mkWst (wpath st) (wcons st) t (wfix st) (wok st) (werrs st) (wdiag st).

Section Analysis.
Variable G : grammar.

(** well_formedness.rs:82-94. *)
Definition wst_new : wst :=
  mkWst [] false (fun id => if find_rule G id then Some wfa_default else None) false true [] [].

(** well_formedness.rs:238-240 [register_error] followed by the [if] of 191-236: [well_formed] is
    cleared, and the error [d] emitted, only for the first error on that expression. *)
Definition report (d : diag) (i : nat) (st : wst) : wst :=
  if existsb (Nat.eqb i) (werrs st) then st
  else mkWst (wpath st) (wcons st) (wtab st) (wfix st) false (i :: werrs st) (d :: wdiag st).

(** well_formedness.rs:143-145. *)
Definition is_rec (id : string) (st : wst) : bool := existsb (fun q => String.eqb (fst q) id) (wpath st).
(** well_formedness.rs:147-152. *)
Fixpoint rec_path_from (id : string) (p : list (string * bool)) : list (string * bool) :=
  match p with
  | [] => []
  | q :: p' => if String.eqb (fst q) id then [] else q :: rec_path_from id p'
  end.
(** well_formedness.rs:154-160. *)
Definition consume_input_since (id : string) (st : wst) : bool :=
  fold_left (fun acc q => acc || snd q) (rec_path_from id (wpath st)) false.

(** well_formedness.rs:170-189. *)
Definition error_left_recursion (id : string) (st : wst) : wres wst :=
  match find_rule G id with
  | None => WPanic
  | Some rl => WOk (report (DLeft (id :: rev (map fst (rec_path_from id (wpath st))))) (rexpr rl) (with_ok st false))
  end.

(** well_formedness.rs:126-129. *)
Definition push_rule (id : string) (st : wst) : wst :=
  with_cons (with_path st ((id, wcons st) :: wpath st)) false.
(** well_formedness.rs:131-134; the [unwrap] panics on an empty path. *)
Definition pop_rule (st : wst) : wres wst :=
  match wpath st with [] => WPanic | (_, c) :: p => WOk (with_cons (with_path st p) c) end.
(** well_formedness.rs:136-141. *)
Definition fixpoint_update (a : wfa) (id : string) (st : wst) : wres wst :=
  match wtab st id with
  | None => WPanic
  | Some b => WOk (if wfa_eqb a b then st
                   else with_fix (with_tab st (fun x => if String.eqb x id then Some a else wtab st x)) false)
  end.

Section Visitor.
(** The visitor's recursive call. *)
Variable ve : nat -> wst -> wres (wfa * wst).

(** well_formedness.rs:106-124. *)
Definition visit_rule (id : string) (st : wst) : wres (wfa * wst) :=
  wbind (if is_rec id st then
           if negb (consume_input_since id st) && negb (wcons st) then error_left_recursion id st else WOk st
         else match find_rule G id with
              | None => WPanic
              | Some rl =>
                wbind (ve (rexpr rl) (push_rule id st)) (fun q =>
                wbind (pop_rule (snd q)) (fun st2 => fixpoint_update (fst q) id st2))
              end)
    (fun st' => match wtab st' id with Some a => WOk (a, st') | None => WPanic end).

(** well_formedness.rs:280-289. *)
Definition visit_repeat (this child : nat) (st : wst) : wres (wfa * wst) :=
  wbind (ve child st) (fun q =>
    if can_succeed (fst q) && negb (always_consume (fst q)) then WOk (wfa_default, report (DLoop this) this (snd q))
    else WOk q).

(** well_formedness.rs:301-307. *)
Definition visit_predicate (child : nat) (st : wst) : wres (wfa * wst) :=
  wbind (ve child st) (fun q =>
    WOk (mkWfa (can_fail (fst q)) (can_succeed (fst q)) false true, snd q)).

(** well_formedness.rs:322-336, from branch [l] on. *)
Fixpoint visit_choice_from (this : nat) (l : list nat) (a : wfa) (st : wst) : wres (wfa * wst) :=
  match l with
  | [] => WOk (a, st)
  | i :: l' =>
    wbind (ve i st) (fun q =>
      let c := fst q in
      let st' := with_cons (snd q) (wcons st) in
      let a' := mkWfa (can_fail a && can_fail c) (can_succeed a || can_succeed c)
                      (always_consume a && always_consume c) (never_consume a && never_consume c) in
      match l' with
      | [] => WOk (a', st')
      | _ :: _ => if negb (can_fail c) then WOk (a', report (DBranch this i) i st') else visit_choice_from this l' a' st'
      end)
  end.

(** well_formedness.rs:347-356, from child [l] on. *)
Fixpoint visit_sequence_from (l : list nat) (a : wfa) (st : wst) : wres (wfa * wst) :=
  match l with
  | [] => WOk (a, st)
  | i :: l' =>
    wbind (ve i st) (fun q =>
      let c := fst q in
      let a' := mkWfa (can_fail a || can_fail c) (can_succeed a && can_succeed c)
                      (always_consume a || always_consume c) (never_consume a && never_consume c) in
      visit_sequence_from l' a' (if always_consume c then with_cons (snd q) true else snd q))
  end.

(** visitor.rs:102-155 [walk_expr] with the overridden methods of well_formedness.rs:265-359. *)
Definition walk (this : nat) (st : wst) : wres (wfa * wst) :=
  match expr_of G this with
  | None => WPanic
  | Some e =>
    match e with
    | EStr [] => WOk (mkWfa false true false false, st)                       (* 265-274 *)
    | EStr (_ :: _) | EAny | EClass _ | EExt _ => WOk (wfa_default, st)        (* visitor.rs defaults *)
    | ENT id => visit_rule id st                                               (* 276-278 *)
    | ESeq l =>                                                                (* 339-359 *)
      wbind (visit_sequence_from l (mkWfa false true false true) st)
        (fun q => WOk (fst q, with_cons (snd q) (wcons st)))
    | EAlt l => visit_choice_from this l (mkWfa true false true true) st       (* 315-337 *)
    | EStar e' => wbind (visit_repeat this e' st) (fun q => WOk (always_succeed (never_consume (fst q)), snd q))
    | EPlus e' => visit_repeat this e' st                                      (* visitor.rs:52-54 *)
    | EOpt e' => wbind (ve e' st) (fun q => WOk (always_succeed (never_consume (fst q)), snd q))
    | EAnd e' => visit_predicate e' st
    | ENot e' => wbind (visit_predicate e' st) (fun q =>                       (* 309-313 *)
        WOk (mkWfa (can_succeed (fst q)) (can_fail (fst q)) (always_consume (fst q)) (never_consume (fst q)), snd q))
    | EAct e' _ _ | EAsc e' _ | ESpan e' | ERange e' => ve e' st
    end
  end.
End Visitor.

(** well_formedness.rs:248-263, the recursion bounded by [fuel]. *)
Fixpoint visit_expr (fuel : nat) (this : nat) (st : wst) : wres (wfa * wst) :=
  match fuel with
  | 0 => WLoop
  | S k =>
    wbind (walk (visit_expr k) this st) (fun q =>
      let a := fst q in
      let st' := snd q in
      if negb (can_fail a || can_succeed a) then WPanic
      else if negb (negb (always_consume a) || negb (never_consume a)) then WPanic
      else if can_fail a && negb (can_succeed a) then
        WOk (mkWfa (can_fail a) true (always_consume a) (never_consume a), report (DNever this) this st')
      else if can_succeed a && negb (can_fail a) && never_consume a then
        WOk (mkWfa (can_fail a) (can_succeed a) (always_consume a) false, report (DAlways this) this st')
      else WOk (a, st'))
  end.

(** well_formedness.rs:99-102: one pass over the rules. *)
Fixpoint visit_pass (fuel : nat) (rs : list rule) (st : wst) : wres wst :=
  match rs with
  | [] => WOk st
  | rl :: rs' =>
    wbind (visit_rule (visit_expr fuel) (rname rl) st) (fun q =>
      if wok (snd q) then visit_pass fuel rs' (snd q) else WOk (snd q))
  end.

(** well_formedness.rs:96-104: at most [passes] iterations. *)
Fixpoint visit_rules (fuel passes : nat) (st : wst) : wres wst :=
  if negb (wfix st) && wok st then
    match passes with
    | 0 => WLoop
    | S k => wbind (visit_pass fuel (rules G) (with_fix st true)) (visit_rules fuel k)
    end
  else WOk st.

(** well_formedness.rs:76-80. *)
Definition is_well_formed (fuel passes : nat) : wres bool :=
  wbind (visit_rules fuel passes wst_new) (fun st => WOk (wok st)).

(** What is_well_formed emits, in order. *)
Definition emitted (fuel passes : nat) : wres (list diag) :=
  wbind (visit_rules fuel passes wst_new) (fun st => WOk (rev (wdiag st))).

(** The verdict of the analysis: it returns [b]. *)
Definition analysis_returns (b : bool) : Prop := exists fuel passes, is_well_formed fuel passes = WOk b.
Definition accepted : Prop := analysis_returns true.
End Analysis.
