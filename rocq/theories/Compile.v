(** The code generator: src/liboak/back (context.rs, continuation.rs, name_factory.rs, compiler/). *)
From Verif Require Import Base Grammar PegSpec Target.
Set Implicit Arguments.

(** Ways the generator stops.  The first four are panics of the Rust code. *)
Inductive cerr :=
| FreeVarsAllBound      (* context.rs:211 expect("Free variables are all bound."); 216-217 index error *)
| NotAllBound           (* context.rs:262 assert *)
| BadRust               (* unwrap on None / unreachable! / index out of bounds *)
| EmptyClass            (* character_class.rs:62 expect *)
| OutOfFuel.            (* not a panic: the model's recursion bound, excluded by the theorems *)

Inductive cres (A : Type) := COk (a : A) | CErr (e : cerr).
Arguments COk {A}. Arguments CErr {A}.
Definition cbind {A B} (r : cres A) (k : A -> cres B) : cres B :=
  match r with COk a => k a | CErr e => CErr e end.
Notation "x <-- r ;; k" := (cbind r (fun x => k)) (at level 61, r at next level, right associativity).
Notation "' p <-- r ;; k" := (cbind r (fun p => k)) (at level 61, p pattern, r at next level, right associativity).

(** context.rs:26-35 with name_factory.rs:41-60 inlined.  [closures] is in creation order. *)
Record ctx := mkCtx {
  prefix_uid : nat; mark_uid : nat; branch_uid : nat; counter_uid : nat; closure_uid : nat;
  closures : ctable;
  frees : list name;
  marks : list name;
  muts : list name;
  ncomb : nat
}.

(** context.rs:39-50, name_factory.rs:52-60. *)
Definition new_ctx : ctx := mkCtx 1 0 0 0 0 [] [] [] [] 0.

Definition with_frees (x : ctx) (l : list name) : ctx :=
  mkCtx (prefix_uid x) (mark_uid x) (branch_uid x) (counter_uid x) (closure_uid x)
        (closures x) l (marks x) (muts x) (ncomb x).
Definition with_marks (x : ctx) (l : list name) : ctx :=
  mkCtx (prefix_uid x) (mark_uid x) (branch_uid x) (counter_uid x) (closure_uid x)
        (closures x) (frees x) l (muts x) (ncomb x).
Definition with_muts (x : ctx) (l : list name) : ctx :=
  mkCtx (prefix_uid x) (mark_uid x) (branch_uid x) (counter_uid x) (closure_uid x)
        (closures x) (frees x) (marks x) l (ncomb x).
Definition with_ncomb (x : ctx) (n : nat) : ctx :=
  mkCtx (prefix_uid x) (mark_uid x) (branch_uid x) (counter_uid x) (closure_uid x)
        (closures x) (frees x) (marks x) (muts x) n.

(** name_factory.rs:62-80. *)
Definition next_mark (x : ctx) : name * ctx :=
  (NMark (S (mark_uid x)),
   mkCtx (prefix_uid x) (S (mark_uid x)) (branch_uid x) (counter_uid x) (closure_uid x)
         (closures x) (frees x) (marks x) (muts x) (ncomb x)).
Definition next_branch (x : ctx) : name * ctx :=
  (NBranch (S (branch_uid x)),
   mkCtx (prefix_uid x) (mark_uid x) (S (branch_uid x)) (counter_uid x) (closure_uid x)
         (closures x) (frees x) (marks x) (muts x) (ncomb x)).
Definition next_counter (x : ctx) : name * ctx :=
  (NCounter (S (counter_uid x)),
   mkCtx (prefix_uid x) (mark_uid x) (branch_uid x) (S (counter_uid x)) (closure_uid x)
         (closures x) (frees x) (marks x) (muts x) (ncomb x)).
(** name_factory.rs:82-87. *)
Definition fresh_vars (n : nat) (x : ctx) : list name * ctx :=
  (map (NVar (prefix_uid x)) (seq 0 n),
   mkCtx (S (prefix_uid x)) (mark_uid x) (branch_uid x) (counter_uid x) (closure_uid x)
         (closures x) (frees x) (marks x) (muts x) (ncomb x)).

(** context.rs:210-212 (Vec::pop). *)
Definition next_free_var (x : ctx) : cres (name * ctx) :=
  match rev (frees x) with
  | v :: r => COk (v, with_frees x (rev r))
  | [] => CErr FreeVarsAllBound
  end.
(** context.rs:214-218 (Vec::remove(len - 1 - card), which panics when out of range). *)
Definition next_free_var_skip (card : nat) (x : ctx) : cres (name * ctx) :=
  match nth_error (rev (frees x)) card with
  | Some v => COk (v, with_frees x (rev (firstn card (rev (frees x)) ++ skipn (S card) (rev (frees x)))))
  | None => CErr FreeVarsAllBound
  end.
(** non_terminal.rs:84-89: [card] pops, then reverse. *)
Fixpoint pop_vars (n : nat) (x : ctx) : cres (list name * ctx) :=
  match n with
  | 0 => COk ([], x)
  | S n => '(v, x1) <-- next_free_var x ;; '(vs, x2) <-- pop_vars n x1 ;; COk (vs ++ [v], x2)
  end.

(** context.rs:284-297, 267-279. *)
Record scope := mkScope { sc_ncomb : nat; sc_frees : list name; sc_muts : list name }.
Definition save_scope (x : ctx) : scope := mkScope (ncomb x) (frees x) (muts x).
Definition restore_scope (s : scope) (x : ctx) : ctx :=
  with_ncomb (with_muts (with_frees x (sc_frees s)) (sc_muts s)) (sc_ncomb s).
(** context.rs:251-259; [card] is the cardinality of the expression. *)
Definition open_scope (card : nat) (x : ctx) : scope * ctx :=
  let '(vars, x1) := fresh_vars card (with_muts (with_ncomb x 0) []) in
  (save_scope x, with_frees x1 vars).
(** context.rs:261-265. *)
Definition close_scope (s : scope) (x : ctx) : cres ctx :=
  match frees x with [] => COk (restore_scope s x) | _ => CErr NotAllBound end.
(** context.rs:222-241. *)
Definition push_mark (m : name) (x : ctx) : ctx := with_marks x (marks x ++ [m]).
Definition pop_mark (x : ctx) : ctx := with_marks x (removelast (marks x)).
Definition push_mut (m : name) (x : ctx) : ctx := with_muts x (muts x ++ [m]).
Definition pop_mut (x : ctx) : cres ctx :=
  match muts x with [] => CErr BadRust | _ => COk (with_muts x (removelast (muts x))) end.

(** context.rs:147-165 (closure_params 167-181 and closure_args 183-196 use the same three lists). *)
Definition success_as_closure (s : code) (x : ctx) : code * ctx :=
  if 0 <? ncomb x then
    let k := S (closure_uid x) in
    (CCall k (muts x) (frees x) (marks x),
     mkCtx (prefix_uid x) (mark_uid x) (branch_uid x) (counter_uid x) k
           (closures x ++ [(k, mkClosure (muts x) (frees x) (marks x) s)])
           (frees x) (marks x) (muts x) 0)
  else (s, x).

(** character_class.rs:50-71. *)
Definition compile_interval (i : N * N) : cond :=
  if (fst i =? snd i)%N then KEq (fst i) else KBetween (fst i) (snd i).
Definition compile_condition (cls : list (N * N)) : cres cond :=
  match cls with
  | [] => CErr EmptyClass
  | i :: r => COk (fold_left (fun acc j => KOr acc (compile_interval j)) r (compile_interval i))
  end.

(** choice.rs:74-84: the fold over the branches after the first. *)
Fixpoint choice_code (bf mk : name) (bs : list code) : code :=
  match bs with
  | [] => CState
  | b :: r => CIfTrue bf (CRestoreFF mk (CAssign b (choice_code bf mk r))) CState
  end.

(** optional.rs:39-54. *)
Definition optional_code (s body : code) (x : ctx) : code * ctx :=
  let '(m, x1) := next_mark x in (CLetMark m (CAssign body (CIfFailedRestore m s)), x1).

(** repeat.rs:42-100. *)
Definition repeat_code (min : nat) (s f body : code) (x : ctx) : code * ctx :=
  let '(m, x1) := next_mark x in
  if 0 <? min then
    let '(k, x2) := next_counter x1 in
    (CLetMark m (CLetCounter k (CLoop body (Some k) m (CIfLess k min f (CRestoreFF m s)))), x2)
  else (CLetMark m (CLoop body None m (CRestoreFF m s)), x1).

Section Gen.
Variable G : grammar.

(** compiler/mod.rs:63-109: which compiler is used for expression [i]: [parser_compiler] of a unit
    typed expression is [recognizer_compiler]. *)
Definition eff_mode (m : mode) (i : nat) : cres mode :=
  match m with
  | Rec => COk Rec
  | Par => match ty_of G i with
           | Some t => COk (if ty_is_unit t then Rec else Par)
           | None => CErr BadRust
           end
  end.

(** sequence.rs:40-51: the fold from the right, each step a [compile_success]. *)
Definition compile_seq (comp : nat -> code -> ctx -> cres (code * ctx)) :=
  fix go (l : list nat) (s : code) (x : ctx) : cres (code * ctx) :=
    match l with
    | [] => COk (s, x)
    | i :: r =>
      '(s1, x1) <-- go r s x ;;
      '(c, x2) <-- comp i s1 x1 ;;
      COk (c, with_ncomb x2 (S (ncomb x2)))
    end.

(** choice.rs:51-71: all branches but the last are compiled with [bf = false] before the success
    continuation; the scope is restored before each branch. *)
Definition compile_branches (comp : nat -> code -> ctx -> cres (code * ctx)) (sc : scope) (bf : name) (s : code) :=
  fix go (l : list nat) (x : ctx) : cres (list code * ctx) :=
    match l with
    | [] => CErr BadRust
    | [i] =>
      x1 <-- pop_mut (restore_scope sc x) ;;
      '(c, x2) <-- comp i s x1 ;;
      COk ([c], x2)
    | i :: r =>
      '(c, x1) <-- comp i (CSetBool bf false s) (restore_scope sc x) ;;
      '(cs, x2) <-- go r (with_ncomb x1 (S (ncomb x1))) ;;
      COk (c :: cs, x2)
    end.

(** [compile fuel m i s x]: expression [i], success continuation [s]; the failure continuation is
    [state.failure()] everywhere (context.rs:119-120, 139, syntactic_predicate.rs:47, rule.rs:48, 66).
    The result carries the updated context. *)
Fixpoint compile (fuel : nat) (m0 : mode) (i : nat) (s : code) (x : ctx) : cres (code * ctx) :=
  match fuel with
  | 0 => CErr OutOfFuel
  | S fuel =>
    let f := CFailure in
    (* context.rs:109-115 *)
    let compile_success m i s x :=
      '(c, x1) <-- compile fuel m i s x ;; COk (c, with_ncomb x1 (S (ncomb x1))) in
    (* context.rs:117-124 *)
    let compile_recognizer_expr i x := compile_success Rec i CState x in
    m <-- eff_mode m0 i ;;
    match expr_of G i with
    | None => CErr BadRust
    (* str_literal.rs:35-53 *)
    | Some (EStr lit) => COk (CPrefix lit s (CError lit f), x)
    (* any_single_char.rs:20-68 *)
    | Some EAny =>
      match m with
      | Rec => COk (CMatchNext None s (CError any_desc f), x)
      | Par => '(v, x1) <-- next_free_var x ;; COk (CMatchNext (Some v) s (CError any_desc f), x1)
      end
    (* character_class.rs:74-101 *)
    | Some (EClass cls) =>
      '(v, x1) <-- match m with Rec => COk (NX, x) | Par => next_free_var x end ;;
      k <-- compile_condition cls ;;
      let '(mk, x2) := next_mark x1 in
      COk (CLetMark mk (CMatchClass v k s (CRestore mk (CError (class_desc cls) f))), x2)
    (* non_terminal.rs:45-110 *)
    | Some (ENT id) =>
      match m with
      | Rec => COk (CCallRec (Local id) s f, x)
      | Par => '(vs, x1) <-- pop_vars (card G i) x ;; COk (CCallPar (Local id) vs s f, x1)
      end
    | Some (EExt p) =>
      match m with
      | Rec => COk (CCallRec (Foreign p) s f, x)
      | Par => '(vs, x1) <-- pop_vars (card G i) x ;; COk (CCallPar (Foreign p) vs s f, x1)
      end
    | Some (ESeq l) => compile_seq (compile fuel m) l s x
    (* choice.rs:40-93 *)
    | Some (EAlt l) =>
      let '(s1, x1) := success_as_closure s x in
      let '(mk, x2) := next_mark x1 in
      let '(bf, x3) := next_branch x2 in
      let x4 := push_mut bf x3 in
      '(bs, x5) <-- compile_branches (compile fuel m) (save_scope x4) bf s1 l x4 ;;
      match bs with
      | [] => CErr BadRust
      | b :: r => COk (CLetMark mk (CLetBool bf true (CAssign b (choice_code bf mk r))), x5)
      end
    (* optional.rs:56-97, context.rs:126-145 *)
    | Some (EOpt e) =>
      match m with
      | Rec => '(body, x1) <-- compile_recognizer_expr e x ;; COk (optional_code s body x1)
      | Par =>
        '(r, x1) <-- next_free_var x ;;
        let '(sc, x2) := open_scope (card G e) x1 in
        let x3 := push_mut r x2 in
        '(body, x4) <-- compile_success Par e (CSetSome r (frees x3) CState) x3 ;;
        x5 <-- close_scope sc x4 ;;
        let '(c, x6) := optional_code s body x5 in
        COk (CLetNone r c, x6)
      end
    (* repeat.rs:102-137 *)
    | Some (EStar e) =>
      match m with
      | Rec => '(body, x1) <-- compile_recognizer_expr e x ;; COk (repeat_code 0 s f body x1)
      | Par =>
        '(r, x1) <-- next_free_var x ;;
        let '(sc, x2) := open_scope (card G e) x1 in
        let x3 := push_mut r x2 in
        '(body, x4) <-- compile_success Par e (CPush r (frees x3) CState) x3 ;;
        x5 <-- close_scope sc x4 ;;
        let '(c, x6) := repeat_code 0 s f body x5 in
        COk (CLetVec r c, x6)
      end
    | Some (EPlus e) =>
      match m with
      | Rec => '(body, x1) <-- compile_recognizer_expr e x ;; COk (repeat_code 1 s f body x1)
      | Par =>
        '(r, x1) <-- next_free_var x ;;
        let '(sc, x2) := open_scope (card G e) x1 in
        let x3 := push_mut r x2 in
        '(body, x4) <-- compile_success Par e (CPush r (frees x3) CState) x3 ;;
        x5 <-- close_scope sc x4 ;;
        let '(c, x6) := repeat_code 1 s f body x5 in
        COk (CLetVec r c, x6)
      end
    (* syntactic_predicate.rs:36-74; mod.rs:84-86 *)
    | Some (ENot e) =>
      match m with
      | Rec =>
        let '(mk, x1) := next_mark x in
        '(body, x2) <-- compile_success Rec e CState x1 ;;
        COk (CLetMark mk (CAssign body (CTestRestore mk f s)), x2)
      | Par => CErr BadRust
      end
    | Some (EAnd e) =>
      match m with
      | Rec =>
        let '(mk, x1) := next_mark x in
        '(body, x2) <-- compile_success Rec e CState x1 ;;
        COk (CLetMark mk (CAssign body (CTestRestore mk s f)), x2)
      | Par => CErr BadRust
      end
    (* semantic_action.rs:33-75; mod.rs:103-107 *)
    | Some (EAct e boxed act) =>
      match m with
      | Rec => compile fuel Rec e s x
      | Par =>
        '(r, x1) <-- next_free_var x ;;
        let '(sc, x2) := open_scope (card G e) x1 in
        '(c, x3) <-- compile_success Par e
            (CLetAct r act (unit_variant act (is_unit G e)) boxed (frees x2) s) x2 ;;
        x4 <-- close_scope sc x3 ;;
        COk (c, x4)
      end
    (* mod.rs:81, 104 *)
    | Some (EAsc e _) => compile fuel m e s x
    (* spanned_expr.rs:29-61; mod.rs:105-106 *)
    | Some (ESpan e) =>
      match m with
      | Rec => compile fuel Rec e s x
      | Par =>
        let '(lo, x1) := next_mark x in
        '(r, x2) <-- next_free_var_skip (card G e) x1 ;;
        '(c, x3) <-- compile_success Par e (CLetSpan r false lo s) (push_mark lo x2) ;;
        COk (CLetMark lo c, pop_mark x3)
      end
    | Some (ERange e) =>
      match m with
      | Rec => compile fuel Rec e s x
      | Par =>
        let '(lo, x1) := next_mark x in
        '(r, x2) <-- next_free_var_skip (card G e) x1 ;;
        '(c, x3) <-- compile_success Par e (CLetSpan r true lo s) (push_mark lo x2) ;;
        COk (CLetMark lo c, pop_mark x3)
      end
    end
  end.

Definition gen_fuel : nat := S (length (exprs G)).

(** rule.rs:41-52. *)
Definition gen_recognizer (rl : rule) : cres func :=
  '(c, x) <-- compile gen_fuel Rec (rexpr rl) (CSuccess []) new_ctx ;;
  COk (mkFunc (closures x) c).

(** rule.rs:54-77. *)
Definition gen_parser (rl : rule) : cres func :=
  match ty_of G (rexpr rl) with
  | None => CErr BadRust
  | Some t =>
    if ty_is_unit t then COk (mkFunc [] (CTail (rname rl)))
    else
      let '(sc, x1) := open_scope (card G (rexpr rl)) new_ctx in
      '(c, x2) <-- compile gen_fuel Par (rexpr rl) (CSuccess (frees x1)) x1 ;;
      x3 <-- close_scope sc x2 ;;
      COk (mkFunc (closures x3) c)
  end.

Definition gen_rule (m : mode) (rl : rule) : cres func :=
  match m with Rec => gen_recognizer rl | Par => gen_parser rl end.

(** grammar.rs:63-67: a function for each rule; calls resolve by name (the front end has rejected
    duplicates, see Analysis.v). *)
Definition gen_prog (m : mode) (id : string) : option func :=
  match find_rule G id with
  | Some rl => match gen_rule m rl with COk f => Some f | CErr _ => None end
  | None => None
  end.

(** The generator as a whole does not panic. *)
Definition gen_ok : Prop := forall rl m, In rl (rules G) -> exists f, gen_rule m rl = COk f.

End Gen.
