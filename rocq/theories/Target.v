(** The fragment of Rust emitted by the code generator (src/liboak/back), and its evaluation.

    Simplifications, all stated here once:
    - there is a single [state] variable: the emitted [let state = e], [let mut state = e],
      [state = e] all move the previous value, so they are the same assignment;
    - values are copied, not moved: programs that rustc rejects for using a moved value still run;
    - a closure parameter of type [&mut T] is assigned through, although the emitted text has no
      [*] (rustc rejects those programs, see [PropertiesRustc.v]);
    - the variable [is_success] of predicates and the variable [stateful] of calls are local to one
      statement and folded in it. *)
From Verif Require Import Base Utf8 Stream ParseState Grammar PegSpec.
Set Implicit Arguments.

(** Local identifiers, before rendering (back/name_factory.rs:62-100; rendering is in Names.v).
    [NX] is the identifier "x" of character_class.rs:27-29. *)
Inductive name :=
| NVar (uid i : nat)
| NMark (n : nat)
| NBranch (n : nat)
| NCounter (n : nat)
| NX.

Definition name_eqb (a b : name) : bool :=
  match a, b with
  | NVar u i, NVar v j => (u =? v) && (i =? j)
  | NMark n, NMark m | NBranch n, NBranch m | NCounter n, NCounter m => n =? m
  | NX, NX => true
  | _, _ => false
  end.

(** Conditions on the character just read (character_class.rs:50-71). *)
Inductive cond := KEq (c : N) | KBetween (lo hi : N) | KOr (a b : cond).

(** A called rule: a function of the generated module or an external path. *)
Inductive callee := Local (id : string) | Foreign (p : list string).

(** Emitted expressions; each comment gives the Rust text. *)
Inductive code :=
| CState                                     (* state *)
| CSuccess (vars : list name)                (* state.success((vars)) *)
| CFailure                                   (* state.failure() *)
| CTail (id : string)                        (* recognize_id(state) *)
| CCall (k : nat) (muts frees marks : list name)
      (* success_continuation_k(state, &mut muts, frees, marks.clone()) *)
| CLetMark (m : name) (c : code)             (* let mut m = state.mark(); c *)
| CLetBool (b : name) (v : bool) (c : code)  (* let mut b = v; c *)
| CLetCounter (x : name) (c : code)          (* let mut x = 0; c *)
| CLetNone (x : name) (c : code)             (* let mut x = None; c *)
| CLetVec (x : name) (c : code)              (* let mut x = vec![]; c *)
| CLetAct (x : name) (f : action) (unitv boxed : bool) (args : list name) (c : code)
      (* let x = [Box::new](f[(args)]); c *)
| CLetSpan (x : name) (ranged : bool) (lo : name) (c : code)
      (* let x = Range{start: lo.clone(), end: state.mark()}[.stream_span()]; c *)
| CSetBool (b : name) (v : bool) (c : code)  (* b = v; c *)
| CSetSome (x : name) (vars : list name) (c : code)  (* x = Some((vars)); c *)
| CPush (x : name) (vars : list name) (c : code)     (* x.push((vars)); c *)
| CMatchNext (x : option name) (s f : code)  (* match state.next() { Some(x) => s, None => f } *)
| CMatchClass (x : name) (k : cond) (s f : code)
      (* match state.next() { Some(x) if k(x) => s, _ => f } *)
| CPrefix (lit : list N) (s f : code)        (* if state.consume_prefix(lit) { s } else { f } *)
| CError (m : list N) (c : code)             (* state.error(m); c *)
| CRestore (m : name) (c : code)             (* state = state.restore(m); c *)
| CRestoreFF (m : name) (c : code)           (* state = state.restore_from_failure(m); c *)
| CAssign (b c : code)                       (* state = b; c *)
| CIfFailedRestore (m : name) (c : code)
      (* if state.is_failed() { state = state.restore_from_failure(m); } c *)
| CIfTrue (b : name) (c1 c2 : code)          (* if b { c1 } else { c2 } *)
| CTestRestore (m : name) (c1 c2 : code)
      (* let is_success = state.is_successful(); state = state.restore(m);
         if is_success { c1 } else { c2 } *)
| CCallRec (p : callee) (s f : code)
      (* state = recognize_p(state); if state.is_successful() { state.discard_data(); s } else { f } *)
| CCallPar (p : callee) (vars : list name) (s f : code)
      (* let stateful = parse_p(state); if stateful.is_successful() {
           let (stateless, vars) = stateful.extract_data(); state = stateless; s }
         else { state = stateful.failure(); f } *)
| CLoop (body : code) (counter : option name) (mark : name) (c : code)
      (* loop { state = body; if state.is_successful() { counter += 1; mark = state.mark(); }
                else { break; } } c *)
| CIfLess (x : name) (n : nat) (c1 c2 : code). (* if x < n { c1 } else { c2 } *)

(** let success_continuation_k = |mut state, muts: &mut _, frees: _, marks| body;  (context.rs:157) *)
Record closure := mkClosure { kmuts : list name; kfrees : list name; kmarks : list name; kbody : code }.
Definition ctable := list (nat * closure).
(** One generated function (context.rs:72-85). *)
Record func := mkFunc { fclosures : ctable; fbody : code }.

(** Run-time contents of a local variable. *)
Inductive slot := SVal (v : value) | SStream (s : StrStream) | SBool (b : bool) | SNat (n : nat).
Definition env := list (name * slot).
Notation pst := (pstate value).
Notation alog := (list (action * list value)).

Fixpoint lookup (x : name) (e : env) : option slot :=
  match e with
  | [] => None
  | (y, v) :: e => if name_eqb x y then Some v else lookup x e
  end.
(** Assignment to the innermost variable with that name. *)
Fixpoint update (x : name) (v : slot) (e : env) : env :=
  match e with
  | [] => []
  | (y, w) :: e => if name_eqb x y then (y, v) :: e else (y, w) :: update x v e
  end.

(** Result of running code: a value, fuel exhausted, a Rust panic, or a meaningless program
    (unbound name, ill-typed access) that rustc would reject. *)
Inductive outcome (A : Type) := Done (a : A) | Timeout | Crash | Stuck.
Arguments Done {A}. Arguments Timeout {A}. Arguments Crash {A}. Arguments Stuck {A}.

Definition obind {A B} (r : outcome A) (k : A -> outcome B) : outcome B :=
  match r with Done a => k a | Timeout => Timeout | Crash => Crash | Stuck => Stuck end.
Notation "x <~ r ;; k" := (obind r (fun x => k)) (at level 61, r at next level, right associativity).
Notation "' p <~ r ;; k" := (obind r (fun p => k)) (at level 61, p pattern, r at next level, right associativity).

Definition of_res {A} (r : res A) : outcome A := match r with Ret a => Done a | Panic => Crash end.
Definition of_opt {A} (r : option A) : outcome A := match r with Some a => Done a | None => Stuck end.

Definition get_val e x := match lookup x e with Some (SVal v) => Done v | _ => Stuck end.
Definition get_stream e x := match lookup x e with Some (SStream v) => Done v | _ => Stuck end.
Definition get_bool e x := match lookup x e with Some (SBool v) => Done v | _ => Stuck end.
Definition get_nat e x := match lookup x e with Some (SNat v) => Done v | _ => Stuck end.
Fixpoint get_vals e xs :=
  match xs with [] => Done [] | x :: r => v <~ get_val e x ;; vs <~ get_vals e r ;; Done (v :: vs) end.
Fixpoint get_slots (e : env) (xs : list name) : outcome (list slot) :=
  match xs with
  | [] => Done []
  | x :: r => v <~ of_opt (lookup x e) ;; vs <~ get_slots e r ;; Done (v :: vs)
  end.

Definition out := outcome (pst * env * alog).

Definition after (r : out) (k : pst -> env -> out) : out :=
  '(st, e, l1) <~ r ;; '(st', e', l2) <~ k st e ;; Done (st', e', l1 ++ l2).
(** Leave the scope of a [let]. *)
Definition popped (r : out) : out :=
  '(st, e, l) <~ r ;; match e with _ :: e' => Done (st, e', l) | [] => Stuck end.
(** Leave the scope of several variables. *)
Fixpoint popped_n (n : nat) (r : out) : out :=
  match n with 0 => r | S n => popped_n n (popped r) end.

Definition eval_cond :=
  fix ev (k : cond) (x : N) : bool :=
    match k with
    | KEq c => (x =? c)%N
    | KBetween lo hi => (lo <=? x)%N && (x <=? hi)%N
    | KOr a b => ev a x || ev b x
    end.

(** The pattern [(vars)] against a value: [()], a variable, or a tuple of that length. *)
Definition untup (n : nat) (v : value) : outcome (list value) :=
  match n with
  | 0 => match v with VUnit => Done [] | _ => Stuck end
  | 1 => Done [v]
  | _ => match v with VTuple l => if length l =? n then Done l else Stuck | _ => Stuck end
  end.

Definition set_state (st : pst) (s : StrStream) : pst :=
  mkPS (farthest_read st) (expected st) (failed st) s (data st).

(** Write back the [&mut] arguments of a closure call. *)
Fixpoint write_back (args params : list name) (inner e : env) : outcome env :=
  match args, params with
  | [], [] => Done e
  | a :: args, p :: params =>
    v <~ of_opt (lookup p inner) ;; write_back args params inner (update a v e)
  | _, _ => Stuck
  end.

Section Eval.
(** The generated module: recognizer (Rec) and parser (Par) of each rule. *)
Variable prog : mode -> string -> option func.
(** External functions. *)
Variable xf : mode -> list string -> pst -> outcome (pst * alog).

Fixpoint eval (fuel : nat) (cl : ctable) (c : code) (st : pst) (e : env) {struct fuel} : out :=
  match fuel with
  | 0 => Timeout
  | S n =>
    let call (m : mode) (p : callee) (st : pst) : outcome (pst * alog) :=
      match p with
      | Local id => f <~ of_opt (prog m id) ;;
                    '(st', _, l) <~ eval n (fclosures f) (fbody f) st [] ;; Done (st', l)
      | Foreign p => xf m p st
      end in
    match c with
    | CState => Done (st, e, [])
    | CSuccess vars => vs <~ get_vals e vars ;; Done (success st (tup vs), e, [])
    | CFailure => Done (failure st, e, [])
    | CTail id => '(st', l) <~ call Rec (Local id) st ;; Done (st', e, l)
    | CCall k muts frees marks =>
      match find (fun x => fst x =? k) cl with
      | None => Stuck
      | Some (_, clo) =>
        let args := muts ++ frees ++ marks in
        let params := kmuts clo ++ kfrees clo ++ kmarks clo in
        if length args =? length params then
          vs <~ get_slots e args ;;
          '(st', e1, l) <~ eval n cl (kbody clo) st (combine params vs) ;;
          e' <~ write_back muts (kmuts clo) e1 e ;;
          Done (st', e', l)
        else Stuck
      end
    | CLetMark m c => s <~ of_res (mark st) ;; popped (eval n cl c st ((m, SStream s) :: e))
    | CLetBool b v c => popped (eval n cl c st ((b, SBool v) :: e))
    | CLetCounter x c => popped (eval n cl c st ((x, SNat 0) :: e))
    | CLetNone x c => popped (eval n cl c st ((x, SVal VNone) :: e))
    | CLetVec x c => popped (eval n cl c st ((x, SVal (VVec [])) :: e))
    | CLetAct x f unitv boxed args c =>
      vs <~ get_vals e args ;;
      let v := if unitv then VCtor f else VAct f vs in
      let v := if boxed then VBox v else v in
      after (Done (st, e, if unitv then [] else [(f, vs)]))
            (fun st e => popped (eval n cl c st ((x, SVal v) :: e)))
    | CLetSpan x ranged lo c =>
      l <~ get_stream e lo ;; h <~ of_res (mark st) ;;
      let v := if ranged then VRange (bytes_offset l) (bytes_offset h)
               else VSpan (fst (stream_span l h)) (snd (stream_span l h)) in
      popped (eval n cl c st ((x, SVal v) :: e))
    | CSetBool b v c => _ <~ get_bool e b ;; eval n cl c st (update b (SBool v) e)
    | CSetSome x vars c =>
      _ <~ get_val e x ;; vs <~ get_vals e vars ;; eval n cl c st (update x (SVal (VSome (tup vs))) e)
    | CPush x vars c =>
      v <~ get_val e x ;;
      match v with
      | VVec l => vs <~ get_vals e vars ;; eval n cl c st (update x (SVal (VVec (l ++ [tup vs]))) e)
      | _ => Stuck
      end
    | CMatchNext x s f =>
      '(o, st') <~ of_res (ps_next st) ;;
      match o with
      | Some ch => match x with
                   | Some x => popped (eval n cl s st' ((x, SVal (VChar ch)) :: e))
                   | None => eval n cl s st' e
                   end
      | None => eval n cl f st' e
      end
    | CMatchClass x k s f =>
      '(o, st') <~ of_res (ps_next st) ;;
      match o with
      | Some ch => if eval_cond k ch then popped (eval n cl s st' ((x, SVal (VChar ch)) :: e))
                   else eval n cl f st' e
      | None => eval n cl f st' e
      end
    | CPrefix lit s f =>
      let (b, st') := ps_consume_prefix st (enc lit) in
      if b then eval n cl s st' e else eval n cl f st' e
    | CError m c => eval n cl c (error st m) e
    | CRestore m c => s <~ get_stream e m ;; st' <~ of_res (restore st s) ;; eval n cl c st' e
    | CRestoreFF m c =>
      s <~ get_stream e m ;; st' <~ of_res (restore_from_failure st s) ;; eval n cl c st' e
    | CAssign b c => after (eval n cl b st e) (fun st' e' => eval n cl c st' e')
    | CIfFailedRestore m c =>
      if is_failed st then
        s <~ get_stream e m ;; st' <~ of_res (restore_from_failure st s) ;; eval n cl c st' e
      else eval n cl c st e
    | CIfTrue b c1 c2 => v <~ get_bool e b ;; if (v : bool) then eval n cl c1 st e else eval n cl c2 st e
    | CTestRestore m c1 c2 =>
      let ok := is_successful st in
      s <~ get_stream e m ;; st' <~ of_res (restore st s) ;;
      if ok then eval n cl c1 st' e else eval n cl c2 st' e
    | CCallRec p s f =>
      '(st', l) <~ call Rec p st ;;
      after (Done (st', e, l)) (fun st' e =>
        if is_successful st' then eval n cl s (discard_data st') e else eval n cl f st' e)
    | CCallPar p vars s f =>
      '(st', l) <~ call Par p st ;;
      after (Done (st', e, l)) (fun st' e =>
        if is_successful st' then
          '(st2, v) <~ of_res (extract_data st') ;;
          vs <~ untup (length vars) v ;;
          popped_n (length vars) (eval n cl s st2 (combine vars (map SVal vs) ++ e))
        else eval n cl f (failure st') e)
    | CLoop body counter mk c =>
      after (eval n cl body st e) (fun st1 e1 =>
        if is_successful st1 then
          e2 <~ match counter with
                | Some x => k <~ get_nat e1 x ;; Done (update x (SNat (k + 1)) e1)
                | None => Done e1
                end ;;
          s <~ of_res (mark st1) ;;
          _ <~ get_stream e2 mk ;;
          eval n cl (CLoop body counter mk c) st1 (update mk (SStream s) e2)
        else eval n cl c st1 e1)
    | CIfLess x k c1 c2 => v <~ get_nat e x ;; if v <? k then eval n cl c1 st e else eval n cl c2 st e
    end
  end.

(** Calling a generated function from outside. *)
Definition run_fn (fuel : nat) (m : mode) (id : string) (st : pst) : outcome (pst * alog) :=
  match prog m id with
  | None => Stuck
  | Some f => '(st', _, l) <~ eval fuel (fclosures f) (fbody f) st [] ;; Done (st', l)
  end.

End Eval.
