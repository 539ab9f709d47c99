(** Specification: the types rustc gives to the generated functions.  Only what Oak decides is typed: the names of the types that
    belong to Rust are forgotten ([SRust], TreeShapes.v); the functions called by actions take what [d_act] says. *)
From Verif Require Import Base Grammar PegSpec Target TreeShapes.
Set Implicit Arguments. Unset Strict Implicit.
Open Scope list_scope.

(** Types of the local variables: values, marks (streams), flags, counters. *)
Inductive lty := LVal (t : tsh) | LStream | LBool | LNat.
(** What is known of a variable: its type, and whether the code may assign it: it may if it declares it or receives it as [&mut]. *)
Definition lenv := list (name * (lty * bool)).
Fixpoint known (x : name) (V : lenv) : option (lty * bool) :=
  match V with [] => None | (y, k) :: V => if name_eqb x y then Some k else known x V end.
Definition is_a (V : lenv) (x : name) (t : lty) : Prop := exists b, known x V = Some (t, b).
Definition assignable (V : lenv) (x : name) (t : lty) : Prop := known x V = Some (t, true).
(** The expression [(x1, .., xn)]: [()], [x1], or a tuple. *)
Definition gives (V : lenv) (xs : list name) (t : tsh) : Prop := exists ts, Forall2 (fun x t => is_a V x (LVal t)) xs ts /\ t = assemble ts.

(** Closures: the types of the [&mut] parameters, of the values and of the marks; the data of the state that is returned. *)
Record ksig := mkKsig { g_muts : list lty; g_frees : list lty; g_marks : list lty; g_ret : tsh }.
Definition kenv := list (nat * ksig).

(** The variable [state: ParseState<S, T>]: [T], and whether it is declared [mut]. *)
Record sty := mkSty { s_mut : bool; s_data : tsh }.
Definition fresh_state : sty := mkSty true SUnit.

(** In Target.v, [CAssign b c] is [let state = b; c] in a choice (choice.rs:79, 89), [state = b; c] elsewhere; what follows tells. *)
Definition in_choice (c : code) : bool := match c with CState | CIfTrue _ _ _ => true | _ => false end.

(** What is declared: the functions [recognize_p] (Rec) and [parse_p] (Par) that can be called, with the data of the state they
    return; the functions that actions can call, with the types of their parameters. *)
Record decls := mkDecls { d_fun :> mode -> callee -> tsh -> Prop; d_act : action -> list tsh -> Prop }.

Section Typed.
Variable P : decls.
Variable K : kenv.

Definition declare (x : name) (t : lty) (V : lenv) : lenv := (x, (t, true)) :: V.

(** [typed V st c t]: the expression [c] has type [ParseState<S, t>], with the variables [V] and [state] as in [st].
    Runtime (parse_state.rs): [success] 166-174 and [failure] 177-185 return any data, [restore_from_failure] 192-195 and [restore]
    197-206 none, [extract_data] 227-239 also gives the data, [discard_data] 249-251 is for unit data; [error] 153-163, [next] 258-260
    and [consume_prefix] 266-268 take [&mut self]. *)
Inductive typed : lenv -> sty -> code -> tsh -> Prop :=
| t_state V st t : s_data st = t -> typed V st CState t
| t_success V st xs t : gives V xs t -> typed V st (CSuccess xs) t
| t_failure V st t : typed V st CFailure t
| t_tail V st id t : P Rec (Local id) t -> s_data st = SUnit -> typed V st (CTail id) t
| t_call V st k ms fs ks sg t : In (k, sg) K -> g_ret sg = t -> s_data st = SUnit ->
    Forall2 (assignable V) ms (g_muts sg) -> Forall2 (is_a V) fs (g_frees sg) -> Forall2 (is_a V) ks (g_marks sg) ->
    typed V st (CCall k ms fs ks) t
| t_mark V st m c t : typed (declare m LStream V) st c t -> typed V st (CLetMark m c) t
| t_bool V st x v c t : typed (declare x LBool V) st c t -> typed V st (CLetBool x v c) t
| t_counter V st x c t : typed (declare x LNat V) st c t -> typed V st (CLetCounter x c) t
| t_none V st x c u t : typed (declare x (LVal (SOpt u)) V) st c t -> typed V st (CLetNone x c) t
| t_vec V st x c u t : typed (declare x (LVal (SVec u)) V) st c t -> typed V st (CLetVec x c) t
(* [un]: [f] alone, a constant *)
| t_act V st x f un bx args us c t : Forall2 (fun a u => is_a V a (LVal u)) args us -> (un = false -> d_act P f us) -> typed (declare x (LVal SRust) V) st c t ->
    typed V st (CLetAct x f un bx args c) t
| t_span V st x rg lo c t : is_a V lo LStream -> typed (declare x (LVal SRust) V) st c t -> typed V st (CLetSpan x rg lo c) t
| t_set V st x v c t : assignable V x LBool -> typed V st c t -> typed V st (CSetBool x v c) t
| t_some V st x xs u c t : assignable V x (LVal (SOpt u)) -> gives V xs u -> typed V st c t -> typed V st (CSetSome x xs c) t
| t_push V st x xs u c t : assignable V x (LVal (SVec u)) -> gives V xs u -> typed V st c t -> typed V st (CPush x xs c) t
| t_next V st s f t : s_mut st = true -> typed V st s t -> typed V st f t -> typed V st (CMatchNext None s f) t
| t_next_bind V st x s f t : s_mut st = true -> typed (declare x (LVal SChar) V) st s t -> typed V st f t -> typed V st (CMatchNext (Some x) s f) t
| t_class V st x k s f t : s_mut st = true -> typed (declare x (LVal SChar) V) st s t -> typed V st f t -> typed V st (CMatchClass x k s f) t
| t_prefix V st l s f t : s_mut st = true -> typed V st s t -> typed V st f t -> typed V st (CPrefix l s f) t
| t_error V st m c t : s_mut st = true -> typed V st c t -> typed V st (CError m c) t
| t_restore V st m c t : s_mut st = true -> s_data st = SUnit -> is_a V m LStream -> typed V st c t -> typed V st (CRestore m c) t
(* let mut state = state.restore_from_failure(m) *)
| t_restore_ff V st m c t : is_a V m LStream -> typed V fresh_state c t -> typed V st (CRestoreFF m c) t
| t_let V st b u c t : in_choice c = true -> typed V st b u -> typed V (mkSty false u) c t -> typed V st (CAssign b c) t
| t_assign V st b c t : in_choice c = false -> s_mut st = true -> typed V st b (s_data st) -> typed V st c t -> typed V st (CAssign b c) t
| t_if_failed V st m c t : s_mut st = true -> s_data st = SUnit -> is_a V m LStream -> typed V st c t -> typed V st (CIfFailedRestore m c) t
| t_if V st x c1 c2 t : is_a V x LBool -> typed V st c1 t -> typed V st c2 t -> typed V st (CIfTrue x c1 c2) t
| t_test V st m c1 c2 t : s_mut st = true -> s_data st = SUnit -> is_a V m LStream -> typed V st c1 t -> typed V st c2 t -> typed V st (CTestRestore m c1 c2) t
| t_rec V st p s f t : P Rec p SUnit -> s_mut st = true -> s_data st = SUnit -> typed V st s t -> typed V st f t -> typed V st (CCallRec p s f) t
| t_par V st p xs us s f t : P Par p (assemble us) -> length us = length xs -> NoDup xs -> s_mut st = true -> s_data st = SUnit ->
    typed (combine xs (map (fun u => (LVal u, true)) us) ++ V) st s t -> typed V st f t -> typed V st (CCallPar p xs s f) t
| t_loop V st b x m c t : s_mut st = true -> typed V st b (s_data st) -> match x with Some x => assignable V x LNat | None => True end ->
    assignable V m LStream -> typed V st c t -> typed V st (CLoop b x m c) t
| t_less V st x n c1 c2 t : is_a V x LNat -> typed V st c1 t -> typed V st c2 t -> typed V st (CIfLess x n c1 c2) t.
End Typed.

(** Closures are declared one after the other, and see the previous ones; a parameter is not named twice.  (The [&mut] parameters are assigned without [*], and
    passed on with [&mut]; whether rustc accepts this is C53.) *)
Inductive closures_typed (P : decls) : kenv -> ctable -> kenv -> Prop :=
| ct_nil K : closures_typed P K [] K
| ct_cons K k clo l sg K' :
    length (g_muts sg) = length (kmuts clo) -> length (g_frees sg) = length (kfrees clo) -> length (g_marks sg) = length (kmarks clo) ->
    typed P K (combine (kmuts clo) (map (fun t => (t, true)) (g_muts sg)) ++ combine (kfrees clo) (map (fun t => (t, false)) (g_frees sg))
               ++ combine (kmarks clo) (map (fun t => (t, false)) (g_marks sg))) fresh_state (kbody clo) (g_ret sg) ->
    NoDup (kmuts clo ++ kfrees clo ++ kmarks clo) -> ~ In k (map fst K) -> closures_typed P (K ++ [(k, sg)]) l K' -> closures_typed P K ((k, clo) :: l) K'.

(** A function [fn (mut state: ParseState<S, ()>) -> ParseState<S, t>] (context.rs:72-101). *)
Definition func_typed (P : decls) (f : func) (t : tsh) : Prop :=
  exists K, closures_typed P [] (fclosures f) K /\ typed P K [] fresh_state (fbody f) t.
