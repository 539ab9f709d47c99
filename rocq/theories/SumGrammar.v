(** A concrete grammar used to show that the hypotheses of the theorems are met:
      sum = num ("+" num)*
      num = ["0-9"]+ > number
*)
From Verif Require Import Base Utf8 Stream ParseState RuntimeFacts Grammar PegSpec Target Compile TargetFacts ScopeFacts
  CompileShape EvalRules CompileCorrect ScopeGen GenTotal PegFacts Running WellFormed WfFacts WfSound WfTerm PegRun.
Set Implicit Arguments. Unset Strict Implicit.
Open Scope string_scope. Open Scope nat_scope. Open Scope list_scope.

Definition sumG : grammar := mkG
  [mkRule "sum" 8; mkRule "num" 2]
  [EClass [(48, 57)%N]; EPlus 0; EAct 1 false (ActPath ["number"]); ENT "num"; EStr [43%N]; ENT "num";
   ESeq [4; 5]; EStar 6; ESeq [3; 7]]
  [TAtom; TList 0; TRust "u32"; TRust "u32"; TUnit; TRust "u32"; TRust "u32"; TList 6; TTuple [3; 7]].

(** No external rule is called; this one fails everywhere, with an error of its own. *)
Definition noX : extern := fun m p s r evs => r = None /\ evs = [EvErr s [63%N]].
Definition noxf (m : mode) (p : list string) (st : pst) : outcome (pst * alog) := Done (failure (error st [63%N]), []).

Lemma noX_sane : ext_sane noX.
Proof.
  split; unfold noX.
  - intros m p s r1 e1 r2 e2 [-> ->] [-> ->]. auto.
  - intros p s r evs [-> ->]. split; [reflexivity|]. discriminate.
  - intros p s r evs [-> ->]. auto.
  - intros p s r evs _. eauto.
Qed.
Lemma noX_consuming : ext_consuming (ford_ext noX).
Proof.
  split; [intros p s; exists None, None; unfold noX; eauto|]. intros p s s1 (r & evs & [-> _] & K). discriminate.
Qed.
Lemma noX_ok t : ext_ok noX noxf t.
Proof.
  intros m p s r evs _ [-> ->] ei. unfold noxf. rewrite error_run. eexists. exists None. reflexivity.
Qed.


Definition arena_okb (G : grammar) : bool :=
  forallb (fun k => match nth_error (exprs G) k with
     | Some e => forallb (fun j => j <? k) (children e) && match e with EAlt [] | EClass [] => false | _ => true end
     | None => true end) (seq 0 (length (exprs G)))
  && (length (types G) =? length (exprs G)) && forallb (fun r => rexpr r <? length (exprs G)) (rules G).
Lemma arena_okb_ok G : arena_okb G = true -> arena_ok G.
Proof.
  unfold arena_okb. intros H. apply andb_true_iff in H. destruct H as [H R]. apply andb_true_iff in H. destruct H as [H T].
  assert (K : forall i e, expr_of G i = Some e ->
    forallb (fun j => j <? i) (children e) && match e with EAlt [] | EClass [] => false | _ => true end = true).
  { intros i e E. assert (L : i < length (exprs G)) by (apply nth_error_Some; unfold expr_of in E; congruence).
    rewrite forallb_forall in H. specialize (H i). rewrite in_seq in H. specialize (H ltac:(lia)). unfold expr_of in E. rewrite E in H. exact H. }
  split.
  - intros i e E. specialize (K i e E). apply andb_true_iff in K. destruct K as [K _]. rewrite forallb_forall in K.
    apply Forall_forall. intros j Hj. apply Nat.ltb_lt, K, Hj.
  - apply Nat.eqb_eq, T.
  - intros i E. specialize (K _ _ E). rewrite andb_false_r in K. discriminate.
  - intros i E. specialize (K _ _ E). rewrite andb_false_r in K. discriminate.
  - intros rl I. rewrite forallb_forall in R. apply Nat.ltb_lt, R, I.
Qed.

Definition coh_exprb (G : grammar) (i : nat) (e : expr) : bool :=
  match e with
  | EStr _ | ENot _ | EAnd _ => false
  | EAny | EClass _ | EStar _ | EPlus _ | EOpt _ | EAct _ _ _ | EExt _ => card G i =? 1
  | ENT id => match find_rule G id with Some rl => (card G (rexpr rl) =? card G i) && negb (is_unit G (rexpr rl)) | None => false end
  | ESeq l => card G i =? list_sum (map (card G) l)
  | EAlt l => forallb (fun j => card G j =? card G i) l
  | EAsc e _ => card G e =? card G i
  | ESpan e | ERange e => card G i =? S (card G e)
  end.
Definition coherentb (G : grammar) : bool :=
  forallb (fun k => is_unit G k || match nth_error (exprs G) k with Some e => coh_exprb G k e | None => true end) (seq 0 (length (exprs G))).
Lemma coherentb_ok G : coherentb G = true -> coherent G.
Proof.
  intros H i e E U. assert (L : i < length (exprs G)) by (apply nth_error_Some; unfold expr_of in E; congruence).
  unfold coherentb in H. rewrite forallb_forall in H. specialize (H i). rewrite in_seq in H. specialize (H ltac:(lia)).
  rewrite U in H. unfold expr_of in E. rewrite E in H. cbn [orb] in H. destruct e; cbn [coh_exprb coh_expr] in *; try discriminate;
    try (apply Nat.eqb_eq; exact H).
  - destruct (find_rule G r) as [rl|]; [|discriminate]. exists rl. apply andb_true_iff in H. destruct H as [A B].
    apply Nat.eqb_eq in A. apply negb_true_iff in B. auto.
  - rewrite forallb_forall in H. apply Forall_forall. intros j Hj. apply Nat.eqb_eq, H, Hj.
Qed.

Definition lits_okb (G : grammar) : bool := forallb (fun e => match e with EStr l => forallb is_scalar l | _ => true end) (exprs G).
Lemma lits_okb_ok G : lits_okb G = true -> lits_ok G.
Proof.
  intros H i lit E. unfold lits_okb in H. rewrite forallb_forall in H. apply nth_error_In in E. specialize (H _ E).
  cbn in H. rewrite forallb_forall in H. apply Forall_forall. exact H.
Qed.

Lemma parsers_okb_ok G : coherent G -> forallb (rule_act_safe G) (rules G) = true -> parsers_ok G.
Proof.
  intros C H. split; [exact C|]. intros rl f I E. rewrite forallb_forall in H. exact (parser_scoped C (H _ I) E).
Qed.

(** An easy way to establish the hypotheses for grammars without external rules. *)
Lemma ready_of G t : arena_okb G = true -> lits_okb G = true -> forallb is_scalar t = true ->
  accepted G -> ready G noX noxf t.
Proof.
  intros A L T W. split; [split|exact W|exact noX_consuming].
  - apply arena_okb_ok, A.
  - apply lits_okb_ok, L.
  - apply Forall_forall. rewrite forallb_forall in T. exact T.
  - apply noX_ok.
  - apply noX_sane.
Qed.

Lemma sum_accepted : accepted sumG.
Proof. exists 50, 20. vm_compute. reflexivity. Qed.
Lemma sum_ready t : forallb is_scalar t = true -> ready sumG noX noxf t.
Proof. intros H. apply ready_of; [reflexivity|reflexivity|exact H|exact sum_accepted]. Qed.
Lemma sum_parsers : parsers_ok sumG.
Proof. apply parsers_okb_ok; [apply coherentb_ok|]; vm_compute; reflexivity. Qed.
