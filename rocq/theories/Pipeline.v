(** From the tokens of a grammar to the behaviour of the generated module. *)
From Coq Require Import Permutation.
From Verif Require Import Base Utf8 Stream ParseState RuntimeFacts Grammar PegSpec Target Compile TargetFacts ScopeFacts
  CompileShape EvalRules CompileCorrect ScopeGen GenTotal PegFacts Running WellFormed WfFacts WfSound WfSyntax PegRun Behave CharClass
  Analysis AnalysisFacts PropertiesAnalysis Typing TypeRules SurfaceFacts RefFacts DepthFacts TypingSound TypingFit GenAgree TypingTop TypingVerdict
  Front FrontFacts FrontSpec FrontSound PropertiesFront Agree TreeSpec TreeFacts Literals.
Set Implicit Arguments. Unset Strict Implicit.
Open Scope string_scope. Open Scope nat_scope. Open Scope list_scope.

Section Main.
Variables (rust_type : list tok -> option (string * list tok)) (rust_item : list tok -> option (rust_item * list tok)).
Variables (ts : list tok) (fg : fgrammar) (g : agrammar) (E : tenv) (fuel : nat) (G' : grammar).
Hypothesis PA : parse_grammar rust_type rust_item ts = FOk fg.
Hypothesis MA : middle_answers fg (Some g).
Hypothesis TY : type_inference E fuel (shape g) = WOk (Some G').
Local Notation G := (shape g).
Local Notation N := (length (exprs G)).

Lemma built_shape : well_built G. Proof. exact (C38_well_built PA MA). Qed.
Lemma verdict : a_rules g = f_rules fg /\ resolve (length (f_exprs fg)) (f_rules fg) (f_exprs fg) = WOk (a_exprs g) /\ accepted G /\ NoDup (map rname (f_rules fg)).
Proof.
  destruct MA as (N0 & M). destruct (C43_analysis_verdict (C38_parsed PA)) as (r & N & R & V).
  assert (r = Some g) as ->. { specialize (M (N0 + N) (N0 + N) ltac:(lia) ltac:(lia)). rewrite R in M by lia. congruence. }
  destruct V as (_ & ND & _ & V3 & V4 & _ & V5). split; [exact V3|]. split; [exact V4|]. split; [apply (V5 [])|exact ND].
Qed.
Lemma typed_shape : exists out, G' = mkG (rules G) (exprs G ++ [ESpan 0]) out /\ length out = S N.
Proof.
  destruct (infer_inv TY) as (st1 & st2 & st3 & out & H1 & _ & H2 & H3 & E3 & H4 & _ & ->). destruct (inferred_settled built_shape H1 H2 H3 E3) as [L _].
  destruct (reduce_finals_at H4) as [LO _]. exists out. split; [reflexivity|]. rewrite LO. exact L.
Qed.
Lemma low_exprs x i : i < N -> nth_error (exprs G) i = nth_error (exprs G ++ [x]) i.
Proof. intros L. rewrite nth_error_app1 by exact L. reflexivity. Qed.
Lemma low_down i e : i < N -> nth_error (exprs G) i = Some e -> Forall (fun j => j < i) (children e).
Proof. intros _ H. exact (wb_children built_shape H). Qed.
Lemma low_roots rl : In rl (rules G) -> rexpr rl < N. Proof. apply (root_low built_shape). Qed.

Lemma tail_cases x (t : list ty) i e : expr_of (mkG (rules G) (exprs G ++ [x]) t) i = Some e -> (i < N /\ expr_of G i = Some e) \/ (i = N /\ e = x).
Proof.
  unfold expr_of. cbn [exprs]. intros Ee. destruct (Nat.lt_ge_cases i N) as [L|L]; [left; rewrite nth_error_app1 in Ee by exact L; auto|].
  rewrite nth_error_app2 in Ee by exact L. destruct (i - N) as [|d] eqn:D; cbn in Ee; [|destruct d; discriminate]. right. split; [lia|congruence].
Qed.
Lemma tail_arena x out : length out = S N -> (forall j, In j (children x) -> j < N) -> (forall l, x <> EAlt l) -> (forall l, x <> EClass l) ->
  arena_ok (mkG (rules G) (exprs G ++ [x]) out).
Proof.
  intros LO CX NA NC. split.
  - intros i e Ee. destruct (tail_cases Ee) as [[L Q]|[-> ->]]; [exact (wb_children built_shape Q)|]. apply Forall_forall. intros j Ij. apply CX, Ij.
  - cbn [types exprs]. rewrite LO, app_length. cbn [length]. lia.
  - intros i Ee. destruct (tail_cases Ee) as [[L Q]|[_ Q]]; [exact (wb_alt built_shape Q)|destruct (NA _ (eq_sym Q))].
  - intros i Ee. destruct (tail_cases Ee) as [[L Q]|[_ Q]]; [exact (wb_class built_shape Q)|destruct (NC _ (eq_sym Q))].
  - intros rl I. cbn [exprs rules] in *. rewrite app_length. pose proof (low_roots I). cbn [length]. lia.
Qed.

(** The source, as a list of rules. *)
Variable rs : list (string * tree).
Hypothesis RA : rules_at (f_exprs fg) (f_rules fg) rs.
Hypothesis LIT : Forall (fun q => tree_strs scalars (snd q)) rs.

Lemma rules_names : map rname (f_rules fg) = map fst rs.
Proof. clear LIT. revert RA. generalize (f_rules fg) as l. intros l H. induction H as [|r q l l' [Q _] _ IH]; [reflexivity|]. cbn [map]. rewrite Q, IH. reflexivity. Qed.
Lemma names_nodup : NoDup (map fst rs). Proof. rewrite <- rules_names. apply verdict. Qed.

Lemma source_stored : Forall2 (fun r q => rname r = fst q /\ stored G rs (rexpr r) (snd q)) (rules G) rs.
Proof.
  destruct verdict as (V1 & V2 & _). unfold shape. cbn [rules]. rewrite V1.
  exact (rules_resolved [] (pa_arena (C38_parsed PA)) V2 rules_names RA).
Qed.
Lemma lits_shape : lits_ok G.
Proof.
  intros i lit Ei. destruct verdict as (V1 & V2 & _). destruct (C38_arena PA) as (A & B & _).
  destruct (resolved_children (pa_arena (C38_parsed PA)) (le_n _) V2 Ei) as (e0 & E0 & _ & D).
  assert (Q : nth_error (f_exprs fg) i = Some (EStr lit)) by (destruct D as [<-|(id & _ & D)]; [exact E0|discriminate]).
  assert (L : i < length (f_exprs fg)) by (apply nth_error_Some; congruence).
  destruct (all_used A B L) as (r & Ir & R). assert (K : exists q, In q rs /\ tree_at (f_exprs fg) (rexpr r) (snd q)).
  { clear - RA Ir. revert RA Ir. generalize (f_rules fg) as l. intros l H. induction H as [|r' q l l' [_ T] _ IH]; intros I; [destruct I|].
    destruct I as [->|I]; [exists q; split; [left; reflexivity|exact T]|]. destruct (IH I) as (q' & I' & T'). exists q'. split; [right; exact I'|exact T']. }
  destruct K as (q & Iq & T). rewrite Forall_forall in LIT. exact (reached_str (LIT q Iq) T R Q).
Qed.
Lemma lits_tail x out : (forall s, x <> EStr s) -> lits_ok (mkG (rules G) (exprs G ++ [x]) out).
Proof. intros NX i lit Ei. destruct (tail_cases Ei) as [[L Q]|[_ Q]]; [exact (lits_shape Q)|destruct (NX _ (eq_sym Q))]. Qed.
Lemma accepted_tail x out : accepted (mkG (rules G) (exprs G ++ [x]) out).
Proof.
  apply (@accepted_agree (rules G) (exprs G) (exprs G ++ [x]) [] out N (@low_exprs x) low_down low_roots).
  exact (proj1 (proj2 (proj2 verdict))).
Qed.

Variables (X : extern) (xf : mode -> list string -> pst -> outcome (pst * alog)) (t : text).
Hypothesis TX : scalars t.
Hypothesis XO : ext_ok X xf t.
Hypothesis XS : ext_sane X.
Hypothesis XC : ext_consuming (ford_ext X).

Theorem module_ready : ready G' X xf t.
Proof.
  destruct typed_shape as (out & -> & LO). split; [split|apply accepted_tail|exact XC].
  - apply tail_arena; [exact LO| |discriminate|discriminate]. intros j [<-|[]]. exact (some_expr built_shape).
  - apply lits_tail. discriminate.
  - exact TX.
  - exact XO.
  - exact XS.
Qed.
Lemma plug_ready : ready (plug G G') X xf t.
Proof.
  destruct typed_shape as (out & -> & LO). unfold plug. cbn [rules exprs types]. split; [split|apply accepted_tail|exact XC].
  - apply tail_arena; [exact LO| |discriminate|discriminate]. intros j [].
  - apply lits_tail. discriminate.
  - exact TX.
  - exact XO.
  - exact XS.
Qed.

(** The semantics of the typed grammar is that of the source. *)
Lemma tail_matches x out i e s r : i < N -> stored G rs i e ->
  (matches (mkG (rules G) (exprs G ++ [x]) out) (ford_ext X) (IE i) s r <-> tmatches rs (ford_ext X) (TE e) s r).
Proof.
  intros L S0. rewrite <- (tree_semantics source_stored (ford_ext X) s r S0). split; intros H.
  - refine (@matches_agree (rules G) (exprs G ++ [x]) (exprs G) out [] N _ _ low_roots _ _ _ _ H L).
    + intros i0 L0. symmetry. apply low_exprs, L0.
    + intros i0 e0 L0 E0. rewrite <- low_exprs in E0 by exact L0. exact (low_down L0 E0).
  - exact (@matches_agree (rules G) (exprs G) (exprs G ++ [x]) [] out N (@low_exprs x) low_down low_roots _ _ _ _ H L).
Qed.
Lemma rule_tree n e : In (n, e) rs -> exists rl, find_rule G n = Some rl /\ stored G rs (rexpr rl) e.
Proof.
  intros I. pose proof (found source_stored n) as K. assert (C : rule_called rs [n] = Some e).
  { unfold rule_called. pose proof names_nodup as ND. clear - I ND. induction rs as [|q l IH]; [destruct I|]. cbn [find map] in *. inversion ND as [|? ? NI ND']; subst.
    destruct I as [->|I]; [cbn [fst snd]; rewrite String.eqb_refl; reflexivity|]. destruct (String.eqb (fst q) n) eqn:Q; [|exact (IH I ND')].
    apply String.eqb_eq in Q. exfalso. apply NI. rewrite Q. exact (in_map fst _ _ I). }
  destruct (find_rule G n) as [rl|]; [|congruence]. destruct K as (t0 & C' & S0). exists rl. split; [reflexivity|]. congruence.
Qed.
Lemma found_rule_typed n : find_rule G' n = find_rule G n.
Proof. destruct typed_shape as (out & -> & _). reflexivity. Qed.

Lemma same_run m n st log : returns G' xf m n t st log <-> returns (plug G G') xf m n t st log.
Proof.
  destruct typed_shape as (out & -> & LO). unfold plug. cbn [rules exprs types].
  assert (PE : forall m0 id, gen_prog (mkG (rules G) (exprs G ++ [ESpan 0]) out) m0 id = gen_prog (mkG (rules G) (exprs G ++ [EAny]) out) m0 id).
  { intros m0 id. refine (@gen_prog_agree (rules G) (exprs G ++ [ESpan 0]) (exprs G ++ [EAny]) out N _ _ _ low_roots m0 id).
    - intros i L. rewrite <- !low_exprs by exact L. reflexivity.
    - intros i e L Ee. rewrite <- low_exprs in Ee by exact L. exact (low_down L Ee).
    - rewrite !app_length. reflexivity. }
  unfold returns. split; intros (k & H); exists k; [rewrite <- (run_fn_ext xf k m n (start t) PE)|rewrite (run_fn_ext xf k m n (start t) PE)]; exact H.
Qed.
End Main.
