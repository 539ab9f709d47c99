(** Property theorems about the well-formedness analysis (C20-C24).

    [accepted G]: well_formedness.rs (model: WellFormed.v) answers "well formed" for [G].
    [parent_after_child G]: sub-expressions are allocated before their parent (front/ast.rs:40-45).
    [needs], [can_empty], [left_calls], [never_fails] are specifications (WfSound.v, WfSyntax.v). *)
From Verif Require Import Base Grammar PegSpec WellFormed WfFacts WfSound WfSyntax WfTerm WfFuel SumGrammar.
From Coq Require Import Relations.
Set Implicit Arguments. Unset Strict Implicit.
Open Scope string_scope. Open Scope nat_scope. Open Scope list_scope.

Definition parent_after_child (G : grammar) : Prop :=
  (forall i e, expr_of G i = Some e -> Forall (fun j => j < i) (children e)) /\ (forall i, expr_of G i <> Some (EAlt [])).

Section Statements.
Variable G : grammar.
Hypothesis HG : parent_after_child G.

(** C20, on the semantics: every expression of an accepted grammar has an outcome on every text.
    (PropertiesPeg.C20_termination says it of the generated functions.) *)
Theorem C20_semantics_total : accepted G -> forall X, ext_consuming X -> forall i s, in_rules G i ->
  exists r, matches G X (IE i) s r.
Proof.
  intros A X HX i s Hi. destruct (accepted_cert (proj2 HG) A) as [W HW].
  exact (peg_total HW (ec_consume HX) (ec_total HX) (proj1 HG) s Hi).
Qed.

(** C21: no rule calls itself through left calls; and no evaluation comes back to itself. *)
Theorem C21_left_recursion_rejected : forall id, clos_trans string (rule_left_calls G) id id -> ~ accepted G.
Proof. intros id H A. destruct (accepted_cert (proj2 HG) A) as [W HW]. exact (no_left_recursion HW H). Qed.
Theorem C21_no_evaluation_loop : accepted G -> forall X, ext_consuming X -> forall i s, in_rules G i ->
  ~ clos_trans _ (needs G X) (IE i, s) (IE i, s).
Proof.
  intros A X HX i s Hi C. destruct (accepted_cert (proj2 HG) A) as [W HW].
  exact (acc_irrefl (eval_wf HW (ec_consume HX) (proj1 HG) s Hi) (clos_trans_flip C)).
Qed.

(** C22. *)
Theorem C22_empty_repeat_rejected : forall i e, in_rules G i -> expr_of G i = Some (EStar e) \/ expr_of G i = Some (EPlus e) ->
  can_empty G e -> ~ accepted G.
Proof. intros i e Hi E C A. destruct (accepted_cert (proj2 HG) A) as [W HW]. exact (no_empty_repeat HW Hi E C). Qed.
Theorem C22_empty_repeat_rejected_semantic : forall i e X s, in_rules G i -> expr_of G i = Some (EStar e) \/ expr_of G i = Some (EPlus e) ->
  ext_consuming X -> matches G X (IE e) s (Some s) -> ~ accepted G.
Proof.
  intros i e X s Hi E HX M A. destruct (accepted_cert (proj2 HG) A) as [W HW].
  pose proof (body_consumes HW (ec_consume HX) Hi E M). lia.
Qed.

(** C23: the final table of an accepting run is sound for the rules, ... *)
Theorem C23_rule_attributes_sound : forall fuel passes st, visit_rules G fuel passes (wst_new G) = WOk st -> wok st = true ->
  forall X, ext_consuming X -> forall id rl a, find_rule G id = Some rl -> wtab st id = Some a ->
  forall s r, matches G X (IE (rexpr rl)) s r ->
    (can_fail a = false -> r <> None)
    /\ (always_consume a = true -> forall s1, r = Some s1 -> length s1 < length s)
    /\ (never_consume a = true -> forall s1, r = Some s1 -> s1 = s).
Proof.
  intros fuel passes st H O X HX id rl a F T s r M. pose proof (cert_of_run (proj2 HG) H O) as HW.
  destruct (wc_fix HW F) as (b & Wb & J). assert (b = a) as -> by congruence.
  destruct (attributes_sound HW (ec_consume HX) M J) as [S1 S2]. split; [|split].
  - intros C N. specialize (S1 N). congruence.
  - intros C s1 E. apply (S2 s1 E), C.
  - intros C s1 E. apply (S2 s1 E), C.
Qed.
(** ... and so are the attributes computed against it for every expression. *)
Theorem C23_expr_attributes_sound : forall fuel passes st, visit_rules G fuel passes (wst_new G) = WOk st -> wok st = true ->
  forall X, ext_consuming X -> forall k i a st', visit_expr G k i st = WOk (a, st') -> wok st' = true -> wfix st' = true ->
  forall s r, matches G X (IE i) s r ->
    (can_fail a = false -> r <> None)
    /\ (always_consume a = true -> forall s1, r = Some s1 -> length s1 < length s)
    /\ (never_consume a = true -> forall s1, r = Some s1 -> s1 = s).
Proof.
  intros fuel passes st H O X HX k i a st' V O' F' s r M. pose proof (cert_of_run (proj2 HG) H O) as HW.
  pose proof (sinv_rules (proj2 HG) H (sinv_new G)) as SI.
  destruct (quiet_expr (proj2 HG) V) as [[_ Q] AT]. destruct (Q SI) as [_ Q2]. destruct (AT SI) as [[CS _] _].
  destruct (Q2 O' F' CS) as (_ & J & _).
  destruct (attributes_sound HW (ec_consume HX) M J) as [S1 S2]. split; [|split].
  - intros C N. specialize (S1 N). congruence.
  - intros C s1 E. apply (S2 s1 E), C.
  - intros C s1 E. apply (S2 s1 E), C.
Qed.
Theorem C23_dead_branch_rejected : forall i l1 j l2, in_rules G i -> expr_of G i = Some (EAlt (l1 ++ j :: l2)) -> l2 <> [] ->
  never_fails G j -> ~ accepted G.
Proof. intros i l1 j l2 Hi E NE C A. destruct (accepted_cert (proj2 HG) A) as [W HW]. exact (no_dead_branch HW Hi E NE C). Qed.
End Statements.

(** C24: on every grammar whose calls are resolved the analysis answers, without panic, after at most
    three passes per rule plus one; and the answer does not depend on the bounds. *)
Theorem C24_analysis_total : forall G, analysable G -> exists b, is_well_formed G (fuel0 G) (3 * length (rules G) + 1) = WOk b.
Proof. intros G H. exact (analysis_total H). Qed.
Theorem C24_one_verdict : forall G b1 b2, analysis_returns G b1 -> analysis_returns G b2 -> b1 = b2.
Proof. intros G b1 b2. apply verdict_det. Qed.

(** ---------------- concrete cases ---------------- *)
Example sum_shape : parent_after_child sumG /\ accepted sumG /\ in_rules sumG 7 /\ expr_of sumG 7 = Some (EStar 6) /\ analysable sumG.
Proof.
  assert (P : parent_after_child sumG) by (pose proof (arena_okb_ok (G := sumG) eq_refl) as A; split; [apply A|apply A]).
  split; [exact P|]. split; [exact sum_accepted|]. split; [|split; [reflexivity|]].
  - exists "sum", (mkRule "sum" 8). split; [reflexivity|]. eapply sub_step; [reflexivity|right; left; reflexivity|constructor].
  - split; [apply P|intros rl [<- | [<- | []]]; cbn; lia|apply P|].
    intros i id _ E. apply nth_error_In in E. cbn in E. intuition (try discriminate);
      match goal with H : _ = ENT id |- _ => injection H as <-; eexists; reflexivity end.
Qed.
(** [r = ("a"? r) / "b"]: hidden left recursion. *)
Definition lrG : grammar := mkG [mkRule "r" 5] [EStr [97%N]; EOpt 0; ENT "r"; ESeq [1; 2]; EStr [98%N]; EAlt [3; 4]] [].
Example C21_case : clos_trans string (rule_left_calls lrG) "r" "r" /\ analysis_returns lrG false.
Proof.
  split; [|exists 50, 20; vm_compute; reflexivity]. apply t_step. exists (mkRule "r" 5). split; [reflexivity|].
  eapply lc_alt; [reflexivity|left; reflexivity|]. eapply lc_seq with (l1 := [1]); [reflexivity|reflexivity| |].
  - constructor; [|constructor]. eapply ce_opt. reflexivity.
  - eapply lc_nt. reflexivity.
Qed.
(** [r = ("a"?)*]. *)
Definition erG : grammar := mkG [mkRule "r" 2] [EStr [97%N]; EOpt 0; EStar 1] [].
Example C22_case : in_rules erG 2 /\ can_empty erG 1 /\ analysis_returns erG false.
Proof.
  split; [exists "r", (mkRule "r" 2); split; [reflexivity|constructor]|]. split; [eapply ce_opt; reflexivity|exists 50, 20; vm_compute; reflexivity].
Qed.
(** [r = "a"* / "b"]. *)
Definition dbG : grammar := mkG [mkRule "r" 3] [EStr [97%N]; EStar 0; EStr [98%N]; EAlt [1; 2]] [].
Example C23_case : in_rules dbG 3 /\ never_fails dbG 1 /\ analysis_returns dbG false.
Proof.
  split; [exists "r", (mkRule "r" 3); split; [reflexivity|constructor]|]. split; [eapply nf_star; reflexivity|exists 50, 20; vm_compute; reflexivity].
Qed.

Print Assumptions C20_semantics_total.
Print Assumptions C21_left_recursion_rejected.
Print Assumptions C21_no_evaluation_loop.
Print Assumptions C22_empty_repeat_rejected.
Print Assumptions C22_empty_repeat_rejected_semantic.
Print Assumptions C23_rule_attributes_sound.
Print Assumptions C23_expr_attributes_sound.
Print Assumptions C23_dead_branch_rejected.
Print Assumptions C24_analysis_total.
Print Assumptions C24_one_verdict.
