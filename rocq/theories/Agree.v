(** Everything reads only the expressions below the rules: the analysis, the two semantics, and the
    evaluation of the generated module. *)
From Verif Require Import Base Utf8 Stream ParseState Grammar PegSpec Target Compile WellFormed GenAgree.
Set Implicit Arguments. Unset Strict Implicit.
Open Scope nat_scope. Open Scope list_scope.

(** Two modules with the same functions behave alike. *)
Section Ext.
Variables p1 p2 : mode -> string -> option func.
Hypothesis same : forall m id, p1 m id = p2 m id.
Variable xf : mode -> list string -> pst -> outcome (pst * alog).

Lemma eval_ext n : forall cl c st e, eval p1 xf n cl c st e = eval p2 xf n cl c st e.
Proof.
  induction n as [|n IH]; intros cl c st e; [reflexivity|].
  assert (B : forall (A C : Type) (r : outcome A) (k1 k2 : A -> outcome C), (forall a, k1 a = k2 a) -> obind r k1 = obind r k2)
    by (intros A C [a| | |] k1 k2 H; cbn; auto).
  assert (CALL : forall m p s0,
    match p with
    | Local id => obind (of_opt (p1 m id)) (fun f => obind (eval p1 xf n (fclosures f) (fbody f) s0 []) (fun '(st', _, l) => Done (st', l)))
    | Foreign p => xf m p s0
    end =
    match p with
    | Local id => obind (of_opt (p2 m id)) (fun f => obind (eval p2 xf n (fclosures f) (fbody f) s0 []) (fun '(st', _, l) => Done (st', l)))
    | Foreign p => xf m p s0
    end).
  { intros m [id|p] s0; [|reflexivity]. rewrite same. apply B. intros f. rewrite IH. reflexivity. }
  assert (AF : forall r (k1 k2 : pst -> env -> out), (forall a b, k1 a b = k2 a b) -> after r k1 = after r k2).
  { intros [[[a b] l]| | |] k1 k2 H; cbn; try reflexivity. rewrite H. reflexivity. }
  destruct c; cbn [eval]; cbv zeta;
    repeat first
      [ reflexivity
      | rewrite IH
      | rewrite CALL
      | rewrite same
      | apply B; intros
      | apply AF; intros
      | match goal with
        | |- obind ?r1 ?k = obind ?r2 ?k => f_equal
        | |- context [match ?x with _ => _ end] => destruct x
        end ].
Qed.
End Ext.
Lemma run_fn_ext p1 p2 xf n m id st : (forall m id, p1 m id = p2 m id) -> run_fn p1 xf n m id st = run_fn p2 xf n m id st.
Proof.
  intros H. unfold run_fn. rewrite H. destruct (p2 m id) as [f|]; [|reflexivity]. rewrite (eval_ext H). reflexivity.
Qed.

Section Below.
Variables (rs : list rule) (es1 es2 : list expr) (ts1 ts2 : list ty).
Local Notation G1 := (mkG rs es1 ts1).
Local Notation G2 := (mkG rs es2 ts2).
Variable n : nat.
Hypothesis same_es : forall i, i < n -> nth_error es1 i = nth_error es2 i.
Hypothesis down : forall i e, i < n -> nth_error es1 i = Some e -> Forall (fun j => j < i) (children e).
Hypothesis roots : forall rl, In rl rs -> rexpr rl < n.

Lemma child_below i e j : i < n -> nth_error es1 i = Some e -> In j (children e) -> j < n.
Proof. intros L E I. pose proof (down L E) as D. rewrite Forall_forall in D. specialize (D j I). cbv beta in D. lia. Qed.
Lemma found_below id rl : find_rule G1 id = Some rl -> rexpr rl < n.
Proof. intros F. apply find_some in F. apply roots, F. Qed.

(** ---------------- the analysis ---------------- *)
Lemma wbind_ext A B (r1 r2 : wres A) (k1 k2 : A -> wres B) : r1 = r2 -> (forall a, k1 a = k2 a) -> wbind r1 k1 = wbind r2 k2.
Proof. intros <- H. destruct r1; cbn; auto. Qed.
Lemma visit_rule_agree ve1 ve2 id st : (forall i st, i < n -> ve1 i st = ve2 i st) -> visit_rule G1 ve1 id st = visit_rule G2 ve2 id st.
Proof.
  intros V. unfold visit_rule. apply wbind_ext; [|reflexivity]. destruct (is_rec id st); [reflexivity|].
  change (find_rule G2 id) with (find_rule G1 id). destruct (find_rule G1 id) as [rl|] eqn:F; [|reflexivity].
  apply wbind_ext; [apply V, (found_below F)|reflexivity].
Qed.
Lemma walk_agree ve1 ve2 i st : (forall i st, i < n -> ve1 i st = ve2 i st) -> i < n -> walk G1 ve1 i st = walk G2 ve2 i st.
Proof.
  intros V L. unfold walk. change (expr_of G1 i) with (nth_error es1 i). change (expr_of G2 i) with (nth_error es2 i). rewrite <- (same_es L).
  destruct (nth_error es1 i) as [e|] eqn:Ee; [|reflexivity].
  assert (C : forall j st, In j (children e) -> ve1 j st = ve2 j st) by (intros j s0 I; apply V; exact (child_below L Ee I)).
  destruct e as [[|]| | |id| |l|l|j|j|j|j|j|j b f|j t|j|j]; cbn [children] in C; try reflexivity;
    try (unfold visit_repeat, visit_predicate; rewrite (C j st (or_introl eq_refl)); reflexivity).
  - apply visit_rule_agree, V.
  - apply wbind_ext; [|reflexivity]. clear Ee. generalize (mkWfa false true false true). revert st.
    induction l as [|j l IH]; intros st a; [reflexivity|]. cbn [visit_sequence_from]. apply wbind_ext; [apply C; left; reflexivity|].
    intros q. apply IH. intros j' s0 I. apply C. right. exact I.
  - clear Ee. generalize (mkWfa true false true true). revert st.
    induction l as [|j l IH]; intros st a; [reflexivity|]. cbn [visit_choice_from]. apply wbind_ext; [apply C; left; reflexivity|].
    intros q. destruct l as [|j2 l]; [reflexivity|]. destruct (negb (can_fail (fst q))); [reflexivity|]. apply IH. intros j' s0 I. apply C. right. exact I.
Qed.
Lemma visit_expr_agree fuel : forall i st, i < n -> visit_expr G1 fuel i st = visit_expr G2 fuel i st.
Proof.
  induction fuel as [|k IH]; intros i st L; [reflexivity|]. cbn [visit_expr]. apply wbind_ext; [exact (walk_agree st IH L)|reflexivity].
Qed.
Lemma visit_pass_agree fuel l : forall st, visit_pass G1 fuel l st = visit_pass G2 fuel l st.
Proof.
  induction l as [|rl l IH]; intros st; [reflexivity|]. cbn [visit_pass]. apply wbind_ext; [apply visit_rule_agree, visit_expr_agree|].
  intros q. rewrite IH. reflexivity.
Qed.
Lemma visit_rules_agree fuel passes : forall st, visit_rules G1 fuel passes st = visit_rules G2 fuel passes st.
Proof.
  induction passes as [|k IH]; intros st; cbn [visit_rules]; destruct (negb (wfix st) && wok st); try reflexivity.
  apply wbind_ext; [apply visit_pass_agree|exact IH].
Qed.
Theorem accepted_agree : accepted G1 <-> accepted G2.
Proof.
  unfold accepted, analysis_returns, is_well_formed. split; intros (f & p & H); exists f, p; change (wst_new G2) with (wst_new G1) in *;
    [rewrite <- visit_rules_agree|rewrite visit_rules_agree]; exact H.
Qed.

(** ---------------- the semantics ---------------- *)
Definition item_below (it : item) : Prop :=
  match it with IE i | IStar i => i < n | ISeq l | IAlt l => Forall (fun i => i < n) l end.
Lemma expr_same i e : i < n -> expr_of G1 i = Some e -> expr_of G2 i = Some e.
Proof. intros L E. unfold expr_of in *. cbn [exprs] in *. rewrite <- (same_es L). exact E. Qed.
Lemma one_below i e j : i < n -> expr_of G1 i = Some e -> children e = [j] -> j < n.
Proof. intros L E C. apply (child_below L E). rewrite C. left. reflexivity. Qed.
Lemma all_below i e : i < n -> expr_of G1 i = Some e -> Forall (fun j => j < n) (children e).
Proof. intros L E. apply Forall_forall. intros j I. exact (child_below L E I). Qed.
Lemma matches_agree X it s r : matches G1 X it s r -> item_below it -> matches G2 X it s r.
Proof.
  induction 1; intros L; cbn [item_below] in L;
    try (match goal with E : expr_of G1 ?i = Some ?e |- _ => pose proof (expr_same L E); pose proof (all_below L E) as A; cbn [children] in A end);
    try (match goal with F : find_rule G1 _ = Some _ |- _ => pose proof (found_below F) end).
  all: try (match goal with A : Forall _ (_ :: _) |- _ => inversion A; subst end).
  all: try (match goal with F : expr_of G1 _ = Some (ENT _) |- _ => clear F end).
  all: solve [econstructor; eauto 3].
Qed.
Lemma ep_agree X off m it s r evs : (forall i, i < n -> is_unit G1 i = is_unit G2 i) -> ep G1 X off m it s r evs -> item_below it -> ep G2 X off m it s r evs.
Proof.
  intros U. induction 1; intros L; cbn [item_below] in L;
    try (match goal with E : expr_of G1 ?i = Some ?e |- _ => pose proof (expr_same L E); pose proof (all_below L E) as A; cbn [children] in A end);
    try (match goal with F : find_rule G1 _ = Some _ |- _ => pose proof (found_below F) end).
  all: try (match goal with H : active G1 ?m ?i |- _ => assert (active G2 m i) by (destruct m; [exact I|cbn [active] in *; rewrite <- (U _ L); exact H]) end).
  all: try (match goal with H : is_unit G1 ?i = _ |- _ => rewrite (U _ L) in H end).
  all: try (match goal with A : Forall _ (_ :: _) |- _ => inversion A; subst end).
  all: try (match goal with F : expr_of G1 _ = Some (ENT _) |- _ => clear F end).
  all: try (match goal with |- context [is_unit G1 ?j] => rewrite (U j) by assumption end).
  all: solve [econstructor; eauto 3].
Qed.
End Below.
