(** Code generation reads only the expressions below a rule. *)
From Verif Require Import Base Grammar PegSpec Target Compile.
Set Implicit Arguments. Unset Strict Implicit.

Section Agree.
Variables (rs : list rule) (es1 es2 : list expr) (ts : list ty).
Local Notation G1 := (mkG rs es1 ts).
Local Notation G2 := (mkG rs es2 ts).
Variable n : nat.
Hypothesis same_es : forall i, i < n -> nth_error es1 i = nth_error es2 i.
Hypothesis down : forall i e, i < n -> nth_error es1 i = Some e -> Forall (fun j => j < i) (children e).

Lemma cbind_ext A B (r1 r2 : cres A) (k1 k2 : A -> cres B) : r1 = r2 -> (forall a, k1 a = k2 a) -> cbind r1 k1 = cbind r2 k2.
Proof. intros <- H. destruct r1; cbn; auto. Qed.

Lemma compile_agree fuel : forall m i s x, i < n -> compile G1 fuel m i s x = compile G2 fuel m i s x.
Proof.
  induction fuel as [|k IH]; intros m i s x L; [reflexivity|]. cbn [compile].
  apply cbind_ext; [reflexivity|]. intros m'. change (expr_of G1 i) with (nth_error es1 i). change (expr_of G2 i) with (nth_error es2 i). rewrite <- (same_es L).
  destruct (nth_error es1 i) as [e|] eqn:Ee; [|reflexivity]. pose proof (down L Ee) as D.
  assert (C : forall j, In j (children e) -> forall m s x, compile G1 k m j s x = compile G2 k m j s x).
  { intros j Ij m0 s0 x0. apply IH. rewrite Forall_forall in D. specialize (D j Ij). cbv beta in D. lia. }
  destruct e as [lit| |cls|id|p|l|l|j|j|j|j|j|j b f|j t|j|j]; cbn [children] in C; try reflexivity.
  - clear D Ee. revert s x. induction l as [|j l IL]; intros s x; [reflexivity|]. cbn [compile_seq]. apply cbind_ext; [apply IL; intros a Ia; apply C; right; exact Ia|].
    intros [s1 x1]. rewrite (C j (or_introl eq_refl)). reflexivity.
  - destruct (success_as_closure s x) as [s1 x1]. destruct (next_mark x1) as [mk x2]. destruct (next_branch x2) as [bf x3]. cbv zeta. apply cbind_ext; [|reflexivity].
    generalize (push_mut bf x3) at 2 4. generalize (save_scope (push_mut bf x3)). intros sc y. clear D Ee. revert y. induction l as [|j l IL]; intros y; [reflexivity|].
    destruct l as [|j2 l].
    + cbn [compile_branches]. apply cbind_ext; [reflexivity|]. intros x4. rewrite (C j (or_introl eq_refl)). reflexivity.
    + change (compile_branches (compile G1 k m') sc bf s1 (j :: j2 :: l) y) with
        (cbind (compile G1 k m' j (CSetBool bf false s1) (restore_scope sc y)) (fun '(c, x1) =>
          cbind (compile_branches (compile G1 k m') sc bf s1 (j2 :: l) (with_ncomb x1 (S (ncomb x1)))) (fun '(cs, x2) => COk (c :: cs, x2)))).
      change (compile_branches (compile G2 k m') sc bf s1 (j :: j2 :: l) y) with
        (cbind (compile G2 k m' j (CSetBool bf false s1) (restore_scope sc y)) (fun '(c, x1) =>
          cbind (compile_branches (compile G2 k m') sc bf s1 (j2 :: l) (with_ncomb x1 (S (ncomb x1)))) (fun '(cs, x2) => COk (c :: cs, x2)))).
      rewrite (C j (or_introl eq_refl)). apply cbind_ext; [reflexivity|]. intros [c x4]. apply cbind_ext; [|reflexivity]. apply IL. intros a Ia. apply C. right. exact Ia.
  - destruct m'; [rewrite (C j (or_introl eq_refl)); reflexivity|]. apply cbind_ext; [reflexivity|]. intros [r x1].
    change (card G1 j) with (card G2 j). destruct (open_scope (card G2 j) x1) as [sc x2]. rewrite (C j (or_introl eq_refl)). reflexivity.
  - destruct m'; [rewrite (C j (or_introl eq_refl)); reflexivity|]. apply cbind_ext; [reflexivity|]. intros [r x1].
    change (card G1 j) with (card G2 j). destruct (open_scope (card G2 j) x1) as [sc x2]. rewrite (C j (or_introl eq_refl)). reflexivity.
  - destruct m'; [rewrite (C j (or_introl eq_refl)); reflexivity|]. apply cbind_ext; [reflexivity|]. intros [r x1].
    change (card G1 j) with (card G2 j). destruct (open_scope (card G2 j) x1) as [sc x2]. rewrite (C j (or_introl eq_refl)). reflexivity.
  - destruct m'; [|reflexivity]. destruct (next_mark x) as [mk x1]. rewrite (C j (or_introl eq_refl)). reflexivity.
  - destruct m'; [|reflexivity]. destruct (next_mark x) as [mk x1]. rewrite (C j (or_introl eq_refl)). reflexivity.
  - destruct m'; [rewrite (C j (or_introl eq_refl)); reflexivity|]. apply cbind_ext; [reflexivity|]. intros [r x1].
    change (card G1 j) with (card G2 j). change (is_unit G1 j) with (is_unit G2 j). destruct (open_scope (card G2 j) x1) as [sc x2]. rewrite (C j (or_introl eq_refl)). reflexivity.
  - exact (C j (or_introl eq_refl) m' s x).
  - destruct m'; [rewrite (C j (or_introl eq_refl)); reflexivity|]. destruct (next_mark x) as [lo x1]. change (card G1 j) with (card G2 j). apply cbind_ext; [reflexivity|]. intros [r x2].
    rewrite (C j (or_introl eq_refl)). reflexivity.
  - destruct m'; [rewrite (C j (or_introl eq_refl)); reflexivity|]. destruct (next_mark x) as [lo x1]. change (card G1 j) with (card G2 j). apply cbind_ext; [reflexivity|]. intros [r x2].
    rewrite (C j (or_introl eq_refl)). reflexivity.
Qed.

Hypothesis same_len : length es1 = length es2.
Theorem gen_agree m rl : rexpr rl < n -> gen_rule G1 m rl = gen_rule G2 m rl.
Proof.
  intros L. destruct m; cbn [gen_rule]; unfold gen_recognizer, gen_parser, gen_fuel; cbn [exprs]; rewrite same_len.
  - rewrite (compile_agree _ _ _ _ L). reflexivity.
  - change (ty_of G1 (rexpr rl)) with (ty_of G2 (rexpr rl)). destruct (ty_of G2 (rexpr rl)) as [t|]; [|reflexivity]. destruct (ty_is_unit t); [reflexivity|].
    change (card G1 (rexpr rl)) with (card G2 (rexpr rl)). destruct (open_scope (card G2 (rexpr rl)) new_ctx) as [sc x1]. rewrite (compile_agree _ _ _ _ L). reflexivity.
Qed.
Hypothesis roots : forall rl, In rl rs -> rexpr rl < n.
Theorem gen_prog_agree m id : gen_prog G1 m id = gen_prog G2 m id.
Proof.
  unfold gen_prog. change (find_rule G1 id) with (find_rule G2 id). destruct (find_rule G2 id) as [rl|] eqn:F; [|reflexivity].
  apply find_some in F. rewrite (@gen_agree m rl (roots (proj1 F))). reflexivity.
Qed.
End Agree.
