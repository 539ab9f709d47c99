(** The middle end does not depend on its fuel: more fuel gives the same answer. *)
From Verif Require Import Base Grammar WellFormed Analysis TypingFuel.
Set Implicit Arguments. Unset Strict Implicit.
Open Scope string_scope. Open Scope nat_scope. Open Scope list_scope.
#[local] Hint Resolve below_refl below_loop below_bind : core.

Lemma resolve_expr_below rs : forall k k', k <= k' -> forall i es, below (resolve_expr k rs i es) (resolve_expr k' rs i es).
Proof.
  induction k as [|k IH]; intros k' L i es; [apply below_loop|]. destruct k' as [|k']; [lia|]. specialize (IH k' ltac:(lia)). cbn [resolve_expr].
  destruct (nth_error es i) as [e|]; auto. assert (X : forall l es, below ((fix go (l : list nat) (es : list expr) : wres (list expr) :=
                match l with [] => WOk es | j :: l' => wbind (resolve_expr k rs j es) (go l') end) l es)
     ((fix go (l : list nat) (es : list expr) : wres (list expr) :=
                match l with [] => WOk es | j :: l' => wbind (resolve_expr k' rs j es) (go l') end) l es)).
  { induction l as [|j l IHl]; intros es'; auto. }
  destruct e; auto.
Qed.
Lemma resolve_below k k' rs es : k <= k' -> below (resolve k rs es) (resolve k' rs es).
Proof.
  intros L. unfold resolve. generalize (map rexpr rs) as idx. intros idx. revert es. induction idx as [|i idx IH]; intros es; cbn [resolve_from]; auto.
  apply below_bind; auto. apply resolve_expr_below, L.
Qed.

Section WF.
Variable G : grammar.
Definition wbelow (ve ve' : nat -> wst -> wres (wfa * wst)) : Prop := forall i st, below (ve i st) (ve' i st).
Lemma visit_rule_below ve ve' id st : wbelow ve ve' -> below (visit_rule G ve id st) (visit_rule G ve' id st).
Proof.
  intros V. unfold visit_rule. apply below_bind; auto. destruct (is_rec id st); auto. destruct (find_rule G id) as [rl|]; auto.
Qed.
Lemma choice_below ve ve' this : wbelow ve ve' -> forall l a st, below (visit_choice_from ve this l a st) (visit_choice_from ve' this l a st).
Proof.
  intros V. induction l as [|i l IH]; intros a st; cbn [visit_choice_from]; [auto|]. apply below_bind; [auto|]. intros q. cbv zeta. destruct l; [auto|]. destruct (negb (can_fail (fst q))); auto.
Qed.
Lemma sequence_below ve ve' : wbelow ve ve' -> forall l a st, below (visit_sequence_from ve l a st) (visit_sequence_from ve' l a st).
Proof. intros V. induction l as [|i l IH]; intros a st; cbn [visit_sequence_from]; [auto|]. apply below_bind; [auto|]. intros q. cbv zeta. apply IH. Qed.
Lemma walk_below ve ve' this st : wbelow ve ve' -> below (walk G ve this st) (walk G ve' this st).
Proof.
  intros V. unfold walk. destruct (expr_of G this) as [e|]; auto. unfold visit_repeat, visit_predicate.
  destruct e; auto using visit_rule_below, choice_below, sequence_below.
Qed.
Lemma visit_expr_below : forall k k', k <= k' -> wbelow (visit_expr G k) (visit_expr G k').
Proof.
  induction k as [|k IH]; intros k' L i st; [apply below_loop|]. destruct k' as [|k']; [lia|]. cbn [visit_expr]. apply below_bind; auto. apply walk_below, IH. lia.
Qed.
Lemma visit_pass_below k k' : k <= k' -> forall rs st, below (visit_pass G k rs st) (visit_pass G k' rs st).
Proof.
  intros L. induction rs as [|rl rs IH]; intros st; cbn [visit_pass]; auto. apply below_bind; [apply visit_rule_below, visit_expr_below, L|]. intros q. destruct (wok (snd q)); auto.
Qed.
Lemma visit_rules_below k k' : k <= k' -> forall p p', p <= p' -> forall st, below (visit_rules G k p st) (visit_rules G k' p' st).
Proof.
  intros L. induction p as [|p IH]; intros p' LP st.
  - destruct p'; cbn [visit_rules]; destruct (negb (wfix st) && wok st); auto.
  - destruct p' as [|p']; [lia|]. cbn [visit_rules]. destruct (negb (wfix st) && wok st); auto. apply below_bind; [apply visit_pass_below, L|]. intros st'. apply IH. lia.
Qed.
Lemma well_formed_below k k' p p' : k <= k' -> p <= p' -> below (is_well_formed G k p) (is_well_formed G k' p').
Proof. intros L LP. unfold is_well_formed. apply below_bind; auto. apply visit_rules_below; auto. Qed.

Lemma inner_below : forall k k', k <= k' -> forall i, below (inner G k i) (inner G k' i).
Proof.
  induction k as [|k IH]; intros k' L i; [apply below_loop|]. destruct k' as [|k']; [lia|]. specialize (IH k' ltac:(lia)). cbn [inner].
  destruct (expr_of G i) as [e|]; auto. destruct e; auto.
  - destruct (find_rule G r); auto.
  - destruct l; auto.
  - destruct l as [|j l]; auto. apply below_bind; auto. intros q. generalize (j :: l) as l0. intros l0. generalize (snd q) as c. induction l0 as [|j0 l0 IHl]; intros c; cbn [same_oper]; auto.
    apply below_bind; auto. intros q'. destruct (oper_eqb (fst q) (fst q')); auto.
Qed.
Lemma outer_below : forall k k', k <= k' -> forall f f', f <= f' -> forall i, below (outer G k f i) (outer G k' f' i).
Proof.
  induction k as [|k IH]; intros k' L f f' LF i; [apply below_loop|]. destruct k' as [|k']; [lia|]. specialize (IH k' ltac:(lia) f f' LF). cbn [outer].
  assert (C : forall op j, below
    (wbind (inner G f j) (fun q => match check_chain op (fst q) (snd q) with Some new => WOk [mkW i op (fst q) new] | None => outer G k f j end))
    (wbind (inner G f' j) (fun q => match check_chain op (fst q) (snd q) with Some new => WOk [mkW i op (fst q) new] | None => outer G k' f' j end))).
  { intros op j. apply below_bind; [apply inner_below, LF|]. intros q. destruct (check_chain op (fst q) (snd q)); auto. }
  destruct (expr_of G i) as [e|]; auto.
  assert (X : forall l, below ((fix go (l : list nat) : wres (list warning) :=
                match l with [] => WOk [] | j :: l' => wbind (outer G k f j) (fun w => wbind (go l') (fun w' => WOk (w ++ w'))) end) l)
       ((fix go (l : list nat) : wres (list warning) :=
                match l with [] => WOk [] | j :: l' => wbind (outer G k' f' j) (fun w => wbind (go l') (fun w' => WOk (w ++ w'))) end) l)).
  { induction l as [|j l IHl]; auto. }
  destruct e; auto.
Qed.
Lemma chaining_below k k' f f' : k <= k' -> f <= f' -> below (chaining G k f) (chaining G k' f').
Proof.
  intros L LF. unfold chaining. induction (rules G) as [|rl rs IH]; cbn [chaining_from]; auto. apply below_bind; auto. apply outer_below; auto.
Qed.
End WF.

Lemma pand_below A B (r : partial A) (k k' : A -> wres (partial B)) : (forall a, below (k a) (k' a)) -> below (pand r k) (pand r k').
Proof. intros H. unfold pand. destruct r; auto. Qed.
Lemma analyse_below k k' p p' fg : k <= k' -> p <= p' -> below (analyse k p fg) (analyse k' p' fg).
Proof.
  intros L LP. unfold analyse. apply pand_below. intros g. apply pand_below. intros g1. apply below_bind; [apply resolve_below, L|]. intros es. cbv zeta.
  apply below_bind; [apply well_formed_below; auto|]. intros b. destruct b; auto. apply below_bind; auto. apply chaining_below; auto.
Qed.
Theorem middle_more_fuel k k' p p' fg : k <= k' -> p <= p' -> middle k p fg <> WLoop -> middle k' p' fg = middle k p fg.
Proof.
  intros L LP H. apply below_ok; [|exact H]. unfold middle. destruct (f_rules fg); auto. apply below_bind; auto. apply analyse_below; auto.
Qed.
