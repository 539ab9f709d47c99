(** The verdict of the analysis does not depend on the fuel. *)
From Verif Require Import Base Grammar PegSpec WellFormed WfFacts.
Set Implicit Arguments. Unset Strict Implicit.

Section Fuel.
Variable G : grammar.
Definition upto {A} (r r' : wres A) : Prop := r = WLoop \/ r' = r.
Lemma upto_refl A (r : wres A) : upto r r. Proof. right. reflexivity. Qed.
Lemma upto_bind A B (r r' : wres A) (k k' : A -> wres B) : upto r r' -> (forall a, upto (k a) (k' a)) -> upto (wbind r k) (wbind r' k').
Proof. intros [-> | ->] K; [left; reflexivity|]. destruct r; cbn; [apply K|right; reflexivity..]. Qed.

Section V.
Variables ve ve' : nat -> wst -> wres (wfa * wst).
Hypothesis HV : forall i st, upto (ve i st) (ve' i st).
Lemma upto_rule id st : upto (visit_rule G ve id st) (visit_rule G ve' id st).
Proof.
  unfold visit_rule. apply upto_bind; [|intros; apply upto_refl]. destruct (is_rec id st); [apply upto_refl|].
  destruct (find_rule G id); [|apply upto_refl]. apply upto_bind; [apply HV|intros; apply upto_refl].
Qed.
Lemma upto_repeat i j st : upto (visit_repeat ve i j st) (visit_repeat ve' i j st).
Proof. unfold visit_repeat. apply upto_bind; [apply HV|intros; apply upto_refl]. Qed.
Lemma upto_predicate j st : upto (visit_predicate ve j st) (visit_predicate ve' j st).
Proof. unfold visit_predicate. apply upto_bind; [apply HV|intros; apply upto_refl]. Qed.
Lemma upto_seq l : forall a st, upto (visit_sequence_from ve l a st) (visit_sequence_from ve' l a st).
Proof. induction l as [|i l IH]; intros a st; cbn [visit_sequence_from]; [apply upto_refl|]. apply upto_bind; [apply HV|]. intros q. apply IH. Qed.
Lemma upto_alt this l : forall a st, upto (visit_choice_from ve this l a st) (visit_choice_from ve' this l a st).
Proof.
  induction l as [|i l IH]; intros a st; cbn [visit_choice_from]; [apply upto_refl|]. apply upto_bind; [apply HV|]. intros q.
  destruct l; [apply upto_refl|]. destruct (negb (can_fail (fst q))); [apply upto_refl|]. apply IH.
Qed.
Lemma upto_walk i st : upto (walk G ve i st) (walk G ve' i st).
Proof.
  unfold walk. destruct (expr_of G i) as [e|]; [|apply upto_refl].
  destruct e as [[|c lit]| |cls|id|p|l|l|e|e|e|e|e|e b f|e t|e|e]; try apply upto_refl; try apply HV;
    first [apply upto_rule|apply upto_repeat|apply upto_predicate|apply upto_alt|apply upto_bind; [|intros; apply upto_refl]];
    first [apply upto_seq|apply upto_repeat|apply HV|apply upto_predicate].
Qed.
End V.
Lemma upto_expr k k' : k <= k' -> forall i st, upto (visit_expr G k i st) (visit_expr G k' i st).
Proof.
  revert k'. induction k as [|k IH]; intros k' L i st; [left; reflexivity|]. destruct k' as [|k']; [lia|]. cbn [visit_expr].
  apply upto_bind; [|intros; apply upto_refl]. apply upto_walk. apply IH. lia.
Qed.
Lemma upto_pass k k' rs : k <= k' -> forall st, upto (visit_pass G k rs st) (visit_pass G k' rs st).
Proof.
  intros L. induction rs as [|rl rs IH]; intros st; cbn [visit_pass]; [apply upto_refl|].
  apply upto_bind; [apply upto_rule, upto_expr, L|]. intros q. destruct (wok (snd q)); [apply IH|apply upto_refl].
Qed.
Lemma upto_rules k k' n n' : k <= k' -> n <= n' -> forall st, upto (visit_rules G k n st) (visit_rules G k' n' st).
Proof.
  intros L. revert n'. induction n as [|n IH]; intros n' Ln st.
  - cbn [visit_rules]. destruct (negb (wfix st) && wok st) eqn:C; [left; reflexivity|]. right. destruct n'; cbn [visit_rules]; rewrite C; reflexivity.
  - destruct n' as [|n']; [lia|]. cbn [visit_rules]. destruct (negb (wfix st) && wok st); [|apply upto_refl].
    apply upto_bind; [apply upto_pass, L|]. intros st1. apply IH. lia.
Qed.
Theorem verdict_det b1 b2 : analysis_returns G b1 -> analysis_returns G b2 -> b1 = b2.
Proof.
  intros (k1 & n1 & H1) (k2 & n2 & H2).
  assert (K : forall k n k' n' b, k <= k' -> n <= n' -> is_well_formed G k n = WOk b -> is_well_formed G k' n' = WOk b).
  { intros k n k' n' b L1 L2 H. unfold is_well_formed in *. destruct (upto_rules L1 L2 (wst_new G)) as [E|E].
    - rewrite E in H. discriminate.
    - rewrite E. exact H. }
  apply K with (k' := k1 + k2) (n' := n1 + n2) in H1; try lia. apply K with (k' := k1 + k2) (n' := n1 + n2) in H2; try lia. congruence.
Qed.
End Fuel.
