(** Generated functions do not look at the errors recorded so far. *)
From Verif Require Import Base Utf8 Stream ParseState Grammar PegSpec Target.
Set Implicit Arguments. Unset Strict Implicit.

(** States that differ by the recorded errors only. *)
Definition same (a b : pst) : Prop := failed a = failed b /\ current a = current b /\ data a = data b.
Definition orel (A B : Type) (R : A -> B -> Prop) (x : outcome A) (y : outcome B) : Prop :=
  match x, y with Done a, Done b => R a b | Timeout, Timeout | Crash, Crash | Stuck, Stuck => True | _, _ => False end.
Lemma orel_bind A B A' B' (R : A -> A' -> Prop) (S : B -> B' -> Prop) x y k k' :
  orel R x y -> (forall a b, R a b -> orel S (k a) (k' b)) -> orel S (obind x k) (obind y k').
Proof. destruct x, y; cbn; intros H K; try contradiction; auto. Qed.
Lemma orel_refl A (x : outcome A) : orel eq x x.
Proof. destruct x; cbn; auto. Qed.
(** The same after a common computation. *)
Lemma orel_eq A B B' (S : B -> B' -> Prop) (x : outcome A) k k' : (forall a, orel S (k a) (k' a)) -> orel S (obind x k) (obind x k').
Proof. intros H. destruct x; cbn; auto. Qed.

Definition rout (p q : pst * env * alog) : Prop := same (fst (fst p)) (fst (fst q)) /\ snd (fst p) = snd (fst q) /\ snd p = snd q.
Definition rcall (p q : pst * alog) : Prop := same (fst p) (fst q) /\ snd p = snd q.
Definition blind (xf : mode -> list string -> pst -> outcome (pst * alog)) : Prop := forall m p a b, same a b -> orel rcall (xf m p a) (xf m p b).

Lemma popped_same x y : orel rout x y -> orel rout (popped x) (popped y).
Proof.
  intros H. apply (orel_bind H). intros [[a e] l] [[b e'] l'] (S1 & Q1 & Q2). cbn in S1, Q1, Q2. subst. destruct e' as [|z e']; cbn; [exact I|]. split; [exact S1|]. auto.
Qed.
Lemma popped_n_same n x y : orel rout x y -> orel rout (popped_n n x) (popped_n n y).
Proof. revert x y. induction n as [|n IH]; intros x y H; [exact H|]. cbn [popped_n]. apply IH, popped_same, H. Qed.
Lemma after_same x y k k' : orel rout x y -> (forall a b e, same a b -> orel rout (k a e) (k' b e)) -> orel rout (after x k) (after y k').
Proof.
  intros H K. apply (orel_bind H). intros [[a e] l] [[b e'] l'] (S1 & Q1 & Q2). cbn in S1, Q1, Q2. subst. refine (orel_bind (K a b e' S1) _).
  intros [[a2 e2] l2] [[b2 e2'] l2'] (S2 & Q1 & Q2). cbn in S2, Q1, Q2. subst. split; [exact S2|]. auto.
Qed.
Lemma mark_same a b : same a b -> mark a = mark b.
Proof. intros (F & C & D). unfold mark. rewrite F, C. reflexivity. Qed.
Lemma next_same a b : same a b -> orel (fun p q => fst p = fst q /\ same (snd p) (snd q)) (of_res (ps_next a)) (of_res (ps_next b)).
Proof.
  intros (F & C & D). unfold ps_next. rewrite C. destruct (next (current b)) as [[o c]|]; cbn [bind of_res orel]; [|exact I]. split; [reflexivity|]. repeat split; assumption.
Qed.
Lemma restore_same a b m : same a b -> orel same (of_res (restore a m)) (of_res (restore b m)).
Proof. intros (F & C & D). unfold restore. rewrite D. destruct (data b); cbn; [exact I|]. repeat split. Qed.
Lemma restore_ff_same a b m : same a b -> orel same (of_res (restore_from_failure a m)) (of_res (restore_from_failure b m)).
Proof. intros S0. unfold restore_from_failure. destruct (S0) as (F & C & D). rewrite F. destruct (failed b); [apply restore_same, S0|exact I]. Qed.
Lemma extract_same a b : same a b -> orel (fun p q => same (fst p) (fst q) /\ snd p = snd q) (of_res (extract_data a)) (of_res (extract_data b)).
Proof. intros (F & C & D). unfold extract_data, is_successful, is_failed. rewrite F, D. destruct (negb (failed b)); [|exact I]. destruct (data b); cbn; [|exact I]. repeat split; assumption. Qed.
Lemma successful_same a b : same a b -> is_successful a = is_successful b.
Proof. intros (F & _ & _). unfold is_successful, is_failed. rewrite F. reflexivity. Qed.
Lemma failed_same a b : same a b -> is_failed a = is_failed b.
Proof. intros (F & _ & _). exact F. Qed.
Lemma prefix_same a b s : same a b -> fst (ps_consume_prefix a s) = fst (ps_consume_prefix b s) /\ same (snd (ps_consume_prefix a s)) (snd (ps_consume_prefix b s)).
Proof. intros (F & C & D). unfold ps_consume_prefix. rewrite C. destruct (consume_prefix (current b) s) as [o c]; cbn. repeat split; assumption. Qed.
Lemma error_same a b m : same a b -> same (error a m) (error b m).
Proof. intros (F & C & D). destruct (error_spec a m) as (_ & A1 & A2 & A3), (error_spec b m) as (_ & B1 & B2 & B3). repeat split; congruence. Qed.
Lemma success_same a b v : same a b -> same (success a v) (success b v).
Proof. intros (F & C & D). repeat split. exact C. Qed.
Lemma failure_same a b : same a b -> same (failure a) (failure b).
Proof. intros (F & C & D). repeat split. exact C. Qed.
Lemma discard_same a b : same a b -> same (discard_data a) (discard_data b).
Proof. intros (F & C & D). repeat split; assumption. Qed.

Section Eval.
Variable prog : mode -> string -> option func.
Variable xf : mode -> list string -> pst -> outcome (pst * alog).
Hypothesis HX : blind xf.
Theorem eval_same : forall n cl c a b e, same a b -> orel rout (eval prog xf n cl c a e) (eval prog xf n cl c b e).
Proof.
  induction n as [|n IH]; intros cl c a b e S0; [exact I|].
  assert (CALL : forall m p a b, same a b -> orel rcall
     (match p with Local id => f <~ of_opt (prog m id) ;; '(st', _, l) <~ eval prog xf n (fclosures f) (fbody f) a [] ;; Done (st', l) | Foreign p => xf m p a end)
     (match p with Local id => f <~ of_opt (prog m id) ;; '(st', _, l) <~ eval prog xf n (fclosures f) (fbody f) b [] ;; Done (st', l) | Foreign p => xf m p b end)).
  { intros m [id|p] a0 b0 Sab; [|exact (HX m p Sab)]. apply orel_eq. intros f. refine (orel_bind (IH _ _ _ _ _ Sab) _).
    intros [[a2 e2] l2] [[b2 e2'] l2'] (S2 & Q1 & Q2). cbn in S2, Q1, Q2. subst. split; [exact S2|reflexivity]. }
  destruct c; cbn [eval].
  - repeat split; apply S0.
  - apply orel_eq. intros vs. split; [exact (success_same _ S0)|]. auto.
  - split; [exact (failure_same S0)|]. auto.
  - refine (orel_bind (CALL Rec (Local id) _ _ S0) _). intros [a1 l1] [b1 l2] [S1 Q]. cbn in S1, Q. subst. split; [exact S1|]. auto.
  - destruct (find _ cl) as [[k' clo]|]; [|exact I]. destruct (_ =? _); [|exact I]. apply orel_eq. intros vs. refine (orel_bind (IH _ _ _ _ _ S0) _).
    intros [[a2 e2] l2] [[b2 e2'] l2'] (S2 & Q1 & Q2). cbn in S2, Q1, Q2. subst. apply orel_eq. intros e'. split; [exact S2|]. auto.
  - rewrite (mark_same S0). apply orel_eq. intros s. apply popped_same, IH, S0.
  - apply popped_same, IH, S0.
  - apply popped_same, IH, S0.
  - apply popped_same, IH, S0.
  - apply popped_same, IH, S0.
  - apply orel_eq. intros vs. apply after_same; [split; [exact S0|auto]|]. intros a1 b1 e1 S1. apply popped_same, IH, S1.
  - apply orel_eq. intros l. rewrite (mark_same S0). apply orel_eq. intros h. apply popped_same, IH, S0.
  - apply orel_eq. intros v0. apply IH, S0.
  - apply orel_eq. intros v0. apply orel_eq. intros vs. apply IH, S0.
  - apply orel_eq. intros v0. destruct v0; try exact I. apply orel_eq. intros vs. apply IH, S0.
  - refine (orel_bind (next_same S0) _). intros [o a1] [o' b1] [Q S1]. cbn in Q, S1. subst o'. destruct o as [ch|]; [|apply IH, S1]. destruct x as [x|]; [apply popped_same|]; apply IH, S1.
  - refine (orel_bind (next_same S0) _). intros [o a1] [o' b1] [Q S1]. cbn in Q, S1. subst o'. destruct o as [ch|]; [|apply IH, S1]. destruct (eval_cond k ch); [apply popped_same|]; apply IH, S1.
  - destruct (prefix_same (enc lit) S0) as [Q S1]. destruct (ps_consume_prefix a (enc lit)) as [o a1], (ps_consume_prefix b (enc lit)) as [o' b1]. cbn in Q, S1. subst o'. destruct o; apply IH, S1.
  - apply IH, error_same, S0.
  - apply orel_eq. intros s. refine (orel_bind (restore_same s S0) _). intros a1 b1 S1. apply IH, S1.
  - apply orel_eq. intros s. refine (orel_bind (restore_ff_same s S0) _). intros a1 b1 S1. apply IH, S1.
  - apply after_same; [apply IH, S0|]. intros a1 b1 e1 S1. apply IH, S1.
  - rewrite (failed_same S0). destruct (is_failed b); [|apply IH, S0]. apply orel_eq. intros s. refine (orel_bind (restore_ff_same s S0) _). intros a1 b1 S1. apply IH, S1.
  - apply orel_eq. intros [|]; apply IH, S0.
  - apply orel_eq. intros s. refine (orel_bind (restore_same s S0) _). intros a1 b1 S1. rewrite (successful_same S0). destruct (is_successful b); apply IH, S1.
  - refine (orel_bind (CALL Rec p _ _ S0) _). intros [a1 l1] [b1 l2] [S1 Q]. cbn in S1, Q. subst. apply after_same; [split; [exact S1|auto]|]. intros a2 b2 e2 S2.
    rewrite (successful_same S2). destruct (is_successful b2); apply IH; [apply discard_same|]; exact S2.
  - refine (orel_bind (CALL Par p _ _ S0) _). intros [a1 l1] [b1 l2] [S1 Q]. cbn in S1, Q. subst. apply after_same; [split; [exact S1|auto]|]. intros a2 b2 e2 S2.
    rewrite (successful_same S2). destruct (is_successful b2); [|apply IH, failure_same, S2]. refine (orel_bind (extract_same S2) _). intros [a3 v] [b3 v'] [S3 Q]. cbn in S3, Q. subst v'.
    apply orel_eq. intros vs. apply popped_n_same, IH, S3.
  - apply after_same; [apply IH, S0|]. intros a1 b1 e1 S1. rewrite (successful_same S1). destruct (is_successful b1); [|apply IH, S1]. apply orel_eq. intros e2. rewrite (mark_same S1).
    apply orel_eq. intros s. apply orel_eq. intros s2. apply IH, S1.
  - apply orel_eq. intros v. destruct (v <? n0); apply IH, S0.
Qed.
Theorem run_fn_blind fuel m id : forall a b, same a b -> orel rcall (run_fn prog xf fuel m id a) (run_fn prog xf fuel m id b).
Proof.
  intros a b S0. unfold run_fn. destruct (prog m id) as [f|]; [|exact I]. refine (orel_bind (eval_same _ _ _ _ S0) _).
  intros [[a2 e2] l2] [[b2 e2'] l2'] (S2 & Q1 & Q2). cbn in S2, Q1, Q2. subst. split; [exact S2|reflexivity].
Qed.
End Eval.
