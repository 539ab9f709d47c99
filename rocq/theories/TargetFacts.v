(** Meta-theory of the target language: fuel monotonicity, scoping, coincidence. *)
From Verif Require Import Base Utf8 Stream ParseState Grammar PegSpec Target.
Set Implicit Arguments.

Lemma name_eqb_eq a b : name_eqb a b = true <-> a = b.
Proof.
  destruct a, b; simpl; split; intros H; try discriminate; try reflexivity;
    try (apply Nat.eqb_eq in H; congruence); try (injection H; intros; subst; apply Nat.eqb_refl).
  - apply andb_true_iff in H. destruct H as [H1 H2]. apply Nat.eqb_eq in H1, H2. congruence.
  - injection H; intros; subst. rewrite !Nat.eqb_refl. reflexivity.
Qed.
Lemma name_eqb_refl a : name_eqb a a = true.
Proof. apply name_eqb_eq. reflexivity. Qed.
Lemma name_eqb_neq a b : name_eqb a b = false <-> a <> b.
Proof.
  split.
  - intros H ->. rewrite name_eqb_refl in H. discriminate.
  - intros H. destruct (name_eqb a b) eqn:E; [|reflexivity]. apply name_eqb_eq in E. contradiction.
Qed.
Lemma name_dec (a b : name) : {a = b} + {a <> b}.
Proof. destruct (name_eqb a b) eqn:E; [left; apply name_eqb_eq; exact E|right; apply name_eqb_neq; exact E]. Qed.

Definition dom (e : env) : list name := map fst e.

Lemma lookup_app x a b : lookup x (a ++ b) = match lookup x a with Some v => Some v | None => lookup x b end.
Proof.
  induction a as [|[y v] a IH]; [reflexivity|]. simpl. destruct (name_eqb x y); [reflexivity|exact IH].
Qed.
Lemma lookup_None x e : lookup x e = None <-> ~ In x (dom e).
Proof.
  induction e as [|[y v] e IH]; simpl; [tauto|]. destruct (name_eqb x y) eqn:E.
  - apply name_eqb_eq in E. split; [discriminate|]. intros H; exfalso; apply H; auto.
  - apply name_eqb_neq in E. rewrite IH. split; [|tauto]. intros H [F|F]; [congruence|tauto].
Qed.
Lemma lookup_app_not x a b : ~ In x (dom a) -> lookup x (a ++ b) = lookup x b.
Proof. intros H. rewrite lookup_app. apply lookup_None in H. rewrite H. reflexivity. Qed.

Lemma update_dom x v e : dom (update x v e) = dom e.
Proof. induction e as [|[y w] e IH]; [reflexivity|]. simpl. destruct (name_eqb x y); simpl; congruence. Qed.
Lemma update_app_not x v a b : ~ In x (dom a) -> update x v (a ++ b) = a ++ update x v b.
Proof.
  induction a as [|[y w] a IH]; intros H; [reflexivity|]. simpl in *.
  replace (name_eqb x y) with false by (symmetry; apply name_eqb_neq; intros ->; tauto).
  rewrite IH by tauto. reflexivity.
Qed.
Lemma lookup_update x y v e : lookup x (update y v e) =
  if name_eqb x y then match lookup x e with Some _ => Some v | None => None end else lookup x e.
Proof.
  induction e as [|[z w] e IH]; simpl; [destruct (name_eqb x y); reflexivity|].
  destruct (name_eqb y z) eqn:E; simpl.
  - apply name_eqb_eq in E. subst z. destruct (name_eqb x y); reflexivity.
  - destruct (name_eqb x z) eqn:F; [|exact IH].
    apply name_eqb_eq in F. subst z. apply name_eqb_neq in E.
    replace (name_eqb x y) with false by (symmetry; apply name_eqb_neq; congruence). reflexivity.
Qed.
Lemma update_same x v e : lookup x e = Some v -> update x v e = e.
Proof.
  induction e as [|[z w] e IH]; simpl; [reflexivity|]. destruct (name_eqb x z); intros H.
  - congruence.
  - rewrite IH by exact H. reflexivity.
Qed.

(** ---------------- fuel ---------------- *)
Section Fuel.
Variable prog : mode -> string -> option func.
Variable xf : mode -> list string -> pst -> outcome (pst * alog).

Definition le_out {A} (a b : outcome A) : Prop := a = Timeout \/ a = b.

Lemma le_out_refl A (a : outcome A) : le_out a a.
Proof. right. reflexivity. Qed.
Lemma le_obind A B (a a' : outcome A) (k k' : A -> outcome B) :
  le_out a a' -> (forall x, le_out (k x) (k' x)) -> le_out (obind a k) (obind a' k').
Proof.
  intros [-> | ->] H; [left; reflexivity|]. destruct a'; simpl; try (right; reflexivity). apply H.
Qed.
Lemma le_after a a' k k' : le_out a a' -> (forall st e, le_out (k st e) (k' st e)) ->
  le_out (after a k) (after a' k').
Proof.
  intros H K. apply le_obind; [exact H|]. intros [[st e] l]. apply le_obind; [apply K|].
  intros [[st' e'] l']. apply le_out_refl.
Qed.
Lemma le_popped a a' : le_out a a' -> le_out (popped a) (popped a').
Proof. intros H. apply le_obind; [exact H|]. intros. apply le_out_refl. Qed.
Lemma le_popped_n n : forall a a', le_out a a' -> le_out (popped_n n a) (popped_n n a').
Proof. induction n as [|n IH]; intros a a' H; simpl; [exact H|]. apply IH, le_popped, H. Qed.

Lemma eval_mono1 n : forall cl c st e, le_out (eval prog xf n cl c st e) (eval prog xf (S n) cl c st e).
Proof.
  induction n as [|n IH]; intros cl c st e; [left; reflexivity|].
  assert (CALL : forall m p st, le_out
     (match p with
      | Local id => f <~ of_opt (prog m id) ;;
                    '(st', _, l) <~ eval prog xf n (fclosures f) (fbody f) st [] ;; Done (st', l)
      | Foreign p => xf m p st
      end)
     (match p with
      | Local id => f <~ of_opt (prog m id) ;;
                    '(st', _, l) <~ eval prog xf (S n) (fclosures f) (fbody f) st [] ;; Done (st', l)
      | Foreign p => xf m p st
      end)).
  { intros m [id|p] st0; [|apply le_out_refl]. apply le_obind; [apply le_out_refl|]. intros f.
    apply le_obind; [apply IH|]. intros [[? ?] ?]. apply le_out_refl. }
  remember (S n) as k eqn:Ek.
  rewrite Ek at 1. cbn [eval].
  destruct c;
    repeat (first
      [ apply le_out_refl
      | apply IH
      | apply CALL
      | apply le_popped
      | apply le_popped_n
      | apply le_after; [|intros ? ?]
      | apply le_obind; [|intros ?]
      | match goal with
        | |- le_out (match ?t with _ => _ end) (match ?t with _ => _ end) => destruct t
        | |- le_out (if ?t then _ else _) (if ?t then _ else _) => destruct t
        end ]).
Qed.

Lemma eval_mono n m cl c st e : n <= m -> le_out (eval prog xf n cl c st e) (eval prog xf m cl c st e).
Proof.
  induction 1 as [|m H IH]; [apply le_out_refl|].
  destruct IH as [IH|IH]; [left; exact IH|].
  destruct (eval_mono1 m cl c st e) as [K|K].
  - left. congruence.
  - right. congruence.
Qed.

(** [evals cl c st e r]: the run terminates normally with result [r]. *)
Definition evals cl c st e (r : pst * env * alog) : Prop := exists n, eval prog xf n cl c st e = Done r.

Lemma eval_done n m cl c st e r : eval prog xf n cl c st e = Done r -> n <= m ->
  eval prog xf m cl c st e = Done r.
Proof. intros H L. destruct (eval_mono cl c st e L) as [K|K]; congruence. Qed.

Arguments eval_done {n m cl c st e r}.
Arguments eval_mono [n m].

Lemma evals_det cl c st e r1 r2 : evals cl c st e r1 -> evals cl c st e r2 -> r1 = r2.
Proof.
  intros [n H] [m K]. pose proof (eval_done H (Nat.le_max_l n m)). pose proof (eval_done K (Nat.le_max_r n m)).
  congruence.
Qed.

(** A run that terminates is the only thing that can happen: with any fuel, out of fuel or this. *)
Lemma evals_only cl c st e r : evals cl c st e r -> forall n, eval prog xf n cl c st e = Timeout \/ eval prog xf n cl c st e = Done r.
Proof.
  intros [m H] n. destruct (Nat.le_ge_cases n m) as [L|L].
  - destruct (eval_mono cl c st e L) as [K|K]; [left; exact K|right; congruence].
  - right. apply (eval_done H L).
Qed.
End Fuel.
