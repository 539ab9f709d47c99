(** Type inference does not depend on its fuel: more fuel gives the same answer. *)
From Verif Require Import Base Grammar WellFormed Analysis AnalysisFacts Typing.
Set Implicit Arguments. Unset Strict Implicit.
Open Scope string_scope. Open Scope nat_scope. Open Scope list_scope.

(** [r] is [r'], or did not end. *)
Definition below (A : Type) (r r' : wres A) : Prop := r = WLoop \/ r = r'.
Lemma below_refl A (r : wres A) : below r r. Proof. right. reflexivity. Qed.
Lemma below_loop A (r : wres A) : below WLoop r. Proof. left. reflexivity. Qed.
Lemma below_bind A B (r r' : wres A) (k k' : A -> wres B) : below r r' -> (forall a, below (k a) (k' a)) -> below (wbind r k) (wbind r' k').
Proof. intros [->|<-] H; [left; reflexivity|]. destruct r as [a| |]; cbn [wbind]; [apply H|right; reflexivity|left; reflexivity]. Qed.
Lemma below_ok A (r r' : wres A) : below r r' -> r <> WLoop -> r' = r.
Proof. intros [->| ->] H; congruence. Qed.
#[local] Hint Resolve below_refl below_loop below_bind : core.

Lemma syn_eq_below T : forall k k', k <= k' -> forall a b, below (syn_eq k T a b) (syn_eq k' T a b).
Proof.
  induction k as [|k IH]; intros k' L a b; [apply below_loop|]. destruct k' as [|k']; [lia|]. specialize (IH k' ltac:(lia)). cbn [syn_eq].
  assert (AT : forall i j, below (wbind (tget T i) (fun a => wbind (tget T j) (fun b => syn_eq k T a b))) (wbind (tget T i) (fun a => wbind (tget T j) (fun b => syn_eq k' T a b)))) by auto.
  destruct a as [|r1| | |a], b as [|r2| | |b]; auto. destruct a, b; auto. destruct (length l =? length l0); auto.
  clear - AT. rename l into l1, l0 into l2. revert l2. induction l1 as [|i l1 IH]; intros [|j l2]; auto. apply below_bind; [apply AT|]. intros [|]; auto.
Qed.
Lemma contains_below T : forall k k', k <= k' -> forall t, below (contains_external k T t) (contains_external k' T t).
Proof.
  induction k as [|k IH]; intros k' L t; [apply below_loop|]. destruct k' as [|k']; [lia|]. specialize (IH k' ltac:(lia)). cbn [contains_external].
  destruct t as [|r| | |t]; auto. destruct t; auto. apply below_bind; auto. intros ts. induction ts as [|a ts IHt]; auto. apply below_bind; auto. intros [|]; auto.
Qed.
Lemma contained_below T k k' t l : k <= k' -> below (contained T k t l) (contained T k' t l).
Proof. intros L. induction l as [|a l IH]; cbn [contained]; auto. apply below_bind; [apply syn_eq_below, L|]. intros [|]; auto. Qed.
Lemma sum_scan_below T k k' : k <= k' -> forall ts r n, below (sum_scan T k ts r n) (sum_scan T k' ts r n).
Proof.
  intros L. induction ts as [|t ts IH]; intros r n; cbn [sum_scan]; auto. assert (X : below (wbind (contained T k t n) (fun b => sum_scan T k ts r (if b then n else n ++ [t])))
    (wbind (contained T k' t n) (fun b => sum_scan T k' ts r (if b then n else n ++ [t])))) by (apply below_bind; [apply contained_below, L|intros b; apply IH]).
  destruct t; auto.
Qed.
Lemma reduce_sum_below T k k' ts : k <= k' -> below (reduce_sum T k ts) (reduce_sum T k' ts).
Proof. intros L. unfold reduce_sum. destruct ts; auto. apply below_bind; [apply sum_scan_below, L|auto]. Qed.

Section Mono.
Variable G : grammar.
Variables E E' : tenv.
Hypothesis HR : ret_of E' = ret_of E.
Hypothesis HS : span_ty E' = span_ty E.
Hypothesis HRG : range_ty E' = range_ty E.
Hypothesis HC : cmp_fuel E <= cmp_fuel E'.

Definition vbelow (ve ve' : list string -> nat -> tst -> wres (ity * tst)) : Prop := forall path i st, below (ve path i st) (ve' path i st).
Lemma srule_below ve ve' path id st : vbelow ve ve' -> below (srule G ve path id st) (srule G ve' path id st).
Proof.
  intros V. unfold srule. destruct (find_rule G id) as [rl|]; auto. apply below_bind; auto. intros t. destruct t; auto. destruct (existsb (String.eqb id) path); auto.
Qed.
Lemma sexprs_below ve ve' : (forall i st, below (ve i st) (ve' i st)) -> forall l st, below (sexprs ve l st) (sexprs ve' l st).
Proof. intros V. induction l as [|i l IH]; intros st; cbn [sexprs]; auto. Qed.
Lemma swalk_below ve ve' path e st : vbelow ve ve' -> below (swalk G E ve path e st) (swalk G E' ve' path e st).
Proof.
  intros V. unfold swalk, action_type. rewrite HR, HRG. assert (X : forall l, below (sexprs (ve path) l st) (sexprs (ve' path) l st)) by (intros l; apply sexprs_below; intros; apply V).
  destruct e; auto using srule_below. apply below_bind; auto. intros q. apply below_bind; auto. apply reduce_sum_below, HC.
Qed.
Lemma sexpr_below : forall k k', k <= k' -> vbelow (sexpr G E k) (sexpr G E' k').
Proof.
  induction k as [|k IH]; intros k' L path i st; [apply below_loop|]. destruct k' as [|k']; [lia|]. cbn [sexpr]. apply below_bind; auto.
  intros t. destruct t; auto. destruct (expr_of G i) as [e|]; auto. apply below_bind; auto. apply swalk_below, IH. lia.
Qed.
Lemma surface_below k k' st : k <= k' -> below (surface G E k st) (surface G E' k' st).
Proof.
  intros L. unfold surface. revert st. induction (rules G) as [|rl rs IH]; intros st; cbn [surface_from]; auto. apply below_bind; auto. apply srule_below, sexpr_below, L.
Qed.
Lemma ascription_below t aty st : below (check_ascription E t aty st) (check_ascription E' t aty st).
Proof. unfold check_ascription. apply below_bind; auto. apply syn_eq_below, HC. Qed.
Lemma dexprs_below vd vd' : (forall i st, below (vd i st) (vd' i st)) -> forall l st, below (dexprs vd l st) (dexprs vd' l st).
Proof. intros V. induction l as [|i l IH]; intros st; cbn [dexprs]; auto. Qed.
Lemma dwalk_below se se' vd vd' uu asc e st : (forall i st, below (se i st) (se' i st)) -> (forall uu asc i st, below (vd uu asc i st) (vd' uu asc i st)) ->
  below (dwalk E se vd uu asc e st) (dwalk E' se' vd' uu asc e st).
Proof.
  intros S V. unfold dwalk. destruct e; auto.
  - destruct asc; apply dexprs_below; auto.
  - apply dexprs_below; auto.
  - apply below_bind; [destruct asc; auto; apply ascription_below|]. intros st1. apply below_bind; auto. destruct uu; auto.
Qed.
Lemma dexpr_below : forall k k', k <= k' -> forall s s', s <= s' -> forall uu asc i st, below (dexpr G E k s uu asc i st) (dexpr G E' k' s' uu asc i st).
Proof.
  induction k as [|k IH]; intros k' L s s' LS uu asc i st; [apply below_loop|]. destruct k' as [|k']; [lia|]. cbn [dexpr]. apply below_bind; auto. intros t.
  destruct (expr_of G i) as [e|]; auto.
  assert (X : forall uu st, below (dwalk E (sexpr G E s []) (dexpr G E k s) uu asc e st) (dwalk E' (sexpr G E' s' []) (dexpr G E' k' s') uu asc e st)).
  { intros uu' st'. apply dwalk_below; [intros; apply sexpr_below, LS|intros; apply IH; lia]. }
  destruct uu; auto. destruct asc as [aty|]; auto. destruct (is_external t); auto. apply below_bind; auto. apply ascription_below.
Qed.
Lemma have_type_below T rs : below (rules_have_type E T rs) (rules_have_type E' T rs).
Proof. induction rs as [|rl rs IH]; cbn [rules_have_type]; auto. apply below_bind; auto. intros t. apply below_bind; [apply contains_below, HC|auto]. Qed.
Lemma infer_from_below k k' st : k <= k' -> below (infer_from G E k st) (infer_from G E' k' st).
Proof.
  intros L. unfold infer_from. apply below_bind; [apply surface_below, L|]. intros st1. destruct (terr st1); auto. apply below_bind; auto. intros st2.
  apply below_bind; [apply dexprs_below; intros; apply dexpr_below; exact L|]. intros st3. destruct (terr st3); auto. apply below_bind; auto. intros out. apply below_bind; auto. apply have_type_below.
Qed.
End Mono.

Theorem inference_more_fuel E E' fuel fuel' G : ret_of E' = ret_of E -> span_ty E' = span_ty E -> range_ty E' = range_ty E -> cmp_fuel E <= cmp_fuel E' -> fuel <= fuel' ->
  type_inference E fuel G <> WLoop -> type_inference E' fuel' G = type_inference E fuel G.
Proof.
  intros H1 H2 H3 H4 L H. apply below_ok; [|exact H]. unfold type_inference, itable. rewrite H2. apply below_bind; auto. apply infer_from_below; auto.
Qed.
