(** The useless-chaining analysis: termination, what its warnings mean, what the rewritings preserve. *)
From Verif Require Import Base Grammar PegSpec WellFormed WfFacts WfSound WfSyntax WfTerm WfFuel Analysis AnalysisFacts.
From Coq Require Import Relations.
Set Implicit Arguments. Unset Strict Implicit.
Open Scope string_scope. Open Scope nat_scope. Open Scope list_scope.

(** ---------------- specification ---------------- *)
Definition op_expr (o : oper) (i : nat) : option expr :=
  match o with
  | PAnd => Some (EAnd i) | PNot => Some (ENot i) | POptional => Some (EOpt i)
  | POneOrMore => Some (EPlus i) | PZeroOrMore => Some (EStar i) | PNone => None
  end.

(** From [i], going only through actions, type ascriptions, spans, ranges and rule calls. *)
Inductive wraps (G : grammar) : nat -> nat -> Prop :=
| wr_here i : wraps G i i
| wr_un i e j k : expr_of G i = Some e ->
    (exists b f, e = EAct j b f) \/ (exists t, e = EAsc j t) \/ e = ESpan j \/ e = ERange j -> wraps G j k -> wraps G i k
| wr_call i id rl k : expr_of G i = Some (ENT id) -> find_rule G id = Some rl -> wraps G (rexpr rl) k -> wraps G i k.

(** The grammar where the expression at [i] is replaced by [e]. *)
Definition rewritten (G : grammar) (i : nat) (e : expr) : grammar := mkG (rules G) (update (exprs G) i e) (types G).

(** ---------------- operators on languages ---------------- *)
Section Ops.
Variable M : text -> option text -> Prop.
Inductive reps : text -> text -> Prop :=
| reps_stop s : M s None -> reps s s
| reps_more s s1 s2 : M s (Some s1) -> reps s1 s2 -> reps s s2.
Definition applied (o : oper) (s : text) (r : option text) : Prop :=
  match o with
  | PAnd => ((exists s1, M s (Some s1)) /\ r = Some s) \/ (M s None /\ r = None)
  | PNot => (M s None /\ r = Some s) \/ ((exists s1, M s (Some s1)) /\ r = None)
  | POptional => (exists s1, M s (Some s1) /\ r = Some s1) \/ (M s None /\ r = Some s)
  | PZeroOrMore => exists s1, reps s s1 /\ r = Some s1
  | POneOrMore => (exists s1 s2, M s (Some s1) /\ reps s1 s2 /\ r = Some s2) \/ (M s None /\ r = None)
  | PNone => False
  end.
Lemma reps_app a b c : reps a b -> reps b c -> reps a c.
Proof. induction 1; intros; [assumption|eapply reps_more; eauto]. Qed.
Lemma reps_end a b : reps a b -> M b None.
Proof. induction 1; assumption. Qed.
End Ops.

Lemma reps_ext (M N : text -> option text -> Prop) s s1 : (forall s r, M s r -> N s r) -> reps M s s1 -> reps N s s1.
Proof. intros H. induction 1; [apply reps_stop; auto|eapply reps_more; eauto]. Qed.
Lemma applied_ext (M N : text -> option text -> Prop) o s r : (forall s r, M s r -> N s r) -> applied M o s r -> applied N o s r.
Proof.
  intros H. destruct o; cbn [applied]; intros A.
  - destruct A as [[[s1 Q] ->]|[Q ->]]; [left|right]; eauto.
  - destruct A as [[Q ->]|[[s1 Q] ->]]; [left|right]; eauto.
  - destruct A as [(s1 & Q & ->)|[Q ->]]; [left|right]; eauto.
  - destruct A as [(s1 & s2 & Q & Z & ->)|[Q ->]]; [left|right]; [|eauto]. exists s1, s2. split; [auto|]. split; [eapply reps_ext; eauto|reflexivity].
  - destruct A as (s1 & Z & ->). exists s1. split; [eapply reps_ext; eauto|reflexivity].
  - exact A.
Qed.


(** The sound lines of the table. *)
Ltac brk := repeat match goal with
  | H : _ \/ _ |- _ => destruct H | H : _ /\ _ |- _ => destruct H | H : ex _ |- _ => destruct H
  | H : Some _ = Some _ |- _ => injection H; clear H; intros; subst
  | H : None = Some _ |- _ => discriminate H | H : Some _ = None |- _ => discriminate H
  end; subst.
Section Rows.
Variable M : text -> option text -> Prop.
Lemma row_nn s r : applied (applied M PNot) PNot s r <-> applied M PAnd s r.
Proof. cbn [applied]. split; intros A; brk; eauto 10. Qed.
Lemma row_aa s r : applied (applied M PAnd) PAnd s r <-> applied M PAnd s r.
Proof. cbn [applied]. split; intros A; brk; eauto 10. Qed.
Lemma row_na s r : applied (applied M PAnd) PNot s r <-> applied M PNot s r.
Proof. cbn [applied]. split; intros A; brk; eauto 10. Qed.
Lemma row_an s r : applied (applied M PNot) PAnd s r <-> applied M PNot s r.
Proof. cbn [applied]. split; intros A; brk; eauto 10. Qed.
Lemma row_oo s r : applied (applied M POptional) POptional s r <-> applied M POptional s r.
Proof. cbn [applied]. split; intros A; brk; eauto 10. Qed.
Lemma row_op s r : applied (applied M POneOrMore) POptional s r <-> applied M PZeroOrMore s r.
Proof.
  cbn [applied]. split; intros A; brk.
  - eexists. split; [eapply reps_more; eassumption|reflexivity].
  - eexists. split; [apply reps_stop; eassumption|reflexivity].
  - match goal with H : reps _ _ _ |- _ => inversion H; subst end; [right; auto|left]. eexists. split; [left; eauto 10|reflexivity].
Qed.
Lemma row_os s r : applied (applied M PZeroOrMore) POptional s r <-> applied M PZeroOrMore s r.
Proof. cbn [applied]. split; intros A; brk; eauto 10. Qed.
Lemma plus_reps s s1 : reps (applied M POneOrMore) s s1 -> reps M s s1.
Proof.
  induction 1 as [s H|s s1 s2 H R IH]; cbn [applied] in H; brk; [apply reps_stop; assumption|].
  eapply reps_more; [eassumption|]. eapply reps_app; eassumption.
Qed.
Lemma reps_plus s s1 : reps M s s1 -> reps (applied M POneOrMore) s s1.
Proof.
  intros H. pose proof (reps_end H) as Z. inversion H; subst; [apply reps_stop; right; auto|].
  eapply reps_more; [left; do 2 eexists; split; [eassumption|]; split; [eassumption|reflexivity]|]. apply reps_stop. right. auto.
Qed.
Lemma row_pp s r : applied (applied M POneOrMore) POneOrMore s r <-> applied M POneOrMore s r.
Proof.
  cbn [applied]. split; intros A; brk.
  - left. match goal with H : reps (applied _ _) _ _ |- _ => apply plus_reps in H end. do 2 eexists. split; [eassumption|].
    split; [eapply reps_app; eassumption|reflexivity].
  - right. auto.
  - left. match goal with H : reps M _ _ |- _ => pose proof (reps_end H) end. do 2 eexists. split; [left; do 2 eexists; split; [eassumption|]; split; [eassumption|reflexivity]|].
    split; [|reflexivity]. apply reps_stop. right. auto.
  - right. auto.
Qed.
(** The equivalence that does hold for the pattern (e+) under a star. *)
Lemma row_sp s r : applied (applied M POneOrMore) PZeroOrMore s r <-> applied M PZeroOrMore s r.
Proof.
  cbn [applied]. split; intros A; brk; eexists; (split; [|reflexivity]); [apply plus_reps|apply reps_plus]; assumption.
Qed.
End Rows.

Lemma chain_sound a b c n M s r : check_chain a b c = Some n -> a <> PZeroOrMore ->
  (applied (applied M b) a s r <-> applied M n s r).
Proof.
  intros H NS. destruct a, b, c; try discriminate H; injection H as <-; try (exfalso; apply NS; reflexivity);
    first [apply row_nn|apply row_aa|apply row_na|apply row_an|apply row_oo|apply row_op|apply row_os|apply row_pp].
Qed.

(** ---------------- operators in a grammar ---------------- *)
Section Applied.
Variable G : grammar.
Variable X : list string -> text -> option text -> Prop.
Notation matches := (matches G X).

Lemma star_reps j s r : matches (IStar j) s r <-> exists s1, reps (matches (IE j)) s s1 /\ r = Some s1.
Proof.
  split.
  - intros H. remember (IStar j) as it eqn:E. induction H; try discriminate E; injection E as ->.
    + eexists. split; [apply reps_stop; assumption|reflexivity].
    + destruct (IHmatches2 eq_refl) as (s2 & R & ->). eexists. split; [eapply reps_more; eassumption|reflexivity].
  - intros (s1 & R & ->). induction R; [apply m_star_stop; assumption|eapply m_star_more; eassumption].
Qed.
Ltac same_expr := repeat match goal with
  | H1 : expr_of G ?i = Some _, H2 : expr_of G ?i = Some _ |- _ => rewrite H1 in H2; first [discriminate H2|injection H2; clear H2; intros; subst]
  end.
Lemma op_applied o i j e s r : expr_of G i = Some e -> op_expr o j = Some e -> (matches (IE i) s r <-> applied (matches (IE j)) o s r).
Proof.
  intros E O. split.
  - intros H. destruct o; cbn in O; try discriminate O; injection O as <-; inversion H; subst; same_expr; cbn [applied].
    all: try solve [eauto 10].
    + match goal with H : matches (IStar _) _ _ |- _ => apply star_reps in H; destruct H as (s2 & R & ->) end. left. eauto 10.
    + match goal with H : matches (IStar _) _ _ |- _ => apply star_reps in H; destruct H as (s2 & R & ->) end. eauto.
  - intros A. destruct o; cbn in O; try discriminate O; injection O as <-; cbn [applied] in A; brk.
    + eapply m_and_ok; eassumption. + eapply m_and_fail; eassumption.
    + eapply m_not_ok; eassumption. + eapply m_not_fail; eassumption.
    + eapply m_opt_some; eassumption. + eapply m_opt_none; eassumption.
    + eapply m_plus_ok; [eassumption|eassumption|]. apply star_reps. eauto.
    + eapply m_plus_fail; eassumption.
    + eapply m_star; [eassumption|]. apply star_reps. eauto.
Qed.
Lemma wraps_matches j k s r : wraps G j k -> (matches (IE j) s r <-> matches (IE k) s r).
Proof.
  intros W. induction W as [i|i e j k E K W IH|i id rl k E F W IH]; [reflexivity| |].
  - rewrite <- IH. split; intros H.
    + destruct K as [(b & f & ->)|[(t & ->)|[-> | ->]]]; inversion H; subst; same_expr; assumption.
    + destruct K as [(b & f & ->)|[(t & ->)|[-> | ->]]]; [eapply m_act|eapply m_asc|eapply m_span|eapply m_range]; eassumption.
  - rewrite <- IH. split; intros H.
    + inversion H; subst; same_expr. congruence.
    + eapply m_nt; eassumption.
Qed.
End Applied.

(** Replacing the operator application at [i]. *)
Lemma transfer G1 G2 X i o j e : rules G2 = rules G1 -> expr_of G1 i = Some e -> op_expr o j = Some e ->
  (forall q, q <> i -> expr_of G2 q = expr_of G1 q) ->
  (forall s r, applied (matches G2 X (IE j)) o s r -> matches G2 X (IE i) s r) ->
  forall it s r, matches G1 X it s r -> matches G2 X it s r.
Proof.
  intros HR Ei O Same Here it s r H.
  assert (FR : forall id, find_rule G2 id = find_rule G1 id) by (intros id; unfold find_rule; rewrite HR; reflexivity).
  induction H;
    try match goal with E : expr_of G1 ?q = Some _ |- _ =>
      destruct (Nat.eq_dec q i) as [->|NE];
      [rewrite E in Ei; injection Ei as <-; destruct o; cbn in O; try discriminate O; injection O as <-; apply Here; cbn [applied];
       first [match goal with M : matches G2 X (IStar _) _ _ |- _ => apply star_reps in M; destruct M as (? & ? & ->) end|idtac]; solve [eauto 10]
      |rewrite <- (Same q NE) in E; try (match goal with F : find_rule G1 ?id = Some _ |- _ => rewrite <- FR in F end); econstructor; solve [eassumption]] end;
    try solve [econstructor; eassumption].
Qed.

(** ---------------- the rewriting preserves the grammar ---------------- *)
Lemma wraps_trans G a b c : wraps G a b -> wraps G b c -> wraps G a c.
Proof. induction 1; intros; [assumption|eapply wr_un; eauto|eapply wr_call; eauto]. Qed.

Lemma expr_rewritten G i e q : i < length (exprs G) -> expr_of (rewritten G i e) q = if q =? i then Some e else expr_of G q.
Proof. intros L. unfold expr_of, rewritten. cbn [exprs]. apply nth_update, L. Qed.

Section Rewrite.
Variable G : grammar.
Variables (i j : nat) (a : oper) (e : expr).
Hypothesis Ei : expr_of G i = Some e.
Hypothesis Oi : op_expr a j = Some e.
Hypothesis Ordered : forall i e, expr_of G i = Some e -> Forall (fun j => j < i) (children e).
Hypothesis NoLeft : forall id, ~ clos_trans string (rule_left_calls G) id id.

Lemma child_lt q e' p : expr_of G q = Some e' -> In p (children e') -> p < q.
Proof. intros E I1. pose proof (Ordered E) as F. rewrite Forall_forall in F. exact (F p I1). Qed.
Lemma j_lt : j < i.
Proof. apply (child_lt Ei). destruct a; cbn in Oi; try discriminate Oi; injection Oi as <-; left; reflexivity. Qed.
Lemma i_calls id : left_calls G j id -> left_calls G i id.
Proof.
  intros H. eapply lc_un; [exact Ei| |exact H]. destruct a; cbn in Oi; try discriminate Oi; injection Oi as <-; tauto.
Qed.
Lemma wraps_calls q k : wraps G q k -> forall id, left_calls G k id ->
  left_calls G q id \/ exists id1, left_calls G q id1 /\ clos_trans string (rule_left_calls G) id1 id.
Proof.
  induction 1 as [q|q e' p k E K W IH|q id0 rl k E F W IH]; intros id L; [auto| |].
  - assert (C : forall z, left_calls G p z -> left_calls G q z) by (intros z Z; eapply lc_un; [exact E| |exact Z]; tauto).
    destruct (IH id L) as [H|(id1 & H & T)]; [auto|right; exists id1; auto].
  - right. exists id0. split; [eapply lc_nt; exact E|]. destruct (IH id L) as [H|(id1 & H & T)].
    + apply t_step. exists rl. auto.
    + eapply t_trans; [apply t_step; exists rl; split; [exact F|exact H]|exact T].
Qed.
Lemma wraps_first q k : wraps G q k -> k <= q \/ exists id1 rl1, left_calls G q id1 /\ find_rule G id1 = Some rl1 /\ wraps G (rexpr rl1) k.
Proof.
  induction 1 as [q|q e' p k E K W IH|q id0 rl k E F W IH]; [auto| |].
  - assert (p < q) as Lt. { apply (child_lt E). destruct K as [(b & f & ->)|[(t & ->)|[-> | ->]]]; left; reflexivity. }
    destruct IH as [Le|(id1 & rl1 & L & F & W1)]; [left; lia|]. right. exists id1, rl1. split; [|auto]. eapply lc_un; [exact E| |exact L]. tauto.
  - right. exists id0, rl. split; [eapply lc_nt; exact E|auto].
Qed.
Lemma no_return : ~ wraps G j i.
Proof.
  intros W. destruct (wraps_first W) as [Le|(id1 & rl1 & L & F & W1)]; [pose proof j_lt; lia|].
  apply i_calls in L. destruct (wraps_calls W1 L) as [H|(id2 & H & T)].
  - apply (@NoLeft id1). apply t_step. exists rl1. auto.
  - apply (@NoLeft id1). eapply t_trans; [apply t_step; exists rl1; split; [exact F|exact H]|exact T].
Qed.
Lemma wraps_rewritten e' q k : i < length (exprs G) -> wraps G q k -> (forall p, wraps G q p -> p <> i) -> wraps (rewritten G i e') q k.
Proof.
  intros L. induction 1 as [q|q e0 p k E K W IH|q id0 rl k E F W IH]; intros A; [constructor| |].
  - assert (N : q <> i) by (apply A; constructor). apply Nat.eqb_neq in N. eapply (@wr_un _ q); [rewrite (expr_rewritten _ _ L), N; exact E|exact K|].
    apply IH. intros z Z. apply A. eapply wr_un; eassumption.
  - assert (N : q <> i) by (apply A; constructor). apply Nat.eqb_neq in N. eapply (@wr_call _ q); [rewrite (expr_rewritten _ _ L), N; exact E|exact F|].
    apply IH. intros z Z. apply A. eapply wr_call; eassumption.
Qed.

Theorem rewrite_language b c n k x ek e' : wraps G j k -> expr_of G k = Some ek -> op_expr b x = Some ek ->
  check_chain a b c = Some n -> a <> PZeroOrMore -> op_expr n x = Some e' ->
  forall X it s r, matches (rewritten G i e') X it s r <-> matches G X it s r.
Proof.
  intros W Ek Ok C NS On X it s r.
  assert (L : i < length (exprs G)) by (apply nth_error_Some; unfold expr_of in Ei; congruence).
  assert (NI : forall p, wraps G j p -> p <> i) by (intros p Wp ->; exact (no_return Wp)).
  set (H := rewritten G i e').
  assert (Same : forall q, q <> i -> expr_of H q = expr_of G q).
  { intros q N. unfold H. rewrite (expr_rewritten _ _ L). apply Nat.eqb_neq in N. rewrite N. reflexivity. }
  assert (Hi : expr_of H i = Some e') by (unfold H; rewrite (expr_rewritten _ _ L), Nat.eqb_refl; reflexivity).
  split.
  - apply (@transfer H G X i n x e'); [reflexivity|exact Hi|exact On|intros q N; symmetry; exact (Same q N)|].
    intros s0 r0 A. apply (op_applied X s0 r0 Ei Oi). apply (proj2 (chain_sound _ s0 r0 C NS)) in A.
    eapply applied_ext; [|exact A]. intros s1 r1 B. apply (wraps_matches X s1 r1 W). apply (op_applied X s1 r1 Ek Ok). exact B.
  - apply (@transfer G H X i a j e); [reflexivity|exact Ei|exact Oi|exact Same|].
    intros s0 r0 A. apply (op_applied X s0 r0 Hi On). apply (chain_sound _ s0 r0 C NS).
    eapply applied_ext; [|exact A]. intros s1 r1 B. pose proof (wraps_rewritten e' L W NI) as W'. fold H in W'.
    apply (wraps_matches X s1 r1 W') in B. assert (Ek' : expr_of H k = Some ek) by (rewrite (Same k (NI k W)); exact Ek).
    apply (op_applied X s1 r1 Ek' Ok). exact B.
Qed.
End Rewrite.

(** ---------------- termination ---------------- *)
Definition tot (G : grammar) (i : nat) : Prop := exists N q, forall fuel, N <= fuel -> inner G fuel i = WOk q.
Section Total.
Variable G : grammar.
Hypothesis HG : analysable G.
Variable W : string -> option wfa.
Hypothesis HW : wf_cert G W.

Lemma no_empty_seq i : in_rules G i -> expr_of G i <> Some (ESeq []).
Proof.
  intros I1 E. destruct (wc_good HW I1) as ((a & J & K) & _). inversion J; subst; try congruence.
  match goal with H : expr_of G i = Some (ESeq ?l), J : judged _ _ (ISeq ?l) _ |- _ => rewrite E in H; injection H as <-; inversion J; subst end.
  specialize (K eq_refl). discriminate.
Qed.
Lemma same_oper_tot l : Forall (tot G) l -> forall p c, exists N q, forall fuel, N <= fuel -> same_oper (inner G fuel) l p c = WOk q.
Proof.
  induction 1 as [|j l (N & q & H) _ IH]; intros p c; [exists 0, (p, c); reflexivity|].
  destruct (IH p (c || snd q)) as (N' & q' & H'). destruct (oper_eqb p (fst q)) eqn:E.
  - exists (N + N'), q'. intros fuel L. cbn [same_oper]. rewrite H by lia. cbn [wbind]. rewrite E. apply H'. lia.
  - exists N, (PNone, false). intros fuel L. cbn [same_oper]. rewrite H by lia. cbn [wbind]. rewrite E. reflexivity.
Qed.

Definition tot_item (it : item) : Prop :=
  match it with
  | IE i => in_rules G i -> tot G i
  | ISeq [] => True
  | ISeq (j :: _) => in_rules G j -> tot G j
  | IAlt l => Forall (in_rules G) l -> Forall (tot G) l
  | IStar _ => True
  end.
Lemma child_rules i e j : in_rules G i -> expr_of G i = Some e -> In j (children e) -> in_rules G j.
Proof. intros Hi Ee Hj. eapply in_rules_child; eassumption. Qed.

Lemma tot_step i e : in_rules G i -> expr_of G i = Some e -> (forall id, e <> ENT id) ->
  (forall j, In j (children e) -> tot G j) -> tot G i.
Proof.
  intros Hi Ee NE K. destruct e; cbn [children] in K.
  all: try (exists 1; eexists; intros [|fu] L; [lia|]; cbn [inner]; rewrite Ee; reflexivity).
  all: try (destruct (K i0 ltac:(left; reflexivity)) as (N & q & H); exists (S N), q; intros [|fu] L; [lia|]; cbn [inner]; rewrite Ee; apply H; lia).
  - exfalso. eapply NE. reflexivity.
  - destruct l as [|j l]; [exfalso; exact (no_empty_seq Hi Ee)|]. destruct (K j ltac:(left; reflexivity)) as (N & q & H).
    exists (S N), q; intros [|fu] L; [lia|]; cbn [inner]; rewrite Ee; apply H; lia.
  - destruct l as [|j l]; [exfalso; exact (an_choice HG Ee)|]. destruct (K j ltac:(left; reflexivity)) as (N & q & H).
    destruct (@same_oper_tot (j :: l)) with (p := fst q) (c := snd q) as (N' & q' & H'); [apply Forall_forall; exact K|].
    exists (S (N + N')), q'. intros [|fu] L; [lia|]. cbn [inner]. rewrite Ee, H by lia. cbn [wbind]. apply H'. lia.
Qed.
Lemma tot_call i id rl : expr_of G i = Some (ENT id) -> find_rule G id = Some rl -> tot G (rexpr rl) -> tot G i.
Proof.
  intros Ee F (N & q & H). exists (S N), (fst q, true). intros [|f] L; [lia|]. cbn [inner]. rewrite Ee, F, H by lia. reflexivity.
Qed.

(** Left positions. *)
Lemma lfree_tot p it : lfree G W p it -> tot_item it.
Proof.
  induction 1; cbn [tot_item] in *; auto.
  - intros Hi. eapply tot_step; eauto. rewrite H0. intros j [].
  - intros Hi. eapply tot_call; [eassumption|eassumption|]. apply IHlfree. eapply in_rules_rule; eassumption.
  - intros Hi. destruct l as [|j l]; [exfalso; exact (no_empty_seq Hi H)|].
    destruct IHlfree as (N & q & K); [eapply child_rules; [exact Hi|exact H|left; reflexivity]|].
    exists (S N), q. intros [|f] L; [lia|]. cbn [inner]. rewrite H. apply K. lia.
  - intros Hi. eapply tot_step; [exact Hi|exact H|discriminate|]. cbn [children]. apply Forall_forall, IHlfree.
    apply Forall_forall. intros j Hj. eapply child_rules; [exact Hi|exact H|exact Hj].
  - intros Hi. eapply tot_step; [exact Hi|exact H|intros id ->; discriminate|]. intros q Hq.
    assert (q = j) as -> by (destruct e; cbn in *; try discriminate; destruct Hq as [<-|[]]; congruence).
    apply IHlfree. eapply child_rules; [exact Hi|exact H|exact Hq].
  - intros Fo. inversion Fo; subst. constructor; auto.
Qed.
Lemma inner_total n : forall i, i < n -> in_rules G i -> tot G i.
Proof.
  induction n as [|n IH]; intros i L Hi; [lia|]. pose proof (in_rules_lt HG Hi) as Lt. unfold E in Lt.
  destruct (expr_of G i) as [e|] eqn:Ee; [|apply nth_error_None in Ee; lia].
  assert (D : (exists id, e = ENT id) \/ forall id, e <> ENT id) by (destruct e; eauto; right; discriminate).
  destruct D as [[id ->]|NE].
  - destruct (an_resolved HG Hi Ee) as [rl F]. eapply tot_call; [exact Ee|exact F|].
    apply (lfree_tot (wc_left HW F)). eapply in_rules_rule; exact F.
  - eapply tot_step; [exact Hi|exact Ee|exact NE|]. intros j Hj. destruct (child_in HG Hi Ee Hj) as [Hj' Lj]. apply IH; [lia|exact Hj'].
Qed.

Definition outer_tot (i : nat) : Prop := exists N ws, forall fuel ifuel, N <= fuel -> N <= ifuel -> outer G fuel ifuel i = WOk ws.
Definition go_list (k : nat -> wres (list warning)) : list nat -> wres (list warning) :=
  fix go (l : list nat) := match l with [] => WOk [] | j :: l' => wbind (k j) (fun w => wbind (go l') (fun w' => WOk (w ++ w'))) end.
Lemma go_cons k j l : go_list k (j :: l) = wbind (k j) (fun w => wbind (go_list k l) (fun w' => WOk (w ++ w'))).
Proof. reflexivity. Qed.
Lemma go_tot l : Forall outer_tot l -> exists N ws, forall fuel ifuel, N <= fuel -> N <= ifuel -> go_list (outer G fuel ifuel) l = WOk ws.
Proof.
  induction 1 as [|j l (N & w & H) _ (N' & w' & IH)]; [exists 0, []; reflexivity|].
  exists (N + N'), (w ++ w'). intros f g L1 L2. rewrite go_cons. rewrite H by lia. cbn [wbind]. rewrite IH by lia. reflexivity.
Qed.
Lemma outer_total n : forall i, i < n -> in_rules G i -> outer_tot i.
Proof.
  induction n as [|n IH]; intros i L Hi; [lia|]. pose proof (in_rules_lt HG Hi) as Lt. unfold E in Lt.
  destruct (expr_of G i) as [e|] eqn:Ee; [|apply nth_error_None in Ee; lia].
  assert (K : forall j, In j (children e) -> outer_tot j /\ tot G j).
  { intros j Hj. destruct (child_in HG Hi Ee Hj) as [Hj' Lj]. split; [apply IH; [lia|exact Hj']|]. exact (inner_total (Nat.lt_succ_diag_r j) Hj'). }
  assert (GO : exists N ws, forall fuel ifuel, N <= fuel -> N <= ifuel -> go_list (outer G fuel ifuel) (children e) = WOk ws).
  { apply go_tot. apply Forall_forall. intros j Hj. apply K, Hj. }
  assert (CH : forall op j, In j (children e) -> exists N ws, forall fuel ifuel, N <= fuel -> N <= ifuel ->
    wbind (inner G ifuel j) (fun q => match check_chain op (fst q) (snd q) with Some new => WOk [mkW i op (fst q) new] | None => outer G fuel ifuel j end) = WOk ws).
  { intros op j Hj. destruct (K j Hj) as [(N1 & ws & H1) (N2 & q & H2)]. destruct (check_chain op (fst q) (snd q)) as [new|] eqn:C.
    - exists N2. eexists. intros f g L1 L2. rewrite H2 by lia. cbn [wbind]. rewrite C. reflexivity.
    - exists (N1 + N2), ws. intros f g L1 L2. rewrite H2 by lia. cbn [wbind]. rewrite C. apply H1; lia. }
  destruct e; try (destruct GO as (N & ws & H); exists (S N), ws; intros [|fu] g L1 L2; [lia|]; cbn [outer]; rewrite Ee; exact (H fu g ltac:(lia) ltac:(lia))).
  - destruct (CH PZeroOrMore i0 (or_introl eq_refl)) as (N & ws & H). exists (S N), ws; intros [|fu] g L1 L2; [lia|]; cbn [outer]; rewrite Ee; exact (H fu g ltac:(lia) ltac:(lia)).
  - destruct (CH POneOrMore i0 (or_introl eq_refl)) as (N & ws & H). exists (S N), ws; intros [|fu] g L1 L2; [lia|]; cbn [outer]; rewrite Ee; exact (H fu g ltac:(lia) ltac:(lia)).
  - destruct (CH POptional i0 (or_introl eq_refl)) as (N & ws & H). exists (S N), ws; intros [|fu] g L1 L2; [lia|]; cbn [outer]; rewrite Ee; exact (H fu g ltac:(lia) ltac:(lia)).
  - destruct (CH PNot i0 (or_introl eq_refl)) as (N & ws & H). exists (S N), ws; intros [|fu] g L1 L2; [lia|]; cbn [outer]; rewrite Ee; exact (H fu g ltac:(lia) ltac:(lia)).
  - destruct (CH PAnd i0 (or_introl eq_refl)) as (N & ws & H). exists (S N), ws; intros [|fu] g L1 L2; [lia|]; cbn [outer]; rewrite Ee; exact (H fu g ltac:(lia) ltac:(lia)).
Qed.

Lemma chaining_total : NoDup (map rname (rules G)) -> exists N ws, forall fuel ifuel, N <= fuel -> N <= ifuel -> chaining G fuel ifuel = WOk ws.
Proof.
  intros ND. assert (FR : forall rl, In rl (rules G) -> find_rule G (rname rl) = Some rl).
  { unfold find_rule. induction (rules G) as [|r rs IH]; intros rl I1; [destruct I1|]. cbn [map] in ND. inversion ND; subst. cbn [find].
    destruct I1 as [->|I1]; [rewrite String.eqb_refl; reflexivity|]. destruct (String.eqb_spec (rname r) (rname rl)) as [Eq|_]; [|auto].
    exfalso. match goal with H : ~ In _ _ |- _ => apply H; rewrite Eq; apply in_map, I1 end. }
  assert (Q : forall rs, (forall rl, In rl rs -> In rl (rules G)) -> exists N ws, forall fuel ifuel, N <= fuel -> N <= ifuel -> chaining_from G fuel ifuel rs = WOk ws).
  { induction rs as [|rl rs IH]; intros I1; [exists 0, []; reflexivity|].
    destruct IH as (N & ws & H); [intros r Hr; apply I1; right; exact Hr|].
    destruct (@outer_total (S (rexpr rl)) (rexpr rl)) as (N' & ws' & H'); [lia|eapply in_rules_rule, FR, I1; left; reflexivity|].
    exists (N + N'), (ws' ++ ws). intros f g L1 L2. cbn [chaining_from]. rewrite H' by lia. cbn [wbind]. rewrite H by lia. reflexivity. }
  apply Q. auto.
Qed.
End Total.

(** ---------------- what the warnings say ---------------- *)
Section Warn.
Variable G : grammar.

Lemma wraps_inner j k : wraps G j k -> forall b x ek, expr_of G k = Some ek -> op_expr b x = Some ek ->
  forall fuel q, inner G fuel j = WOk q -> fst q = b.
Proof.
  induction 1 as [j|j e p k E K W IH|j id rl k E F W IH]; intros b x ek Ek Ok fuel q H; (destruct fuel as [|f]; [discriminate|]); cbn [inner] in H.
  - rewrite Ek in H. destruct b; cbn in Ok; try discriminate; injection Ok as <-; apply WOk_inj in H; subst; reflexivity.
  - rewrite E in H. destruct K as [(b0 & f0 & ->)|[(t & ->)|[-> | ->]]]; eapply IH; eassumption.
  - rewrite E, F in H. apply wbind_ok in H. destruct H as (q' & H & R). apply WOk_inj in R. subst q. cbn [fst]. eapply IH; eassumption.
Qed.

Definition warned (g : nat) (w : warning) : Prop :=
  exists j e c, expr_of G (w_at w) = Some e /\ op_expr (w_outer w) j = Some e /\ inner G g j = WOk (w_inner w, c)
    /\ check_chain (w_outer w) (w_inner w) c = Some (w_new w).
Lemma outer_warned f : forall g i ws, outer G f g i = WOk ws -> forall w, In w ws -> sub G i (w_at w) /\ warned g w.
Proof.
  induction f as [|f IH]; intros g i ws H w Hw; [discriminate|]. cbn [outer] in H.
  destruct (expr_of G i) as [e|] eqn:Ee; [|discriminate].
  assert (GO : forall l, (forall j, In j l -> In j (children e)) -> forall ws, go_list (outer G f g) l = WOk ws -> In w ws -> sub G i (w_at w) /\ warned g w).
  { induction l as [|j l IHl]; intros Sub ws' H' Hw'; [apply WOk_inj in H'; subst; destruct Hw'|]. rewrite go_cons in H'.
    apply wbind_ok in H'. destruct H' as (w1 & H1 & H'). apply wbind_ok in H'. destruct H' as (w2 & H2 & H'). apply WOk_inj in H'. subst ws'.
    apply in_app_or in Hw'. destruct Hw' as [I1|I1].
    - destruct (IH _ _ _ H1 _ I1) as [S1 W1]. split; [|exact W1]. eapply sub_step; [exact Ee|apply Sub; left; reflexivity|exact S1].
    - eapply IHl; [|exact H2|exact I1]. intros q Q. apply Sub. right. exact Q. }
  assert (CH : forall op j, op_expr op j = Some e ->
    wbind (inner G g j) (fun q => match check_chain op (fst q) (snd q) with Some new => WOk [mkW i op (fst q) new] | None => outer G f g j end) = WOk ws ->
    sub G i (w_at w) /\ warned g w).
  { intros op j Oj H'. apply wbind_ok in H'. destruct H' as ([b c] & H1 & H'). cbn [fst snd] in H'. destruct (check_chain op b c) as [new|] eqn:C.
    - apply WOk_inj in H'. subst ws. destruct Hw as [<-|[]]. cbn [w_at]. split; [constructor|]. exists j, e, c. cbn. auto.
    - destruct (IH _ _ _ H' _ Hw) as [S1 W1]. split; [|exact W1]. eapply sub_step; [exact Ee| |exact S1].
      destruct op; cbn in Oj; try discriminate; injection Oj as <-; left; reflexivity. }
  destruct e; try (eapply (GO (children _)); [intros j Hj; exact Hj|exact H|exact Hw]).
  all: eapply CH; [|exact H]; reflexivity.
Qed.
Lemma chaining_warned f g ws : chaining G f g = WOk ws -> forall w, In w ws -> (exists rl, In rl (rules G) /\ sub G (rexpr rl) (w_at w)) /\ warned g w.
Proof.
  unfold chaining. assert (Q : forall rs ws, (forall r, In r rs -> In r (rules G)) -> chaining_from G f g rs = WOk ws -> forall w, In w ws ->
    (exists rl, In rl (rules G) /\ sub G (rexpr rl) (w_at w)) /\ warned g w).
  { induction rs as [|rl rs IH]; intros ws' I1 H w Hw; cbn [chaining_from] in H; [apply WOk_inj in H; subst; destruct Hw|].
    apply wbind_ok in H. destruct H as (w1 & H1 & H). apply wbind_ok in H. destruct H as (w2 & H2 & H). apply WOk_inj in H. subst ws'.
    apply in_app_or in Hw. destruct Hw as [Hw|Hw].
    - destruct (outer_warned H1 Hw) as [S1 W1]. split; [exists rl; split; [apply I1; left; reflexivity|exact S1]|exact W1].
    - eapply IH; [|exact H2|exact Hw]. intros r Hr. apply I1. right. exact Hr. }
  intros H w Hw. eapply Q; [|exact H|exact Hw]. auto.
Qed.

(** No warning: no direct chain of the table. *)
Lemma outer_silent f : forall g i, outer G f g i = WOk [] -> forall m e a j, sub G i m -> expr_of G m = Some e -> op_expr a j = Some e ->
  forall q, inner G g j = WOk q -> check_chain a (fst q) (snd q) = None.
Proof.
  induction f as [|f IH]; intros g i H m em a j Sm Em Oj q Hq; [discriminate|]. cbn [outer] in H.
  destruct (expr_of G i) as [e|] eqn:Ee; [|discriminate].
  assert (GO : forall l p, go_list (outer G f g) l = WOk [] -> In p l -> outer G f g p = WOk []).
  { induction l as [|p' l IHl]; intros p H' Hp; [destruct Hp|]. rewrite go_cons in H'.
    apply wbind_ok in H'. destruct H' as (w1 & H1 & H'). apply wbind_ok in H'. destruct H' as (w2 & H2 & H'). apply WOk_inj in H'.
    apply app_eq_nil in H'. destruct H' as [-> ->]. destruct Hp as [->|Hp]; [exact H1|apply IHl; assumption]. }
  assert (CH : forall op p, op_expr op p = Some e ->
    wbind (inner G g p) (fun q => match check_chain op (fst q) (snd q) with Some new => WOk [mkW i op (fst q) new] | None => outer G f g p end) = WOk [] ->
    outer G f g p = WOk [] /\ exists q, inner G g p = WOk q /\ check_chain op (fst q) (snd q) = None).
  { intros op p Op H'. apply wbind_ok in H'. destruct H' as (q' & H1 & H'). destruct (check_chain op (fst q') (snd q')) as [new|] eqn:C; [discriminate|]. eauto. }
  inversion Sm as [|? p ? e0 E0 Ip Sp]; subst.
  - assert (em = e) as -> by congruence. destruct a; cbn in Oj; try discriminate; injection Oj as <-;
      (edestruct CH as (_ & q' & Hq' & C); [| exact H |]; [reflexivity|]); assert (q' = q) as -> by congruence; exact C.
  - assert (e0 = e) as -> by congruence. assert (P : outer G f g p = WOk []).
    { destruct e; try (match type of Ip with In _ ?l => exact (GO l p H Ip) end); destruct Ip as [->|[]];
        (edestruct CH as (P & _); [| exact H | exact P]); reflexivity. }
    eapply IH; eassumption.
Qed.
Lemma chaining_silent f g : chaining G f g = WOk [] -> forall rl m e a j, In rl (rules G) -> sub G (rexpr rl) m -> expr_of G m = Some e -> op_expr a j = Some e ->
  forall q, inner G g j = WOk q -> check_chain a (fst q) (snd q) = None.
Proof.
  unfold chaining. induction (rules G) as [|r rs IH]; intros H rl m e a j I1 Sm Em Oj q Hq; [destruct I1|]. cbn [chaining_from] in H.
  apply wbind_ok in H. destruct H as (w1 & H1 & H). apply wbind_ok in H. destruct H as (w2 & H2 & H). apply WOk_inj in H.
  apply app_eq_nil in H. destruct H as [-> ->]. destruct I1 as [->|I1]; [eapply outer_silent; eassumption|eapply IH; eassumption].
Qed.
End Warn.
