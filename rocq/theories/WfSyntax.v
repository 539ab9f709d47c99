(** What an accepting analysis excludes, in syntactic terms (Ford's textbook definitions). *)
From Verif Require Import Base Grammar PegSpec WellFormed WfFacts WfSound.
From Coq Require Import Relations.
Set Implicit Arguments. Unset Strict Implicit.

(** ---------------- specification ---------------- *)
Section Spec.
Variable G : grammar.

(** The expression may succeed without consuming input.  External rules are taken to consume. *)
Inductive can_empty : nat -> Prop :=
| ce_str i : expr_of G i = Some (EStr []) -> can_empty i
| ce_nt i id rl : expr_of G i = Some (ENT id) -> find_rule G id = Some rl -> can_empty (rexpr rl) -> can_empty i
| ce_seq i l : expr_of G i = Some (ESeq l) -> can_empties l -> can_empty i
| ce_alt i l j : expr_of G i = Some (EAlt l) -> In j l -> can_empty j -> can_empty i
| ce_star i e : expr_of G i = Some (EStar e) -> can_empty i
| ce_plus i e : expr_of G i = Some (EPlus e) -> can_empty e -> can_empty i
| ce_opt i e : expr_of G i = Some (EOpt e) -> can_empty i
| ce_not i e : expr_of G i = Some (ENot e) -> can_empty i
| ce_and i e : expr_of G i = Some (EAnd e) -> can_empty i
| ce_act i e b f : expr_of G i = Some (EAct e b f) -> can_empty e -> can_empty i
| ce_asc i e t : expr_of G i = Some (EAsc e t) -> can_empty e -> can_empty i
| ce_span i e : expr_of G i = Some (ESpan e) -> can_empty e -> can_empty i
| ce_range i e : expr_of G i = Some (ERange e) -> can_empty e -> can_empty i
with can_empties : list nat -> Prop :=
| ces_nil : can_empties []
| ces_cons i l : can_empty i -> can_empties l -> can_empties (i :: l).

(** Matching [i] may call rule [id] before any input is consumed. *)
Inductive left_calls : nat -> string -> Prop :=
| lc_nt i id : expr_of G i = Some (ENT id) -> left_calls i id
| lc_seq i l l1 j l2 id : expr_of G i = Some (ESeq l) -> l = l1 ++ j :: l2 -> can_empties l1 -> left_calls j id -> left_calls i id
| lc_alt i l j id : expr_of G i = Some (EAlt l) -> In j l -> left_calls j id -> left_calls i id
| lc_un i e j id : expr_of G i = Some e ->
    e = EStar j \/ e = EPlus j \/ e = EOpt j \/ e = ENot j \/ e = EAnd j \/ (exists b f, e = EAct j b f)
      \/ (exists t, e = EAsc j t) \/ e = ESpan j \/ e = ERange j -> left_calls j id -> left_calls i id.
Definition rule_left_calls (id id' : string) : Prop := exists rl, find_rule G id = Some rl /\ left_calls (rexpr rl) id'.

(** The expression succeeds whatever the input. *)
Inductive never_fails : nat -> Prop :=
| nf_str i : expr_of G i = Some (EStr []) -> never_fails i
| nf_star i e : expr_of G i = Some (EStar e) -> never_fails i
| nf_opt i e : expr_of G i = Some (EOpt e) -> never_fails i
| nf_nt i id rl : expr_of G i = Some (ENT id) -> find_rule G id = Some rl -> never_fails (rexpr rl) -> never_fails i
| nf_seq i l : expr_of G i = Some (ESeq l) -> never_fail l -> never_fails i
| nf_alt i l j : expr_of G i = Some (EAlt l) -> In j l -> never_fails j -> never_fails i
| nf_plus i e : expr_of G i = Some (EPlus e) -> never_fails e -> never_fails i
| nf_and i e : expr_of G i = Some (EAnd e) -> never_fails e -> never_fails i
| nf_act i e b f : expr_of G i = Some (EAct e b f) -> never_fails e -> never_fails i
| nf_asc i e t : expr_of G i = Some (EAsc e t) -> never_fails e -> never_fails i
| nf_span i e : expr_of G i = Some (ESpan e) -> never_fails e -> never_fails i
| nf_range i e : expr_of G i = Some (ERange e) -> never_fails e -> never_fails i
with never_fail : list nat -> Prop :=
| nfs_nil : never_fail []
| nfs_cons i l : never_fails i -> never_fail l -> never_fail (i :: l).
End Spec.

Scheme can_empty_mut := Induction for can_empty Sort Prop
  with can_empties_mut := Induction for can_empties Sort Prop.
Scheme never_fails_mut := Induction for never_fails Sort Prop
  with never_fail_mut := Induction for never_fail Sort Prop.

Section Syntax.
Variable G : grammar.
Variable W : string -> option wfa.
Hypothesis HW : wf_cert G W.
Notation judged := (judged G W).

Ltac same_expr := repeat match goal with
  | H1 : expr_of G ?i = Some _, H2 : expr_of G ?i = Some _ |- _ => rewrite H1 in H2; first [discriminate H2|injection H2; intros; subst; clear H2]
  end.

Lemma nt_judged id rl a : find_rule G id = Some rl -> W id = Some a -> judged (IE (rexpr rl)) a.
Proof. intros F Wa. destruct (wc_fix HW F) as (b & Wb & J). congruence. Qed.

Lemma alt_judged l : forall a j, judged (IAlt l) a -> In j l -> exists b, judged (IE j) b
  /\ (always_consume b = false -> always_consume a = false) /\ (can_fail b = false -> can_fail a = false).
Proof.
  induction l as [|i l IH]; intros a j J I1; [destruct I1|]. inversion J; subst. destruct I1 as [->|I1].
  - match goal with H : judged (IE j) ?b |- _ => exists b; split; [exact H|] end. cbn. split; intros ->; reflexivity.
  - match goal with H : judged (IAlt l) _ |- _ => destruct (IH _ _ H I1) as (c & Jc & A & B) end.
    exists c. split; [exact Jc|]. cbn. split; intros Z; [rewrite (A Z)|rewrite (B Z)]; apply andb_false_r.
Qed.

Lemma empty_judged i : can_empty G i -> forall a, judged (IE i) a -> always_consume a = false.
Proof.
  intros H. pattern i, H. apply can_empty_mut with
    (P0 := fun l _ => forall a, judged (ISeq l) a -> always_consume a = false); intros;
    match goal with J : judged _ _ |- _ => inversion J; subst; same_expr; cbn [always_consume always_succeed]; try reflexivity end.
  all: try solve [auto].
  - match goal with IH : forall a, _ -> _ |- _ => apply IH end. eapply nt_judged; eassumption.
  - match goal with J : judged (IAlt _) _, I1 : In _ _ |- _ => destruct (alt_judged J I1) as (b & Jb & A & _); apply A end. auto.
  - match goal with J : judged (IStar _) _ |- _ => inversion J; subst; reflexivity end.
  - match goal with IH1 : forall a, judged (IE _) a -> _, IH2 : forall a, judged (ISeq _) a -> _, J1 : judged (IE _) _, J2 : judged (ISeq _) _ |- _ =>
      rewrite (IH1 _ J1), (IH2 _ J2) end. reflexivity.
Qed.

Lemma never_judged i : never_fails G i -> forall a, judged (IE i) a -> can_fail a = false.
Proof.
  intros H. pattern i, H. apply never_fails_mut with
    (P0 := fun l _ => forall a, judged (ISeq l) a -> can_fail a = false); intros;
    match goal with J : judged _ _ |- _ => inversion J; subst; same_expr; cbn [can_fail always_succeed]; try reflexivity end.
  all: try solve [auto].
  - match goal with J : judged (IStar _) _ |- _ => inversion J; subst; reflexivity end.
  - match goal with IH : forall a, _ -> _ |- _ => apply IH end. eapply nt_judged; eassumption.
  - match goal with J : judged (IAlt _) _, I1 : In _ _ |- _ => destruct (alt_judged J I1) as (b & Jb & _ & A); apply A end. auto.
  - match goal with IH1 : forall a, judged (IE _) a -> _, IH2 : forall a, judged (ISeq _) a -> _, J1 : judged (IE _) _, J2 : judged (ISeq _) _ |- _ =>
      rewrite (IH1 _ J1), (IH2 _ J2) end. reflexivity.
Qed.

Lemma seq_judged l1 : forall j l2 p, can_empties G l1 -> lfree G W p (ISeq (l1 ++ j :: l2)) -> lfree G W p (IE j).
Proof.
  induction l1 as [|i l1 IH]; intros j l2 p HC L; cbn [app] in L; inversion L; subst; [assumption|].
  inversion HC; subst. apply (IH j l2); [assumption|].
  match goal with H : _ = false -> lfree _ _ _ (ISeq _), J : judged (IE i) _ |- _ => apply H; eapply empty_judged; eassumption end.
Qed.
Lemma alt_lfree l : forall j p, In j l -> lfree G W p (IAlt l) -> lfree G W p (IE j).
Proof. induction l as [|i l IH]; intros j p [] L; inversion L; subst; auto. Qed.

Lemma left_lfree i id : left_calls G i id -> forall p, lfree G W p (IE i) -> ~ In id p /\ exists rl, find_rule G id = Some rl /\ lfree G W (id :: p) (IE (rexpr rl)).
Proof.
  induction 1; intros p L.
  - inversion L; subst; same_expr.
    + exfalso. match goal with H : forall id, ENT _ <> ENT id |- _ => eapply H; reflexivity end.
    + split; [assumption|]. eauto.
    + match goal with H : unary (ENT _) = Some _ |- _ => discriminate H end.
  - inversion L; subst; same_expr.
    + match goal with H : children _ = [] |- _ => cbn in H; destruct l1; discriminate end.
    + apply IHleft_calls. eapply seq_judged; eassumption.
    + match goal with H : unary _ = Some _ |- _ => discriminate H end.
  - inversion L; subst; same_expr.
    + match goal with H : children _ = [], I1 : In _ _ |- _ => cbn in H; subst; destruct I1 end.
    + apply IHleft_calls. eapply alt_lfree; eassumption.
    + match goal with H : unary _ = Some _ |- _ => discriminate H end.
  - assert (U : unary e = Some j).
    { repeat match goal with H : _ \/ _ |- _ => destruct H | H : ex _ |- _ => destruct H end; subst; reflexivity. }
    inversion L; subst; same_expr; try discriminate U.
    + match goal with H : children ?e = [] |- _ => destruct e; cbn in U, H; discriminate end.
    + apply IHleft_calls. congruence.
Qed.

(** No rule reaches itself through left calls. *)
Theorem no_left_recursion id : ~ clos_trans string (rule_left_calls G) id id.
Proof.
  assert (K : forall a b, clos_trans string (rule_left_calls G) a b -> forall p rl, find_rule G a = Some rl -> lfree G W p (IE (rexpr rl)) ->
    ~ In b p /\ exists p' rl', find_rule G b = Some rl' /\ incl p p' /\ lfree G W p' (IE (rexpr rl'))).
  { intros a b H. apply clos_trans_t1n in H. induction H as [a b (ra & Fa & La)|a b c (ra & Fa & La) H IH]; intros p rl F L.
    - assert (ra = rl) as -> by congruence. destruct (left_lfree La L) as (N & rb & Fb & Lb). split; [exact N|].
      exists (b :: p), rb. split; [exact Fb|]. split; [|exact Lb]. intros z Z. right. exact Z.
    - assert (ra = rl) as -> by congruence. destruct (left_lfree La L) as (N & rb & Fb & Lb).
      destruct (IH _ _ Fb Lb) as (N2 & p' & rc & Fc & Ic & Lc). split; [intros Z; apply N2; right; exact Z|].
      exists p', rc. split; [exact Fc|]. split; [|exact Lc]. intros z Z. apply Ic. right. exact Z. }
  intros H. assert (exists rl, find_rule G id = Some rl) as [rl F].
  { pose proof (clos_trans_t1n _ _ _ _ H) as H1. inversion H1 as [? (rl & F & _)|? ? (rl & F & _) ?]; eauto. }
  destruct (K _ _ H _ _ F (wc_left HW F)) as [N _]. apply N. left. reflexivity.
Qed.

Theorem no_empty_repeat i e : in_rules G i -> expr_of G i = Some (EStar e) \/ expr_of G i = Some (EPlus e) -> ~ can_empty G e.
Proof.
  intros I1 E C. destruct (wc_good HW I1) as (_ & K & _). destruct (K e E) as (a & J & A). rewrite (empty_judged C J) in A. discriminate.
Qed.
Theorem no_dead_branch i l1 j l2 : in_rules G i -> expr_of G i = Some (EAlt (l1 ++ j :: l2)) -> l2 <> [] -> ~ never_fails G j.
Proof.
  intros I1 E NE C. destruct (wc_good HW I1) as (_ & _ & _ & K). destruct (K _ l1 j l2 E eq_refl NE) as (a & J & A). rewrite (never_judged C J) in A. discriminate.
Qed.
End Syntax.
