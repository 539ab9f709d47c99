(** The verdict of the well-formedness analysis, exactly: a grammar is rejected for one of five reasons. *)
From Verif Require Import Base Grammar PegSpec WellFormed WfFacts WfSound WfSyntax WfTerm WfFuel.
From Coq Require Import Relations.
Set Implicit Arguments. Unset Strict Implicit.
Open Scope nat_scope. Open Scope list_scope.

(** ---------------- specification ---------------- *)
Section Spec.
Variable G : grammar.
(** The expression consumes nothing, whatever the input: predicates, and what is built from them alone. *)
Inductive never_consumes : nat -> Prop :=
| nc_not i e : expr_of G i = Some (ENot e) -> never_consumes i
| nc_and i e : expr_of G i = Some (EAnd e) -> never_consumes i
| nc_nt i id rl : expr_of G i = Some (ENT id) -> find_rule G id = Some rl -> never_consumes (rexpr rl) -> never_consumes i
| nc_seq i l : expr_of G i = Some (ESeq l) -> none_consumes l -> never_consumes i
| nc_alt i l : expr_of G i = Some (EAlt l) -> none_consumes l -> never_consumes i
| nc_un i e j : expr_of G i = Some e ->
    e = EStar j \/ e = EPlus j \/ e = EOpt j \/ (exists b f, e = EAct j b f) \/ (exists t, e = EAsc j t) \/ e = ESpan j \/ e = ERange j ->
    never_consumes j -> never_consumes i
with none_consumes : list nat -> Prop :=
| ncs_nil : none_consumes []
| ncs_cons i l : never_consumes i -> none_consumes l -> none_consumes (i :: l).

(** The five reasons. *)
Record sane : Prop := {
  sane_left : forall id, ~ clos_trans string (rule_left_calls G) id id;
  sane_repeat : forall i e, in_rules G i -> expr_of G i = Some (EStar e) \/ expr_of G i = Some (EPlus e) -> ~ can_empty G e;
  sane_branch : forall i l1 j l2, in_rules G i -> expr_of G i = Some (EAlt (l1 ++ j :: l2)) -> l2 <> [] -> ~ never_fails G j;
  sane_not : forall i e, in_rules G i -> expr_of G i = Some (ENot e) -> ~ never_fails G e;
  sane_idle : forall i, in_rules G i -> never_fails G i -> ~ never_consumes i
}.
End Spec.
Scheme never_consumes_mut := Induction for never_consumes Sort Prop
  with none_consumes_mut := Induction for none_consumes Sort Prop.

(** ---------------- an accepted grammar is sane ---------------- *)
Section Sound.
Variable G : grammar.
Variable W : string -> option wfa.
Hypothesis HW : wf_cert G W.
Notation judged := (judged G W).
Ltac same_expr := repeat match goal with
  | H1 : expr_of G ?i = Some _, H2 : expr_of G ?i = Some _ |- _ => rewrite H1 in H2; first [discriminate H2|injection H2; intros; subst; clear H2]
  end.
Lemma alt_none l : forall a, judged (IAlt l) a -> never_consume a = true \/ exists j b, In j l /\ judged (IE j) b /\ never_consume b = false.
Proof.
  induction l as [|i l IH]; intros a J; inversion J; subst; [left; reflexivity|]. cbn [never_consume].
  match goal with H : judged (IE i) ?b |- _ => destruct (never_consume b) eqn:N; [|right; exists i, b; split; [left; reflexivity|split; assumption]] end.
  match goal with H : judged (IAlt l) _ |- _ => destruct (IH _ H) as [Q|(j & c & I1 & K)]; [left; rewrite Q; reflexivity|right; exists j, c; split; [right; exact I1|exact K]] end.
Qed.
Lemma idle_judged i : never_consumes G i -> forall a, judged (IE i) a -> never_consume a = true.
Proof.
  intros H. pattern i, H. apply never_consumes_mut with
    (P0 := fun l _ => (forall a, judged (ISeq l) a -> never_consume a = true) /\ (forall a, judged (IAlt l) a -> never_consume a = true)).
  - intros i0 e E a J. inversion J; subst; same_expr. reflexivity.
  - intros i0 e E a J. inversion J; subst; same_expr. reflexivity.
  - intros i0 id rl E F _ IH a J. inversion J; subst; same_expr. apply IH. eapply nt_judged; eassumption.
  - intros i0 l E _ [IH _] a J. inversion J; subst; same_expr. auto.
  - intros i0 l E _ [_ IH] a J. inversion J; subst; same_expr. auto.
  - intros i0 e j E U _ IH a J.
    repeat match goal with H : _ \/ _ |- _ => destruct H | H : ex _ |- _ => destruct H end; subst; inversion J; subst; same_expr; cbn; auto.
    match goal with J : judged (IStar _) _ |- _ => inversion J; subst end. cbn. auto.
  - split; intros a J; inversion J; reflexivity.
  - intros i0 l _ IH _ [IHs IHa]. split; intros a J; inversion J; subst; cbn;
      match goal with J1 : judged (IE i0) _ |- _ => rewrite (IH _ J1) end;
      match goal with J2 : judged _ _ |- _ => first [rewrite (IHs _ J2)|rewrite (IHa _ J2)] end; reflexivity.
Qed.
Theorem cert_sane : sane G.
Proof.
  split.
  - intros id. exact (@no_left_recursion G W HW id).
  - intros i e. exact (@no_empty_repeat G W HW i e).
  - intros i l1 j l2. exact (@no_dead_branch G W HW i l1 j l2).
  - intros i e I1 E N. destruct (wc_good HW I1) as (_ & _ & K & _). destruct (K e E) as (a & J & C). rewrite (never_judged HW N J) in C. discriminate.
  - intros i I1 N C. destruct (wc_good HW I1) as ((a & J & K) & _). rewrite (idle_judged C J) in K. specialize (K (never_judged HW N J)). discriminate.
Qed.
End Sound.

(** ---------------- a sane grammar is accepted ---------------- *)
Section Complete.
Variable G : grammar.
Hypothesis HS : sane G.
Hypothesis HA : analysable G.

(** What the attributes say is true. *)
Definition truthful (i : nat) (a : wfa) : Prop :=
  can_succeed a = true /\ (can_fail a = false -> never_fails G i) /\ (always_consume a = false -> can_empty G i) /\ (never_consume a = true -> never_consumes G i).
Definition tab_true (W : string -> option wfa) : Prop := forall id a, W id = Some a -> exists rl, find_rule G id = Some rl /\ truthful (rexpr rl) a.

(** The rules under traversal: each is called by the next one, before any input when the flag is off. *)
Fixpoint linked (p : list (string * bool)) : Prop :=
  match p with
  | [] => True
  | (id, c) :: p' => (c = false -> match p' with (id', _) :: _ => rule_left_calls G id' id | [] => True end) /\ linked p'
  end.
(** Where the traversal is. *)
Definition placed (l : list nat) (st : wst) : Prop :=
  wcons st = false -> match wpath st with [] => False | (id, _) :: _ => forall i x, In i l -> left_calls G i x -> rule_left_calls G id x end.

(** A recursive call without consumption closes a cycle of left calls. *)
Lemma since_chain id : forall p x, linked p -> match p with [] => False | (id0, _) :: _ => rule_left_calls G id0 x end -> existsb (fun q => String.eqb (fst q) id) p = true ->
  fold_left (fun acc (q : string * bool) => acc || snd q) (rec_path_from id p) false = false -> clos_trans string (rule_left_calls G) id x.
Proof.
  assert (FT : forall l, fold_left (fun acc (q : string * bool) => acc || snd q) l true = true) by (induction l; cbn; auto).
  induction p as [|[id0 c] p IH]; intros x L K E C; [destruct K|]. cbn [existsb rec_path_from fst] in *. destruct (String.eqb id0 id) eqn:Q.
  - apply String.eqb_eq in Q. subst. apply t_step. exact K.
  - cbn [orb] in E. cbn [fold_left orb snd] in C. destruct c; [rewrite FT in C; discriminate|]. destruct L as [L1 L2]. specialize (L1 eq_refl).
    destruct p as [|[id1 c1] p]; [discriminate E|]. eapply t_trans; [apply (IH id0 L2 L1 E C)|apply t_step; exact K].
Qed.

Definition quiet (st st' : wst) : Prop := wok st' = true /\ werrs st' = [] /\ tab_true (wtab st') /\ wpath st' = wpath st /\ wcons st' = wcons st.
Definition ready_at (l : list nat) (st : wst) : Prop :=
  wok st = true /\ werrs st = [] /\ tab_true (wtab st) /\ linked (wpath st) /\ placed l st.
Definition vspec (ve : nat -> wst -> wres (wfa * wst)) : Prop := forall i st a st', in_rules G i -> ready_at [i] st -> ve i st = WOk (a, st') ->
  truthful i a /\ quiet st st'.

Lemma ready_sub l l' st st' : ready_at l st -> quiet st st' ->
  (forall i x, In i l' -> left_calls G i x -> exists j, In j l /\ left_calls G j x) -> ready_at l' st'.
Proof.
  intros (O & R & T & L & P) (O' & R' & T' & P' & C') K. split; [exact O'|]. split; [exact R'|]. split; [exact T'|]. split; [rewrite P'; exact L|].
  unfold placed in *. rewrite P', C'. intros C. specialize (P C). destruct (wpath st) as [|[id c] p]; [exact P|].
  intros i x I1 LC. destruct (K i x I1 LC) as (j & Ij & Lj). exact (P j x Ij Lj).
Qed.
Lemma quiet_refl l st : ready_at l st -> quiet st st.
Proof. intros (O & R & T & _). repeat split; auto. Qed.
Lemma quiet_trans a b c : quiet a b -> quiet b c -> quiet a c.
Proof. intros (_ & _ & _ & P & Q) (O & R & T & P' & Q'). repeat split; auto; congruence. Qed.

Section Walk.
Variable ve : nat -> wst -> wres (wfa * wst).
Hypothesis HV : vspec ve.

Lemma exact_rule id st a st' rl : find_rule G id = Some rl -> wok st = true -> werrs st = [] -> tab_true (wtab st) -> linked (wpath st) ->
  (wcons st = false -> match wpath st with [] => True | (id0, _) :: _ => rule_left_calls G id0 id end) ->
  visit_rule G ve id st = WOk (a, st') -> truthful (rexpr rl) a /\ quiet st st'.
Proof.
  intros F O R T L K H. unfold visit_rule in H. apply wbind_ok in H. destruct H as (st1 & H & H1).
  assert (Q : quiet st st1 -> (wtab st1 id = Some a /\ st1 = st') -> truthful (rexpr rl) a /\ quiet st st').
  { intros Q (Wa & <-). split; [|exact Q]. destruct Q as (_ & _ & T1 & _). destruct (T1 _ _ Wa) as (rl' & F' & TR). congruence. }
  destruct (wtab st1 id) as [a1|] eqn:Wa; [|discriminate]. apply WOk_inj, pair_inj in H1. destruct H1 as [<- <-]. apply Q; [|auto]. clear Q.
  destruct (is_rec id st) eqn:IR.
  - destruct (negb (consume_input_since id st) && negb (wcons st)) eqn:B.
    + exfalso. apply andb_true_iff in B. destruct B as [B1 B2]. apply negb_true_iff in B1, B2. specialize (K B2). unfold is_rec in IR. unfold consume_input_since in B1.
      destruct (wpath st) as [|[id0 c0] p] eqn:P; [discriminate IR|]. apply (sane_left HS (id := id)). exact (since_chain L K IR B1).
    + apply WOk_inj in H. subst st1. repeat split; auto.
  - rewrite F in H. apply wbind_ok in H. destruct H as ([b st2] & H & H2). cbn [fst snd] in H2. apply wbind_ok in H2. destruct H2 as (st3 & P & U).
    assert (RD : ready_at [rexpr rl] (push_rule id st)).
    { split; [exact O|]. split; [exact R|]. split; [exact T|]. split; [cbn; split; [|exact L]|].
      - intros C. specialize (K C). destruct (wpath st) as [|[id0 c0] p]; [exact I|exact K].
      - unfold placed. cbn. intros _ i x [<-|[]] LC. exists rl. split; assumption. }
    destruct (HV (in_rules_rule F) RD H) as (TR & O2 & R2 & T2 & P2 & C2).
    unfold pop_rule in P. cbn in P2. rewrite P2 in P. apply WOk_inj in P. subst st3.
    unfold fixpoint_update in U. cbn [wtab with_cons with_path] in U. destruct (wtab st2 id) as [b0|] eqn:T0; [|discriminate]. apply WOk_inj in U. subst st1.
    destruct (wfa_eqb b b0) eqn:EB; (split; [exact O2|]; split; [exact R2|]; split; [|split; reflexivity]).
    + exact T2.
    + cbn. intros x y. destruct (String.eqb x id) eqn:X; [|apply T2]. apply String.eqb_eq in X. subst x. intros Y. injection Y as <-. exists rl. split; assumption.
Qed.

Definition seq_true (l : list nat) (a r : wfa) : Prop :=
  can_succeed r = can_succeed a /\ (can_fail r = false -> can_fail a = false /\ never_fail G l) /\
  (always_consume r = false -> always_consume a = false /\ can_empties G l) /\ (never_consume r = true -> never_consume a = true /\ none_consumes G l).
Lemma ready_cons l st st' b : ready_at l st -> quiet st st' -> (b = false -> wcons st = false) -> ready_at l (with_cons st' b).
Proof.
  intros (O & R & T & L & P) (O' & R' & T' & P' & C') K. split; [exact O'|]. split; [exact R'|]. split; [exact T'|]. split; [cbn; rewrite P'; exact L|].
  unfold placed in *. cbn. rewrite P'. intros C. exact (P (K C)).
Qed.
Lemma exact_seq l2 : forall i l1 a st r st', Forall (in_rules G) l2 -> expr_of G i = Some (ESeq (l1 ++ l2)) -> (wcons st = true \/ can_empties G l1) ->
  ready_at [i] st -> visit_sequence_from ve l2 a st = WOk (r, st') -> seq_true l2 a r /\ quiet st (with_cons st' (wcons st)).
Proof.
  induction l2 as [|j l IH]; intros i l1 a st r st' FA E CE RD H; cbn [visit_sequence_from] in H.
  - apply WOk_inj, pair_inj in H. destruct H as [<- <-]. split; [|rewrite with_cons_same; exact (quiet_refl RD)].
    split; [reflexivity|]. repeat split; auto; constructor.
  - apply wbind_ok in H. destruct H as ([c st1] & H & K). cbn [fst snd] in K. inversion FA as [|? ? Ij FA']; subst.
    assert (RJ : ready_at [j] st).
    { destruct RD as (O & R & T & L & P). split; [exact O|]. split; [exact R|]. split; [exact T|]. split; [exact L|]. unfold placed in *. intros C. specialize (P C).
      destruct (wpath st) as [|[id cc] p]; [exact P|]. intros i0 x [<-|[]] LC. destruct CE as [CE|CE]; [congruence|].
      apply (P i x); [left; reflexivity|]. eapply lc_seq; [exact E|reflexivity|exact CE|exact LC]. }
    destruct (HV Ij RJ H) as ((C1 & C2 & C3 & C4) & Q).
    set (st2 := if always_consume c then with_cons st1 true else st1) in *.
    assert (R2 : ready_at [i] st2).
    { unfold st2. destruct (always_consume c) eqn:AC; [apply (ready_cons RD Q); discriminate|].
      eapply ready_sub; [exact RD|exact Q|]. intros i0 x I0 LC. exists i0. auto. }
    assert (CC : forall l1, can_empties G l1 -> can_empty G j -> can_empties G (l1 ++ [j])).
    { clear. induction l1 as [|k l1 IH]; intros A B; cbn [app]; [constructor; [exact B|constructor]|]. inversion A; subst. constructor; auto. }
    assert (E' : expr_of G i = Some (ESeq ((l1 ++ [j]) ++ l))) by (rewrite <- app_assoc; exact E).
    assert (CE' : wcons st2 = true \/ can_empties G (l1 ++ [j])).
    { unfold st2. destruct (always_consume c) eqn:AC; [left; reflexivity|]. destruct Q as (_ & _ & _ & _ & QC). rewrite QC. destruct CE as [CE|CE]; [left; exact CE|right; auto]. }
    destruct (IH i (l1 ++ [j]) _ _ _ _ FA' E' CE' R2 K) as (S1 & S2).
    cbn [can_succeed can_fail always_consume never_consume] in S1. split.
    + destruct S1 as (A1 & A2 & A3 & A4). cbn [can_succeed can_fail always_consume never_consume] in *. split; [rewrite A1, C1, andb_true_r; reflexivity|]. split; [|split].
      * intros F. destruct (A2 F) as [B1 B2]. apply orb_false_iff in B1. destruct B1. split; [assumption|]. constructor; auto.
      * intros F. destruct (A3 F) as [B1 B2]. apply orb_false_iff in B1. destruct B1. split; [assumption|]. constructor; auto.
      * intros F. destruct (A4 F) as [B1 B2]. apply andb_true_iff in B1. destruct B1. split; [assumption|]. constructor; auto.
    + destruct Q as (_ & _ & _ & QP & QC), S2 as (O & R & T & P & _). cbn in O, R, T, P. repeat split; auto. cbn. rewrite P. unfold st2. destruct (always_consume c); exact QP.
Qed.

Definition alt_true (l : list nat) (a r : wfa) : Prop :=
  (l <> [] -> can_succeed r = true) /\ (can_fail r = false -> can_fail a = false \/ exists j, In j l /\ never_fails G j) /\
  (always_consume r = false -> always_consume a = false \/ exists j, In j l /\ can_empty G j) /\ (never_consume r = true -> never_consume a = true /\ none_consumes G l).
Lemma exact_alt this l2 : forall l1 a st r st', Forall (in_rules G) l2 -> in_rules G this -> expr_of G this = Some (EAlt (l1 ++ l2)) -> 
  ready_at [this] st -> visit_choice_from ve this l2 a st = WOk (r, st') -> alt_true l2 a r /\ quiet st st'.
Proof.
  induction l2 as [|j l IH]; intros l1 a st r st' FA IT E RD H; cbn [visit_choice_from] in H.
  - apply WOk_inj, pair_inj in H. destruct H as [<- <-]. split; [|exact (quiet_refl RD)]. split; [congruence|]. repeat split; auto; constructor.
  - apply wbind_ok in H. destruct H as ([c st1] & H & K). cbn [fst snd] in K. inversion FA as [|? ? Ij FA']; subst.
    assert (RJ : ready_at [j] st).
    { eapply ready_sub; [exact RD|exact (quiet_refl RD)|]. intros i0 x [<-|[]] LC. exists this. split; [left; reflexivity|].
      eapply lc_alt; [exact E|apply in_or_app; right; left; reflexivity|exact LC]. }
    destruct (HV Ij RJ H) as ((C1 & C2 & C3 & C4) & Q).
    assert (Q1 : quiet st (with_cons st1 (wcons st))) by (destruct Q as (? & ? & ? & ? & ?); repeat split; auto).
    set (a' := mkWfa (can_fail a && can_fail c) (can_succeed a || can_succeed c) (always_consume a && always_consume c) (never_consume a && never_consume c)) in *.
    assert (S0 : forall l r, alt_true l a' r -> (l = [] -> can_succeed r = true) -> alt_true (j :: l) a r).
    { clear - C1 C2 C3 C4. intros l r (A1 & A2 & A3 & A4) Z. split; [intros _; destruct l; [auto|apply A1; discriminate]|]. split; [|split].
      - intros F. destruct (A2 F) as [B|(k & Ik & B)]; [|right; exists k; split; [right; exact Ik|exact B]]. cbn in B. apply andb_false_iff in B. destruct B as [B|B]; [auto|].
        right. exists j. split; [left; reflexivity|auto].
      - intros F. destruct (A3 F) as [B|(k & Ik & B)]; [|right; exists k; split; [right; exact Ik|exact B]]. cbn in B. apply andb_false_iff in B. destruct B as [B|B]; [auto|].
        right. exists j. split; [left; reflexivity|auto].
      - intros F. destruct (A4 F) as [B1 B2]. cbn in B1. apply andb_true_iff in B1. destruct B1. split; [assumption|]. constructor; auto. }
    destruct l as [|k l].
    + apply WOk_inj, pair_inj in K. destruct K as [<- <-]. split; [|exact Q1]. apply S0; [|intros _; unfold a'; cbn; rewrite C1; apply orb_true_r].
      split; [congruence|]. repeat split; auto; constructor.
    + destruct (negb (can_fail c)) eqn:CF.
      * exfalso. apply negb_true_iff in CF. eapply (sane_branch HS) with (l1 := l1) (l2 := k :: l); [exact IT|exact E|discriminate|auto].
      * assert (E' : expr_of G this = Some (EAlt ((l1 ++ [j]) ++ k :: l))) by (rewrite <- app_assoc; exact E).
        assert (R2 : ready_at [this] (with_cons st1 (wcons st))).
        { eapply ready_sub; [exact RD|exact Q1|]. intros i0 x I0 LC. exists i0. auto. }
        destruct (IH (l1 ++ [j]) _ _ _ _ FA' IT E' R2 K) as (S1 & S2).
        split; [|exact (quiet_trans Q1 S2)]. apply S0; [exact S1|discriminate].
Qed.

Lemma ready_child i e j st : expr_of G i = Some e -> unary e = Some j -> ready_at [i] st -> ready_at [j] st.
Proof.
  intros E U RD. eapply ready_sub; [exact RD|exact (quiet_refl RD)|]. intros i0 x [<-|[]] LC. exists i. split; [left; reflexivity|].
  eapply lc_un; [exact E| |exact LC]. destruct e; cbn in U; try discriminate U; injection U as ->; intuition eauto.
Qed.

Lemma exact_walk i st a st' : in_rules G i -> ready_at [i] st -> walk G ve i st = WOk (a, st') -> truthful i a /\ quiet st st'.
Proof.
  intros Ii RD H. unfold walk in H. destruct (expr_of G i) as [e|] eqn:E; [|discriminate].
  assert (CH : forall j, unary e = Some j -> in_rules G j /\ ready_at [j] st).
  { intros j U. split; [|exact (ready_child E U RD)]. eapply in_rules_child; [exact Ii|exact E|]. destruct e; cbn in U; try discriminate U; injection U as ->; left; reflexivity. }
  assert (AT : (wfa_default, st) = (a, st') -> truthful i a /\ quiet st st').
  { intros Q. apply pair_inj in Q. destruct Q as [<- <-]. split; [|exact (quiet_refl RD)]. repeat split; cbn; discriminate. }
  assert (RP : forall j, expr_of G i = Some (EStar j) \/ expr_of G i = Some (EPlus j) -> forall b st1, visit_repeat ve i j st = WOk (b, st1) -> truthful j b /\ quiet st st1).
  { intros j EJ b st1 K. unfold visit_repeat in K. apply wbind_ok in K. destruct K as ([c st2] & K & K2). cbn [fst snd] in K2.
    destruct (CH j) as [Ij RJ]; [destruct EJ as [EJ|EJ]; rewrite E in EJ; injection EJ as ->; reflexivity|].
    destruct (HV Ij RJ K) as ((C1 & C2 & C3 & C4) & Q). rewrite C1 in K2. cbn [andb] in K2. destruct (negb (always_consume c)) eqn:AC.
    - exfalso. apply negb_true_iff in AC. exact (sane_repeat HS Ii (e := j) ltac:(rewrite E; rewrite E in EJ; exact EJ) (C3 AC)).
    - apply WOk_inj, pair_inj in K2. destruct K2 as [<- <-]. split; [repeat split; auto|exact Q]. }
  assert (PR : forall j, unary e = Some j -> forall b st1, visit_predicate ve j st = WOk (b, st1) -> exists c, truthful j c /\ quiet st st1 /\ b = mkWfa (can_fail c) (can_succeed c) false true).
  { intros j U b st1 K. unfold visit_predicate in K. apply wbind_ok in K. destruct K as ([c st2] & K & K2). cbn [fst snd] in K2. apply WOk_inj, pair_inj in K2. destruct K2 as [<- <-].
    destruct (CH j U) as [Ij RJ]. destruct (HV Ij RJ K) as (TC & Q). exists c. split; [exact TC|]. split; [exact Q|reflexivity]. }
  assert (TR : forall j, unary e = Some j -> ve j st = WOk (a, st') ->
     (never_fails G j -> never_fails G i) -> (can_empty G j -> can_empty G i) -> (never_consumes G j -> never_consumes G i) -> truthful i a /\ quiet st st').
  { intros j U K A B C. destruct (CH j U) as [Ij RJ]. destruct (HV Ij RJ K) as ((C1 & C2 & C3 & C4) & Q). split; [repeat split; auto|exact Q]. }
  destruct e as [[|c lit]| |cls|id|p|l|l|e|e|e|e|e|e b f|e t|e|e].
  - apply WOk_inj, pair_inj in H. destruct H as [<- <-]. split; [|exact (quiet_refl RD)]. repeat split; cbn; try discriminate; intros _; [apply nf_str|apply ce_str]; exact E.
  - apply WOk_inj in H. auto.
  - apply WOk_inj in H. auto.
  - apply WOk_inj in H. auto.
  - destruct (an_resolved HA Ii E) as (rl & F). destruct RD as (O & R & T & L & P).
    assert (K : wcons st = false -> match wpath st with [] => True | (id0, _) :: _ => rule_left_calls G id0 id end).
    { unfold placed in P. intros C. specialize (P C). destruct (wpath st) as [|[id0 c0] p]; [exact I|]. apply (P i id); [left; reflexivity|]. apply lc_nt. exact E. }
    destruct (exact_rule F O R T L K H) as ((C1 & C2 & C3 & C4) & Q).
    split; [|exact Q]. repeat split; auto; intros Z; [eapply nf_nt|eapply ce_nt|eapply nc_nt]; eauto.
  - apply WOk_inj in H. auto.
  - apply wbind_ok in H. destruct H as ([b st1] & H & K). cbn [fst snd] in K. apply WOk_inj, pair_inj in K. destruct K as [<- <-].
    assert (FA : Forall (in_rules G) l) by (apply Forall_forall; intros j Ij; eapply in_rules_child; [exact Ii|exact E|exact Ij]).
    destruct (@exact_seq l i [] _ _ _ _ FA E (or_intror (ces_nil G)) RD H) as ((S1 & S2 & S3 & S4) & Q). split; [|exact Q].
    split; [exact S1|]. split; [|split]; intros Z; [eapply nf_seq; [exact E|apply S2, Z]|eapply ce_seq; [exact E|apply S3, Z]|eapply nc_seq; [exact E|apply S4, Z]].
  - assert (FA : Forall (in_rules G) l) by (apply Forall_forall; intros j Ij; eapply in_rules_child; [exact Ii|exact E|exact Ij]).
    destruct (@exact_alt i l [] _ _ _ _ FA Ii E RD H) as ((S1 & S2 & S3 & S4) & Q). split; [|exact Q].
    split; [apply S1; intros ->; exact (an_choice HA E)|]. split; [|split]; intros Z.
    + destruct (S2 Z) as [B|(j & Ij & B)]; [discriminate|]. eapply nf_alt; eauto.
    + destruct (S3 Z) as [B|(j & Ij & B)]; [discriminate|]. eapply ce_alt; eauto.
    + eapply nc_alt; [exact E|apply S4, Z].
  - apply wbind_ok in H. destruct H as ([b st1] & H & K). cbn [fst snd] in K. apply WOk_inj, pair_inj in K. destruct K as [<- <-].
    destruct (RP e (or_introl E) _ _ H) as ((C1 & C2 & C3 & C4) & Q). split; [|exact Q]. split; [reflexivity|]. cbn. split; [|split]; intros Z.
    + eapply nf_star; exact E.
    + eapply ce_star; exact E.
    + eapply nc_un; [exact E| |apply C4, Z]. auto.
  - destruct (RP e (or_intror E) _ _ H) as ((C1 & C2 & C3 & C4) & Q). split; [|exact Q]. split; [exact C1|]. split; [|split]; intros Z.
    + eapply nf_plus; eauto.
    + eapply ce_plus; eauto.
    + eapply nc_un; [exact E| |apply C4, Z]. auto.
  - apply wbind_ok in H. destruct H as ([b st1] & H & K). cbn [fst snd] in K. apply WOk_inj, pair_inj in K. destruct K as [<- <-].
    destruct (CH e eq_refl) as [Ij RJ]. destruct (HV Ij RJ H) as ((C1 & C2 & C3 & C4) & Q). split; [|exact Q]. split; [reflexivity|]. cbn. split; [|split]; intros Z.
    + eapply nf_opt; exact E.
    + eapply ce_opt; exact E.
    + eapply nc_un; [exact E| |apply C4, Z]. auto.
  - apply wbind_ok in H. destruct H as ([b st1] & H & K). cbn [fst snd] in K. apply WOk_inj, pair_inj in K. destruct K as [<- <-].
    destruct (PR e eq_refl _ _ H) as (c & (C1 & C2 & C3 & C4) & Q & ->). cbn [can_fail can_succeed always_consume never_consume]. split; [|exact Q].
    destruct (can_fail c) eqn:CF; [|exfalso; exact (sane_not HS Ii E (C2 eq_refl))].
    split; [reflexivity|]. cbn. split; [congruence|]. split; intros Z; [eapply ce_not; exact E|eapply nc_not; exact E].
  - destruct (PR e eq_refl _ _ H) as (c & (C1 & C2 & C3 & C4) & Q & ->). split; [|exact Q]. split; [exact C1|]. cbn. split; [|split]; intros Z.
    + eapply nf_and; eauto.
    + eapply ce_and; exact E.
    + eapply nc_and; exact E.
  - apply (TR e eq_refl H); intros Z; [eapply nf_act|eapply ce_act|eapply nc_un; [exact E| |exact Z]]; eauto 8.
  - apply (TR e eq_refl H); intros Z; [eapply nf_asc|eapply ce_asc|eapply nc_un; [exact E| |exact Z]]; eauto 8.
  - apply (TR e eq_refl H); intros Z; [eapply nf_span|eapply ce_span|eapply nc_un; [exact E| |exact Z]]; eauto 8.
  - apply (TR e eq_refl H); intros Z; [eapply nf_range|eapply ce_range|eapply nc_un; [exact E| |exact Z]]; eauto 8.
Qed.
End Walk.

Lemma exact_expr fuel : vspec (visit_expr G fuel).
Proof.
  induction fuel as [|k IH]; intros i st a st' Ii RD H; [discriminate|]. cbn [visit_expr] in H. apply wbind_ok in H. destruct H as ([b st1] & H & K). cbn [fst snd] in K.
  destruct (exact_walk IH Ii RD H) as ((C1 & C2 & C3 & C4) & Q). rewrite C1 in K. destruct (negb (can_fail b || true)); [discriminate|].
  destruct (negb (negb (always_consume b) || negb (never_consume b))); [discriminate|]. cbn [negb andb] in K. rewrite andb_false_r in K.
  destruct (negb (can_fail b) && never_consume b) eqn:B.
  - exfalso. apply andb_true_iff in B. destruct B as [B1 B2]. apply negb_true_iff in B1. exact (sane_idle HS Ii (C2 B1) (C4 B2)).
  - apply WOk_inj, pair_inj in K. destruct K as [<- <-]. split; [repeat split; auto|exact Q].
Qed.

Definition calm (st : wst) : Prop := wok st = true /\ werrs st = [] /\ tab_true (wtab st) /\ wpath st = [].
Lemma exact_pass fuel rs : incl rs (rules G) -> forall st st', calm st -> visit_pass G fuel rs st = WOk st' -> calm st'.
Proof.
  induction rs as [|rl rs IH]; intros Hi st st' C H; cbn [visit_pass] in H; [apply WOk_inj in H; subst; exact C|].
  apply wbind_ok in H. destruct H as ([a st1] & H & K). cbn [snd] in K. destruct (rule_found (Hi rl (or_introl eq_refl))) as (rl' & F).
  destruct C as (O & R & T & P).
  assert (L : linked (wpath st)) by (rewrite P; exact I).
  assert (K0 : wcons st = false -> match wpath st with [] => True | (id0, _) :: _ => rule_left_calls G id0 (rname rl) end) by (rewrite P; auto).
  destruct (exact_rule (@exact_expr fuel) F O R T L K0 H) as (_ & O1 & R1 & T1 & P1 & _).
  rewrite O1 in K. eapply IH; [intros x X; apply Hi; right; exact X| |exact K]. split; [exact O1|]. split; [exact R1|]. split; [exact T1|]. congruence.
Qed.
Lemma exact_rules fuel passes : forall st st', calm st -> visit_rules G fuel passes st = WOk st' -> calm st'.
Proof.
  induction passes as [|k IH]; intros st st' C H; cbn [visit_rules] in H; destruct (negb (wfix st) && wok st); try discriminate; try (apply WOk_inj in H; subst; exact C).
  apply wbind_ok in H. destruct H as (st1 & H & K). eapply IH; [|exact K]. eapply exact_pass; [intros x X; exact X| |exact H]. exact C.
Qed.
Theorem sane_accepted : accepted G.
Proof.
  destruct (analysis_total HA) as (b & H). exists (fuel0 G), (3 * R G + 1). rewrite H. f_equal. unfold is_well_formed in H. apply wbind_ok in H. destruct H as (st & H & K).
  apply WOk_inj in K. subst b. 
  assert (C : calm (wst_new G)).
  { split; [reflexivity|]. split; [reflexivity|]. split; [|reflexivity]. cbn. intros id a. destruct (find_rule G id) as [rl|] eqn:F; [|discriminate]. intros Z. injection Z as <-.
    exists rl. split; [reflexivity|]. repeat split; cbn; discriminate. }
  exact (proj1 (exact_rules C H)).
Qed.
End Complete.

Theorem accepted_iff_sane G : analysable G -> (accepted G <-> sane G).
Proof.
  intros A. split.
  - intros H. destruct (accepted_cert (an_choice A) H) as [W HW]. exact (cert_sane HW).
  - intros S. exact (sane_accepted S A).
Qed.
