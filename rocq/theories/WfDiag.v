(** The errors of the well-formedness analysis are justified, and there is one exactly when it rejects. *)
From Verif Require Import Base Grammar PegSpec WellFormed WfFacts WfSound WfSyntax WfTerm WfFuel WfExact.
From Coq Require Import Relations.
Set Implicit Arguments. Unset Strict Implicit.
Open Scope nat_scope. Open Scope list_scope.

(** ---------------- specification ---------------- *)
(** [x] is related to the first of [l], each of [l] to the next one, and the last one to [y]. *)
Fixpoint chain (A : Type) (R : A -> A -> Prop) (x : A) (l : list A) (y : A) : Prop :=
  match l with [] => R x y | z :: l' => R x z /\ chain R z l' y end.
(** A cycle of distinct elements, without the last one, which is the first. *)
Definition closed (A : Type) (R : A -> A -> Prop) (c : list A) : Prop :=
  NoDup c /\ match c with [] => False | x :: l => chain R x l x end.

Section Diag.
Variable G : grammar.
(** What an error says is so. *)
Definition justified (d : diag) : Prop :=
  match d with
  | DLeft c => closed (rule_left_calls G) c
  | DNever i => in_rules G i /\ exists e, expr_of G i = Some (ENot e) /\ never_fails G e
  | DAlways i => in_rules G i /\ never_fails G i /\ never_consumes G i
  | DLoop i => in_rules G i /\ exists e, (expr_of G i = Some (EStar e) \/ expr_of G i = Some (EPlus e)) /\ can_empty G e
  | DBranch i j => in_rules G i /\ exists l1 l2, expr_of G i = Some (EAlt (l1 ++ j :: l2)) /\ l2 <> [] /\ never_fails G j
  end.
Hypothesis HA : analysable G.

(** Errors are emitted with the verdict. *)
Definition told (st : wst) : Prop := (wok st = true <-> wdiag st = []) /\ (wdiag st = [] -> werrs st = []) /\ Forall justified (wdiag st).
Lemma told_report d i st : told st -> justified d -> told (report d i st).
Proof. intros (A & B & C) J. unfold report. destruct (existsb _ _); [split; [|split]; assumption|]. split; [|split]; cbn; [split; discriminate|discriminate|constructor; assumption]. Qed.
Lemma told_left d i st : told st -> justified d -> told (report d i (with_ok st false)).
Proof.
  intros (A & B & C) J. unfold report. cbn [werrs with_ok]. destruct (existsb _ _) eqn:X; [|split; [|split]; cbn; [split; discriminate|discriminate|constructor; assumption]].
  assert (N : wdiag st <> []) by (intros E; rewrite (B E) in X; discriminate). split; [|split]; cbn; [split; [discriminate|intros E; destruct (N E)]|exact B|exact C].
Qed.
Definition quiet (st st' : wst) : Prop := told st' /\ tab_true G (wtab st') /\ wpath st' = wpath st /\ wcons st' = wcons st.
Definition ready_at (l : list nat) (st : wst) : Prop :=
  told st /\ tab_true G (wtab st) /\ linked G (wpath st) /\ NoDup (map fst (wpath st)) /\ placed G l st.
Definition vspec (ve : nat -> wst -> wres (wfa * wst)) : Prop := forall i st a st', in_rules G i -> ready_at [i] st -> ve i st = WOk (a, st') ->
  truthful G i a /\ (can_fail a = false -> never_consume a = false) /\ quiet st st'.
Lemma chain_app (A : Type) (R : A -> A -> Prop) l : forall x y z, chain R x l y -> R y z -> chain R x (l ++ [y]) z.
Proof. induction l as [|a l IH]; cbn; intros x y z H K; [auto|]. destruct H as [H1 H2]. split; [exact H1|exact (IH _ _ _ H2 K)]. Qed.
(** The rules under traversal since [id] make a cycle. *)
Lemma since_cycle id : forall p x, linked G p -> match p with [] => False | (id0, _) :: _ => rule_left_calls G id0 x end -> existsb (fun q => String.eqb (fst q) id) p = true ->
  fold_left (fun acc (q : string * bool) => acc || snd q) (rec_path_from id p) false = false -> chain (rule_left_calls G) id (rev (map fst (rec_path_from id p))) x.
Proof.
  assert (FT : forall l, fold_left (fun acc (q : string * bool) => acc || snd q) l true = true) by (induction l; cbn; auto).
  induction p as [|[id0 c] p IH]; intros x L K E C; [destruct K|]. cbn [existsb rec_path_from fst] in *. destruct (String.eqb id0 id) eqn:Q.
  - apply String.eqb_eq in Q. subst. exact K.
  - cbn [orb] in E. cbn [fold_left orb snd] in C. destruct c; [rewrite FT in C; discriminate|]. destruct L as [L1 L2]. specialize (L1 eq_refl).
    destruct p as [|[id1 c1] p]; [discriminate E|]. cbn [map rev fst]. apply chain_app; [exact (IH id0 L2 L1 E C)|exact K].
Qed.
Lemma since_nodup id : forall p, NoDup (map fst p) -> NoDup (id :: rev (map fst (rec_path_from id p))).
Proof.
  intros p ND. apply NoDup_cons.
  - intros I0. apply in_rev in I0. apply in_map_iff in I0. destruct I0 as (q & E & I0). induction p as [|q' p IH]; cbn in I0; [destruct I0|]. inversion ND; subst.
    destruct (String.eqb (fst q') (fst q)) eqn:X; [destruct I0|]. destruct I0 as [-> | I0]; [rewrite String.eqb_refl in X; discriminate|auto].
  - apply NoDup_rev. induction p as [|q p IH]; cbn; [constructor|]. inversion ND; subst. destruct (String.eqb (fst q) id); [constructor|]. cbn. apply NoDup_cons; [|auto].
    intros I0. match goal with H : ~ In _ _ |- _ => apply H end. clear - I0. induction p as [|q' p IH]; cbn in *; [destruct I0|]. destruct (String.eqb (fst q') id); [destruct I0|]. destruct I0; [left; assumption|right; auto].
Qed.
Lemma ready_sub l l' st st' : ready_at l st -> quiet st st' ->
  (forall i x, In i l' -> left_calls G i x -> exists j, In j l /\ left_calls G j x) -> ready_at l' st'.
Proof.
  intros (O & T & L & ND & P) (O' & T' & P' & C') K. split; [exact O'|]. split; [exact T'|]. split; [rewrite P'; exact L|]. split; [rewrite P'; exact ND|].
  unfold placed in *. rewrite P', C'. intros C. specialize (P C). destruct (wpath st) as [|[id c] p]; [exact P|].
  intros i x I1 LC. destruct (K i x I1 LC) as (j & Ij & Lj). exact (P j x Ij Lj).
Qed.
Lemma quiet_refl l st : ready_at l st -> quiet st st.
Proof. intros (O & T & _). split; [exact O|]. split; [exact T|]. split; reflexivity. Qed.
Lemma quiet_trans a b c : quiet a b -> quiet b c -> quiet a c.
Proof. intros (_ & _ & P & Q) (O & T & P' & Q'). split; [exact O|]. split; [exact T|]. split; congruence. Qed.
Lemma quiet_report st st' d i : quiet st st' -> justified d -> quiet st (report d i st').
Proof.
  intros (O & T & P & Q) J. split; [exact (told_report i O J)|]. unfold report. destruct (existsb (Nat.eqb i) (werrs st')); (split; [exact T|split; assumption]).
Qed.
Lemma quiet_cons st st' : quiet st st' -> quiet st (with_cons st' (wcons st)).
Proof. intros (O & T & P & Q). split; [exact O|]. split; [exact T|]. split; [exact P|reflexivity]. Qed.

Section Walk.
Variable ve : nat -> wst -> wres (wfa * wst).
Hypothesis HV : vspec ve.

Lemma told_rule id st a st' rl : find_rule G id = Some rl -> told st -> tab_true G (wtab st) -> linked G (wpath st) -> NoDup (map fst (wpath st)) ->
  (wcons st = false -> match wpath st with [] => True | (id0, _) :: _ => rule_left_calls G id0 id end) ->
  visit_rule G ve id st = WOk (a, st') -> truthful G (rexpr rl) a /\ quiet st st'.
Proof.
  intros F O T L ND K H. unfold visit_rule in H. apply wbind_ok in H. destruct H as (st1 & H & H1).
  assert (Q : quiet st st1 -> (wtab st1 id = Some a /\ st1 = st') -> truthful G (rexpr rl) a /\ quiet st st').
  { intros Q (Wa & <-). split; [|exact Q]. destruct Q as (_ & T1 & _). destruct (T1 _ _ Wa) as (rl' & F' & TR). congruence. }
  destruct (wtab st1 id) as [a1|] eqn:Wa; [|discriminate]. apply WOk_inj, pair_inj in H1. destruct H1 as [<- <-]. apply Q; [|auto]. clear Q.
  destruct (is_rec id st) eqn:IR.
  - destruct (negb (consume_input_since id st) && negb (wcons st)) eqn:B.
    + apply andb_true_iff in B. destruct B as [B1 B2]. apply negb_true_iff in B1, B2. specialize (K B2). unfold is_rec in IR. unfold consume_input_since in B1.
      unfold error_left_recursion in H. rewrite F in H. apply WOk_inj in H. subst st1. split.
      * apply (told_left (rexpr rl) O). split; [exact (since_nodup id ND)|]. refine (@since_cycle id (wpath st) id L _ IR B1). destruct (wpath st) as [|[id0 c0] p]; [discriminate IR|exact K].
      * unfold report. destruct (existsb (Nat.eqb (rexpr rl)) (werrs (with_ok st false))); (split; [exact T|split; reflexivity]).
    + apply WOk_inj in H. subst st1. split; [exact O|]. split; [exact T|]. split; reflexivity.
  - rewrite F in H. apply wbind_ok in H. destruct H as ([b st2] & H & H2). cbn [fst snd] in H2. apply wbind_ok in H2. destruct H2 as (st3 & P & U).
    assert (RD : ready_at [rexpr rl] (push_rule id st)).
    { split; [exact O|]. split; [exact T|]. split; [cbn; split; [|exact L]|]. 2: split.
      - intros C. specialize (K C). destruct (wpath st) as [|[id0 c0] p]; [exact I|exact K].
      - cbn. apply NoDup_cons; [|exact ND]. intros I0. apply in_map_iff in I0. destruct I0 as (q & E & I0). apply not_true_iff_false in IR. apply IR.
        unfold is_rec. apply existsb_exists. exists q. split; [exact I0|]. rewrite E. apply String.eqb_refl.
      - unfold placed. cbn. intros _ i x [<-|[]] LC. exists rl. split; assumption. }
    destruct (HV (in_rules_rule F) RD H) as (TR & _ & O2 & T2 & P2 & C2).
    unfold pop_rule in P. cbn in P2. rewrite P2 in P. apply WOk_inj in P. subst st3.
    unfold fixpoint_update in U. cbn [wtab with_cons with_path] in U. destruct (wtab st2 id) as [b0|] eqn:T0; [|discriminate]. apply WOk_inj in U. subst st1.
    destruct (wfa_eqb b b0) eqn:EB; (split; [exact O2|]; split; [|split; reflexivity]).
    + exact T2.
    + cbn. intros x y. destruct (String.eqb x id) eqn:X; [|apply T2]. apply String.eqb_eq in X. subst x. intros Y. injection Y as <-. exists rl. split; assumption.
Qed.

Definition seq_true (l : list nat) (a r : wfa) : Prop :=
  can_succeed r = can_succeed a /\ (can_fail r = false -> can_fail a = false /\ never_fail G l) /\
  (always_consume r = false -> always_consume a = false /\ can_empties G l) /\ (never_consume r = true -> never_consume a = true /\ none_consumes G l).
Lemma ready_cons l st st' b : ready_at l st -> quiet st st' -> (b = false -> wcons st = false) -> ready_at l (with_cons st' b).
Proof.
  intros (O & T & L & ND & P) (O' & T' & P' & C') K. split; [exact O'|]. split; [exact T'|]. split; [cbn; rewrite P'; exact L|]. split; [cbn; rewrite P'; exact ND|].
  unfold placed in *. cbn. rewrite P'. intros C. exact (P (K C)).
Qed.
Lemma told_seq l2 : forall i l1 a st r st', Forall (in_rules G) l2 -> expr_of G i = Some (ESeq (l1 ++ l2)) -> (wcons st = true \/ can_empties G l1) ->
  ready_at [i] st -> visit_sequence_from ve l2 a st = WOk (r, st') -> seq_true l2 a r /\ quiet st (with_cons st' (wcons st)).
Proof.
  induction l2 as [|j l IH]; intros i l1 a st r st' FA E CE RD H; cbn [visit_sequence_from] in H.
  - apply WOk_inj, pair_inj in H. destruct H as [<- <-]. split; [|rewrite with_cons_same; exact (quiet_refl RD)].
    split; [reflexivity|]. repeat split; auto; constructor.
  - apply wbind_ok in H. destruct H as ([c st1] & H & K). cbn [fst snd] in K. inversion FA as [|? ? Ij FA']; subst.
    assert (RJ : ready_at [j] st).
    { destruct RD as (O & T & L & ND & P). split; [exact O|]. split; [exact T|]. split; [exact L|]. split; [exact ND|]. unfold placed in *. intros C. specialize (P C).
      destruct (wpath st) as [|[id cc] p]; [exact P|]. intros i0 x [<-|[]] LC. destruct CE as [CE|CE]; [congruence|].
      apply (P i x); [left; reflexivity|]. eapply lc_seq; [exact E|reflexivity|exact CE|exact LC]. }
    destruct (HV Ij RJ H) as ((C1 & C2 & C3 & C4) & _ & Q).
    set (st2 := if always_consume c then with_cons st1 true else st1) in *.
    assert (R2 : ready_at [i] st2).
    { unfold st2. destruct (always_consume c) eqn:AC; [apply (ready_cons RD Q); discriminate|].
      eapply ready_sub; [exact RD|exact Q|]. intros i0 x I0 LC. exists i0. auto. }
    assert (CC : forall l1, can_empties G l1 -> can_empty G j -> can_empties G (l1 ++ [j])).
    { clear. induction l1 as [|k l1 IH]; intros A B; cbn [app]; [constructor; [exact B|constructor]|]. inversion A; subst. constructor; auto. }
    assert (E' : expr_of G i = Some (ESeq ((l1 ++ [j]) ++ l))) by (rewrite <- app_assoc; exact E).
    assert (CE' : wcons st2 = true \/ can_empties G (l1 ++ [j])).
    { unfold st2. destruct (always_consume c) eqn:AC; [left; reflexivity|]. destruct Q as (_ & _ & _ & QC). rewrite QC. destruct CE as [CE|CE]; [left; exact CE|right; auto]. }
    destruct (IH i (l1 ++ [j]) _ _ _ _ FA' E' CE' R2 K) as (S1 & S2).
    cbn [can_succeed can_fail always_consume never_consume] in S1. split.
    + destruct S1 as (A1 & A2 & A3 & A4). cbn [can_succeed can_fail always_consume never_consume] in *. split; [rewrite A1, C1, andb_true_r; reflexivity|]. split; [|split].
      * intros F. destruct (A2 F) as [B1 B2]. apply orb_false_iff in B1. destruct B1. split; [assumption|]. constructor; auto.
      * intros F. destruct (A3 F) as [B1 B2]. apply orb_false_iff in B1. destruct B1. split; [assumption|]. constructor; auto.
      * intros F. destruct (A4 F) as [B1 B2]. apply andb_true_iff in B1. destruct B1. split; [assumption|]. constructor; auto.
    + destruct Q as (_ & _ & QP & QC), S2 as (O & T & P & _). cbn in O, T, P. split; [exact O|]. split; [exact T|]. split; [|reflexivity]. cbn. rewrite P. unfold st2. destruct (always_consume c); exact QP.
Qed.

Definition alt_true (l : list nat) (a r : wfa) : Prop :=
  (l <> [] -> can_succeed r = true) /\ (can_fail r = false -> can_fail a = false \/ exists j, In j l /\ never_fails G j) /\
  (always_consume r = false -> always_consume a = false \/ exists j, In j l /\ can_empty G j) /\ (never_consume r = true -> never_consume a = true /\ none_consumes G l).
Lemma told_alt this l2 : forall l1 a st r st', Forall (in_rules G) l2 -> in_rules G this -> expr_of G this = Some (EAlt (l1 ++ l2)) -> 
  ready_at [this] st -> visit_choice_from ve this l2 a st = WOk (r, st') -> alt_true l2 a r /\ quiet st st'.
Proof.
  induction l2 as [|j l IH]; intros l1 a st r st' FA IT E RD H; cbn [visit_choice_from] in H.
  - apply WOk_inj, pair_inj in H. destruct H as [<- <-]. split; [|exact (quiet_refl RD)]. split; [congruence|]. repeat split; auto; constructor.
  - apply wbind_ok in H. destruct H as ([c st1] & H & K). cbn [fst snd] in K. inversion FA as [|? ? Ij FA']; subst.
    assert (RJ : ready_at [j] st).
    { eapply ready_sub; [exact RD|exact (quiet_refl RD)|]. intros i0 x [<-|[]] LC. exists this. split; [left; reflexivity|].
      eapply lc_alt; [exact E|apply in_or_app; right; left; reflexivity|exact LC]. }
    destruct (HV Ij RJ H) as ((C1 & C2 & C3 & C4) & CN & Q).
    pose proof (quiet_cons Q) as Q1.
    set (a' := mkWfa (can_fail a && can_fail c) (can_succeed a || can_succeed c) (always_consume a && always_consume c) (never_consume a && never_consume c)) in *.
    assert (S0 : forall l r, alt_true l a' r -> (l = [] -> can_succeed r = true) -> alt_true (j :: l) a r).
    { clear - C1 C2 C3 C4. intros l r (A1 & A2 & A3 & A4) Z. split; [intros _; destruct l; [auto|apply A1; discriminate]|]. split; [|split].
      - intros F. destruct (A2 F) as [B|(k & Ik & B)]; [|right; exists k; split; [right; exact Ik|exact B]]. cbn in B. apply andb_false_iff in B. destruct B as [B|B]; [auto|].
        right. exists j. split; [left; reflexivity|auto].
      - intros F. destruct (A3 F) as [B|(k & Ik & B)]; [|right; exists k; split; [right; exact Ik|exact B]]. cbn in B. apply andb_false_iff in B. destruct B as [B|B]; [auto|].
        right. exists j. split; [left; reflexivity|auto].
      - intros F. destruct (A4 F) as [B1 B2]. cbn in B1. apply andb_true_iff in B1. destruct B1. split; [assumption|]. constructor; auto. }
    destruct l as [|k l].
    + apply WOk_inj, pair_inj in K. destruct K as [<- <-]. split; [|exact Q1]. apply S0; [|intros _; unfold a'; cbn; rewrite C1; apply orb_true_r].
      split; [congruence|]. repeat split; auto; constructor.
    + destruct (negb (can_fail c)) eqn:CF.
      * apply negb_true_iff in CF. apply WOk_inj, pair_inj in K. destruct K as [<- <-]. split.
        -- apply S0; [|discriminate]. unfold a'. cbn. split; [intros _; rewrite C1; apply orb_true_r|]. split; [auto|]. split; [auto|]. rewrite (CN CF), andb_false_r. discriminate.
        -- apply (quiet_report j Q1). split; [exact IT|]. exists l1, (k :: l). split; [exact E|]. split; [discriminate|auto].
      * assert (E' : expr_of G this = Some (EAlt ((l1 ++ [j]) ++ k :: l))) by (rewrite <- app_assoc; exact E).
        assert (R2 : ready_at [this] (with_cons st1 (wcons st))).
        { eapply ready_sub; [exact RD|exact Q1|]. intros i0 x I0 LC. exists i0. auto. }
        destruct (IH (l1 ++ [j]) _ _ _ _ FA' IT E' R2 K) as (S1 & S2).
        split; [|exact (quiet_trans Q1 S2)]. apply S0; [exact S1|discriminate].
Qed.

Lemma ready_child i e j st : expr_of G i = Some e -> unary e = Some j -> ready_at [i] st -> ready_at [j] st.
Proof.
  intros E U RD. eapply ready_sub; [exact RD|exact (quiet_refl RD)|]. intros i0 x [<-|[]] LC. exists i. split; [left; reflexivity|].
  eapply lc_un; [exact E| |exact LC]. destruct e; cbn in U; try discriminate U; injection U as ->; intuition eauto.
Qed.

(** Before error recovery: only a negation is found never to succeed. *)
Definition walked (i : nat) (a : wfa) : Prop :=
  (can_succeed a = true \/ exists e, expr_of G i = Some (ENot e) /\ never_fails G e) /\
  (can_fail a = false -> never_fails G i) /\ (always_consume a = false -> can_empty G i) /\ (never_consume a = true -> never_consumes G i).
Lemma truthful_walked i a : truthful G i a -> walked i a.
Proof. intros (A & B). split; [left; exact A|exact B]. Qed.
Lemma told_walk i st a st' : in_rules G i -> ready_at [i] st -> walk G ve i st = WOk (a, st') -> walked i a /\ quiet st st'.
Proof.
  intros Ii RD H. unfold walk in H. destruct (expr_of G i) as [e|] eqn:E; [|discriminate].
  assert (CH : forall j, unary e = Some j -> in_rules G j /\ ready_at [j] st).
  { intros j U. split; [|exact (ready_child E U RD)]. eapply in_rules_child; [exact Ii|exact E|]. destruct e; cbn in U; try discriminate U; injection U as ->; left; reflexivity. }
  assert (AT : (wfa_default, st) = (a, st') -> walked i a /\ quiet st st').
  { intros Q. apply pair_inj in Q. destruct Q as [<- <-]. split; [|exact (quiet_refl RD)]. apply truthful_walked. repeat split; cbn; discriminate. }
  assert (RP : forall j, expr_of G i = Some (EStar j) \/ expr_of G i = Some (EPlus j) -> forall b st1, visit_repeat ve i j st = WOk (b, st1) -> truthful G j b /\ quiet st st1).
  { intros j EJ b st1 K. unfold visit_repeat in K. apply wbind_ok in K. destruct K as ([c st2] & K & K2). cbn [fst snd] in K2.
    destruct (CH j) as [Ij RJ]; [destruct EJ as [EJ|EJ]; rewrite E in EJ; injection EJ as ->; reflexivity|].
    destruct (HV Ij RJ K) as ((C1 & C2 & C3 & C4) & _ & Q). rewrite C1 in K2. cbn [andb] in K2. destruct (negb (always_consume c)) eqn:AC.
    - apply negb_true_iff in AC. apply WOk_inj, pair_inj in K2. destruct K2 as [<- <-]. split; [repeat split; cbn; discriminate|].
      apply (quiet_report i Q). split; [exact Ii|]. exists j. split; [rewrite E in EJ; rewrite E; exact EJ|exact (C3 AC)].
    - apply WOk_inj, pair_inj in K2. destruct K2 as [<- <-]. split; [repeat split; auto|exact Q]. }
  assert (PR : forall j, unary e = Some j -> forall b st1, visit_predicate ve j st = WOk (b, st1) -> exists c, truthful G j c /\ quiet st st1 /\ b = mkWfa (can_fail c) (can_succeed c) false true).
  { intros j U b st1 K. unfold visit_predicate in K. apply wbind_ok in K. destruct K as ([c st2] & K & K2). cbn [fst snd] in K2. apply WOk_inj, pair_inj in K2. destruct K2 as [<- <-].
    destruct (CH j U) as [Ij RJ]. destruct (HV Ij RJ K) as (TC & _ & Q). exists c. split; [exact TC|]. split; [exact Q|reflexivity]. }
  assert (TR : forall j, unary e = Some j -> ve j st = WOk (a, st') ->
     (never_fails G j -> never_fails G i) -> (can_empty G j -> can_empty G i) -> (never_consumes G j -> never_consumes G i) -> walked i a /\ quiet st st').
  { intros j U K A B C. destruct (CH j U) as [Ij RJ]. destruct (HV Ij RJ K) as ((C1 & C2 & C3 & C4) & _ & Q). split; [apply truthful_walked; repeat split; auto|exact Q]. }
  destruct e as [[|c lit]| |cls|id|p|l|l|e|e|e|e|e|e b f|e t|e|e].
  - apply WOk_inj, pair_inj in H. destruct H as [<- <-]. split; [|exact (quiet_refl RD)]. apply truthful_walked. repeat split; cbn; try discriminate; intros _; [apply nf_str|apply ce_str]; exact E.
  - apply WOk_inj in H. auto.
  - apply WOk_inj in H. auto.
  - apply WOk_inj in H. auto.
  - destruct (an_resolved HA Ii E) as (rl & F). destruct RD as (O & T & L & ND & P).
    assert (K : wcons st = false -> match wpath st with [] => True | (id0, _) :: _ => rule_left_calls G id0 id end).
    { unfold placed in P. intros C. specialize (P C). destruct (wpath st) as [|[id0 c0] p]; [exact I|]. apply (P i id); [left; reflexivity|]. apply lc_nt. exact E. }
    destruct (told_rule F O T L ND K H) as ((C1 & C2 & C3 & C4) & Q).
    split; [|exact Q]. apply truthful_walked. repeat split; auto; intros Z; [eapply nf_nt|eapply ce_nt|eapply nc_nt]; eauto.
  - apply WOk_inj in H. auto.
  - apply wbind_ok in H. destruct H as ([b st1] & H & K). cbn [fst snd] in K. apply WOk_inj, pair_inj in K. destruct K as [<- <-].
    assert (FA : Forall (in_rules G) l) by (apply Forall_forall; intros j Ij; eapply in_rules_child; [exact Ii|exact E|exact Ij]).
    destruct (@told_seq l i [] _ _ _ _ FA E (or_intror (ces_nil G)) RD H) as ((S1 & S2 & S3 & S4) & Q). split; [|exact Q]. apply truthful_walked.
    split; [exact S1|]. split; [|split]; intros Z; [eapply nf_seq; [exact E|apply S2, Z]|eapply ce_seq; [exact E|apply S3, Z]|eapply nc_seq; [exact E|apply S4, Z]].
  - assert (FA : Forall (in_rules G) l) by (apply Forall_forall; intros j Ij; eapply in_rules_child; [exact Ii|exact E|exact Ij]).
    destruct (@told_alt i l [] _ _ _ _ FA Ii E RD H) as ((S1 & S2 & S3 & S4) & Q). split; [|exact Q]. apply truthful_walked.
    split; [apply S1; intros ->; exact (an_choice HA E)|]. split; [|split]; intros Z.
    + destruct (S2 Z) as [B|(j & Ij & B)]; [discriminate|]. eapply nf_alt; eauto.
    + destruct (S3 Z) as [B|(j & Ij & B)]; [discriminate|]. eapply ce_alt; eauto.
    + eapply nc_alt; [exact E|apply S4, Z].
  - apply wbind_ok in H. destruct H as ([b st1] & H & K). cbn [fst snd] in K. apply WOk_inj, pair_inj in K. destruct K as [<- <-].
    destruct (RP e (or_introl E) _ _ H) as ((C1 & C2 & C3 & C4) & Q). split; [|exact Q]. apply truthful_walked. split; [reflexivity|]. cbn. split; [|split]; intros Z.
    + eapply nf_star; exact E.
    + eapply ce_star; exact E.
    + eapply nc_un; [exact E| |apply C4, Z]. auto.
  - destruct (RP e (or_intror E) _ _ H) as ((C1 & C2 & C3 & C4) & Q). split; [|exact Q]. apply truthful_walked. split; [exact C1|]. split; [|split]; intros Z.
    + eapply nf_plus; eauto.
    + eapply ce_plus; eauto.
    + eapply nc_un; [exact E| |apply C4, Z]. auto.
  - apply wbind_ok in H. destruct H as ([b st1] & H & K). cbn [fst snd] in K. apply WOk_inj, pair_inj in K. destruct K as [<- <-].
    destruct (CH e eq_refl) as [Ij RJ]. destruct (HV Ij RJ H) as ((C1 & C2 & C3 & C4) & _ & Q). split; [|exact Q]. apply truthful_walked. split; [reflexivity|]. cbn. split; [|split]; intros Z.
    + eapply nf_opt; exact E.
    + eapply ce_opt; exact E.
    + eapply nc_un; [exact E| |apply C4, Z]. auto.
  - apply wbind_ok in H. destruct H as ([b st1] & H & K). cbn [fst snd] in K. apply WOk_inj, pair_inj in K. destruct K as [<- <-].
    destruct (PR e eq_refl _ _ H) as (c & (C1 & C2 & C3 & C4) & Q & ->). cbn [can_fail can_succeed always_consume never_consume]. split; [|exact Q].
    split; [|split; [cbn; congruence|]].
    + destruct (can_fail c) eqn:CF; [left; reflexivity|right; exists e; auto].
    + cbn. split; intros Z; [eapply ce_not; exact E|eapply nc_not; exact E].
  - destruct (PR e eq_refl _ _ H) as (c & (C1 & C2 & C3 & C4) & Q & ->). split; [|exact Q]. apply truthful_walked. split; [exact C1|]. cbn. split; [|split]; intros Z.
    + eapply nf_and; eauto.
    + eapply ce_and; exact E.
    + eapply nc_and; exact E.
  - apply (TR e eq_refl H); intros Z; [eapply nf_act|eapply ce_act|eapply nc_un; [exact E| |exact Z]]; eauto 8.
  - apply (TR e eq_refl H); intros Z; [eapply nf_asc|eapply ce_asc|eapply nc_un; [exact E| |exact Z]]; eauto 8.
  - apply (TR e eq_refl H); intros Z; [eapply nf_span|eapply ce_span|eapply nc_un; [exact E| |exact Z]]; eauto 8.
  - apply (TR e eq_refl H); intros Z; [eapply nf_range|eapply ce_range|eapply nc_un; [exact E| |exact Z]]; eauto 8.
Qed.
End Walk.

Lemma told_expr fuel : vspec (visit_expr G fuel).
Proof.
  induction fuel as [|k IH]; intros i st a st' Ii RD H; [discriminate|]. cbn [visit_expr] in H. apply wbind_ok in H. destruct H as ([b st1] & H & K). cbn [fst snd] in K.
  destruct (told_walk IH Ii RD H) as ((C1 & C2 & C3 & C4) & Q). destruct (negb (can_fail b || can_succeed b)); [discriminate|].
  destruct (negb (negb (always_consume b) || negb (never_consume b))); [discriminate|].
  destruct (can_fail b && negb (can_succeed b)) eqn:B1; [|destruct (can_succeed b && negb (can_fail b) && never_consume b) eqn:B2];
    apply WOk_inj, pair_inj in K; destruct K as [<- <-].
  - apply andb_true_iff in B1. destruct B1 as [B1 B2]. apply negb_true_iff in B2. destruct C1 as [C1|C1]; [congruence|].
    split; [repeat split; auto|]. split; [cbn; congruence|]. apply (quiet_report i Q). split; [exact Ii|exact C1].
  - apply andb_true_iff in B2. destruct B2 as [B2 B3]. apply andb_true_iff in B2. destruct B2 as [B2 B4]. apply negb_true_iff in B4.
    split; [repeat split; cbn; auto; discriminate|]. split; [reflexivity|]. apply (quiet_report i Q). split; [exact Ii|]. split; auto.
  - assert (S1 : can_succeed b = true).
    { destruct C1 as [C1|(e & E & NF)]; [exact C1|]. destruct (can_succeed b) eqn:S1; [reflexivity|]. destruct (can_fail b) eqn:F1; [discriminate B1|]. destruct (can_fail b); [discriminate|]. exfalso. clear - E C2. specialize (C2 eq_refl). inversion C2; congruence. }
    split; [repeat split; auto|]. split; [|exact Q]. intros F1. rewrite S1, F1 in B2. cbn in B2. exact B2.
Qed.

Definition calm (st : wst) : Prop := told st /\ tab_true G (wtab st) /\ wpath st = [].
Lemma told_pass fuel rs : incl rs (rules G) -> forall st st', calm st -> visit_pass G fuel rs st = WOk st' -> calm st'.
Proof.
  induction rs as [|rl rs IH]; intros Hi st st' C H; cbn [visit_pass] in H; [apply WOk_inj in H; subst; exact C|].
  apply wbind_ok in H. destruct H as ([a st1] & H & K). cbn [snd] in K. destruct (rule_found (Hi rl (or_introl eq_refl))) as (rl' & F).
  destruct C as (O & T & P).
  assert (L : linked G (wpath st)) by (rewrite P; exact I).
  assert (ND : NoDup (map fst (wpath st))) by (rewrite P; constructor).
  assert (K0 : wcons st = false -> match wpath st with [] => True | (id0, _) :: _ => rule_left_calls G id0 (rname rl) end) by (rewrite P; auto).
  destruct (told_rule (@told_expr fuel) F O T L ND K0 H) as (_ & O1 & T1 & P1 & _).
  assert (C1 : calm st1) by (split; [exact O1|]; split; [exact T1|congruence]).
  destruct (wok st1); [|apply WOk_inj in K; subst; exact C1]. eapply IH; [intros x X; apply Hi; right; exact X|exact C1|exact K].
Qed.
Lemma told_rules fuel passes : forall st st', calm st -> visit_rules G fuel passes st = WOk st' -> calm st'.
Proof.
  induction passes as [|k IH]; intros st st' C H; cbn [visit_rules] in H; destruct (negb (wfix st) && wok st); try discriminate; try (apply WOk_inj in H; subst; exact C).
  apply wbind_ok in H. destruct H as (st1 & H & K). eapply IH; [|exact K]. eapply told_pass; [intros x X; exact X| |exact H]. exact C.
Qed.
Theorem all_told fuel passes ds : emitted G fuel passes = WOk ds -> Forall justified ds /\ is_well_formed G fuel passes = WOk (match ds with [] => true | _ => false end).
Proof.
  intros H. unfold emitted in H. apply wbind_ok in H. destruct H as (st & H & K). apply WOk_inj in K. subst ds.
  assert (C : calm (wst_new G)).
  { split; [split; [split; reflexivity|split; [reflexivity|constructor]]|]. split; [|reflexivity]. cbn. intros id a. destruct (find_rule G id) as [rl|] eqn:F; [|discriminate]. intros Z. injection Z as <-.
    exists rl. split; [reflexivity|]. repeat split; cbn; discriminate. }
  destruct (told_rules C H) as ((A & _ & J) & _). split; [apply Forall_rev; exact J|]. unfold is_well_formed. rewrite H. cbn [wbind]. f_equal.
  destruct (wdiag st) as [|d l]; [apply A; reflexivity|]. cbn [rev]. destruct (rev l ++ [d]) eqn:X; [destruct (rev l); discriminate X|].
  destruct (wok st); [|reflexivity]. destruct A as [A _]. discriminate (A eq_refl).
Qed.
End Diag.
