(** What an accepting run of the well-formedness analysis establishes. *)
From Verif Require Import Base Grammar PegSpec WellFormed.
Set Implicit Arguments. Unset Strict Implicit.

(** Operators with one operand. *)
Definition unary (e : expr) : option nat :=
  match e with
  | EStar i | EPlus i | EOpt i | ENot i | EAnd i | EAct i _ _ | EAsc i _ | ESpan i | ERange i => Some i
  | _ => None
  end.
(** Sub-expressions, reflexively. *)
Inductive sub (G : grammar) : nat -> nat -> Prop :=
| sub_refl i : sub G i i
| sub_step i j k e : expr_of G i = Some e -> In j (children e) -> sub G j k -> sub G i k.
(** Expressions of the rules. *)
Definition in_rules (G : grammar) (i : nat) : Prop := exists id rl, find_rule G id = Some rl /\ sub G (rexpr rl) i.

Section Judge.
Variable G : grammar.
Variable W : string -> option wfa.

(** The attributes of expressions under the table [W], without error recovery. *)
Inductive judged : item -> wfa -> Prop :=
| j_empty i : expr_of G i = Some (EStr []) -> judged (IE i) (mkWfa false true false false)
| j_str i c l : expr_of G i = Some (EStr (c :: l)) -> judged (IE i) wfa_default
| j_any i : expr_of G i = Some EAny -> judged (IE i) wfa_default
| j_class i cls : expr_of G i = Some (EClass cls) -> judged (IE i) wfa_default
| j_ext i p : expr_of G i = Some (EExt p) -> judged (IE i) wfa_default
| j_nt i id a : expr_of G i = Some (ENT id) -> W id = Some a -> judged (IE i) a
| j_seq i l a : expr_of G i = Some (ESeq l) -> judged (ISeq l) a -> judged (IE i) a
| j_alt i l a : expr_of G i = Some (EAlt l) -> judged (IAlt l) a -> judged (IE i) a
| j_star i e a : expr_of G i = Some (EStar e) -> judged (IStar e) a -> judged (IE i) a
| j_plus i e a : expr_of G i = Some (EPlus e) -> judged (IE e) a -> judged (IE i) a
| j_opt i e a : expr_of G i = Some (EOpt e) -> judged (IE e) a -> judged (IE i) (always_succeed (never_consume a))
| j_and i e a : expr_of G i = Some (EAnd e) -> judged (IE e) a -> judged (IE i) (mkWfa (can_fail a) true false true)
| j_not i e a : expr_of G i = Some (ENot e) -> judged (IE e) a -> judged (IE i) (mkWfa true true false true)
| j_act i e b f a : expr_of G i = Some (EAct e b f) -> judged (IE e) a -> judged (IE i) a
| j_asc i e t a : expr_of G i = Some (EAsc e t) -> judged (IE e) a -> judged (IE i) a
| j_span i e a : expr_of G i = Some (ESpan e) -> judged (IE e) a -> judged (IE i) a
| j_range i e a : expr_of G i = Some (ERange e) -> judged (IE e) a -> judged (IE i) a
| j_seq_nil : judged (ISeq []) (mkWfa false true false true)
| j_seq_cons i l a b : judged (IE i) a -> judged (ISeq l) b ->
    judged (ISeq (i :: l)) (mkWfa (can_fail a || can_fail b) true (always_consume a || always_consume b) (never_consume a && never_consume b))
| j_alt_nil : judged (IAlt []) (mkWfa true true true true)
| j_alt_cons i l a b : judged (IE i) a -> judged (IAlt l) b ->
    judged (IAlt (i :: l)) (mkWfa (can_fail a && can_fail b) true (always_consume a && always_consume b) (never_consume a && never_consume b))
| j_star_it e a : judged (IE e) a -> judged (IStar e) (always_succeed (never_consume a)).

(** What was checked at an expression. *)
Definition good (i : nat) : Prop :=
  (exists a, judged (IE i) a /\ (can_fail a = false -> never_consume a = false)) /\
  (forall e, expr_of G i = Some (EStar e) \/ expr_of G i = Some (EPlus e) ->
     exists a, judged (IE e) a /\ always_consume a = true) /\
  (forall e, expr_of G i = Some (ENot e) -> exists a, judged (IE e) a /\ can_fail a = true) /\
  (forall l l1 j l2, expr_of G i = Some (EAlt l) -> l = l1 ++ j :: l2 -> l2 <> [] -> exists a, judged (IE j) a /\ can_fail a = true).

(** No call without consumption to a rule of [p]. *)
Inductive lfree : list string -> item -> Prop :=
| lf_atom p i e : expr_of G i = Some e -> children e = [] -> (forall id, e <> ENT id) -> lfree p (IE i)
| lf_nt p i id rl : expr_of G i = Some (ENT id) -> ~ In id p -> find_rule G id = Some rl ->
    lfree (id :: p) (IE (rexpr rl)) -> lfree p (IE i)
| lf_seq p i l : expr_of G i = Some (ESeq l) -> lfree p (ISeq l) -> lfree p (IE i)
| lf_alt p i l : expr_of G i = Some (EAlt l) -> lfree p (IAlt l) -> lfree p (IE i)
| lf_un p i e j : expr_of G i = Some e -> unary e = Some j -> lfree p (IE j) -> lfree p (IE i)
| lf_seq_nil p : lfree p (ISeq [])
| lf_seq_cons p i l a : lfree p (IE i) -> judged (IE i) a -> (always_consume a = false -> lfree p (ISeq l)) -> lfree p (ISeq (i :: l))
| lf_alt_nil p : lfree p (IAlt [])
| lf_alt_cons p i l : lfree p (IE i) -> lfree p (IAlt l) -> lfree p (IAlt (i :: l)).
End Judge.

(** The certificate left by an accepting run. *)
Record wf_cert (G : grammar) (W : string -> option wfa) : Prop := {
  wc_fix : forall id rl, find_rule G id = Some rl -> exists a, W id = Some a /\ judged G W (IE (rexpr rl)) a;
  wc_good : forall i, in_rules G i -> good G W i;
  wc_left : forall id rl, find_rule G id = Some rl -> lfree G W [id] (IE (rexpr rl));
  wc_dom : forall id a, W id = Some a -> exists rl, find_rule G id = Some rl
}.

Lemma wfa_eqb_eq a b : wfa_eqb a b = true -> a = b.
Proof.
  unfold wfa_eqb. destruct a, b; cbn. intros H. repeat (apply andb_true_iff in H; destruct H as [H ?]).
  repeat match goal with H : eqb _ _ = true |- _ => apply eqb_prop in H end. congruence.
Qed.
Lemma wfa_eqb_refl a : wfa_eqb a a = true.
Proof. unfold wfa_eqb. rewrite !eqb_reflx. reflexivity. Qed.

Lemma find_rule_some G id rl : find_rule G id = Some rl -> In rl (rules G) /\ rname rl = id.
Proof. unfold find_rule. intros H. apply find_some in H. destruct H as [H E]. apply String.eqb_eq in E. auto. Qed.

Section Quiet.
Variable G : grammar.

(** [well_formed] and [reached_fixpoint] are never set during a traversal. *)
Definition later (st st' : wst) : Prop := (wok st' = true -> wok st = true) /\ (wfix st' = true -> wfix st = true).
Lemma later_refl st : later st st. Proof. split; auto. Qed.
Lemma later_trans a b c : later a b -> later b c -> later a c. Proof. unfold later. intuition. Qed.
Lemma later_report d i st : later st (report d i st).
Proof. unfold report. destruct (existsb _ _); [apply later_refl|]. split; cbn; [discriminate|auto]. Qed.
Lemma later_cons st b : later st (with_cons st b). Proof. split; auto. Qed.
Lemma report_ok d i st : wok (report d i st) = true -> existsb (Nat.eqb i) (werrs st) = true.
Proof. unfold report. destruct (existsb _ _); [reflexivity|discriminate]. Qed.

(** While the grammar is well formed no error is registered. *)
Definition clean (st : wst) : Prop := wok st = true -> werrs st = [].
Lemma clean_report d i st : clean st -> clean (report d i st) /\ (wok st = true -> wok (report d i st) = false).
Proof.
  unfold clean, report. intros C. destruct (existsb _ _) eqn:E.
  - split; [exact C|]. intros O. rewrite (C O) in E. discriminate.
  - split; [discriminate|reflexivity].
Qed.

(** Attributes returned by [visit_expr], also after error recovery. *)
Definition att_ok (a : wfa) : Prop := can_succeed a = true /\ (always_consume a = true -> never_consume a = false).
Definition tab_ok (W : string -> option wfa) : Prop := forall id a, W id = Some a -> att_ok a.
Definition sinv (st : wst) : Prop := clean st /\ tab_ok (wtab st).

(** A traversal that reports nothing and changes nothing: what it computed and checked. *)
Definition flags_off (p : list (string * bool)) : Prop := Forall (fun q => snd q = false) p.
Definition names (p : list (string * bool)) : list string := map fst p.

Definition still (st st' : wst) : Prop := wok st' = true /\ wfix st' = true.
Definition qpost (it : item) (st : wst) (a : wfa) (st' : wst) : Prop :=
  later st st' /\ (sinv st -> sinv st' /\
  (wok st' = true -> wfix st' = true -> can_succeed a = true ->
     st' = st /\ judged G (wtab st) it a /\
     (wcons st = false -> flags_off (wpath st) -> lfree G (wtab st) (names (wpath st)) it))).
Definition sgood (W : string -> option wfa) (i : nat) : Prop := forall j, sub G i j -> good G W j.
Definition qspec (ve : nat -> wst -> wres (wfa * wst)) : Prop := forall i st a st', ve i st = WOk (a, st') ->
  qpost (IE i) st a st' /\
  (sinv st -> att_ok a /\ (wok st' = true -> wfix st' = true -> sgood (wtab st) i)).

Lemma wbind_ok A B (r : wres A) (k : A -> wres B) b : wbind r k = WOk b -> exists a, r = WOk a /\ k a = WOk b.
Proof. destruct r; cbn; intros H; try discriminate. eauto. Qed.
Lemma WOk_inj A (a b : A) : WOk a = WOk b -> a = b.
Proof. congruence. Qed.
Lemma pair_inj A B (a c : A) (b d : B) : (a, b) = (c, d) -> a = c /\ b = d.
Proof. intros H; injection H; auto. Qed.

Lemma with_cons_same st : with_cons st (wcons st) = st.
Proof. destruct st; reflexivity. Qed.
Lemma with_cons_twice st a b : with_cons (with_cons st a) b = with_cons st b.
Proof. reflexivity. Qed.

(** A traversal restores the path and the flag, and keeps the domain of the table. *)
Definition frame (st st' : wst) : Prop := wpath st' = wpath st /\ wcons st' = wcons st /\
  forall id, wtab st' id = None <-> wtab st id = None.
Lemma frame_refl st : frame st st. Proof. repeat split; auto. Qed.
Lemma frame_trans a b c : frame a b -> frame b c -> frame a c.
Proof. intros (A & B & C) (D & E & F). repeat split; try congruence; intros; [apply C, F|apply F, C]; assumption. Qed.
Lemma frame_report d i st : frame st (report d i st).
Proof. unfold report. destruct (existsb _ _); repeat split; auto. Qed.
Definition fspec (ve : nat -> wst -> wres (wfa * wst)) : Prop := forall i st a st', ve i st = WOk (a, st') -> frame st st'.

Section Frame.
Variable ve : nat -> wst -> wres (wfa * wst).
Hypothesis HV : fspec ve.
Lemma frame_rule id st a st' : visit_rule G ve id st = WOk (a, st') -> frame st st'.
Proof.
  intros H. unfold visit_rule in H. apply wbind_ok in H. destruct H as (st1 & H & K).
  destruct (wtab st1 id) as [a1|]; [|discriminate]. apply WOk_inj, pair_inj in K. destruct K as [_ ->].
  destruct (is_rec id st).
  - destruct (negb (consume_input_since id st) && negb (wcons st)).
    + unfold error_left_recursion in H. destruct (find_rule G id); [|discriminate]. apply WOk_inj in H. subst st'.
      eapply frame_trans; [|apply frame_report]. repeat split; auto.
    + apply WOk_inj in H. subst. apply frame_refl.
  - destruct (find_rule G id) as [rl|]; [|discriminate].
    apply wbind_ok in H. destruct H as ([b st2] & H & K). cbn [fst snd] in K.
    apply wbind_ok in K. destruct K as (st3 & P & U). apply HV in H. destruct H as (F1 & F2 & F3).
    unfold pop_rule in P. cbn in F1. rewrite F1 in P. apply WOk_inj in P. subst st3.
    unfold fixpoint_update in U. cbn in U. destruct (wtab st2 id) as [b0|] eqn:T; [|discriminate]. apply WOk_inj in U. subst st'.
    destruct (wfa_eqb b b0); (split; [|split]); try reflexivity; [exact F3|].
    intros x. cbn. destruct (String.eqb x id) eqn:E; [|apply F3]. apply String.eqb_eq in E. subst x.
    split; [discriminate|]. intros N. apply F3 in N. congruence.
Qed.
Lemma frame_seq l : forall a st r st', visit_sequence_from ve l a st = WOk (r, st') -> frame st (with_cons st' (wcons st)).
Proof.
  induction l as [|i l IH]; intros a st r st' H; cbn [visit_sequence_from] in H.
  - apply WOk_inj, pair_inj in H. destruct H as [_ <-]. repeat split; auto.
  - apply wbind_ok in H. destruct H as ([c st1] & H & K). cbn [fst snd] in K. apply HV in H. apply IH in K.
    destruct H as (F1 & F2 & F3), K as (K1 & K2 & K3). cbn in *. split; [|split].
    + destruct (always_consume c); cbn in *; congruence.
    + reflexivity.
    + intros id. etransitivity; [apply K3|]. destruct (always_consume c); cbn; apply F3.
Qed.
Lemma frame_alt this l : forall a st r st', visit_choice_from ve this l a st = WOk (r, st') -> frame st st'.
Proof.
  induction l as [|i l IH]; intros a st r st' H; cbn [visit_choice_from] in H.
  - apply WOk_inj, pair_inj in H. destruct H as [_ <-]. apply frame_refl.
  - apply wbind_ok in H. destruct H as ([c st1] & H & K). cbn [fst snd] in K. apply HV in H.
    assert (F : frame st (with_cons st1 (wcons st))).
    { destruct H as (F1 & F2 & F3). split; [exact F1|]. split; [reflexivity|exact F3]. }
    destruct l as [|j l]; [apply WOk_inj, pair_inj in K; destruct K as [_ <-]; exact F|].
    destruct (negb (can_fail c)).
    + apply WOk_inj, pair_inj in K. destruct K as [_ <-]. eapply frame_trans; [exact F|apply frame_report].
    + eapply frame_trans; [exact F|eapply IH; exact K].
Qed.
Lemma frame_repeat i j st a st' : visit_repeat ve i j st = WOk (a, st') -> frame st st'.
Proof.
  intros H. unfold visit_repeat in H. apply wbind_ok in H. destruct H as ([c st1] & H & K). cbn [fst snd] in K. apply HV in H.
  destruct (can_succeed c && negb (always_consume c)); apply WOk_inj, pair_inj in K; destruct K as [_ <-]; [|exact H].
  eapply frame_trans; [exact H|apply frame_report].
Qed.
Lemma frame_predicate j st a st' : visit_predicate ve j st = WOk (a, st') -> frame st st'.
Proof.
  intros H. unfold visit_predicate in H. apply wbind_ok in H. destruct H as ([c st1] & H & K). cbn [fst snd] in K.
  apply WOk_inj, pair_inj in K; destruct K as [_ <-]. exact (HV H).
Qed.
Lemma frame_walk i st a st' : walk G ve i st = WOk (a, st') -> frame st st'.
Proof.
  intros H. unfold walk in H. destruct (expr_of G i) as [e|]; [|discriminate].
  destruct e as [[|c lit]| |cls|id|p|l|l|e|e|e|e|e|e b f|e t|e|e]; try (exact (HV H));
    try (apply WOk_inj, pair_inj in H; destruct H as [_ <-]; apply frame_refl).
  - exact (frame_rule H).
  - apply wbind_ok in H. destruct H as ([c st1] & H & K). cbn [fst snd] in K. apply WOk_inj, pair_inj in K; destruct K as [_ <-]. exact (frame_seq H).
  - exact (frame_alt H).
  - apply wbind_ok in H. destruct H as ([c st1] & H & K). cbn [fst snd] in K. apply WOk_inj, pair_inj in K; destruct K as [_ <-]. exact (frame_repeat H).
  - exact (frame_repeat H).
  - apply wbind_ok in H. destruct H as ([c st1] & H & K). cbn [fst snd] in K. apply WOk_inj, pair_inj in K; destruct K as [_ <-]. exact (HV H).
  - apply wbind_ok in H. destruct H as ([c st1] & H & K). cbn [fst snd] in K. apply WOk_inj, pair_inj in K; destruct K as [_ <-]. exact (frame_predicate H).
  - exact (frame_predicate H).
Qed.
End Frame.
Lemma frame_expr fuel : fspec (visit_expr G fuel).
Proof.
  induction fuel as [|k IH]; intros i st a st' H; [discriminate|]. cbn [visit_expr] in H.
  apply wbind_ok in H. destruct H as ([x st1] & H & K). cbn [fst snd] in K. apply (frame_walk IH) in H.
  destruct (negb (can_fail x || can_succeed x)); [discriminate|].
  destruct (negb (negb (always_consume x) || negb (never_consume x))); [discriminate|].
  destruct (can_fail x && negb (can_succeed x)); [|destruct (can_succeed x && negb (can_fail x) && never_consume x)];
    apply WOk_inj, pair_inj in K; destruct K as [_ <-]; try exact H; (eapply frame_trans; [exact H|apply frame_report]).
Qed.
Lemma frame_pass fuel rs : forall st st', visit_pass G fuel rs st = WOk st' -> frame st st'.
Proof.
  induction rs as [|rl rs IH]; intros st st' H; cbn [visit_pass] in H.
  - apply WOk_inj in H. subst. apply frame_refl.
  - apply wbind_ok in H. destruct H as ([a st1] & H & K). cbn [fst snd] in K. apply (frame_rule (@frame_expr fuel)) in H.
    destruct (wok st1); [eapply frame_trans; [exact H|exact (IH _ _ K)]|]. apply WOk_inj in K. subst. exact H.
Qed.

Section Visit.
Variable ve : nat -> wst -> wres (wfa * wst).
Hypothesis HV : qspec ve.

Lemma since_off id p : flags_off p -> fold_left (fun acc (q : string * bool) => acc || snd q) (rec_path_from id p) false = false.
Proof.
  intros H. induction H as [|[n b] p E H IH]; cbn; [reflexivity|]. cbn in E. subst.
  destruct (String.eqb n id); [reflexivity|]. cbn. exact IH.
Qed.

Lemma sinv_report d i st : sinv st -> sinv (report d i st).
Proof.
  intros [C T]. split; [apply clean_report, C|]. unfold report. destruct (existsb _ _); exact T.
Qed.
Lemma sinv_cons st b : sinv st -> sinv (with_cons st b).
Proof. intros [C T]. split; [exact C|exact T]. Qed.
Lemma report_noisy d i st : sinv st -> wok (report d i st) = true -> False.
Proof.
  intros [C _] O. destruct (clean_report d i C) as [_ K]. destruct (later_report d i st) as [L _].
  rewrite (K (L O)) in O. discriminate.
Qed.

Lemma quiet_rule i id st a st' : expr_of G i = Some (ENT id) -> visit_rule G ve id st = WOk (a, st') ->
  qpost (IE i) st a st' /\ (sinv st -> att_ok a) /\
  (sinv st -> wok st' = true -> wfix st' = true -> is_rec id st = false -> forall rl, find_rule G id = Some rl ->
     judged G (wtab st) (IE (rexpr rl)) a /\ wtab st id = Some a /\ sgood (wtab st) (rexpr rl)).
Proof.
  intros Ei H. unfold visit_rule in H. apply wbind_ok in H. destruct H as (st1 & H & K).
  destruct (wtab st1 id) as [a1|] eqn:T; [|discriminate]. apply WOk_inj, pair_inj in K. destruct K as [-> ->].
  destruct (is_rec id st) eqn:R.
  - destruct (negb (consume_input_since id st) && negb (wcons st)) eqn:C.
    + unfold error_left_recursion in H. destruct (find_rule G id) as [rl|]; [|discriminate]. apply WOk_inj in H. subst st'.
      assert (L : later (with_ok st false) (report (DLeft (id :: rev (map fst (rec_path_from id (wpath st))))) (rexpr rl) (with_ok st false))) by apply later_report.
      assert (N : wok (report (DLeft (id :: rev (map fst (rec_path_from id (wpath st))))) (rexpr rl) (with_ok st false)) = true -> False).
      { intros O. destruct L as [L _]. specialize (L O). discriminate. }
      assert (I : sinv st -> sinv (report (DLeft (id :: rev (map fst (rec_path_from id (wpath st))))) (rexpr rl) (with_ok st false))).
      { intros [Cl Tb]. apply sinv_report. split; [discriminate|exact Tb]. }
      split; [split|split].
      * eapply later_trans; [|exact L]. split; cbn; [discriminate|auto].
      * intros HI. split; [auto|]. intros O. destruct (N O).
      * intros HI. exact (proj2 (I HI) _ _ T).
      * discriminate.
    + apply WOk_inj in H. subst st'. split; [split|split]; [apply later_refl| | |discriminate].
      * intros HI. split; [exact HI|]. intros _ _ _.
        split; [reflexivity|]. split; [eapply j_nt; eassumption|].
        intros C0 F. exfalso. unfold consume_input_since in C. rewrite (since_off id F), C0 in C. discriminate.
      * intros HI. exact (proj2 HI _ _ T).
  - destruct (find_rule G id) as [rl|] eqn:Fr; [|discriminate].
    apply wbind_ok in H. destruct H as ([b st2] & H & K). cbn [fst snd] in K.
    apply wbind_ok in K. destruct K as (st3 & P & U).
    destruct (HV H) as [[L2 Q2] S2].
    unfold pop_rule in P. destruct (wpath st2) as [|[nm c] p] eqn:Ep; [discriminate|]. apply WOk_inj in P. subst st3.
    set (st3 := with_cons (with_path st2 p) c) in *.
    unfold fixpoint_update in U. destruct (wtab st3 id) as [b0|] eqn:T3; [|discriminate]. apply WOk_inj in U.
    assert (L' : later st st').
    { eapply later_trans; [exact L2|]. subst st'. destruct (wfa_eqb b b0); split; cbn; auto. discriminate. }
    assert (IP : sinv st -> sinv (push_rule id st)) by (intros [A B]; split; assumption).
    assert (I : sinv st -> sinv st').
    { intros HI. specialize (IP HI). destruct (Q2 IP) as [[C2 T2] _]. destruct (S2 IP) as [AO _].
      subst st'. destruct (wfa_eqb b b0); (split; [exact C2|]); [exact T2|].
      intros x y. cbn. destruct (String.eqb x id); [intros E; injection E; intros <-; exact AO|apply T2]. }
    assert (Quiet : sinv st -> wok st' = true -> wfix st' = true ->
      st' = st /\ a = b /\ judged G (wtab st) (IE (rexpr rl)) b /\ sgood (wtab st) (rexpr rl) /\
      (flags_off (wpath st) -> wcons st = false -> lfree G (wtab st) (id :: names (wpath st)) (IE (rexpr rl)))).
    { intros HI O F. specialize (IP HI). destruct (Q2 IP) as [_ Q3]. destruct (S2 IP) as [[AO _] S3].
      destruct (wfa_eqb b b0) eqn:E; [|subst st'; discriminate].
      apply wfa_eqb_eq in E. subst b0.
      assert (O2 : wok st2 = true) by (subst st'; exact O). assert (F2 : wfix st2 = true) by (subst st'; exact F).
      destruct (Q3 O2 F2 AO) as (E2 & J & LF). specialize (S3 O2 F2).
      rewrite E2 in Ep. cbn in Ep. injection Ep as _ <- <-. 
      assert (st' = st) as ->. { subst st' st3. rewrite E2. destruct st; reflexivity. }
      split; [reflexivity|]. split; [|split; [exact J|split; [exact S3|]]].
      - subst st3. rewrite E2 in T3. cbn in T3. congruence.
      - intros FO C0. apply LF; [reflexivity|]. constructor; [exact C0|exact FO]. }
    split; [split; [exact L'|]|split].
    + intros HI. split; [exact (I HI)|]. intros O F _. destruct (Quiet HI O F) as (-> & -> & J & _ & LF).
      split; [reflexivity|]. split; [eapply j_nt; eassumption|]. intros C0 FO. eapply lf_nt; [exact Ei| |exact Fr|exact (LF FO C0)].
      unfold is_rec in R. unfold names. intros Hin. apply in_map_iff in Hin. destruct Hin as (q & Eq & Hin).
      assert (existsb (fun q => String.eqb (fst q) id) (wpath st) = true); [|congruence].
      apply existsb_exists. exists q. split; [exact Hin|]. apply String.eqb_eq, Eq.
    + intros HI. exact (proj2 (I HI) _ _ T).
    + intros HI O F _ rl' E'. injection E' as <-. destruct (Quiet HI O F) as (-> & -> & J & SG & _). auto.
Qed.

(** Sequences: [a] is the accumulator. *)
Definition seq_acc (a b : wfa) : wfa :=
  mkWfa (can_fail a || can_fail b) (can_succeed a && can_succeed b) (always_consume a || always_consume b) (never_consume a && never_consume b).
Definition alt_acc (a b : wfa) : wfa :=
  mkWfa (can_fail a && can_fail b) (can_succeed a || can_succeed b) (always_consume a && always_consume b) (never_consume a && never_consume b).
Lemma wfa_eq a b : can_fail a = can_fail b -> can_succeed a = can_succeed b -> always_consume a = always_consume b ->
  never_consume a = never_consume b -> a = b.
Proof. destruct a, b; cbn; congruence. Qed.

Definition excl (a : wfa) : Prop := always_consume a = true -> never_consume a = false.
Lemma excl_seq a c : excl a -> excl c -> excl (seq_acc a c).
Proof. unfold excl, seq_acc. cbn. destruct (always_consume a), (always_consume c), (never_consume a), (never_consume c); cbn; intuition. Qed.
Lemma excl_alt a c : excl c -> excl (alt_acc a c).
Proof. unfold excl, alt_acc. cbn. destruct (always_consume a), (always_consume c), (never_consume a), (never_consume c); cbn; intuition. Qed.

Lemma quiet_seq l : forall a st r st', visit_sequence_from ve l a st = WOk (r, st') ->
  later st st' /\ (sinv st -> sinv st' /\ ((can_succeed a = true -> can_succeed r = true) /\ (excl a -> excl r)) /\
   (wok st' = true -> wfix st' = true -> can_succeed a = true ->
     with_cons st' (wcons st) = st /\ Forall (sgood (wtab st)) l /\
     exists b, judged G (wtab st) (ISeq l) b /\ can_succeed b = true /\ r = seq_acc a b /\
     (flags_off (wpath st) -> wcons st = false -> lfree G (wtab st) (names (wpath st)) (ISeq l)))).
Proof.
  induction l as [|i l IH]; intros a st r st' H; cbn [visit_sequence_from] in H.
  - apply WOk_inj, pair_inj in H. destruct H as [<- <-]. split; [apply later_refl|]. intros HI. split; [exact HI|]. split; [split; auto|].
    intros _ _ Ca. split; [apply with_cons_same|]. split; [constructor|]. exists (mkWfa false true false true).
    split; [constructor|]. split; [reflexivity|]. split; [|intros; constructor].
    unfold seq_acc. cbn. apply wfa_eq; cbn; rewrite ?orb_false_r, ?andb_true_r; reflexivity.
  - apply wbind_ok in H. destruct H as ([c st1] & H & K). cbn [fst snd] in K.
    destruct (HV H) as [[L1 Q1] S1]. set (st2 := if always_consume c then with_cons st1 true else st1) in *.
    destruct (IH _ _ _ _ K) as [L2 Q2].
    assert (L12 : later st1 st2) by (subst st2; destruct (always_consume c); [apply later_cons|apply later_refl]).
    split; [eapply later_trans; [exact L1|eapply later_trans; eassumption]|]. intros HI.
    destruct (Q1 HI) as [I1 Q1']. destruct (S1 HI) as [AO S1'].
    assert (I2 : sinv st2) by (subst st2; destruct (always_consume c); [apply sinv_cons|]; exact I1).
    destruct (Q2 I2) as (I' & [CS EX] & Q2'). split; [exact I'|]. destruct AO as [AO AX].
    split. { split. - intros Ca. apply CS. cbn. rewrite Ca, AO. reflexivity. - intros Xa. apply EX, (excl_seq Xa AX). }
    intros O F Ca.
    assert (O2 := proj1 L2 O). assert (F2 := proj2 L2 F). assert (O1 := proj1 L12 O2). assert (F1 := proj2 L12 F2).
    destruct (Q1' O1 F1 AO) as (E1 & J1 & LF1). specialize (S1' O1 F1).
    destruct (Q2' O F) as (E2 & FG & b & J2 & Cb & Er & LF2). { cbn. rewrite Ca, AO. reflexivity. }
    subst st1. assert (wtab st2 = wtab st) as ET by (subst st2; destruct (always_consume c); reflexivity).
    assert (wpath st2 = wpath st) as EP by (subst st2; destruct (always_consume c); reflexivity).
    rewrite ET, ?EP in *.
    split; [|split].
    + assert (X : with_cons st2 (wcons st) = st) by (subst st2; destruct (always_consume c); rewrite ?with_cons_twice; apply with_cons_same).
      rewrite <- X at 2. rewrite <- E2. reflexivity.
    + constructor; assumption.
    + eexists. split; [eapply j_seq_cons; eassumption|]. split; [reflexivity|]. split.
      * subst r. unfold seq_acc. cbn. rewrite Ca, AO, Cb. cbn. rewrite !orb_assoc, !andb_assoc. reflexivity.
      * intros FO C0. eapply lf_seq_cons; [exact (LF1 C0 FO)|exact J1|]. intros Ac. apply LF2; [exact FO|].
        subst st2. rewrite Ac. exact C0.
Qed.

Lemma quiet_alt this l : forall a st r st', visit_choice_from ve this l a st = WOk (r, st') ->
  later st st' /\ (sinv st -> sinv st' /\ ((can_succeed a = true \/ l <> [] -> can_succeed r = true) /\ (excl a \/ l <> [] -> excl r)) /\
   (wok st' = true -> wfix st' = true ->
     st' = st /\ Forall (sgood (wtab st)) l /\
     (forall l1 j l2, l = l1 ++ j :: l2 -> l2 <> [] -> exists a, judged G (wtab st) (IE j) a /\ can_fail a = true) /\
     exists b, judged G (wtab st) (IAlt l) b /\ can_fail r = (can_fail a && can_fail b) /\ always_consume r = (always_consume a && always_consume b) /\
       never_consume r = (never_consume a && never_consume b) /\ can_succeed b = true /\
     (flags_off (wpath st) -> wcons st = false -> lfree G (wtab st) (names (wpath st)) (IAlt l)))).
Proof.
  induction l as [|i l IH]; intros a st r st' H; cbn [visit_choice_from] in H.
  - apply WOk_inj, pair_inj in H. destruct H as [<- <-]. split; [apply later_refl|]. intros HI. split; [exact HI|]. split; [tauto|].
    intros _ _. split; [reflexivity|]. split; [constructor|]. split; [intros [|? ?] ? ? E; discriminate E|]. exists (mkWfa true true true true).
    split; [constructor|]. cbn. rewrite !andb_true_r. repeat split. intros; constructor.
  - apply wbind_ok in H. destruct H as ([c st1] & H & K). cbn [fst snd] in K.
    destruct (HV H) as [[L1 Q1] S1]. set (st2 := with_cons st1 (wcons st)) in *.
    set (a' := alt_acc a c) in *.
    assert (L12 : later st st2) by (eapply later_trans; [exact L1|apply later_cons]).
    destruct l as [|j l].
    + apply WOk_inj, pair_inj in K. destruct K as [<- <-]. split; [exact L12|]. intros HI.
      destruct (Q1 HI) as [I1 Q1']. destruct (S1 HI) as [[AO AX] S1']. split; [apply sinv_cons, I1|].
      split. { split; intros _; [cbn; rewrite AO; apply orb_true_r|apply (@excl_alt a c AX)]. }
      intros O F. destruct (Q1' O F AO) as (E1 & J1 & LF1). specialize (S1' O F). subst st1.
      split; [apply with_cons_same|]. split; [constructor; [exact S1'|constructor]|]. split.
      { intros [|? [|? ?]] ? ? E N; injection E; intros; subst; try congruence; discriminate. }
      eexists. split; [eapply j_alt_cons; [exact J1|constructor]|]. cbn. rewrite !andb_true_r. repeat split.
      intros FO C0. constructor; [exact (LF1 C0 FO)|constructor].
    + remember (j :: l) as jl eqn:Ejl.
      assert (NE : jl <> []) by (subst; discriminate).
      assert (K' : (if negb (can_fail c) then WOk (a', report (DBranch this i) i st2) else visit_choice_from ve this jl a' st2) = WOk (r, st'))
        by (subst jl; exact K). clear K. rename K' into K.
      destruct (negb (can_fail c)) eqn:Cf.
      * apply WOk_inj, pair_inj in K. destruct K as [<- <-]. split; [eapply later_trans; [exact L12|apply later_report]|].
        intros HI. destruct (Q1 HI) as [I1 _]. destruct (S1 HI) as [[AO AX] _].
        split; [apply sinv_report, sinv_cons, I1|]. split. { split; intros _; [cbn; rewrite AO; apply orb_true_r|apply (@excl_alt a c AX)]. }
        intros O. exfalso. eapply report_noisy; [|exact O]. apply sinv_cons, I1.
      * destruct (IH _ _ _ _ K) as [L2 Q2]. split; [eapply later_trans; [exact L12|exact L2]|]. intros HI.
        destruct (Q1 HI) as [I1 Q1']. destruct (S1 HI) as [[AO AX] S1'].
        assert (I2 : sinv st2) by (apply sinv_cons, I1). destruct (Q2 I2) as (I' & [CS EX] & Q2'). split; [exact I'|].
        split. { split; intros _; [apply CS|apply EX]; right; exact NE. }
        intros O F. assert (O1 := proj1 L2 O). assert (F1 := proj2 L2 F).
        destruct (Q1' O1 F1 AO) as (E1 & J1 & LF1). specialize (S1' O1 F1). subst st1.
        assert (E2 : st2 = st) by apply with_cons_same. rewrite E2 in *.
        destruct (Q2' O F) as (E3 & FG & NL & b & J2 & B1 & B2 & B3 & B4 & LF2).
        split; [exact E3|]. split; [constructor; assumption|]. split.
        { intros [|x l1] y l2 E N; cbn in E; injection E; intros.
          - subst y. exists c. split; [exact J1|]. destruct (can_fail c); [reflexivity|discriminate].
          - subst x. eapply NL; eassumption. }
        eexists. split; [eapply j_alt_cons; eassumption|]. cbn. rewrite B1, B2, B3. cbn. rewrite !andb_assoc. repeat split.
        intros FO C0. constructor; [exact (LF1 C0 FO)|exact (LF2 FO C0)].
Qed.

(** The checks made at an expression apart from the one on its own attributes. *)
Definition local (W : string -> option wfa) (i : nat) : Prop :=
  (forall e, expr_of G i = Some (EStar e) \/ expr_of G i = Some (EPlus e) ->
     exists a, judged G W (IE e) a /\ always_consume a = true) /\
  (forall e, expr_of G i = Some (ENot e) -> exists a, judged G W (IE e) a /\ can_fail a = true) /\
  (forall l l1 j l2, expr_of G i = Some (EAlt l) -> l = l1 ++ j :: l2 -> l2 <> [] -> exists a, judged G W (IE j) a /\ can_fail a = true).

Lemma quiet_walk i st a st' : expr_of G i <> Some (EAlt []) -> walk G ve i st = WOk (a, st') ->
  qpost (IE i) st a st' /\
  (sinv st -> (can_fail a = true \/ can_succeed a = true) /\ (always_consume a = true -> never_consume a = false) /\
    (wok st' = true -> wfix st' = true -> can_succeed a = true ->
      local (wtab st) i /\ forall e, expr_of G i = Some e -> Forall (sgood (wtab st)) (children e))).
Proof.
  intros NA H. unfold walk in H. destruct (expr_of G i) as [e|] eqn:Ei; [|discriminate].
  assert (Atom : forall x, children e = [] -> (forall id, e <> ENT id) -> judged G (wtab st) (IE i) x -> att_ok x ->
     WOk (x, st) = WOk (a, st') -> qpost (IE i) st a st' /\
  (sinv st -> (can_fail a = true \/ can_succeed a = true) /\ (always_consume a = true -> never_consume a = false) /\
    (wok st' = true -> wfix st' = true -> can_succeed a = true ->
      local (wtab st) i /\ forall e0, Some e = Some e0 -> Forall (sgood (wtab st)) (children e0)))).
  { intros x C1 C2 J [A1 A2] E. apply WOk_inj, pair_inj in E. destruct E as [<- <-].
    split; [split; [apply later_refl|]|].
    - intros HI. split; [exact HI|]. intros _ _ _. split; [reflexivity|]. split; [exact J|]. intros _ _. eapply lf_atom; eassumption.
    - intros HI. split; [auto|]. split; [exact A2|]. intros _ _ _. split.
      + unfold local. rewrite Ei. split; [|split].
        * intros e0 [E|E]; injection E; intros ->; discriminate.
        * intros e0 E; injection E; intros ->; discriminate.
        * intros l l1 j l2 E ->; injection E; intros ->. cbn in C1. destruct l1; discriminate.
      + intros e0 E; injection E; intros <-. rewrite C1. constructor. }
  (* unary operators *)
  assert (Un : forall j x st1, unary e = Some j -> ve j st = WOk (x, st1) ->
     later st st1 /\ (sinv st -> sinv st1 /\ att_ok x /\ (wok st1 = true -> wfix st1 = true ->
       st1 = st /\ judged G (wtab st) (IE j) x /\ sgood (wtab st) j /\
       (wcons st = false -> flags_off (wpath st) -> lfree G (wtab st) (names (wpath st)) (IE i))))).
  { intros j x st1 U V. destruct (HV V) as [[L Q] S]. split; [exact L|]. intros HI. destruct (Q HI) as [I1 Q1]. destruct (S HI) as [AO S1].
    split; [exact I1|]. split; [exact AO|]. intros O F. destruct (Q1 O F (proj1 AO)) as (E1 & J & LF).
    split; [exact E1|]. split; [exact J|]. split; [exact (S1 O F)|]. intros C0 FO. eapply lf_un; [exact Ei|exact U|exact (LF C0 FO)]. }
  (* operators returning the attributes of their operand *)
  assert (Same : forall j, unary e = Some j -> (forall k, e <> EStar k /\ e <> EPlus k /\ e <> ENot k) ->
     (forall x, judged G (wtab st) (IE j) x -> judged G (wtab st) (IE i) x) ->
     ve j st = WOk (a, st') -> qpost (IE i) st a st' /\
  (sinv st -> (can_fail a = true \/ can_succeed a = true) /\ (always_consume a = true -> never_consume a = false) /\
    (wok st' = true -> wfix st' = true -> can_succeed a = true ->
      local (wtab st) i /\ forall e0, Some e = Some e0 -> Forall (sgood (wtab st)) (children e0)))).
  { intros j U NS HJ V. destruct (Un _ _ _ U V) as [L K]. split; [split; [exact L|]|].
    - intros HI. destruct (K HI) as (I1 & AO & Q). split; [exact I1|]. intros O F _. destruct (Q O F) as (E & J & _ & LF).
      split; [exact E|]. split; [apply HJ, J|exact LF].
    - intros HI. destruct (K HI) as (I1 & [A1 A2] & Q). split; [auto|]. split; [exact A2|]. intros O F _. destruct (Q O F) as (E & J & SG & LF). split.
      + unfold local. rewrite Ei. split; [|split].
        * intros e0 [X|X]; injection X; intros ->; destruct (NS e0) as (N1 & N2 & N3); congruence.
        * intros e0 X; injection X; intros ->; destruct (NS e0) as (N1 & N2 & N3); congruence.
        * intros l l1 j0 l2 X; injection X; intros ->. discriminate.
      + intros e0 X; injection X; intros <-. destruct e; try discriminate U; cbn in *; injection U; intros ->; constructor; auto. }
  (* repetitions *)
  assert (Rep : forall j x st1, e = EStar j \/ e = EPlus j -> visit_repeat ve i j st = WOk (x, st1) ->
     later st st1 /\ (sinv st -> sinv st1 /\ att_ok x /\ (wok st1 = true -> wfix st1 = true ->
       st1 = st /\ judged G (wtab st) (IE j) x /\ always_consume x = true /\ sgood (wtab st) j /\
       (wcons st = false -> flags_off (wpath st) -> lfree G (wtab st) (names (wpath st)) (IE i))))).
  { intros j x st1 He V. unfold visit_repeat in V. apply wbind_ok in V. destruct V as ([y st2] & V & K). cbn [fst snd] in K.
    assert (U : unary e = Some j) by (destruct He as [-> | ->]; reflexivity).
    destruct (Un _ _ _ U V) as [L Q]. destruct (can_succeed y && negb (always_consume y)) eqn:C.
    - apply WOk_inj, pair_inj in K. destruct K as [<- <-]. split; [eapply later_trans; [exact L|apply later_report]|].
      intros HI. destruct (Q HI) as (I1 & AO & _). split; [apply sinv_report, I1|]. split; [split; [reflexivity|reflexivity]|].
      intros O. exfalso. exact (report_noisy I1 O).
    - apply WOk_inj, pair_inj in K. destruct K as [<- <-]. split; [exact L|]. intros HI. destruct (Q HI) as (I1 & AO & Q1).
      split; [exact I1|]. split; [exact AO|]. intros O F. destruct (Q1 O F) as (E & J & SG & LF).
      rewrite (proj1 AO) in C. split; [exact E|]. split; [exact J|]. split; [destruct (always_consume y); [reflexivity|discriminate]|]. auto. }
  destruct e as [lit| |cls|id|p|l|l|e|e|e|e|e|e b f|e t|e|e].
  - destruct lit; (eapply Atom; [reflexivity|discriminate| | |exact H]); try (split; [reflexivity|discriminate]); try (split; reflexivity); econstructor; eassumption.
  - (eapply Atom; [reflexivity|discriminate| | |exact H]); [apply j_any; exact Ei|split; reflexivity].
  - (eapply Atom; [reflexivity|discriminate| | |exact H]); [eapply j_class; exact Ei|split; reflexivity].
  - destruct (quiet_rule Ei H) as (Q & AO & _). split; [exact Q|]. intros HI. destruct (AO HI) as [A1 A2]. split; [auto|]. split; [exact A2|].
    intros _ _ _. split.
    + unfold local. rewrite Ei. split; [|split]; [intros ? [?|?]; discriminate|discriminate|discriminate].
    + intros e0 X; injection X; intros <-. constructor.
  - (eapply Atom; [reflexivity|discriminate| | |exact H]); [eapply j_ext; exact Ei|split; reflexivity].
  - apply wbind_ok in H. destruct H as ([x st1] & H & K). cbn [fst snd] in K. apply WOk_inj, pair_inj in K. destruct K as [<- <-].
    destruct (quiet_seq H) as [L Q].
    assert (L' : later st (with_cons st1 (wcons st))) by (eapply later_trans; [exact L|apply later_cons]).
    split; [split; [exact L'|]|].
    + intros HI. destruct (Q HI) as (I1 & [CS EX] & Q1). split; [apply sinv_cons, I1|]. intros O F _.
      destruct (Q1 O F eq_refl) as (E & FG & b & J & Cb & Er & LF). split; [exact E|]. split.
      * eapply j_seq; [exact Ei|]. subst x. unfold seq_acc. cbn. destruct b; cbn in *. rewrite Cb in J. rewrite ?Cb. exact J.
      * intros C0 FO. eapply lf_seq; [exact Ei|exact (LF FO C0)].
    + intros HI. destruct (Q HI) as (I1 & [CS EX] & Q1). split; [right; apply CS; reflexivity|].
      split.
      * apply EX. intros K; discriminate K.
      * intros O F _. destruct (Q1 O F eq_refl) as (E & FG & _). split.
        -- unfold local. rewrite Ei. split; [|split]; [intros ? [?|?]; discriminate|discriminate|discriminate].
        -- intros e0 X; injection X; intros <-. exact FG.
  - assert (NL : l <> []) by (intros ->; apply NA; reflexivity).
    destruct (quiet_alt H) as [L Q]. split; [split; [exact L|]|].
    + intros HI. destruct (Q HI) as (I1 & [CS EX] & Q1). split; [exact I1|]. intros O F _.
      destruct (Q1 O F) as (E & FG & _ & b & J & B1 & B2 & B3 & B4 & LF). split; [exact E|]. split.
      * eapply j_alt; [exact Ei|]. assert (a = b) as ->; [|exact J].
        apply wfa_eq; [exact B1| |exact B2|exact B3]. rewrite CS; [symmetry; exact B4|right; exact NL].
      * intros C0 FO. eapply lf_alt; [exact Ei|exact (LF FO C0)].
    + intros HI. destruct (Q HI) as (I1 & [CS EX] & Q1). split; [right; apply CS; right; exact NL|].
      split.
      * apply EX. right. exact NL.
      * intros O F _. destruct (Q1 O F) as (E & FG & NLs & _). split.
        -- unfold local. rewrite Ei. split; [|split]; [intros ? [?|?]; discriminate|discriminate|].
           intros l0 l1 j l2 X. injection X as <-. apply NLs.
        -- intros e0 X; injection X; intros <-. exact FG.
  - apply wbind_ok in H. destruct H as ([x st1] & H & K). cbn [fst snd] in K. apply WOk_inj, pair_inj in K. destruct K as [<- <-].
    destruct (Rep _ _ _ (or_introl eq_refl) H) as [L Q]. split; [split; [exact L|]|].
    + intros HI. destruct (Q HI) as (I1 & AO & Q1). split; [exact I1|]. intros O F _. destruct (Q1 O F) as (E & J & AC & SG & LF).
      split; [exact E|]. split; [|exact LF]. eapply j_star; [exact Ei|]. apply j_star_it, J.
    + intros HI. destruct (Q HI) as (I1 & AO & Q1). split; [right; reflexivity|]. split; [discriminate|]. intros O F _.
      destruct (Q1 O F) as (E & J & AC & SG & LF). split.
      * unfold local. rewrite Ei. split; [|split]; [|discriminate|discriminate].
        intros e0 [X|X]; [|discriminate]. injection X as <-. eauto.
      * intros e0 X; injection X; intros <-. constructor; auto.
  - destruct (Rep _ _ _ (or_intror eq_refl) H) as [L Q]. split; [split; [exact L|]|].
    + intros HI. destruct (Q HI) as (I1 & AO & Q1). split; [exact I1|]. intros O F _. destruct (Q1 O F) as (E & J & AC & SG & LF).
      split; [exact E|]. split; [|exact LF]. eapply j_plus; [exact Ei|exact J].
    + intros HI. destruct (Q HI) as (I1 & [A1 A2] & Q1). split; [right; exact A1|]. split; [exact A2|]. intros O F _.
      destruct (Q1 O F) as (E & J & AC & SG & LF). split.
      * unfold local. rewrite Ei. split; [|split]; [|discriminate|discriminate].
        intros e0 [X|X]; [discriminate|]. injection X as <-. eauto.
      * intros e0 X; injection X; intros <-. constructor; auto.
  - apply wbind_ok in H. destruct H as ([x st1] & H & K). cbn [fst snd] in K. apply WOk_inj, pair_inj in K. destruct K as [<- <-].
    destruct (Un _ _ _ eq_refl H) as [L Q]. split; [split; [exact L|]|].
    + intros HI. destruct (Q HI) as (I1 & AO & Q1). split; [exact I1|]. intros O F _. destruct (Q1 O F) as (E & J & SG & LF).
      split; [exact E|]. split; [|exact LF]. eapply j_opt; [exact Ei|exact J].
    + intros HI. destruct (Q HI) as (I1 & AO & Q1). split; [right; reflexivity|]. split; [discriminate|]. intros O F _.
      destruct (Q1 O F) as (E & J & SG & LF). split.
      * unfold local. rewrite Ei. split; [|split]; [intros ? [?|?]; discriminate|discriminate|discriminate].
      * intros e0 X; injection X; intros <-. constructor; auto.
  - apply wbind_ok in H. destruct H as ([y st1] & H & K). cbn [fst snd] in K. apply WOk_inj, pair_inj in K. destruct K as [<- <-].
    unfold visit_predicate in H. apply wbind_ok in H. destruct H as ([x st2] & H & K). cbn [fst snd] in K. apply WOk_inj, pair_inj in K. destruct K as [<- <-].
    cbn [can_fail can_succeed always_consume never_consume].
    destruct (Un _ _ _ eq_refl H) as [L Q]. split; [split; [exact L|]|].
    + intros HI. destruct (Q HI) as (I1 & AO & Q1). split; [exact I1|]. cbn [can_succeed]. intros O F CF. destruct (Q1 O F) as (E & J & SG & LF).
      split; [exact E|]. split; [|exact LF]. rewrite CF, (proj1 AO). eapply j_not; [exact Ei|exact J].
    + intros HI. destruct (Q HI) as (I1 & AO & Q1). split; [left; exact (proj1 AO)|]. split; [discriminate|]. intros O F CF.
      destruct (Q1 O F) as (E & J & SG & LF). split.
      * unfold local. rewrite Ei. split; [|split]; [intros ? [?|?]; discriminate| |discriminate].
        intros e0 X. injection X as <-. eauto.
      * intros e0 X; injection X; intros <-. constructor; auto.
  - unfold visit_predicate in H. apply wbind_ok in H. destruct H as ([x st2] & H & K). cbn [fst snd] in K. apply WOk_inj, pair_inj in K. destruct K as [<- <-].
    cbn [can_fail can_succeed always_consume never_consume].
    destruct (Un _ _ _ eq_refl H) as [L Q]. split; [split; [exact L|]|].
    + intros HI. destruct (Q HI) as (I1 & AO & Q1). split; [exact I1|]. cbn [can_succeed]. intros O F CF. destruct (Q1 O F) as (E & J & SG & LF).
      split; [exact E|]. split; [|exact LF]. rewrite CF. eapply j_and; [exact Ei|exact J].
    + intros HI. destruct (Q HI) as (I1 & AO & Q1). split; [right; exact (proj1 AO)|]. split; [discriminate|]. intros O F CF.
      destruct (Q1 O F) as (E & J & SG & LF). split.
      * unfold local. rewrite Ei. split; [|split]; [intros ? [?|?]; discriminate|discriminate|discriminate].
      * intros e0 X; injection X; intros <-. constructor; auto.
  - eapply Same; [reflexivity|intros k; repeat split; discriminate| |exact H]. intros; eapply j_act; eassumption.
  - eapply Same; [reflexivity|intros k; repeat split; discriminate| |exact H]. intros; eapply j_asc; eassumption.
  - eapply Same; [reflexivity|intros k; repeat split; discriminate| |exact H]. intros; eapply j_span; eassumption.
  - eapply Same; [reflexivity|intros k; repeat split; discriminate| |exact H]. intros; eapply j_range; eassumption.
Qed.
End Visit.

Hypothesis HA : forall i, expr_of G i <> Some (EAlt []).

Lemma local_good W i a : local W i -> judged G W (IE i) a -> (can_fail a = false -> never_consume a = false) -> good G W i.
Proof. intros (A & B & C) J K. split; [eauto|]. auto. Qed.

Lemma quiet_expr fuel : qspec (visit_expr G fuel).
Proof.
  induction fuel as [|k IH]; intros i st a st' H; [discriminate|]. cbn [visit_expr] in H.
  apply wbind_ok in H. destruct H as ([x st1] & H & K). cbn [fst snd] in K.
  destruct (quiet_walk IH (@HA i) H) as [[L Q] S].
  destruct (negb (can_fail x || can_succeed x)) eqn:A1; [discriminate|].
  destruct (negb (negb (always_consume x) || negb (never_consume x))) eqn:A2; [discriminate|].
  destruct (can_fail x && negb (can_succeed x)) eqn:C1; [|destruct (can_succeed x && negb (can_fail x) && never_consume x) eqn:C2];
    apply WOk_inj, pair_inj in K; destruct K as [<- <-].
  - split; [split; [eapply later_trans; [exact L|apply later_report]|]|].
    + intros HI. destruct (Q HI) as [I1 _]. split; [apply sinv_report, I1|]. intros O. destruct (report_noisy I1 O).
    + intros HI. destruct (Q HI) as [I1 _]. destruct (S HI) as (_ & EX & _). split; [split; [reflexivity|exact EX]|]. intros O. destruct (report_noisy I1 O).
  - split; [split; [eapply later_trans; [exact L|apply later_report]|]|].
    + intros HI. destruct (Q HI) as [I1 _]. split; [apply sinv_report, I1|]. intros O. destruct (report_noisy I1 O).
    + intros HI. destruct (Q HI) as [I1 _]. destruct (S HI) as (_ & EX & _).
      split; [split; [cbn; destruct (can_succeed x); [reflexivity|discriminate]|reflexivity]|]. intros O. destruct (report_noisy I1 O).
  - assert (CS : can_succeed x = true). { destruct (can_fail x), (can_succeed x); try reflexivity; discriminate. }
    split; [split; [exact L|exact Q]|]. intros HI. destruct (Q HI) as [I1 Q1]. destruct (S HI) as (_ & EX & S1).
    split; [split; [exact CS|exact EX]|]. intros O F. destruct (Q1 O F CS) as (E & J & _). destruct (S1 O F CS) as [Lo Ch].
    intros j Sj. inversion Sj as [|? m ? e Ee Hin Sm]; subst.
    + eapply local_good; [exact Lo|exact J|]. intros CF. rewrite CS, CF in C2. exact C2.
    + specialize (Ch _ Ee). rewrite Forall_forall in Ch. exact (Ch m Hin j Sm).
Qed.

Lemma sinv_new : sinv (wst_new G).
Proof.
  split; [intros _; reflexivity|]. intros id a. cbn. destruct (find_rule G id); [|discriminate].
  intros E; injection E as <-. split; reflexivity.
Qed.
Lemma sinv_fix st b : sinv st -> sinv (with_fix st b).
Proof. intros [C T]. split; assumption. Qed.

(** What holds of a rule after a quiet visit from the root. *)
Definition rule_ok (W : string -> option wfa) (id : string) : Prop := forall rl, find_rule G id = Some rl ->
  (exists a, W id = Some a /\ judged G W (IE (rexpr rl)) a) /\ sgood W (rexpr rl) /\ lfree G W [id] (IE (rexpr rl)).

Lemma quiet_rule_root fuel id st a st' : visit_rule G (visit_expr G fuel) id st = WOk (a, st') ->
  later st st' /\ (sinv st -> sinv st' /\ (wpath st = [] -> wcons st = false -> wok st' = true -> wfix st' = true -> st' = st /\ rule_ok (wtab st) id)).
Proof.
  intros H. pose proof (@quiet_expr fuel) as HV.
  unfold visit_rule in H. apply wbind_ok in H. destruct H as (st1 & H & K).
  destruct (wtab st1 id) as [a1|] eqn:T; [|discriminate]. apply WOk_inj, pair_inj in K. destruct K as [-> ->].
  destruct (is_rec id st) eqn:R.
  - assert (NP : wpath st <> []) by (intros E; unfold is_rec in R; rewrite E in R; discriminate).
    destruct (negb (consume_input_since id st) && negb (wcons st)) eqn:C.
    + unfold error_left_recursion in H. destruct (find_rule G id) as [rl|]; [|discriminate]. apply WOk_inj in H. subst st'.
      assert (L : later (with_ok st false) (report (DLeft (id :: rev (map fst (rec_path_from id (wpath st))))) (rexpr rl) (with_ok st false))) by apply later_report.
      split; [eapply later_trans; [|exact L]; split; cbn; [discriminate|auto]|].
      intros [Cl Tb]. split; [apply sinv_report; split; [discriminate|exact Tb]|]. congruence.
    + apply WOk_inj in H. subst st'. split; [apply later_refl|]. intros HI. split; [exact HI|]. congruence.
  - destruct (find_rule G id) as [rl|] eqn:Fr; [|discriminate].
    apply wbind_ok in H. destruct H as ([b st2] & H & K). cbn [fst snd] in K.
    apply wbind_ok in K. destruct K as (st3 & P & U).
    destruct (HV _ _ _ _ H) as [[L2 Q2] S2].
    unfold pop_rule in P. destruct (wpath st2) as [|[nm c] p] eqn:Ep; [discriminate|]. apply WOk_inj in P. subst st3.
    set (st3 := with_cons (with_path st2 p) c) in *.
    unfold fixpoint_update in U. destruct (wtab st3 id) as [b0|] eqn:T3; [|discriminate]. apply WOk_inj in U.
    split. { eapply later_trans; [exact L2|]. subst st'. destruct (wfa_eqb b b0); split; cbn; auto. discriminate. }
    intros HI. assert (IP : sinv (push_rule id st)) by (destruct HI as [A B]; split; assumption).
    destruct (Q2 IP) as [[C2 T2] Q3]. destruct (S2 IP) as [AO S3].
    split.
    { subst st'. destruct (wfa_eqb b b0); (split; [exact C2|]); [exact T2|].
      intros x y. cbn. destruct (String.eqb x id); [intros E; injection E; intros <-; exact AO|apply T2]. }
    intros P0 C0 O F. destruct (wfa_eqb b b0) eqn:E; [|subst st'; discriminate]. apply wfa_eqb_eq in E. subst b0.
    assert (O2 : wok st2 = true) by (subst st'; exact O). assert (F2 : wfix st2 = true) by (subst st'; exact F).
    destruct (Q3 O2 F2 (proj1 AO)) as (E2 & J & LF). specialize (S3 O2 F2).
    rewrite E2 in Ep. cbn in Ep. injection Ep as _ <- <-.
    assert (st' = st) as ->. { subst st' st3. rewrite E2. destruct st; reflexivity. }
    split; [reflexivity|]. intros rl' Fr'. rewrite Fr in Fr'. injection Fr' as <-. split; [|split; [exact S3|]].
    + exists b. split; [|exact J]. subst st3. rewrite E2 in T3. exact T3.
    + specialize (LF eq_refl). cbn in LF. rewrite P0, C0 in LF. apply LF. constructor; [reflexivity|constructor].
Qed.

Lemma quiet_pass fuel rs : forall st st', visit_pass G fuel rs st = WOk st' ->
  later st st' /\ (sinv st -> sinv st' /\ (wpath st = [] -> wcons st = false -> wok st' = true -> wfix st' = true ->
    st' = st /\ Forall (fun rl => rule_ok (wtab st) (rname rl)) rs)).
Proof.
  induction rs as [|rl rs IH]; intros st st' H; cbn [visit_pass] in H.
  - apply WOk_inj in H. subst. split; [apply later_refl|]. intros HI. split; [exact HI|]. intros. split; [reflexivity|constructor].
  - apply wbind_ok in H. destruct H as ([a st1] & H & K). cbn [fst snd] in K. destruct (quiet_rule_root H) as [L1 Q1].
    destruct (wok st1) eqn:O1.
    + destruct (IH _ _ K) as [L2 Q2]. split; [eapply later_trans; eassumption|]. intros HI. destruct (Q1 HI) as [I1 Q1'].
      destruct (Q2 I1) as [I2 Q2']. split; [exact I2|]. intros P C O F.
      destruct (Q1' P C eq_refl (proj2 L2 F)) as [-> RO]. destruct (Q2' P C O F) as [-> FA]. split; [reflexivity|constructor; assumption].
    + apply WOk_inj in K. subst st1. split; [exact L1|]. intros HI. destruct (Q1 HI) as [I1 _]. split; [exact I1|]. congruence.
Qed.

Lemma quiet_rules fuel passes : forall st st', visit_rules G fuel passes st = WOk st' ->
  sinv st -> wpath st = [] -> wcons st = false -> wok st' = true ->
  (wfix st = true -> Forall (fun rl => rule_ok (wtab st) (rname rl)) (rules G)) ->
  Forall (fun rl => rule_ok (wtab st') (rname rl)) (rules G).
Proof.
  induction passes as [|k IH]; intros st st' H HI P C O HF; cbn [visit_rules] in H.
  - destruct (negb (wfix st) && wok st) eqn:E; [discriminate|]. apply WOk_inj in H. subst st'.
    rewrite O, andb_true_r in E. apply HF. destruct (wfix st); [reflexivity|discriminate].
  - destruct (negb (wfix st) && wok st) eqn:E.
    + apply wbind_ok in H. destruct H as (st1 & H & K).
      pose proof (frame_pass H) as (F1 & F2 & _). cbn in F1, F2. destruct (quiet_pass H) as [L Q].
      destruct (Q (sinv_fix true HI)) as [I1 Q1].
      eapply IH; [exact K|exact I1|congruence|congruence|exact O|]. intros Fx.
      assert (O1 : wok st1 = true).
      { destruct (wok st1) eqn:O1; [reflexivity|]. destruct k; cbn [visit_rules] in K; rewrite O1, andb_false_r in K; apply WOk_inj in K; congruence. }
      destruct (Q1 P C O1 Fx) as [-> RO]. exact RO.
    + apply WOk_inj in H. subst st'.
      rewrite O, andb_true_r in E. apply HF. destruct (wfix st); [reflexivity|discriminate].
Qed.

Lemma frame_rules fuel passes : forall st st', visit_rules G fuel passes st = WOk st' -> frame st st'.
Proof.
  induction passes as [|k IH]; intros st st' H; cbn [visit_rules] in H; destruct (negb (wfix st) && wok st);
    try discriminate; try (apply WOk_inj in H; subst; apply frame_refl).
  apply wbind_ok in H. destruct H as (st1 & H & K). eapply frame_trans; [|exact (IH _ _ K)].
  apply frame_pass in H. exact H.
Qed.

Lemma sinv_rules fuel passes : forall st st', visit_rules G fuel passes st = WOk st' -> sinv st -> sinv st'.
Proof.
  induction passes as [|k IH]; intros st st' H HI; cbn [visit_rules] in H; destruct (negb (wfix st) && wok st);
    try discriminate; try (apply WOk_inj in H; subst; exact HI).
  apply wbind_ok in H. destruct H as (st1 & H & K). apply (IH _ _ K). destruct (quiet_pass H) as [_ Q]. apply (Q (sinv_fix true HI)).
Qed.

(** An accepting run leaves a certificate: its final table. *)
Theorem cert_of_run fuel passes st : visit_rules G fuel passes (wst_new G) = WOk st -> wok st = true -> wf_cert G (wtab st).
Proof.
  intros H O.
  pose proof (quiet_rules H sinv_new eq_refl eq_refl O) as K. cbn [wfix wst_new] in K. specialize (K ltac:(discriminate)).
  rewrite Forall_forall in K. split.
  - intros id rl F. destruct (find_rule_some F) as [Hin <-]. exact (proj1 (K rl Hin rl F)).
  - intros i (id & rl & F & Si). destruct (find_rule_some F) as [Hin <-]. exact (proj1 (proj2 (K rl Hin rl F)) i Si).
  - intros id rl F. destruct (find_rule_some F) as [Hin <-]. exact (proj2 (proj2 (K rl Hin rl F))).
  - intros id a T. destruct (frame_rules H) as (_ & _ & D). specialize (D id). cbn in D.
    destruct (find_rule G id) as [rl|] eqn:F; [eauto|]. rewrite (proj2 D eq_refl) in T. discriminate.
Qed.
Theorem accepted_cert : accepted G -> exists W, wf_cert G W.
Proof.
  intros (fuel & passes & H). unfold is_well_formed in H. apply wbind_ok in H. destruct H as (st & H & O). apply WOk_inj in O.
  exists (wtab st). exact (cert_of_run H O).
Qed.
End Quiet.
