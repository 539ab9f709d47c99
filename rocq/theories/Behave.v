(** Consequences of the correctness of the generated code, stated on what a caller observes. *)
From Verif Require Import Base Utf8 Stream ParseState RuntimeFacts Grammar PegSpec Target Compile TargetFacts ScopeFacts
  CompileShape EvalRules CompileCorrect ScopeGen GenTotal PegFacts Running WellFormed WfFacts WfSound PegRun.
Set Implicit Arguments. Unset Strict Implicit.

(** ---------------- vocabulary of the statements ---------------- *)
(** The state is a success whose remaining input is [rest]. *)
Definition succeeded (t : text) (st : pst) (rest : text) : Prop :=
  is_successful st = true /\ exists pre, t = pre ++ rest /\ current st = mkStr (enc t) (length (enc pre)).

(** [e] matched [n] times in a row from [s] to [s']. *)
Inductive iterates (M : text -> option text -> Prop) : nat -> text -> text -> Prop :=
| it_0 s : iterates M 0 s s
| it_S n s s1 s2 : M s (Some s1) -> iterates M n s1 s2 -> iterates M (S n) s s2.

(** The errors reported during a run, as (byte offset, message). *)
Definition error_trace (t : text) (evs : list event) : list (nat * list N) :=
  flat_map (fun e => match e with EvErr p m => [(length (enc t) - length (enc p), m)] | EvAct _ _ => [] end) evs.
(** The calls of semantic actions of a run. *)
Definition action_trace (evs : list event) : list (action * list value) :=
  flat_map (fun e => match e with EvErr _ _ => [] | EvAct f a => [(f, a)] end) evs.

(** Expressions an expression may evaluate. *)
Inductive uses (G : grammar) : nat -> nat -> Prop :=
| us_self i : uses G i i
| us_child i e j k : expr_of G i = Some e -> In j (children e) -> uses G j k -> uses G i k
| us_call i id rl k : expr_of G i = Some (ENT id) -> find_rule G id = Some rl -> uses G (rexpr rl) k -> uses G i k.

Section Behave.
Variables (G : grammar) (X : extern) (xf : mode -> list string -> pst -> outcome (pst * alog)) (t : text).
Hypothesis HR : ready G X xf t.
Notation matches := (matches G (ford_ext X)).

Lemma strm_succeeded rest ei v : suffix t rest -> succeeded t (success (run_at t rest ei) v) rest.
Proof.
  intros [pre E]. split; [reflexivity|]. exists pre. split; [exact E|]. cbn. apply stands_suffix, E.
Qed.
Lemma enc_pos c l : 0 < length (enc (c :: l)).
Proof. rewrite enc_cons, app_length. rewrite utf8_length. pose proof (len_utf8_pos c). lia. Qed.
Lemma enc_len_inj pre1 rest1 pre2 rest2 : t = pre1 ++ rest1 -> t = pre2 ++ rest2 ->
  length (enc pre1) = length (enc pre2) -> rest1 = rest2.
Proof.
  intros E1 E2 L. assert (K : pre1 ++ rest1 = pre2 ++ rest2) by congruence. pose proof K as K'.
  apply app_eq_app in K'. pose proof (se_text HR) as HS.
  destruct K' as (l & [[A B]|[A B]]); subst.
  - rewrite enc_app, app_length in L. destruct l as [|c l]; [reflexivity|]. exfalso.
    pose proof (enc_pos c l) as Q. lia.
  - rewrite enc_app, app_length in L. destruct l as [|c l]; [reflexivity|]. exfalso.
    pose proof (enc_pos c l) as Q. lia.
Qed.

Lemma succeeded_det st r1 r2 : succeeded t st r1 -> succeeded t st r2 -> r1 = r2.
Proof.
  intros [_ (p1 & E1 & C1)] [_ (p2 & E2 & C2)]. rewrite C1 in C2. injection C2 as L. exact (enc_len_inj E1 E2 L).
Qed.

Lemma offs_errs evs : offs (errs t evs) = error_trace t evs.
Proof.
  induction evs as [|[p msg|f a] evs IH]; [reflexivity| |exact IH].
  change (error_trace t (EvErr p msg :: evs)) with ((length (enc t) - length (enc p), msg) :: error_trace t evs). rewrite <- IH. reflexivity.
Qed.
Lemma acts_trace evs : acts evs = action_trace evs.
Proof. reflexivity. Qed.

Lemma final_errors m st r evs : final t m r evs st ->
  bytes_offset (farthest_read st) = farthest_of 0 (error_trace t evs)
  /\ expected st = messages_at (farthest_of 0 (error_trace t evs)) (error_trace t evs).
Proof.
  intros F. assert (K : (farthest_read st, expected st) = errors_of t evs).
  { destruct r as [[rest vs]|]; cbn in F; [subst st|destruct F as [cur ->]]; symmetry; apply surjective_pairing. }
  pose proof (record_all_spec (errs t evs) (str_stream t)) as [A B]. rewrite offs_errs in A, B.
  unfold errors_of, recd in K. rewrite <- K in A, B. exact (conj A B).
Qed.

Section One.
Variables (m : mode) (id : string) (rl : rule) (st : pst) (log : alog).
Hypothesis HM : mode_ok G m.
Hypothesis HF : find_rule G id = Some rl.
Hypothesis HE : returns G xf m id t st log.

Lemma run_outcome : exists r evs, ep G X (off t) m (IE (rexpr rl)) t r evs /\ log = acts evs /\ final t m r evs st
  /\ matches (IE (rexpr rl)) t (forget r)
  /\ match r with Some (rest, vs) => suffix t rest /\ succeeded t st rest /\ data st = Some (tup vs)
     | None => is_failed st = true /\ data st = None end.
Proof.
  destruct (run_spec HR HM HF HE) as (r & evs & E & L & F). exists r, evs. split; [exact E|]. split; [exact L|]. split; [exact F|].
  split; [exact (ep_matches (se_sane HR) E)|]. destruct r as [[rest vs]|]; cbn in F.
  - pose proof (ep_suffix1 (se_ext HR) E (suffix_all t)) as Sf. split; [exact Sf|]. subst st. split; [apply strm_succeeded, Sf|reflexivity].
  - destruct F as [cur ->]. split; reflexivity.
Qed.

Theorem success_iff rest : succeeded t st rest <-> matches (IE (rexpr rl)) t (Some rest).
Proof.
  destruct run_outcome as (r & evs & E & L & F & M & K). split.
  - intros S1. destruct r as [[rest' vs]|].
    + destruct K as (_ & S2 & _). rewrite (succeeded_det S1 S2). exact M.
    + destruct K as [K _]. destruct S1 as [S1 _]. unfold is_successful in S1. rewrite K in S1. discriminate.
  - intros M'. pose proof (matches_det (se_sane HR) M M') as Q. destruct r as [[rest' vs]|]; [|discriminate].
    injection Q as <-. apply K.
Qed.
Theorem failure_iff : is_failed st = true <-> matches (IE (rexpr rl)) t None.
Proof.
  destruct run_outcome as (r & evs & E & L & F & M & K). split.
  - intros S1. destruct r as [[rest' vs]|]; [|exact M]. destruct K as (_ & [S2 _] & _). unfold is_successful in S2. rewrite S1 in S2. discriminate.
  - intros M'. pose proof (matches_det (se_sane HR) M M') as Q. destruct r as [[rest' vs]|]; [discriminate|]. apply K.
Qed.

Theorem classification :
  ((exists v, into_result st = Ret (PSuccess v)) <-> matches (IE (rexpr rl)) t (Some []))
  /\ ((exists v e, into_result st = Ret (PPartial v e)) <-> exists c rest, matches (IE (rexpr rl)) t (Some (c :: rest)))
  /\ ((exists e, into_result st = Ret (PFailure _ e)) <-> matches (IE (rexpr rl)) t None)
  /\ into_result st <> Panic.
Proof.
  destruct run_outcome as (r & evs & E & L & F & M & K). pose proof (fun r' M' => matches_det (se_sane HR) M (r2 := r') M') as D.
  destruct r as [[rest vs]|]; cbn [forget option_map fst] in *.
  - destruct K as (Sf & S1 & Da). unfold into_result. rewrite Da. destruct S1 as [Ok (pre & Et & Cu)].
    assert (HN : has_next (current st) = match rest with [] => false | _ => true end).
    { apply (@has_next_at _ pre). rewrite Cu. pose proof (se_text HR) as HS. rewrite Et in HS |- *. apply pos_of_at_pos, HS. }
    rewrite HN. destruct rest as [|c rest].
    + split; [split; [intros _; exact M|eauto]|]. split; [split; [intros (v & e & Q); discriminate|intros (c & rest & Q); apply D in Q; discriminate]|].
      split; [split; [intros (e & Q); discriminate|intros Q; apply D in Q; discriminate]|discriminate].
    + split; [split; [intros (v & Q); discriminate|intros Q; apply D in Q; discriminate]|].
      split; [split; [intros _; eauto|eauto]|].
      split; [split; [intros (e & Q); discriminate|intros Q; apply D in Q; discriminate]|discriminate].
  - destruct K as [Fa Da]. unfold into_result. rewrite Da. unfold is_failed in Fa. rewrite Fa.
    split; [split; [intros (v & Q); discriminate|intros Q; apply D in Q; discriminate]|].
    split; [split; [intros (v & e & Q); discriminate|intros (c & rest & Q); apply D in Q; discriminate]|].
    split; [split; [intros _; exact M|eauto]|discriminate].
Qed.

(** ---------------- errors ---------------- *)
Theorem errors_reported : exists r evs, ep G X (off t) m (IE (rexpr rl)) t r evs
  /\ bytes_offset (farthest_read st) = farthest_of 0 (error_trace t evs)
  /\ expected st = messages_at (farthest_of 0 (error_trace t evs)) (error_trace t evs).
Proof.
  destruct run_outcome as (r & evs & E & L & F & _). exists r, evs. split; [exact E|]. exact (final_errors F).
Qed.
End One.

(** ---------------- the two modes ---------------- *)
Theorem modes_same id rl stR logR stP logP : parsers_ok G -> find_rule G id = Some rl ->
  returns G xf Rec id t stR logR -> returns G xf Par id t stP logP ->
  is_failed stP = is_failed stR /\ farthest_read stP = farthest_read stR /\ expected stP = expected stR
  /\ (forall rest, succeeded t stP rest <-> succeeded t stR rest).
Proof.
  intros HP F R1 R2.
  destruct (run_outcome (m := Rec) I F R1) as (r1 & e1 & E1 & _ & F1 & M1 & K1).
  destruct (run_outcome (m := Par) HP F R2) as (r2 & e2 & E2 & _ & F2 & M2 & K2).
  destruct (modes_agree (se_sane HR) E1 E2) as [A B].
  assert (Z : errors_of t e1 = errors_of t e2).
  { unfold errors_of, recd. f_equal. rewrite B. clear. induction e2 as [|[p g|f a] e IH]; [reflexivity| |exact IH].
    change (errs t (only_errs (EvErr p g :: e))) with ((strm t p, g) :: errs t (only_errs e)). rewrite IH. reflexivity. }
  assert (Q : forall r evs st m, final t m r evs st -> (farthest_read st, expected st) = errors_of t evs).
  { intros r evs st m H. destruct r as [[rest vs]|]; cbn in H; [subst st|destruct H as [cur ->]]; symmetry; apply surjective_pairing. }
  pose proof (Q _ _ _ _ F1) as Q1. pose proof (Q _ _ _ _ F2) as Q2. rewrite Z in Q1. rewrite <- Q2 in Q1. injection Q1 as Qa Qb.
  split; [|split; [auto|split; [auto|]]].
  - destruct r1 as [[a1 v1]|], r2 as [[a2 v2]|]; try discriminate A.
    + destruct K1 as (_ & [K1 _] & _), K2 as (_ & [K2 _] & _). unfold is_successful in *. apply negb_true_iff in K1, K2. congruence.
    + destruct K1 as [K1 _], K2 as [K2 _]. congruence.
  - intros rest. rewrite (success_iff (m := Par) HP F R2), (success_iff (m := Rec) I F R1). reflexivity.
Qed.

(** ---------------- the specification read operator by operator ---------------- *)
Ltac same_expr := repeat match goal with
  | H1 : expr_of G ?i = Some _, H2 : expr_of G ?i = Some _ |- _ => rewrite H1 in H2; first [discriminate H2|injection H2; intros; subst; clear H2]
  end.

Lemma seq_split l1 l2 s rest : matches (ISeq (l1 ++ l2)) s (Some rest) <->
  exists s1, matches (ISeq l1) s (Some s1) /\ matches (ISeq l2) s1 (Some rest).
Proof.
  revert s. induction l1 as [|i l1 IH]; intros s; cbn [app].
  - split; [intros H; exists s; split; [constructor|exact H]|]. intros (s1 & A & B). inversion A; subst. exact B.
  - split.
    + intros H. inversion H; subst. match goal with K : matches (ISeq (l1 ++ l2)) _ _ |- _ => apply IH in K; destruct K as (s2 & A & B) end.
      exists s2. split; [eapply m_seq_cons; eassumption|exact B].
    + intros (s1 & A & B). inversion A; subst. eapply m_seq_cons; [eassumption|]. apply IH. eauto.
Qed.
Lemma seq_mid i l1 p l2 s rest : expr_of G i = Some (ESeq (l1 ++ p :: l2)) ->
  (matches (IE i) s (Some rest) <-> exists s1 s2, matches (ISeq l1) s (Some s1) /\ matches (IE p) s1 (Some s2) /\ matches (ISeq l2) s2 (Some rest)).
Proof.
  intros E. split.
  - intros H. inversion H; subst; same_expr. match goal with K : matches (ISeq _) _ _ |- _ => apply seq_split in K; destruct K as (s1 & A & B) end.
    inversion B; subst. eauto.
  - intros (s1 & s2 & A & B & C). eapply m_seq; [exact E|]. apply seq_split. exists s1. split; [exact A|]. eapply m_seq_cons; eassumption.
Qed.
Lemma and_ok p e s s2 : expr_of G p = Some (EAnd e) -> (matches (IE p) s (Some s2) <-> s2 = s /\ exists s', matches (IE e) s (Some s')).
Proof.
  intros E. split; [intros H; inversion H; subst; same_expr; eauto|]. intros [-> [s' H]]. eapply m_and_ok; eassumption.
Qed.
Lemma not_ok p e s s2 : expr_of G p = Some (ENot e) -> (matches (IE p) s (Some s2) <-> s2 = s /\ matches (IE e) s None).
Proof.
  intros E. split; [intros H; inversion H; subst; same_expr; eauto|]. intros [-> H]. eapply m_not_ok; eassumption.
Qed.
Lemma star_it_ok e s s2 : matches (IStar e) s (Some s2) <-> (exists n, iterates (matches (IE e)) n s s2) /\ matches (IE e) s2 None.
Proof.
  split.
  - intros H. remember (IStar e) as it eqn:Ei. remember (Some s2) as r eqn:Er. revert Er. induction H; intros Er; try discriminate Ei; subst.
    + injection Ei as ->. injection Er as <-. split; [exists 0; constructor|assumption].
    + injection Ei as ->. destruct (IHmatches2 eq_refl eq_refl) as [[n K] F]. split; [exists (S n); econstructor; eassumption|exact F].
  - intros [[n K] F]. induction K; [apply m_star_stop, F|]. eapply m_star_more; [eassumption|]. apply IHK, F.
Qed.
Lemma star_ok p e s s2 : expr_of G p = Some (EStar e) ->
  (matches (IE p) s (Some s2) <-> (exists n, iterates (matches (IE e)) n s s2) /\ matches (IE e) s2 None).
Proof.
  intros E. rewrite <- star_it_ok. split; [intros H; inversion H; subst; same_expr; assumption|]. intros H. eapply m_star; eassumption.
Qed.
Lemma plus_ok p e s s2 : expr_of G p = Some (EPlus e) ->
  (matches (IE p) s (Some s2) <-> (exists n, iterates (matches (IE e)) (S n) s s2) /\ matches (IE e) s2 None).
Proof.
  intros E. split.
  - intros H; inversion H; subst; same_expr. match goal with K : matches (IStar _) _ _ |- _ => apply star_it_ok in K; destruct K as [[n K] F] end.
    split; [exists n; econstructor; eassumption|exact F].
  - intros [[n K] F]. inversion K; subst. eapply m_plus_ok; [exact E|eassumption|]. apply star_it_ok. eauto.
Qed.
Lemma plus_no p e s : expr_of G p = Some (EPlus e) -> (matches (IE p) s None <-> matches (IE e) s None).
Proof.
  intros E. split.
  - intros H; inversion H; subst; same_expr; [|assumption]. exfalso. match goal with K : matches (IStar _) _ _ |- _ => apply star_some in K; destruct K; discriminate end.
  - intros H. eapply m_plus_fail; eassumption.
Qed.
Lemma opt_ok p e s s2 : expr_of G p = Some (EOpt e) ->
  (matches (IE p) s (Some s2) <-> matches (IE e) s (Some s2) \/ (matches (IE e) s None /\ s2 = s)).
Proof.
  intros E. split; [intros H; inversion H; subst; same_expr; eauto|]. intros [H|[H ->]]; [eapply m_opt_some; eassumption|eapply m_opt_none; eassumption].
Qed.
Lemma alt_it_ok bs s s2 : matches (IAlt bs) s (Some s2) <->
  exists b1 b b2, bs = b1 ++ b :: b2 /\ Forall (fun j => matches (IE j) s None) b1 /\ matches (IE b) s (Some s2).
Proof.
  split.
  - induction bs as [|i bs IH]; intros H; inversion H; subst.
    + exists [], i, bs. auto.
    + match goal with K : matches (IAlt _) _ _ |- _ => apply IH in K; destruct K as (b1 & b & b2 & -> & A & B) end.
      exists (i :: b1), b, b2. auto.
  - intros (b1 & b & b2 & -> & A & B). induction A; cbn [app]; [apply m_alt_first, B|]. apply m_alt_next; assumption.
Qed.
Lemma alt_ok p bs s s2 : expr_of G p = Some (EAlt bs) -> (matches (IE p) s (Some s2) <->
  exists b1 b b2, bs = b1 ++ b :: b2 /\ Forall (fun j => matches (IE j) s None) b1 /\ matches (IE b) s (Some s2)).
Proof.
  intros E. rewrite <- alt_it_ok. split; [intros H; inversion H; subst; same_expr; assumption|]. intros H. eapply m_alt; eassumption.
Qed.
Lemma alt_it_no bs s : matches (IAlt bs) s None -> Forall (fun j => matches (IE j) s None) bs.
Proof. induction bs as [|i bs IH]; intros H; [constructor|]. inversion H; subst. constructor; auto. Qed.
Lemma alt_no p bs s : expr_of G p = Some (EAlt bs) -> (matches (IE p) s None <-> Forall (fun j => matches (IE j) s None) bs).
Proof.
  intros E. split.
  - intros H; inversion H; subst; same_expr. apply alt_it_no; assumption.
  - intros H. eapply m_alt; [exact E|]. clear E. induction H; [apply m_alt_nil|]. apply m_alt_next; assumption.
Qed.

(** ---------------- failures say something ---------------- *)
Lemma fails_with_error (HXe : forall m p s evs, X m p s None evs -> error_trace t evs <> []) m it s r evs :
  ep G X (off t) m it s r evs -> r = None ->
  (forall i, match it with IE i => uses G i | ISeq l | IAlt l => fun k => exists j, In j l /\ uses G j k | IStar e => uses G e end i -> forall e, expr_of G i <> Some (ENot e)) ->
  it <> IAlt [] ->  (forall i, expr_of G i <> Some (EAlt [])) -> error_trace t evs <> [].
Proof.
  assert (AP : forall a b, error_trace t (a ++ b) = error_trace t a ++ error_trace t b) by (intros; apply flat_map_app).
  intros H. induction H; intros Er HN NA HC; try discriminate Er; subst; rewrite ?AP in *;
   try (cbn; discriminate);
   try (match goal with IH : None = None -> _ |- _ => apply IH; auto; try discriminate end; intros k U; apply HN;
        solve [assumption|eapply us_child; [eassumption|left; reflexivity|exact U]|eapply us_call; eassumption]).
  - eapply HXe; eassumption.
  - apply IHep; auto; try discriminate. intros k (j & Ij & U). apply HN. eapply us_child; [eassumption|exact Ij|exact U].
  - apply IHep; auto; [|intros Z; injection Z as ->; eapply HC; eassumption]. intros k (j & Ij & U). apply HN. eapply us_child; [eassumption|exact Ij|exact U].
  - exfalso. eapply (HN i); [apply us_self|eassumption].
  - match goal with IH : None = None -> _ |- _ => intros Z; apply app_eq_nil in Z; destruct Z as [_ Z]; revert Z; apply IH; auto; try discriminate end.
    intros k (j & Ij & U). apply HN. exists j. split; [right; exact Ij|exact U].
  - apply IHep; auto; try discriminate. intros k U. apply HN. exists i. split; [left; reflexivity|exact U].
  - contradiction.
  - intros Z. apply app_eq_nil in Z. destruct Z as [Z _]. revert Z. apply IHep1; auto; try discriminate.
    intros k U. apply HN. exists i. split; [left; reflexivity|exact U].
Qed.

Lemma farthest_nonempty tr : tr <> [] -> messages_at (farthest_of 0 tr) tr <> [].
Proof.
  intros NE. assert (K : exists e, In e tr /\ fst e = farthest_of 0 tr).
  { destruct (farthest_of_max 0 tr) as (A & B & [C|C]).
    - destruct tr as [|e tr]; [congruence|]. exists e. split; [left; reflexivity|]. specialize (A e (or_introl eq_refl)). lia.
    - exact C. }
  destruct K as ([o g] & I1 & E1). unfold messages_at. intros Z. apply map_eq_nil in Z.
  assert (Q : In (o, g) (filter (fun e => fst e =? farthest_of 0 tr) tr)) by (apply filter_In; split; [exact I1|apply Nat.eqb_eq, E1]).
  rewrite Z in Q. destruct Q.
Qed.

Theorem failure_explained m id rl st log : mode_ok G m -> find_rule G id = Some rl -> returns G xf m id t st log ->
  (forall i e, uses G (rexpr rl) i -> expr_of G i <> Some (ENot e)) ->
  (forall m p s evs, X m p s None evs -> exists q msg, In (EvErr q msg) evs) ->
  is_failed st = true -> expected st <> [].
Proof.
  intros HM F R HN HXe Fa. destruct (run_outcome HM F R) as (r & evs & E & L & Fi & M & K).
  destruct r as [[rest vs]|]. { destruct K as (_ & [K _] & _). unfold is_successful in K. rewrite Fa in K. discriminate. }
  destruct (final_errors Fi) as [_ ->]. apply farthest_nonempty. eapply fails_with_error; [|exact E|reflexivity| |discriminate|exact (ar_choice (se_arena HR))].
  - intros m0 p s evs0 H. destruct (HXe _ _ _ _ H) as (q & g & I1). intros Z. apply in_split in I1. destruct I1 as (a & b & ->).
    unfold error_trace in Z. rewrite flat_map_app in Z. apply app_eq_nil in Z. destruct Z as [_ Z]. discriminate Z.
  - intros i U e. apply HN, U.
Qed.
End Behave.
