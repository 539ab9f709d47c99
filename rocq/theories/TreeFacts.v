(** The arena semantics and the tree semantics agree. *)
From Verif Require Import Base Grammar CharClass PegSpec WellFormed Analysis AnalysisFacts PropertiesAnalysis PropertiesGen FrontSpec TreeSpec.
Set Implicit Arguments. Unset Strict Implicit.
Open Scope nat_scope. Open Scope list_scope.

(** The resolved arena stores [t] at [i]. *)
Section Stored.
Variable G : grammar.
Variable rs : list (string * tree).
Inductive stored : nat -> tree -> Prop :=
| st_str i s : expr_of G i = Some (EStr s) -> stored i (XStr s)
| st_any i : expr_of G i = Some EAny -> stored i XAny
| st_class i a b c : expr_of G i = Some (EClass (class_intervals a b c)) -> stored i (XClass a b c)
| st_nt i id t : expr_of G i = Some (ENT id) -> rule_called rs [id] = Some t -> stored i (XCall [id])
| st_ext i p : expr_of G i = Some (EExt p) -> rule_called rs p = None -> stored i (XCall p)
| st_seq i js l : expr_of G i = Some (ESeq js) -> Forall2 stored js l -> stored i (XSeq l)
| st_alt i js l : expr_of G i = Some (EAlt js) -> Forall2 stored js l -> stored i (XAlt l)
| st_star i j t : expr_of G i = Some (EStar j) -> stored j t -> stored i (XStar t)
| st_plus i j t : expr_of G i = Some (EPlus j) -> stored j t -> stored i (XPlus t)
| st_opt i j t : expr_of G i = Some (EOpt j) -> stored j t -> stored i (XOpt t)
| st_not i j t : expr_of G i = Some (ENot j) -> stored j t -> stored i (XNot t)
| st_and i j t : expr_of G i = Some (EAnd j) -> stored j t -> stored i (XAnd t)
| st_act i j t b p : expr_of G i = Some (EAct j b (ActPath p)) -> stored j t -> stored i (XAct t b p)
| st_asc i j t ty : expr_of G i = Some (EAsc j ty) -> stored j t -> stored i (XAsc t ty)
| st_span i j t : expr_of G i = Some (ESpan j) -> stored j t -> stored i (XSpan t)
| st_range i u j t : expr_of G i = Some (ERange u) -> expr_of G u = Some (EAsc j (IRegular TUnit)) -> stored j t -> stored i (XRange t).

(** The rules of the arena are those of the list, in the same order. *)
Hypothesis RS : Forall2 (fun r q => rname r = fst q /\ stored (rexpr r) (snd q)) (rules G) rs.
Lemma found id : match find_rule G id with
  | Some rl => exists t, rule_called rs [id] = Some t /\ stored (rexpr rl) t
  | None => rule_called rs [id] = None
  end.
Proof.
  unfold find_rule, rule_called. pose proof RS as R0. clear RS. induction R0 as [|r q l l' [N S0] _ IH]; [reflexivity|]. cbn [find]. rewrite <- N.
  destruct (String.eqb (rname r) id); [eauto|exact IH].
Qed.

Inductive same_item : item -> titem -> Prop :=
| si_e i t : stored i t -> same_item (IE i) (TE t)
| si_seq js l : Forall2 stored js l -> same_item (ISeq js) (TSeq l)
| si_alt js l : Forall2 stored js l -> same_item (IAlt js) (TAlt l)
| si_star j t : stored j t -> same_item (IStar j) (TStar t).
Variable X : list string -> text -> option text -> Prop.

Lemma stored_found id rl t : find_rule G id = Some rl -> rule_called rs [id] = Some t -> stored (rexpr rl) t.
Proof. intros F C. pose proof (found id) as K. rewrite F in K. destruct K as (t' & C' & S0). congruence. Qed.
Ltac same_exprs := repeat match goal with E : expr_of G ?i = Some ?a, E' : expr_of G ?i = Some ?b |- _ =>
   first [constr_eq a b; clear E' | rewrite E in E'; first [discriminate E' | injection E' as ?; subst]] end.
Lemma arena_tree it s r : matches G X it s r -> forall ti, same_item it ti -> tmatches rs X ti s r.
Proof.
  induction 1; intros ti SI; inversion SI as [i0 t0 ST|js l0 F2|js l0 F2|j t0 ST]; subst;
    try (inversion ST; subst; same_exprs);
    try (inversion F2; subst).
  all: try solve [econstructor; solve [eauto 3 using same_item | rewrite <- in_class_items; eauto 2]].
  - eapply t_call; [eassumption|]. apply IHmatches. constructor. eapply stored_found; eassumption.
  - constructor. match goal with S0 : stored _ ?t |- tmatches _ _ (TE ?t) _ _ => assert (K : tmatches rs X (TE (XAsc t (IRegular TUnit))) s r)
      by (apply IHmatches; constructor; econstructor; eassumption) end. inversion K; subst. assumption.
Qed.
Lemma tree_arena ti s r : tmatches rs X ti s r -> forall it, same_item it ti -> matches G X it s r.
Proof.
  induction 1; intros it SI; inversion SI as [i0 t0 ST|js l0 F2|js l0 F2|j t0 ST]; subst;
    try (inversion ST; subst);
    try (inversion F2; subst).
  all: try congruence.
  all: try solve [econstructor; solve [eauto 3 using same_item]].
  all: try solve [econstructor; [eassumption|]; rewrite in_class_items; assumption].
  - pose proof (found id) as K. destruct (find_rule G id) as [rl|] eqn:F; [|congruence]. destruct K as (t' & C & S0).
    eapply m_nt; [eassumption|exact F|]. apply IHtmatches. constructor. congruence.
  - eapply m_range; [eassumption|]. eapply m_asc; [eassumption|]. apply IHtmatches. constructor. assumption.
Qed.
Theorem tree_semantics i t s r : stored i t -> (matches G X (IE i) s r <-> tmatches rs X (TE t) s r).
Proof. intros S0. split; intros H; [apply (arena_tree H)|apply (tree_arena H)]; constructor; exact S0. Qed.
End Stored.

(** ---------------- from the parsed arena to the resolved one ---------------- *)
Lemma trees_at_forall2 es js l : trees_at es js l <-> Forall2 (tree_at es) js l.
Proof.
  revert js. induction l as [|t l IH]; intros [|j js]; cbn [trees_at]; split; intros H.
  - constructor.
  - exact I.
  - destruct H.
  - inversion H.
  - destruct H.
  - inversion H.
  - constructor; [apply H|]. apply IH, H.
  - inversion H; subst. split; [assumption|]. apply IH. assumption.
Qed.
Section Resolved.
Variables (rl : list rule) (es0 es : list expr) (ts : list ty).
Hypothesis AR : arena rl es0.
Hypothesis RE : resolve (length es0) rl es0 = WOk es.
Variable rs : list (string * tree).
Hypothesis NM : map rname rl = map fst rs.

Lemma called_declared id : (exists t, rule_called rs [id] = Some t) <-> declared rl id.
Proof.
  unfold rule_called. split.
  - intros (t & H). destruct (find _ rs) as [q|] eqn:F; [|discriminate]. apply find_some in F. destruct F as [I Q]. apply String.eqb_eq in Q.
    assert (I2 : In id (map rname rl)) by (rewrite NM; apply in_map_iff; eauto). apply in_map_iff in I2. destruct I2 as (r & N & I2). exists r. auto.
  - intros (r & I & N). assert (I2 : In id (map fst rs)) by (rewrite <- NM; apply in_map_iff; eauto). apply in_map_iff in I2. destruct I2 as (q & Nq & Iq).
    destruct (find (fun q => String.eqb (fst q) id) rs) as [q'|] eqn:F; [eauto|]. exfalso. pose proof (find_none _ _ F q Iq) as K. cbv beta in K. rewrite Nq, String.eqb_refl in K. discriminate.
Qed.
Lemma resolved_at i e : nth_error es0 i = Some e ->
  (forall id, e = EExt [id] -> declared rl id -> used rl es0 i -> nth_error es i = Some (ENT id)) /\
  ((~ exists id, e = EExt [id] /\ declared rl id) -> nth_error es i = Some e).
Proof.
  intros E. destruct (C31_resolution AR) as (es' & H & _ & K). rewrite (H _ (le_n _)) in RE. injection RE as <-. destruct (K i e E) as [A B]. split; [exact A|].
  intros N. apply B. left. exact N.
Qed.
Lemma reaches_trans i j k : reaches es0 i j -> reaches es0 j k -> reaches es0 i k.
Proof. intros H H1. induction H; [exact H1|]. econstructor; eauto. Qed.
Lemma used_child i e j : used rl es0 i -> nth_error es0 i = Some e -> In j (children e) -> used rl es0 j.
Proof.
  intros (r & I & R) E C. exists r. split; [exact I|]. apply (reaches_trans R). econstructor; [exact E|exact C|constructor].
Qed.
Lemma stored_resolved t : forall i, used rl es0 i -> tree_at es0 i t -> stored (mkG rl es ts) rs i t.
Proof.
  assert (KEEP : forall i e, nth_error es0 i = Some e -> (forall p, e <> EExt p) -> expr_of (mkG rl es ts) i = Some e).
  { intros i e E N. apply (resolved_at E). intros (id & -> & _). exact (N _ eq_refl). }
  assert (LIST : forall l i js e, Forall (fun t => forall i, used rl es0 i -> tree_at es0 i t -> stored (mkG rl es ts) rs i t) l ->
    used rl es0 i -> nth_error es0 i = Some e -> (forall j, In j js -> In j (children e)) -> trees_at es0 js l -> Forall2 (stored (mkG rl es ts) rs) js l).
  { intros l i js e F U E Ch T. apply trees_at_forall2 in T. induction T as [|j t1 js l TA T IH]; constructor.
    - inversion F; subst. apply H1; [|exact TA]. apply (used_child U E). apply Ch. left. reflexivity.
    - apply IH; [inversion F; assumption|]. intros j' I. apply Ch. right. exact I. }
  induction t as [s| |a b c|p|l IHl|l IHl|t IHt|t IHt|t IHt|t IHt|t IHt|t b p IHt|t ty IHt|t IHt|t IHt] using tree_ind'; intros i U H; cbn [tree_at] in H.
  - apply st_str. apply KEEP; [exact H|discriminate].
  - apply st_any. apply KEEP; [exact H|discriminate].
  - apply st_class. apply KEEP; [exact H|discriminate].
  - destruct (resolved_at H) as [A B]. destruct (rule_called rs p) as [t|] eqn:C.
    + destruct p as [|id [|]]; try discriminate C. eapply st_nt; [|exact C]. apply (A id eq_refl); [|exact U]. apply called_declared. eauto.
    + apply st_ext; [|exact C]. apply B. intros (id & Q & D). injection Q as ->. apply called_declared in D. destruct D as (t & D). congruence.
  - destruct H as (js & E & T). eapply st_seq; [apply KEEP; [exact E|discriminate]|]. apply (LIST l i js _ IHl U E); [cbn; auto|exact T].
  - destruct H as (js & E & T). eapply st_alt; [apply KEEP; [exact E|discriminate]|]. apply (LIST l i js _ IHl U E); [cbn; auto|exact T].
  - destruct H as (j & E & T). eapply st_star; [apply KEEP; [exact E|discriminate]|]. apply IHt; [apply (used_child U E); left; reflexivity|exact T].
  - destruct H as (j & E & T). eapply st_plus; [apply KEEP; [exact E|discriminate]|]. apply IHt; [apply (used_child U E); left; reflexivity|exact T].
  - destruct H as (j & E & T). eapply st_opt; [apply KEEP; [exact E|discriminate]|]. apply IHt; [apply (used_child U E); left; reflexivity|exact T].
  - destruct H as (j & E & T). eapply st_not; [apply KEEP; [exact E|discriminate]|]. apply IHt; [apply (used_child U E); left; reflexivity|exact T].
  - destruct H as (j & E & T). eapply st_and; [apply KEEP; [exact E|discriminate]|]. apply IHt; [apply (used_child U E); left; reflexivity|exact T].
  - destruct H as (j & E & T). eapply st_act; [apply KEEP; [exact E|discriminate]|]. apply IHt; [apply (used_child U E); left; reflexivity|exact T].
  - destruct H as (j & E & T). eapply st_asc; [apply KEEP; [exact E|discriminate]|]. apply IHt; [apply (used_child U E); left; reflexivity|exact T].
  - destruct H as (j & E & T). eapply st_span; [apply KEEP; [exact E|discriminate]|]. apply IHt; [apply (used_child U E); left; reflexivity|exact T].
  - destruct H as (u & j & E & E2 & T). assert (U2 : used rl es0 u) by (apply (used_child U E); left; reflexivity).
    eapply st_range; [apply KEEP; [exact E|discriminate]|apply KEEP; [exact E2|discriminate]|].
    apply IHt; [apply (used_child U2 E2); left; reflexivity|exact T].
Qed.
Lemma rules_resolved : rules_at es0 rl rs -> Forall2 (fun r q => rname r = fst q /\ stored (mkG rl es ts) rs (rexpr r) (snd q)) rl rs.
Proof.
  intros F. assert (GEN : forall l l', (forall r, In r l -> In r rl) -> rules_at es0 l l' -> Forall2 (fun r q => rname r = fst q /\ stored (mkG rl es ts) rs (rexpr r) (snd q)) l l').
  { intros l l' IN H. induction H as [|r q l l' [N T] _ IH]; constructor.
    - split; [exact N|]. apply stored_resolved; [|exact T]. exists r. split; [apply IN; left; reflexivity|constructor].
    - apply IH. intros r' I. apply IN. right. exact I. }
  apply GEN; [auto|exact F].
Qed.
End Resolved.

(** ---------------- literals ---------------- *)
