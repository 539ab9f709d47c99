(** The arena semantics with values and the tree semantics with values agree. *)
From Verif Require Import Base Grammar CharClass PegSpec WellFormed Analysis AnalysisFacts PropertiesAnalysis PropertiesGen FrontSpec TreeSpec TreeFacts TreeValues.
Set Implicit Arguments. Unset Strict Implicit.
Open Scope nat_scope. Open Scope list_scope.

Section Agree.
Variable G : grammar.
Variable rs : list (string * tree).
Hypothesis RS : Forall2 (fun r q => rname r = fst q /\ stored G rs (rexpr r) (snd q)) (rules G) rs.
Variable X : extern.
Variable off : text -> nat.
Variable void : tree -> Prop.
(** [asked i]: values may be asked of node [i]. *)
Variable asked : nat -> Prop.
Hypothesis AS_root : forall i rl, asked i -> In rl (rules G) -> asked (rexpr rl).
Hypothesis AS_child : forall i e j, asked i -> expr_of G i = Some e -> is_unit G i = false -> In j (children e) -> asked j.
Hypothesis AS_void : forall i t, asked i -> stored G rs i t -> (is_unit G i = true <-> void t).
(** The operand of a range is ascribed [()]. *)
Hypothesis AS_range : forall i u, asked i -> is_unit G i = false -> expr_of G i = Some (ERange u) -> is_unit G u = true.

Definition ok (m : mode) (i : nat) : Prop := match m with Rec => True | Par => asked i end.
Inductive alike (m : mode) : item -> titem -> Prop :=
| al_e i t : ok m i -> stored G rs i t -> alike m (IE i) (TE t)
| al_seq js l : Forall (ok m) js -> Forall2 (stored G rs) js l -> alike m (ISeq js) (TSeq l)
| al_alt js l : Forall (ok m) js -> Forall2 (stored G rs) js l -> alike m (IAlt js) (TAlt l)
| al_star j t : ok m j -> stored G rs j t -> alike m (IStar j) (TStar t).

Lemma active_valued m i t : ok m i -> stored G rs i t -> (active G m i <-> valued void m t).
Proof.
  intros O S. destruct m; cbn in *; [tauto|]. pose proof (AS_void O S) as V. destruct (is_unit G i); split; intros H; try discriminate; try reflexivity.
  - exfalso. apply H, V. reflexivity.
  - intros K. apply V in K. discriminate.
Qed.
Lemma ok_child m i e j : ok m i -> active G m i -> expr_of G i = Some e -> In j (children e) -> ok m j.
Proof. destruct m; cbn; [auto|]. intros A U E I. exact (AS_child A E U I). Qed.
Lemma ok_children m i e : ok m i -> active G m i -> expr_of G i = Some e -> Forall (ok m) (children e).
Proof. intros O A E. apply Forall_forall. intros j I. exact (ok_child O A E I). Qed.
Lemma ok_root m i rl : ok m i -> In rl (rules G) -> ok m (rexpr rl).
Proof. destruct m; cbn; [auto|]. apply AS_root. Qed.
Lemma rule_in id rl : find_rule G id = Some rl -> In rl (rules G).
Proof. unfold find_rule. intros F. apply find_some in F. tauto. Qed.

Ltac same_exprs := repeat match goal with E : expr_of G ?i = Some ?a, E' : expr_of G ?i = Some ?b |- _ =>
   first [constr_eq a b; clear E' | rewrite E in E'; first [discriminate E' | injection E' as ?; subst]] end.
Ltac val := match goal with O : ok ?m ?i, S : stored G rs ?i ?t, A : active G ?m ?i |- valued void ?m ?t => exact (proj1 (active_valued O S) A) end.
Ltac child := match goal with
  | A : active G ?m ?i, E : expr_of G ?i = Some ?e |- ok ?m ?j => apply (ok_child (i := i) (e := e)); [assumption|exact A|exact E|left; reflexivity]
  | A : is_unit G ?i = false, E : expr_of G ?i = Some ?e |- ok Par ?j => apply (ok_child (m := Par) (i := i) (e := e)); [assumption|exact A|exact E|left; reflexivity]
  | |- ok Rec _ => exact I end.

Lemma ep_tep m it s r evs : ep G X off m it s r evs -> forall ti, alike m it ti -> tep rs X off void m ti s r evs.
Proof.
  induction 1; intros ti SI; inversion SI as [i0 t0 O ST|js l0 O F2|js l0 O F2|j t0 O ST]; subst;
    try (pose proof ST as ST0; inversion ST; subst; same_exprs);
    try (inversion F2; subst; inversion O; subst).
  all: try solve [apply te_void; [apply (AS_void O ST); assumption | apply IHep; constructor; [exact I|exact ST]]].
  all: try solve [econstructor; solve [val | rewrite <- in_class_items; eauto 2 | eauto 2]].
  all: try solve [econstructor; try val; match goal with IH : forall _, _ -> tep _ _ _ _ _ _ _ _ _ |- _ => eapply IH; constructor; first [child|eassumption] end].
  all: try solve [econstructor; eauto 3 using alike].
  - eapply te_call; [val|eassumption|]. apply IHep. constructor; [exact (ok_root O (rule_in H1))|exact (stored_found RS H1 H4)].
  - apply te_seq; [val|]. apply IHep. constructor; [exact (ok_children O H H0)|assumption].
  - apply te_alt; [val|]. apply IHep. constructor; [exact (ok_children O H H0)|assumption].
  - apply te_act_ok; [exact (proj1 (active_valued (m := Par) O ST0) H)| |].
    + apply AS_void; [|assumption]. exact (AS_child O H0 H (or_introl eq_refl)).
    + apply IHep. constructor; [|assumption]. exact (AS_child O H0 H (or_introl eq_refl)).
  - apply te_act_fail; [exact (proj1 (active_valued (m := Par) O ST0) H)|]. apply IHep. constructor; [|assumption]. exact (AS_child O H0 H (or_introl eq_refl)).
  - apply te_span_ok; [exact (proj1 (active_valued (m := Par) O ST0) H)|]. apply IHep. constructor; [|assumption]. exact (AS_child O H0 H (or_introl eq_refl)).
  - apply te_span_fail; [exact (proj1 (active_valued (m := Par) O ST0) H)|]. apply IHep. constructor; [|assumption]. exact (AS_child O H0 H (or_introl eq_refl)).
  - apply te_range_rec. match goal with S0 : stored _ _ ?j ?t, E : expr_of G ?u = Some (EAsc ?j _) |- _ =>
      assert (K : tep rs X off void Rec (TE (XAsc t (IRegular TUnit))) s r evs) by (apply IHep; constructor; [exact I|econstructor; eassumption]) end.
    inversion K; subst. assumption.
  - match goal with S0 : stored _ _ ?j ?t, E : expr_of G ?u = Some (EAsc ?j _) |- _ =>
      assert (SU : stored G rs u (XAsc t (IRegular TUnit))) by (econstructor; eassumption);
      assert (AU : asked u) by exact (AS_child O H0 H (or_introl eq_refl));
      assert (K : tep rs X off void Par (TE (XAsc t (IRegular TUnit))) s (Some (s1, vs)) evs) by (apply IHep; constructor; assumption) end.
    eapply te_range_ok; [exact (proj1 (active_valued (m := Par) O ST0) H)|]. inversion K; subst.
    + match goal with K' : tep _ _ _ _ Rec _ _ _ _ |- _ => inversion K'; subst end. eassumption.
    + exfalso. match goal with V : valued _ _ _ |- _ => apply V end. apply (AS_void AU SU). exact (AS_range O H H0).
  - match goal with S0 : stored _ _ ?j ?t, E : expr_of G ?u = Some (EAsc ?j _) |- _ =>
      assert (SU : stored G rs u (XAsc t (IRegular TUnit))) by (econstructor; eassumption);
      assert (AU : asked u) by exact (AS_child O H0 H (or_introl eq_refl));
      assert (K : tep rs X off void Par (TE (XAsc t (IRegular TUnit))) s None evs) by (apply IHep; constructor; assumption) end.
    eapply te_range_fail; [exact (proj1 (active_valued (m := Par) O ST0) H)|]. inversion K; subst.
    + match goal with K' : tep _ _ _ _ Rec _ _ _ _ |- _ => inversion K'; subst end. assumption.
    + exfalso. match goal with V : valued _ _ _ |- _ => apply V end. apply (AS_void AU SU). exact (AS_range O H H0).
Qed.

Ltac act := match goal with
  | O : ok ?m ?i, S : stored G rs ?i ?t, A : valued void ?m ?t |- active G ?m ?i => exact (proj2 (active_valued O S) A)
  | O : ok Par ?i, S : stored G rs ?i ?t, A : ~ void ?t |- is_unit G ?i = false => exact (proj2 (active_valued (m := Par) O S) A) end.
Lemma tep_ep m ti s r evs : tep rs X off void m ti s r evs -> forall it, alike m it ti -> ep G X off m it s r evs.
Proof.
  induction 1; intros it SI; inversion SI as [i0 t0 O ST|js l0 O F2|js l0 O F2|j t0 O ST]; subst;
    try (pose proof ST as ST0; inversion ST; subst; same_exprs);
    try (inversion F2; subst; inversion O; subst).
  all: try congruence.
  all: try solve [apply ep_unit; [apply (AS_void O ST); assumption | apply IHtep; constructor; [exact I|exact ST]]].
  all: try solve [econstructor; solve [act | rewrite in_class_items; eauto 2 | eauto 2]].
  all: try match goal with V : valued void ?m _ |- _ => assert (ACT : active G m i0) by act end.
  all: try match goal with V : ~ void _ |- _ => assert (ACT : is_unit G i0 = false) by act end.
  all: try solve [econstructor; solve [eassumption | match goal with IH : forall _, _ -> ep _ _ _ _ _ _ _ _ |- _ => eapply IH; constructor; first [child|eassumption] end]].
  all: try solve [econstructor; eauto 3 using alike].
  - pose proof (found RS id) as K. destruct (find_rule G id) as [rl|] eqn:F; [|congruence]. destruct K as (t' & C & S0).
    eapply ep_nt; [exact ACT|eassumption|exact F|]. apply IHtep. constructor; [exact (ok_root O (rule_in F))|congruence].
  - eapply ep_seq; [exact ACT|eassumption|]. apply IHtep. constructor; [|assumption]. match goal with E : expr_of G i0 = Some _ |- _ => exact (ok_children O ACT E) end.
  - eapply ep_alt; [exact ACT|eassumption|]. apply IHtep. constructor; [|assumption]. match goal with E : expr_of G i0 = Some _ |- _ => exact (ok_children O ACT E) end.
  - match goal with E : expr_of G i0 = Some (EAct ?j _ _), S0 : stored _ _ ?j _ |- _ =>
      assert (AJ : asked j) by exact (AS_child O E ACT (or_introl eq_refl));
      assert (u = is_unit G j) as -> by (pose proof (AS_void AJ S0) as V; destruct u, (is_unit G j); try reflexivity; [symmetry; apply V; apply H0; reflexivity|apply H0; apply V; reflexivity]) end.
    eapply ep_act_ok; [exact ACT|eassumption|]. apply IHtep. constructor; assumption.
  - eapply ep_range_rec; [eassumption|]. eapply ep_asc; [exact I|eassumption|]. apply IHtep. constructor; [exact I|assumption].
  - eapply ep_range_ok; [exact ACT|eassumption|]. apply ep_unit; [eapply AS_range; eassumption|]. eapply ep_asc; [exact I|eassumption|]. apply IHtep. constructor; [exact I|assumption].
  - eapply ep_range_fail; [exact ACT|eassumption|]. apply ep_unit; [eapply AS_range; eassumption|]. eapply ep_asc; [exact I|eassumption|]. apply IHtep. constructor; [exact I|assumption].
Qed.
Theorem tree_values m i t s r evs : ok m i -> stored G rs i t -> (ep G X off m (IE i) s r evs <-> tep rs X off void m (TE t) s r evs).
Proof. intros O S0. split; intros H; [apply (ep_tep H)|apply (tep_ep H)]; constructor; assumption. Qed.
End Agree.

(** Recognition does not ask for values. *)
Theorem tree_traces G rs (RS : Forall2 (fun r q => rname r = fst q /\ stored G rs (rexpr r) (snd q)) (rules G) rs) X off void i t s r evs :
  stored G rs i t -> (ep G X off Rec (IE i) s r evs <-> tep rs X off void Rec (TE t) s r evs).
Proof.
  intros S0. apply (@tree_values G rs RS X off void (fun _ => False)); try (intros; contradiction); [exact I|exact S0].
Qed.

(** A larger arena stores the same trees. *)
Lemma stored_grow G1 G2 rs : (forall i e, expr_of G1 i = Some e -> expr_of G2 i = Some e) -> forall t i, stored G1 rs i t -> stored G2 rs i t.
Proof.
  intros UP. assert (L : forall l, Forall (fun t => forall i, stored G1 rs i t -> stored G2 rs i t) l -> forall js, Forall2 (stored G1 rs) js l -> Forall2 (stored G2 rs) js l).
  { intros l F js F2. induction F2; constructor; inversion F; subst; auto. }
  induction t as [s| |a b c|p|l IHl|l IHl|t IHt|t IHt|t IHt|t IHt|t IHt|t b p IHt|t ty IHt|t IHt|t IHt] using tree_ind'; intros i H; inversion H; subst.
  all: solve [econstructor; eauto].
Qed.
