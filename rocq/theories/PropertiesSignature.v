(** Property theorems about the Rust type in the signature of a parser (C50).

    [compile_type fuel G' i] (RType.v): the type the generator writes for the expression [i] of the typed grammar [G'];
    [ep] (PegSpec.v): the values a parser builds; [expands], [outside], [returns]: see PropertiesMain.v.
    The first part is the specification of what a value of a type is. *)
From Coq Require Import Ascii Permutation.
From Verif Require Import Base Utf8 Stream ParseState RuntimeFacts Grammar PegSpec Target Compile TargetFacts ScopeFacts
  CompileShape EvalRules CompileCorrect ScopeGen GenTotal PegFacts Running WellFormed WfFacts WfSound WfSyntax WfTerm WfFuel PegRun Behave Values CharClass
  Analysis AnalysisFacts PropertiesWf PropertiesPeg PropertiesAnalysis Typing TypeRules SurfaceFacts RefFacts DepthFacts TypingSound TypingFit GenAgree TypingTop TypingVerdict
  TypingTotal TypingAnswer PropertiesTyping SumGrammar Front FrontFacts FrontSpec FrontSound FrontRound FrontGrammar PropertiesFront Agree TreeSpec TreeFacts Literals Pipeline
  PropertiesMain PropertiesRules RType.
Set Implicit Arguments. Unset Strict Implicit.
Open Scope string_scope. Open Scope nat_scope. Open Scope list_scope.

(** ---------------- values of a type ---------------- *)
(** Values made by functions and types outside of Oak: rustc knows their types, Oak does not. *)
Inductive made_outside : value -> Prop :=
| mo_act f args : made_outside (VAct f args)
| mo_ctor f : made_outside (VCtor f)
| mo_box v : made_outside v -> made_outside (VBox v)
| mo_span lo hi : made_outside (VSpan lo hi)
| mo_range lo hi : made_outside (VRange lo hi)
| mo_ext tag : made_outside (VExt tag).
Inductive of_type : value -> rty -> Prop :=
| ot_unit : of_type VUnit RTUnit
| ot_char c : of_type (VChar c) RTChar
| ot_none t : of_type VNone (RTOption t)
| ot_some v t : of_type v t -> of_type (VSome v) (RTOption t)
| ot_vec l t : Forall (fun v => of_type v t) l -> of_type (VVec l) (RTVec t)
| ot_tuple l ts : Forall2 of_type l ts -> of_type (VTuple l) (RTTuple ts)
| ot_rust v s : made_outside v -> of_type v (RTRust s).

(** ---------------- the same, through the table ---------------- *)
Inductive vt (G : grammar) : value -> ty -> Prop :=
| vt_unit : vt G VUnit TUnit
| vt_char c : vt G (VChar c) TAtom
| vt_none i : vt G VNone (TOptional i)
| vt_some v i a : ty_of G i = Some a -> vt G v a -> vt G (VSome v) (TOptional i)
| vt_vec l i a : ty_of G i = Some a -> Forall (fun v => vt G v a) l -> vt G (VVec l) (TList i)
| vt_tuple l js : Forall2 (fun v j => exists a, ty_of G j = Some a /\ vt G v a) l js -> vt G (VTuple l) (TTuple js)
| vt_rust v s : made_outside v -> vt G v (TRust s).
Definition slot (G : grammar) (v : value) (j : nat) : Prop := exists a, ty_of G j = Some a /\ vt G v a.
Definition carries (G : grammar) (vs : list value) (u : ty) : Prop :=
  match u with TUnit => vs = [] | TTuple js => Forall2 (slot G) vs js | _ => exists v, vs = [v] /\ vt G v u end.

Lemma vt_compiled G : forall k i a v t, ty_of G i = Some a -> vt G v a -> compile_type k G i = WOk t -> of_type v t.
Proof.
  induction k as [|k IH]; intros i a v t Ea V C; [discriminate|]. cbn [compile_type] in C. rewrite Ea in C. inversion V; subst; cbn in C.
  - injection C as <-. constructor.
  - injection C as <-. constructor.
  - apply wbind_ok in C. destruct C as (u & _ & C). injection C as <-. constructor.
  - apply wbind_ok in C. destruct C as (u & Q & C). injection C as <-. constructor. exact (IH _ _ _ _ H H0 Q).
  - apply wbind_ok in C. destruct C as (u & Q & C). injection C as <-. constructor. eapply Forall_impl; [|exact H0]. intros w Vw. exact (IH _ _ _ _ H Vw Q).
  - apply wbind_ok in C. destruct C as (us & Q & C). injection C as <-. constructor. clear Ea V. revert us Q. induction H as [|v j l js (a & Ea & Va) _ IHl]; intros us Q.
    + cbn in Q. injection Q as <-. constructor.
    + cbn [wmap] in Q. apply wbind_ok in Q. destruct Q as (b & Qb & Q). apply wbind_ok in Q. destruct Q as (bs & Qs & Q). injection Q as <-. constructor; [exact (IH _ _ _ _ Ea Va Qb)|exact (IHl _ Qs)].
  - injection C as <-. constructor. assumption.
Qed.

Lemma alike_sym a b : alike a b -> alike b a.
Proof. intros [->|(r & s & -> & ->)]; [left; reflexivity|right; eauto]. Qed.
Lemma alike_vt G a b v : alike a b -> vt G v a -> vt G v b.
Proof. intros [->|(r & s & -> & ->)] V; [exact V|]. inversion V; subst. constructor. assumption. Qed.
Lemma alike_carries G a b vs : alike a b -> carries G vs a -> carries G vs b.
Proof. intros [->|(r & s & -> & ->)] C; [exact C|]. destruct C as (v & -> & V). exists v. split; [reflexivity|]. inversion V; subst. constructor. assumption. Qed.
Scheme similar_mind := Induction for similar Sort Prop with similars_mind := Induction for similars Sort Prop.
Combined Scheme similar_mutind from similar_mind, similars_mind.
Lemma similar_vt G : (forall a b, similar G a b -> forall v, vt G v a -> vt G v b)
  /\ (forall l1 l2, similars G l1 l2 -> forall vs, Forall2 (slot G) vs l1 -> Forall2 (slot G) vs l2).
Proof.
  apply similar_mutind.
  - auto.
  - intros r s v V. inversion V; subst. constructor. assumption.
  - intros i j a b Ea Eb _ IH v V. inversion V; subst; [constructor|]. apply (vt_some Eb). apply IH. congruence.
  - intros i j a b Ea Eb _ IH v V. inversion V; subst. apply (vt_vec Eb). eapply Forall_impl; [|eassumption]. intros w Vw. apply IH. congruence.
  - intros l1 l2 _ IH v V. inversion V; subst. constructor. apply IH. assumption.
  - auto.
  - intros i j a b l1 l2 Ea Eb _ IH _ IHl vs F. inversion F as [|v ? l ? (a' & Ea' & V)]; subst. constructor; [|apply IHl; assumption].
    exists b. split; [exact Eb|]. apply IH. congruence.
Qed.
Lemma similar_carries G a b vs : similar G a b -> carries G vs a -> carries G vs b.
Proof.
  intros S0 C. inversion S0; subst; try exact C; try (destruct C as (v & -> & V); exists v; split; [reflexivity|]; exact (proj1 (similar_vt G) _ _ S0 v V)).
  exact (proj2 (similar_vt G) _ _ H vs C).
Qed.
Lemma Forall2_same_length A B (R : A -> B -> Prop) l1 l2 : Forall2 R l1 l2 -> length l1 = length l2.
Proof. induction 1; cbn; congruence. Qed.
Definition flat_types (G : grammar) : Prop := forall i js, ty_of G i = Some (TTuple js) ->
  2 <= length js /\ Forall (fun j => exists u, ty_of G j = Some u /\ u <> TUnit /\ forall ks, u <> TTuple ks) js.
Lemma carries_tup G i vs u : flat_types G -> ty_of G i = Some u -> carries G vs u -> vt G (tup vs) u.
Proof.
  intros FT Eu C. destruct u as [| |j|j|js|s]; cbn in C; try (destruct C as (v & -> & V); exact V); [subst vs; constructor|].
  destruct (FT _ _ Eu) as [L _]. pose proof (Forall2_same_length C) as LE. destruct vs as [|v [|w vs]]; cbn in LE; try lia. constructor. exact C.
Qed.
Lemma joined_single G l vs : flat_types G -> joined G l vs -> Forall (fun j => exists u, ty_of G j = Some u /\ u <> TUnit /\ forall ks, u <> TTuple ks) vs.
Proof.
  intros FT. induction 1 as [|c l vs _ _ IH|c l ts vs Et _ IH|c l t vs Et N1 N2 _ IH]; [constructor|exact IH| |].
  - apply Forall_app. split; [exact (proj2 (FT _ _ Et))|exact IH].
  - constructor; [eauto|exact IH].
Qed.
Lemma joined_carries G js vs t : flat_types G -> t <> TUnit -> Forall (fun j => exists u, ty_of G j = Some u /\ u <> TUnit /\ forall ks, u <> TTuple ks) js ->
  joined_type G js t -> Forall2 (slot G) vs js -> carries G vs t.
Proof.
  intros FT NT SI JT F. destruct js as [|j [|j2 js]]; cbn [joined_type] in JT; [destruct JT| |subst t; exact F].
  destruct JT as (u & Eu & AL). inversion F as [|v ? l ? (a & Ea & V) F2]; subst. inversion F2; subst. inversion SI as [|? ? (u' & Eu' & N1 & N2)]; subst.
  assert (a = u) by congruence. assert (u' = u) by congruence. subst a u'. apply (alike_carries AL).
  destruct u; cbn [carries]; try (exists v; split; [reflexivity|exact V]); [congruence|destruct (N2 l eq_refl)].
Qed.

Section Typed.
Variables (E : tenv) (fuel : nat) (G G' : grammar) (rk : string -> nat) (self : string -> Prop) (bad : string -> bool).
Hypothesis WB : well_built G.
Hypothesis TI : type_inference E fuel G = WOk (Some G').
Hypothesis HL : layered G rk self bad.
Hypothesis HU : rec_alike G G' self bad.
Hypothesis HF : forall i l j s, expr_of G' i = Some (EAlt l) -> In j l -> ty_of G' j = Some (TRust s) -> exists r, ty_of G' i = Some (TRust r).
Local Notation N := (length (exprs G)).

Lemma same_expr i : i < N -> expr_of G' i = expr_of G i.
Proof. destruct (typed_table WB TI) as (T & _ & _ & _ & _ & _ & EG & _). apply EG. Qed.
Lemma same_rules : rules G' = rules G.
Proof. destruct (typed_table WB TI) as (T & _ & _ & _ & _ & RG & _). exact RG. Qed.
Lemma ty_at i : i <= N -> exists u, ty_of G' i = Some u.
Proof.
  intros L. destruct (typed_table WB TI) as (T & SH & LT & _). destruct (nth_error T i) as [v|] eqn:Ev; [|apply nth_error_None in Ev; lia]. destruct (SH i v Ev) as (u & Eu & _). eauto.
Qed.
Lemma span_slot : exists s, ty_of G' N = Some (TRust s).
Proof.
  destruct (typed_table WB TI) as (T & SH & LT & D3 & _). destruct (span_at (di_inv D3)) as (s & ES). rewrite ig_last in ES. destruct (SH _ _ ES) as (u & Eu & Q). cbn in Q. injection Q as <-. eauto.
Qed.
Lemma ft : flat_types G'. Proof. exact (typed_flat WB TI). Qed.
Lemma unit_down i j : reaches (exprs G) i j -> ty_of G' i = Some TUnit -> ty_of G' j = Some TUnit.
Proof. induction 1 as [i|i e c j Ee Ic R IH]; intros U; [exact U|]. apply IH. exact (C48_unit_operands WB TI Ee Ic U). Qed.
Lemma is_unit_ty i : is_unit G' i = true -> i <= N -> ty_of G' i = Some TUnit.
Proof. intros U L. destruct (ty_at L) as (u & Eu). unfold is_unit in U. rewrite Eu in U |- *. destruct u; cbn in U; congruence. Qed.
Lemma op_rule i e t : nth_error (exprs G) i = Some e -> constant e = false -> ty_of G' i = Some t -> t <> TUnit -> exists rl, In rl (rules G) /\ operator_rule G' rl N e t /\
  forall l c, e = EAlt l -> In c l -> calls_back G' rl c -> exists a, ty_of G' (rexpr rl) = Some a /\ similar G' a t.
Proof.
  intros Ee CE Et NT. assert (L : i < N) by (apply nth_error_Some; congruence).
  destruct (covered (ig_typable WB) (ig_forest WB) (i := i)) as (x & (rl & Irl & <-) & R); [rewrite ig_last; exact L|]. change (In rl (rules G)) in Irl.
  pose proof (root_low WB Irl) as Lr. apply (reaches_low WB Lr) in R.
  destruct (HU Irl) as [D|(BF & SF)]; [exfalso; apply NT; pose proof (unit_down R (is_unit_ty D ltac:(lia))); congruence|].
  exists rl. split; [exact Irl|]. split; [exact (C48_operator_types WB TI HL Irl BF (fun S0 => proj1 (SF S0)) R Ee CE Et NT)|].
  intros l c -> Ic (SP & CA). pose proof (wb_children WB Ee) as CH. rewrite Forall_forall in CH. specialize (CH c Ic). cbv beta in CH.
  apply (spos_same (typed_exprs TI)), (spos_ig WB Lr) in SP. apply (calls_same (typed_exprs TI)), (@calls_ig G WB _ c ltac:(lia)) in CA.
  destruct SF as [_ AL]; [destruct CA as (j & SJ & Ej); destruct (HL Irl BF (spos_trans SP SJ) Ej) as [[X _]|[_ X]]; [lia|exact X]|].
  destruct (AL i l c Ee Ic (conj SP CA)) as (a & b & Ea & Eb & SI). exists a. split; [exact Ea|]. congruence.
Qed.
Lemma const_rule i e t : nth_error (exprs G) i = Some e -> constant e = true -> ty_of G' i = Some t -> t <> TUnit -> constant_rule E (exprs G) i e t.
Proof. intros Ee CE Et NT. destruct (C48_constant_types WB TI Ee CE Et) as [H|[-> _]]; [exact H|congruence]. Qed.
Lemma action_rust es i b f t : action_rule E es i b f t -> t <> TUnit -> exists s, t = TRust s.
Proof. intros A NT. destruct A as [g r Q|g r Q|b g Q|b g t Q F|b p t Q F|b src t F]; try (eexists; reflexivity); try congruence; destruct F as [->|(s & -> & _)]; eauto. Qed.
Lemma asc_child i c s : nth_error (exprs G) i = Some (EAsc c (IRegular (TRust s))) -> ty_of G' i <> Some TUnit -> exists r, ty_of G' c = Some (TRust r).
Proof.
  intros Ee NU. assert (L : i < N) by (apply nth_error_Some; congruence). destruct (typed_table WB TI) as (T & SH & LT & D3 & DN & _).
  destruct (dn_asc (DN i L) (c := c) (u := IRegular (TRust s))) as (w & Ew & (r & ->)).
  - rewrite ig_low by exact L. exact Ee.
  - intros (w & Ew & Uw). apply NU. destruct (SH _ _ Ew) as (u & Eu & Q). rewrite Eu. destruct w as [| | | |[]]; try discriminate Uw; cbn in Q; congruence.
  - destruct (SH _ _ Ew) as (u & Eu & Q). cbn in Q. injection Q as <-. eauto.
Qed.

Variables (X : extern) (o : text -> nat).
Hypothesis XS : ext_sane X.
Hypothesis X1 : forall p s s1 vs evs, X Par p s (Some (s1, vs)) evs -> exists v, vs = [v] /\ made_outside v.

Lemma typed_values m it s r evs : ep G' X o m it s r evs -> m = Par -> forall s1 vs, r = Some (s1, vs) ->
  match it with
  | IE i => i < N -> forall u, ty_of G' i = Some u -> carries G' vs u
  | ISeq l => Forall (fun i => i < N) l -> forall js, joined G' l js -> Forall2 (slot G') vs js
  | IAlt l => Forall (fun i => i < N) l -> exists d u, In d l /\ ty_of G' d = Some u /\ carries G' vs u
  | IStar e => e < N -> forall a, ty_of G' e = Some a -> Forall (fun v => vt G' v a) vs
  end.
Proof.
  assert (LOW : forall i e, nth_error (exprs G) i = Some e -> Forall (fun j => j < N) (children e)).
  { intros i e Ee. assert (i < N) by (apply nth_error_Some; congruence). eapply Forall_impl; [|exact (wb_children WB Ee)]. cbv beta. intros; lia. }
  assert (NU : forall i u, is_unit G' i = false -> ty_of G' i = Some u -> u <> TUnit) by (intros i u U Eu ->; unfold is_unit in U; rewrite Eu in U; discriminate).
  assert (OLD : forall i e, i < N -> expr_of G' i = Some e -> nth_error (exprs G) i = Some e) by (intros i e L Ee; rewrite same_expr in Ee by exact L; exact Ee).
  induction 1; intros M s9 vs9 R; subst; try discriminate; try (injection R as <- <-); cbn [vals active] in *.
  - intros L u Eu. rewrite (is_unit_ty H ltac:(lia)) in Eu. injection Eu as <-. destruct (rec_silent XS H0) as [_ B]. exact (B _ _ eq_refl).
  - intros L u Eu. exfalso. pose proof (const_rule (OLD _ _ L H0) eq_refl Eu (NU _ _ H Eu)) as C. inversion C; subst. exact (NU _ _ H Eu eq_refl).
  - intros L u Eu. pose proof (const_rule (OLD _ _ L H0) eq_refl Eu (NU _ _ H Eu)) as C. inversion C; subst. eexists. split; [reflexivity|constructor].
  - intros L u Eu. pose proof (const_rule (OLD _ _ L H0) eq_refl Eu (NU _ _ H Eu)) as C. inversion C; subst. eexists. split; [reflexivity|constructor].
  - intros L u Eu. destruct (op_rule (OLD _ _ L H0) eq_refl Eu (NU _ _ H Eu)) as (rl0 & Irl0 & C & CB0). inversion C as [| | |id' rl' w t F Ew Nw AL| | |]; subst. assert (rl' = rl) by congruence. subst rl'.
    refine (alike_carries AL (IHep eq_refl _ _ eq_refl _ _ Ew)). apply (root_low WB). rewrite <- same_rules. exact (proj1 (find_rule_in H1)).
  - intros L u Eu. pose proof (const_rule (OLD _ _ L H0) eq_refl Eu (NU _ _ H Eu)) as C. destruct (X1 H1) as (v & -> & MV).
    inversion C as [| | | | | | | | | |p' t FO]; subst. assert (exists q, u = TRust q) as (q & ->) by (destruct FO as [->|(q & -> & _)]; eauto). exists v. split; [reflexivity|constructor; exact MV].
  - intros L u Eu. destruct (op_rule (OLD _ _ L H0) eq_refl Eu (NU _ _ H Eu)) as (rl0 & Irl0 & C & CB0). inversion C as [| | | |l' js t J JT| |]; subst.
    apply (joined_carries ft (NU _ _ H Eu) (joined_single ft J) JT). apply (IHep eq_refl _ _ eq_refl); [exact (LOW _ _ (OLD _ _ L H0))|exact J].
  - intros L u Eu. destruct (op_rule (OLD _ _ L H0) eq_refl Eu (NU _ _ H Eu)) as (rl0 & Irl0 & C & CB0). inversion C as [| | | | | |l' c w t Ic Ew AL BR]; subst.
    destruct (IHep eq_refl _ _ eq_refl (LOW _ _ (OLD _ _ L H0))) as (d & a & Id & Ea & CA). destruct (BR d Id) as (a' & Ea' & D). assert (a' = a) by congruence. subst a'.
    destruct D as [D|[(q & ->)|(CB & w0 & Ew0 & AW)]]; [exact (similar_carries D CA)| |destruct (CB0 _ d eq_refl Id CB) as (a0 & Ea0 & SI); assert (w0 = a0) by congruence; subst w0; refine (similar_carries SI (alike_carries (alike_sym AW) CA))].
    destruct (HF H0 Id Ea) as (q' & Eq). assert (u = TRust q') by congruence. subst u.
    exact (alike_carries (or_intror (ex_intro _ q (ex_intro _ q' (conj eq_refl eq_refl)))) CA).
  - intros L u Eu. destruct (op_rule (OLD _ _ L H0) eq_refl Eu (NU _ _ H Eu)) as (rl0 & Irl0 & C & CB0). inversion C; subst. pose proof (LOW _ _ (OLD _ _ L H0)) as LE. cbn [children] in LE. inversion LE; subst.
    destruct (@ty_at e ltac:(lia)) as (a & Ea). eexists. split; [reflexivity|]. apply (vt_vec Ea). exact (IHep eq_refl _ _ eq_refl ltac:(assumption) _ Ea).
  - intros L u Eu. destruct (op_rule (OLD _ _ L H0) eq_refl Eu (NU _ _ H Eu)) as (rl0 & Irl0 & C & CB0). inversion C; subst. pose proof (LOW _ _ (OLD _ _ L H0)) as LE. cbn [children] in LE. inversion LE; subst.
    destruct (@ty_at e ltac:(lia)) as (a & Ea). eexists. split; [reflexivity|]. apply (vt_vec Ea). constructor; [|exact (IHep2 eq_refl _ _ eq_refl ltac:(assumption) _ Ea)].
    apply (carries_tup ft Ea). exact (IHep1 eq_refl _ _ eq_refl ltac:(assumption) _ Ea).
  - intros L u Eu. destruct (op_rule (OLD _ _ L H0) eq_refl Eu (NU _ _ H Eu)) as (rl0 & Irl0 & C & CB0). inversion C; subst. pose proof (LOW _ _ (OLD _ _ L H0)) as LE. cbn [children] in LE. inversion LE; subst.
    destruct (@ty_at e ltac:(lia)) as (a & Ea). eexists. split; [reflexivity|]. apply (vt_some Ea). apply (carries_tup ft Ea). exact (IHep eq_refl _ _ eq_refl ltac:(assumption) _ Ea).
  - intros L u Eu. destruct (op_rule (OLD _ _ L H0) eq_refl Eu (NU _ _ H Eu)) as (rl0 & Irl0 & C & CB0). inversion C; subst. eexists. split; [reflexivity|constructor].
  - intros L u Eu. pose proof (const_rule (OLD _ _ L H0) eq_refl Eu (NU _ _ H Eu)) as C. inversion C as [| | | | |c' b' f' t A| | | | |]; subst.
    destruct (action_rust A (NU _ _ H Eu)) as (q & ->). eexists. split; [reflexivity|]. constructor. unfold act_value. destruct (unit_variant f (is_unit G' e)), b; repeat constructor.
  - intros L u Eu. pose proof (const_rule (OLD _ _ L H0) eq_refl Eu (NU _ _ H Eu)) as C. pose proof (LOW _ _ (OLD _ _ L H0)) as LE. cbn [children] in LE. inversion LE as [|? ? Le]; subst.
    inversion C as [| | | | | |c q| | | |]; subst; try (destruct (NU _ _ H Eu eq_refl)).
    destruct (@asc_child i e q (OLD _ _ L H0) ltac:(intros Q; exact (NU _ _ H Q eq_refl))) as (q' & Eq).
    refine (alike_carries _ (IHep eq_refl _ _ eq_refl Le _ Eq)). right. eauto.
  - intros L u Eu. destruct (op_rule (OLD _ _ L H0) eq_refl Eu (NU _ _ H Eu)) as (rl0 & Irl0 & C & CB0). inversion C as [| | | | |c' js t J JT|]; subst.
    pose proof (LOW _ _ (OLD _ _ L H0)) as LE. cbn [children] in LE. inversion LE as [|? ? Le]; subst.
    apply (joined_carries ft (NU _ _ H Eu) (joined_single ft J) JT). destruct span_slot as (q & Eq).
    assert (SL : slot G' (VSpan (u32_of (o s)) (u32_of (o s1))) N) by (exists (TRust q); split; [exact Eq|repeat constructor]).
    assert (J2 : exists js2, js = N :: js2 /\ joined G' [e] js2).
    { inversion J; subst; try congruence. eauto. }
    destruct J2 as (js2 & -> & J2). constructor; [exact SL|].
    destruct (@ty_at e ltac:(lia)) as (a & Ea). pose proof (IHep eq_refl _ _ eq_refl Le _ Ea) as CA.
    inversion J2 as [|c l vs' Et J0|c l ts vs' Et J0|c l t' vs' Et N1 N2 J0]; subst; inversion J0; subst; rewrite ?app_nil_r; assert (E9 := Et); rewrite Ea in E9; injection E9 as ->; cbn [carries] in CA.
    + subst. constructor.
    + exact CA.
    + assert (Q : exists v, vs = [v] /\ vt G' v t') by (destruct t'; try exact CA; [congruence|destruct (N2 l eq_refl)]). destruct Q as (v & -> & V). constructor; [exists t'; auto|constructor].
  - intros L u Eu. pose proof (const_rule (OLD _ _ L H0) eq_refl Eu (NU _ _ H Eu)) as C. inversion C; subst.
    pose proof (LOW _ _ (OLD _ _ L H0)) as LE. cbn [children] in LE. inversion LE as [|? ? Le]; subst.
    destruct (wb_range WB (OLD _ _ L H0)) as (d & Ed). destruct (@ty_at e ltac:(lia)) as (a & Ea).
    assert (a = TUnit). { destruct (C48_constant_types WB TI Ed eq_refl Ea) as [K|[-> _]]; [inversion K; reflexivity|reflexivity]. } subst a.
    rewrite (IHep eq_refl _ _ eq_refl Le _ Ea). eexists. split; [reflexivity|repeat constructor].
  - intros _ js J. inversion J; subst. constructor.
  - intros F js J. inversion F as [|? ? Li Fl]; subst. destruct (@ty_at i ltac:(lia)) as (a & Ea). pose proof (IHep1 eq_refl _ _ eq_refl Li _ Ea) as CA.
    inversion J as [|c l' vs' Et J0|c l' ts vs' Et J0|c l' t' vs' Et N1 N2 J0]; subst; rewrite Ea in Et; injection Et as ->; cbn [carries] in CA.
    + subst vs1. exact (IHep2 eq_refl _ _ eq_refl Fl _ J0).
    + apply Forall2_app; [exact CA|exact (IHep2 eq_refl _ _ eq_refl Fl _ J0)].
    + assert (Q : exists v, vs1 = [v] /\ vt G' v t') by (destruct t'; try exact CA; [congruence|destruct (N2 l0 eq_refl)]). destruct Q as (v & -> & V). constructor; [exists t'; auto|exact (IHep2 eq_refl _ _ eq_refl Fl _ J0)].
  - intros F. inversion F as [|? ? Li Fl]; subst. destruct (@ty_at i ltac:(lia)) as (a & Ea). exists i, a. split; [left; reflexivity|]. split; [exact Ea|]. exact (IHep eq_refl _ _ R Li _ Ea).
  - intros F. inversion F as [|? ? Li Fl]; subst. destruct (IHep2 eq_refl _ _ eq_refl Fl) as (d & a & Id & Ea & CA). exists d, a. split; [right; exact Id|auto].
  - constructor.
  - intros Le a Ea. constructor; [apply (carries_tup ft Ea); exact (IHep1 eq_refl _ _ eq_refl Le _ Ea)|exact (IHep2 eq_refl _ _ eq_refl Le _ Ea)].
Qed.
End Typed.

(** ---------------- C50 ---------------- *)
(** The operand of an ascription with a Rust type has a Rust type itself. *)
Theorem C50_ascribed_operand : forall E fuel G G' i c s, well_built G -> type_inference E fuel G = WOk (Some G') ->
  nth_error (exprs G) i = Some (EAsc c (IRegular (TRust s))) -> ty_of G' i <> Some TUnit -> exists r, ty_of G' c = Some (TRust r).
Proof. intros E fuel G G' i c s WB TI Ee NU. exact (asc_child WB TI Ee NU). Qed.

(** Writing the type ends: the type of every expression of an accepted grammar is finite. *)
Theorem C50_signature_exists : forall E fuel G G', well_built G -> type_inference E fuel G = WOk (Some G') ->
  forall i, i < length (exprs G) -> exists t, forall k, length (exprs G) < k -> compile_type k G' i = WOk t.
Proof.
  intros E fuel G G' WB TI i L. destruct (@types_finite E fuel G G' WB TI i ltac:(lia)) as (t & C). exists t. intros k Lk. exact (@compile_type_more G' (S (length (exprs G))) k i t ltac:(lia) C).
Qed.

(** The value of a parser is of the type in its signature.  Missing: rules with data that do not satisfy
    [rec_alike] (PropertiesRules.v), and choices between a value of a known type and one made outside of Oak. *)
Theorem C50_value_type_partial : forall E fuel G G' rk self bad, well_built G -> type_inference E fuel G = WOk (Some G') ->
  layered G rk self bad ->
  rec_alike G G' self bad ->
  (forall i l j s, expr_of G' i = Some (EAlt l) -> In j l -> ty_of G' j = Some (TRust s) -> exists r, ty_of G' i = Some (TRust r)) ->
  forall X off, ext_sane X -> (forall p s s1 vs evs, X Par p s (Some (s1, vs)) evs -> exists v, vs = [v] /\ made_outside v) ->
  forall i s s1 vs evs k t, i < length (exprs G) -> ep G' X off Par (IE i) s (Some (s1, vs)) evs ->
    compile_type k G' i = WOk t -> of_type (tup vs) t.
Proof.
  intros E fuel G G' rk self bad WB TI HL HU HF X off XS X1 i s s1 vs evs k t L EP C. destruct (@ty_at E fuel G G' WB TI HF i ltac:(lia)) as (u & Eu).
  pose proof (@typed_values E fuel G G' rk self bad WB TI HL HU HF X off XS X1 _ _ _ _ _ EP eq_refl _ _ eq_refl L u Eu) as CA.
  exact (vt_compiled Eu (carries_tup (ft WB TI) Eu CA) C).
Qed.

(** From the tokens of a grammar: [parse_n] is declared with a type [ty], and each value it returns is of this type. *)
Theorem C50_parsers_partial : forall rust_type rust_item, reads rust_type -> reads rust_item ->
  forall E ts g G', expands rust_type rust_item E ts g G' -> toks_strs scalars ts ->
  forall rk self bad, layered (shape g) rk self bad ->
  rec_alike (shape g) G' self bad ->
  (forall i l j s, expr_of G' i = Some (EAlt l) -> In j l -> ty_of G' j = Some (TRust s) -> exists r, ty_of G' i = Some (TRust r)) ->
  (forall rl f, In rl (rules G') -> gen_rule G' Par rl = COk f -> no_unbound_name f) ->
  exists attrs bs, d_grammar rust_type rust_item ts attrs bs /\ NoDup (map fst (block_rules bs)) /\
  forall n e, In (n, e) (block_rules bs) -> exists rl ty, find_rule G' n = Some rl /\ (forall k, length (exprs G') <= k -> compile_type k G' (rexpr rl) = WOk ty) /\
  forall X xf t, outside X xf t -> (forall p s s1 vs evs, X Par p s (Some (s1, vs)) evs -> exists v, vs = [v] /\ made_outside v) ->
    exists st log, returns G' xf Par n t st log /\ as_specified (block_rules bs) X e t st /\
      (is_failed st = true \/ exists v, data st = Some v /\ of_type v ty).
Proof.
  intros rt ri RT RI E ts g G' EX LT rk self bad HL HU HF HN. pose proof EX as (fg & fuel & PA & MA & TY). pose proof (C38_well_built PA MA) as WB.
  assert (HR0 : forall i l j us s, expr_of G' i = Some (EAlt l) -> In j l -> ty_of G' i = Some (TTuple us) -> ty_of G' j <> Some (TRust s)).
  { intros i l j us s Ei Ij Eu Ej. destruct (HF i l j s Ei Ij Ej) as (r & Er). congruence. }
  destruct (@C45_parsers_partial rt ri RT RI E ts g G' EX LT rk self bad HL (rec_alike_ok HU) HR0 HN) as (attrs & bs & D & ND & K). exists attrs, bs. split; [exact D|]. split; [exact ND|].
  intros n e In_. destruct (C38_accepted_is_documented RT RI PA) as (bs' & D' & _ & RA).
  destruct (typed_shape PA MA TY) as (out & Q & LO). 
  assert (NX : forall s, outside noX noxf s -> exists rl, find_rule G' n = Some rl).
  { intros s OU. destruct (K noX noxf s OU n e In_) as (rl & _ & _ & F & _). eauto. }
  destruct (NX []) as (rl & F). { split; [constructor|apply noX_ok|exact noX_sane|exact noX_consuming]. }
  assert (Irl : In rl (rules (shape g))) by (pose proof (proj1 (find_rule_in F)) as I1; rewrite Q in I1; exact I1).
  pose proof (root_low WB Irl) as L. destruct (C50_signature_exists WB TY L) as (ty & CT). exists rl, ty. split; [exact F|].
  split; [intros k Lk; apply CT; rewrite Q in Lk; cbn [exprs] in Lk; rewrite app_length in Lk; cbn [length] in Lk; lia|].
  intros X xf t OU X1. destruct (K X xf t OU n e In_) as (rl' & st & log & F' & R & SP & r & evs & EP & LG & DA & FA). assert (rl' = rl) by congruence. subst rl'.
  exists st, log. split; [exact R|]. split; [exact SP|].
  destruct r as [[rest vs]|].
  - right. exists (tup vs). split; [exact DA|]. exact (C50_value_type_partial WB TY HL HU HF (ou_sane OU) X1 L EP (CT _ (le_n _))).
  - left. exact FA.
Qed.

(** ---------------- the hypotheses are met ---------------- *)
(** The grammar of PropertiesRules: [r]'s type is [(u32, Box<u32>, u8, Vec<char>, SP, char, char, u16)]. *)
Example C50_case : exists G', type_inference E1 100 ruG = WOk (Some G') /\
  rec_alike ruG G' (fun _ => False) (fun _ => false) /\
  (forall i l j s, expr_of G' i = Some (EAlt l) -> In j l -> ty_of G' j = Some (TRust s) -> exists r, ty_of G' i = Some (TRust r)) /\
  compile_type 25 G' 20 = WOk (RTTuple [RTRust "u32"; RTRust "Box<u32>"; RTRust "u8"; RTVec RTChar; RTRust "SP"; RTChar; RTChar; RTRust "u16"]) /\
  compile_type 25 G' 23 = WOk RTChar /\ exists evs, ep G' noX (fun _ => 0) Par (IE 23) [53%N] (Some ([], [VChar 53])) evs.
Proof.
  eexists. split; [vm_compute; reflexivity|]. split; [intros rl _; right; split; [reflexivity|intros []]|]. split.
  { intros i l j s Ei Ij Ej. do 25 (destruct i as [|i]; [try discriminate Ei; cbn in Ei; injection Ei as <-; destruct Ij as [<-|[<-|[]]]; discriminate Ej|]). destruct i; discriminate Ei. }
  split; [vm_compute; reflexivity|]. split; [vm_compute; reflexivity|]. eexists.
  eapply ep_alt; [reflexivity|reflexivity|]. apply ep_alt_first. eapply (@ep_any_ok _ noX (fun _ => 0) Par); reflexivity.
Qed.
(** A choice between a value Oak types and one it does not: accepted, and the signature says [char] whatever the external
    parser returns (rustc decides). *)
Definition mxG : grammar := mkG [mkRule "r" 2] [EAny; EExt ["f"]; EAlt [0; 1]] [].
Theorem C50_external_branch_refuted : ~ forall E fuel G G', well_built G -> type_inference E fuel G = WOk (Some G') ->
  forall (X : extern) off, (forall p s s1 vs evs, X Par p s (Some (s1, vs)) evs -> exists v, vs = [v] /\ made_outside v) ->
  forall rl s s1 vs evs k t, In rl (rules G) -> ep G' X off Par (IE (rexpr rl)) s (Some (s1, vs)) evs ->
    compile_type k G' (rexpr rl) = WOk t -> of_type (tup vs) t.
Proof.
  intros H. set (X := (fun m p s r evs => r = Some (s, [VExt 7]) /\ evs = []) : extern).
  assert (WB : well_built mxG) by (apply well_builtb_ok; vm_compute; reflexivity).
  destruct (type_inference E0 50 mxG) as [[G'|]| |] eqn:TI; try (vm_compute in TI; discriminate).
  assert (K : of_type (tup [VExt 7]) RTChar); [|inversion K].
  refine (H E0 50 mxG G' WB TI X (fun _ => 0) _ (mkRule "r" 2) [] [] [VExt 7] _ 5 RTChar _ _ _).
  - intros p s s1 vs evs [Q _]. injection Q as _ ->. eexists. split; [reflexivity|constructor].
  - left. reflexivity.
  - vm_compute in TI. injection TI as <-. eapply ep_alt; [reflexivity|reflexivity|]. apply ep_alt_next; [eapply ep_any_fail; reflexivity|]. apply ep_alt_first.
    eapply ep_ext; [reflexivity|reflexivity|]. split; reflexivity.
  - vm_compute in TI. injection TI as <-. reflexivity.
Qed.

Print Assumptions C50_ascribed_operand.
Print Assumptions C50_signature_exists.
Print Assumptions C50_value_type_partial.
Print Assumptions C50_parsers_partial.
Print Assumptions C50_external_branch_refuted.
