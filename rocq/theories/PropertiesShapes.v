(** Property theorems on the types of the generated parsers, from the source (C57). *)
From Coq Require Import Ascii Permutation.
From Verif Require Import Base Utf8 Stream ParseState RuntimeFacts Grammar PegSpec Target Compile TargetFacts ScopeFacts
  CompileShape EvalRules CompileCorrect ScopeGen GenTotal PegFacts Running WellFormed WfFacts WfSound WfSyntax WfTerm WfFuel PegRun Behave Values CharClass
  Analysis AnalysisFacts PropertiesWf PropertiesPeg PropertiesAnalysis Typing TypeRules SurfaceFacts RefFacts DepthFacts TypingSound TypingFit GenAgree TypingTop TypingVerdict
  PropertiesTyping SumGrammar Front FrontFacts FrontSpec FrontSound FrontRound FrontGrammar PropertiesFront Agree TreeSpec TreeFacts Literals Pipeline MiddleFuel PropertiesMain PropertiesRules RType PropertiesSignature Oak OakFacts PropertiesOak PropertiesRustc PropertiesModule
  TreeWf PropertiesVerdict TreeValues TreeEp PropertiesSource TreeKinds KindFacts KindTrees TreeNames FrontPrint PropertiesParsers TreeShapes.
Set Implicit Arguments. Unset Strict Implicit.
Open Scope string_scope. Open Scope nat_scope. Open Scope list_scope.

Local Notation alike := PropertiesRules.alike.
(** ---------------- the shape of a type of the table ---------------- *)
Inductive ty_shape (G : grammar) : ty -> tsh -> Prop :=
| ys_unit : ty_shape G TUnit SUnit
| ys_atom : ty_shape G TAtom SChar
| ys_rust s : ty_shape G (TRust s) SRust
| ys_list i s : slot_shape G i s -> ty_shape G (TList i) (SVec s)
| ys_opt i s : slot_shape G i s -> ty_shape G (TOptional i) (SOpt s)
| ys_tuple l ss : slot_shapes G l ss -> ty_shape G (TTuple l) (STup ss)
with slot_shape (G : grammar) : nat -> tsh -> Prop :=
| ys_slot i a s : ty_of G i = Some a -> ty_shape G a s -> slot_shape G i s
with slot_shapes (G : grammar) : list nat -> list tsh -> Prop :=
| ys_nil : slot_shapes G [] []
| ys_cons i l s ss : slot_shape G i s -> slot_shapes G l ss -> slot_shapes G (i :: l) (s :: ss).
Scheme ty_shape_mind := Minimality for ty_shape Sort Prop with slot_shape_mind := Minimality for slot_shape Sort Prop with slot_shapes_mind := Minimality for slot_shapes Sort Prop.
Combined Scheme ty_shape_mutind from ty_shape_mind, slot_shape_mind, slot_shapes_mind.
Lemma shape_det G : (forall a s, ty_shape G a s -> forall s', ty_shape G a s' -> s = s') /\ (forall i s, slot_shape G i s -> forall s', slot_shape G i s' -> s = s')
  /\ (forall l ss, slot_shapes G l ss -> forall ss', slot_shapes G l ss' -> ss = ss').
Proof.
  apply ty_shape_mutind; intros.
  - inversion H; reflexivity.
  - inversion H; reflexivity.
  - inversion H; reflexivity.
  - inversion H1; subst. f_equal. auto.
  - inversion H1; subst. f_equal. auto.
  - inversion H1; subst. f_equal. auto.
  - inversion H2; subst. apply H1. congruence.
  - inversion H; reflexivity.
  - inversion H3; subst. f_equal; auto.
Qed.
Lemma alike_shape G a b s : alike a b -> ty_shape G a s -> ty_shape G b s.
Proof. intros [->|(r & r' & -> & ->)] H; [exact H|]. inversion H; subst. constructor. Qed.
Lemma similar_shape G : (forall a b, similar G a b -> forall s, ty_shape G a s <-> ty_shape G b s) /\ (forall l l', similars G l l' -> forall ss, slot_shapes G l ss <-> slot_shapes G l' ss).
Proof.
  apply similar_mutind.
  - intros; split; auto.
  - intros r s x. split; intros H; inversion H; constructor.
  - intros i j a b Ea Eb _ IH s. split; intros H; inversion H as [| | | |? ? K|]; subst; inversion K as [? a' ? Ea' K']; subst; constructor; econstructor; try eassumption; apply IH; congruence.
  - intros i j a b Ea Eb _ IH s. split; intros H; inversion H as [| | |? ? K| |]; subst; inversion K as [? a' ? Ea' K']; subst; constructor; econstructor; try eassumption; apply IH; congruence.
  - intros l1 l2 _ IH s. split; intros H; inversion H; subst; constructor; apply IH; assumption.
  - intros ss. split; auto.
  - intros i j a b l1 l2 Ea Eb _ IH _ IHl ss. split; intros H; inversion H as [|? ? ? ? K KL]; subst; inversion K as [? a' ? Ea' K']; subst; constructor;
      try (econstructor; try eassumption; apply IH; congruence); apply IHl; assumption.
Qed.
(** The type the generator writes. *)
Lemma compiled_shape G : forall k i t, compile_type k G i = WOk t -> slot_shape G i (rshape t).
Proof.
  induction k as [|k IH]; intros i t C; [discriminate|]. cbn [compile_type] in C. destruct (ty_of G i) as [[| |j|j|js|s]|] eqn:Ei; try discriminate C.
  - apply WOk_inj' in C. subst t. econstructor; [exact Ei|constructor].
  - apply WOk_inj' in C. subst t. econstructor; [exact Ei|constructor].
  - apply wbind_ok in C. destruct C as (u & Q & C). apply WOk_inj' in C. subst t. econstructor; [exact Ei|]. cbn [rshape]. constructor. exact (IH _ _ Q).
  - apply wbind_ok in C. destruct C as (u & Q & C). apply WOk_inj' in C. subst t. econstructor; [exact Ei|]. cbn [rshape]. constructor. exact (IH _ _ Q).
  - apply wbind_ok in C. destruct C as (us & Q & C). apply WOk_inj' in C. subst t. econstructor; [exact Ei|]. cbn [rshape]. constructor. clear Ei. revert us Q.
    induction js as [|j js IHj]; intros us Q; cbn [wmap] in Q; [apply WOk_inj' in Q; subst us; constructor|].
    apply wbind_ok in Q. destruct Q as (b & Qb & Q). apply wbind_ok in Q. destruct Q as (bs & Qs & Q). apply WOk_inj' in Q. subst us. constructor; [exact (IH _ _ Qb)|exact (IHj _ Qs)].
  - apply WOk_inj' in C. subst t. econstructor; [exact Ei|constructor].
Qed.
(** Joining operands. *)
Lemma slots_app G l1 s1 l2 s2 : slot_shapes G l1 s1 -> slot_shapes G l2 s2 -> slot_shapes G (l1 ++ l2) (s1 ++ s2).
Proof. induction 1; intros H2; [exact H2|]. cbn. constructor; auto. Qed.
Lemma joined_shapes G l vs : joined G l vs -> forall ss, slot_shapes G l ss -> slot_shapes G vs (flat_map parts ss).
Proof.
  induction 1 as [|c l vs Et _ IH|c l ts vs Et _ IH|c l t vs Et N1 N2 _ IH]; intros ss H; inversion H as [|? ? ? ? K KL]; subst; cbn [flat_map]; [constructor| | |];
    inversion K as [? a ? Ea TS]; subst; rewrite Et in Ea; injection Ea as <-.
  - inversion TS; subst. exact (IH _ KL).
  - inversion TS; subst. apply slots_app; [assumption|exact (IH _ KL)].
  - assert (Q : parts s = [s]). { inversion TS; subst; try reflexivity; [congruence|destruct (N2 _ eq_refl)]. }
    rewrite Q. cbn [app]. constructor; [exact K|exact (IH _ KL)].
Qed.
Lemma joined_shape G vs t ss : joined_type G vs t -> slot_shapes G vs ss -> ty_shape G t (assemble ss).
Proof.
  intros J H. inversion H as [|i l s ss' K KL]; subst; [destruct J|]. inversion KL as [|j l' s' ss'' K' KL']; subst.
  - destruct J as (u & Eu & AL). inversion K as [? a ? Ea TS]; subst. assert (a = u) by congruence. subst a. exact (alike_shape AL TS).
  - cbn [joined_type] in J. subst t. cbn [assemble]. constructor. exact H.
Qed.

(** ---------------- shapes of expressions ---------------- *)
Section Shapes.
Variables (rust_type : list tok -> option (string * list tok)) (rust_item : list tok -> option (rust_item * list tok)).
Variables (ts : list tok) (fg : fgrammar) (g : agrammar) (E : tenv) (fuel : nat) (G' : grammar).
Hypothesis PA : parse_grammar rust_type rust_item ts = FOk fg.
Hypothesis MA : middle_answers fg (Some g).
Hypothesis TY : type_inference E fuel (shape g) = WOk (Some G').
Variable rs : list (string * tree).
Hypothesis RA : rules_at (f_exprs fg) (f_rules fg) rs.
Variable ret : string -> option (option string).
Hypothesis RE : forall f, ret_of E f = ret f.
Hypothesis ST : settled_types rs.
Hypothesis PC : clear_choices rs ret.
Local Notation N := (length (exprs (shape g))).
Local Notation asked := (asked g G').
Local Notation void := (void rs ret).
Let WB : well_built (shape g) := C38_well_built PA MA.

Lemma no_mixing : forall i l j s, expr_of G' i = Some (EAlt l) -> In j l -> ty_of G' j = Some (TRust s) -> exists r, ty_of G' i = Some (TRust r).
Proof.
  intros i l j s Ei Ij Ej. assert (L : i < N).
  { destruct (typed_shape PA MA TY) as (out & Q & _). rewrite Q in Ei. unfold expr_of in Ei. cbn [exprs] in Ei. destruct (Nat.lt_ge_cases i N) as [L|L]; [exact L|]. rewrite nth_error_app2 in Ei by exact L.
    destruct (i - N) as [|[|?]]; cbn in Ei; discriminate. }
  pose proof (low_expr PA MA TY L Ei) as Ei'. destruct (typed_table WB TY) as (T & SH & LT & _).
  assert (X : exists u, ty_of G' i = Some u). { destruct (nth_error T i) as [v|] eqn:Ev; [|apply nth_error_None in Ev; lia]. destruct (SH i v Ev) as (u & Eu & _). eauto. }
  destruct X as (u & Eu). assert (SO : u = TUnit \/ (exists r, u = TRust r) \/ solid u).
  { destruct u; try (right; right; split; [discriminate|intros ?; discriminate]); eauto. }
  destruct SO as [->|[(r & ->)|SO]]; [|eauto|].
  - pose proof (C48_unit_operands WB TY Ei' (c := j) ltac:(exact Ij) Eu). congruence.
  - destruct (choices_solid PA MA TY RA RE ST PC Ei Ij SO Eu Ej).
Qed.
Lemma no_self bad : (forall id, bad id = true -> bare rs id) -> rec_alike (shape g) G' (bare rs) bad.
Proof. intros HB rl I0. destruct (rules_split PA MA TY RA ST HB I0) as [U|[B NB]]; [left; exact U|right; split; [exact B|intros X; destruct (NB X)]]. Qed.
Lemma typed_at i : i <= N -> exists u, ty_of G' i = Some u.
Proof. intros L. destruct (typed_table WB TY) as (T & SH & LT & _). destruct (nth_error T i) as [v|] eqn:Ev; [|apply nth_error_None in Ev; lia]. destruct (SH i v Ev) as (u & Eu & _). eauto. Qed.
Lemma unit_at_void i t : asked i -> stored G' rs i t -> void t -> ty_of G' i = Some TUnit.
Proof. intros A S0 V. destruct (typed_at (i := i)) as (u & Eu); [pose proof (proj1 A); lia|]. apply (proj2 (asked_void PA MA TY RA RE ST A S0)) in V. unfold is_unit in V. rewrite Eu in V |- *. destruct u; cbn in V; congruence. Qed.
Lemma solid_at i t : asked i -> stored G' rs i t -> ~ void t -> exists u, ty_of G' i = Some u /\ u <> TUnit /\ is_unit G' i = false.
Proof.
  intros A S0 V. destruct (typed_at (i := i)) as (u & Eu); [pose proof (proj1 A); lia|]. exists u. split; [exact Eu|].
  assert (U : is_unit G' i = false) by (destruct (is_unit G' i) eqn:U; [destruct V; exact (proj1 (asked_void PA MA TY RA RE ST A S0) U)|reflexivity]).
  split; [|exact U]. intros ->. unfold is_unit in U. rewrite Eu in U. discriminate.
Qed.
Lemma const_at i e t : asked i -> expr_of G' i = Some e -> constant e = true -> ty_of G' i = Some t -> constant_rule E (exprs (shape g)) i e t.
Proof.
  intros [L NP] Ee CE Et. destruct (C48_constant_types WB TY (low_expr PA MA TY L Ee) CE Et) as [K|(_ & p & e' & Ep & Ic & U)]; [exact K|]. destruct (NP p e' Ep Ic U).
Qed.
Lemma oper_at i e t : asked i -> expr_of G' i = Some e -> constant e = false -> ty_of G' i = Some t -> t <> TUnit -> exists rl, operator_rule G' rl N e t /\
  forall l c, e = EAlt l -> In c l -> calls_back G' rl c -> exists a, ty_of G' (rexpr rl) = Some a /\ similar G' a t.
Proof.
  intros [L _] Ee CE Et NT. destruct (kinds_plain PA MA TY RA ST) as (rk & bad & HL & HB & _).
  destruct (op_rule WB TY HL (no_self HB) no_mixing (low_expr PA MA TY L Ee) CE Et NT) as (rl & _ & K). exists rl. exact K.
Qed.
Lemma kid_shape i e j t s : asked i -> expr_of G' i = Some e -> is_unit G' i = false -> In j (children e) -> stored G' rs j t ->
  (forall i, asked i -> stored G' rs i t -> slot_shape G' i s) -> slot_shape G' j s.
Proof. intros A Ee U Ij S0 H. apply H; [exact (asked_child PA MA TY A Ee U Ij)|exact S0]. Qed.
Lemma ty_shape_slot i u s : ty_of G' i = Some u -> ty_shape G' u s -> slot_shape G' i s.
Proof. intros. econstructor; eassumption. Qed.

(** Whatever shape the specification gives, the table has it. *)
Theorem shapes_sound : (forall t s, tshape rs ret t s -> forall i, asked i -> stored G' rs i t -> slot_shape G' i s) /\
  (forall l ss, tshapes rs ret l ss -> forall is, Forall asked is -> Forall2 (stored G' rs) is l -> slot_shapes G' is ss).
Proof.
  apply tshape_mutind.
  - intros t V i A S0. exact (ty_shape_slot (unit_at_void A S0 V) (ys_unit _)).
  - intros i A S0. inversion S0; subst. destruct (typed_at (i := i)) as (u & Eu); [pose proof (proj1 A); lia|].
    pose proof (const_at A H eq_refl Eu) as K. inversion K; subst. exact (ty_shape_slot Eu (ys_atom _)).
  - intros a b c i A S0. inversion S0; subst. destruct (typed_at (i := i)) as (u & Eu); [pose proof (proj1 A); lia|].
    match goal with Q : expr_of G' i = Some _ |- _ => pose proof (const_at A Q eq_refl Eu) as K end. inversion K; subst. exact (ty_shape_slot Eu (ys_atom _)).
  - intros p t s RC _ IH i A S0. inversion S0; subst; [|congruence]. assert (t0 = t) by congruence. subst t0.
    match goal with Q : expr_of G' i = Some (ENT ?x) |- _ => rename Q into Ei; rename x into id end.
    pose proof (found (typed_source PA MA TY RA) id) as FD. destruct (find_rule G' id) as [rl|] eqn:F; [|congruence]. destruct FD as (t' & RC' & S1). assert (t' = t) by congruence. subst t'.
    pose proof (asked_root PA MA TY (proj1 (find_rule_in F))) as AR. specialize (IH _ AR S1).
    destruct (is_unit G' i) eqn:U.
    + apply (proj1 (asked_void PA MA TY RA RE ST A S0)) in U. destruct U as (k & TK & V).
      assert (VT : void t). { exists k. split; [|exact V]. inversion TK; subst; [| |congruence]; assert (t0 = t) by congruence; subst; [assumption|]. apply bare_kind. refine (bare_body (called_rule RC) _). assumption. }
      assert (VC : void (XCall [id])) by (exists k; auto).
      pose proof (unit_at_void AR S1 VT) as ER. inversion IH as [? a ? Ea TS]; subst. assert (a = TUnit) by congruence. subst a.
      exact (ty_shape_slot (unit_at_void A S0 VC) TS).
    + destruct (typed_at (i := i)) as (u & Eu); [pose proof (proj1 A); lia|]. assert (NT : u <> TUnit) by (intros ->; unfold is_unit in U; rewrite Eu in U; discriminate).
      destruct (oper_at A Ei eq_refl Eu NT) as (rl0 & OR & _). inversion OR as [| | |? r w ? F' Ew NW AL| | |]; subst. assert (r = rl) by congruence. subst r.
      inversion IH as [? a ? Ea TS]; subst. assert (a = w) by congruence. subst a. exact (ty_shape_slot Eu (alike_shape AL TS)).
  - intros p RC i A S0. inversion S0; subst; [congruence|]. destruct (typed_at (i := i)) as (u & Eu); [pose proof (proj1 A); lia|].
    match goal with Q : expr_of G' i = Some _ |- _ => pose proof (const_at A Q eq_refl Eu) as K end. inversion K as [| | | | | | | | | |? ? FO]; subst.
    destruct FO as [->|(s & -> & _)]; exact (ty_shape_slot Eu (ys_rust _ _)).
  - intros t s NV _ IH i A S0. destruct (solid_at A S0 NV) as (u & Eu & NT & U). inversion S0; subst. match goal with Q : expr_of G' i = Some _ |- _ => rename Q into Ei end.
    destruct (oper_at A Ei eq_refl Eu NT) as (rl & OR & _). inversion OR; subst. refine (ty_shape_slot Eu (ys_list (kid_shape A Ei U _ _ IH))); [left; reflexivity|assumption].
  - intros t s NV _ IH i A S0. destruct (solid_at A S0 NV) as (u & Eu & NT & U). inversion S0; subst. match goal with Q : expr_of G' i = Some _ |- _ => rename Q into Ei end.
    destruct (oper_at A Ei eq_refl Eu NT) as (rl & OR & _). inversion OR; subst. refine (ty_shape_slot Eu (ys_list (kid_shape A Ei U _ _ IH))); [left; reflexivity|assumption].
  - intros t s NV _ IH i A S0. destruct (solid_at A S0 NV) as (u & Eu & NT & U). inversion S0; subst. match goal with Q : expr_of G' i = Some _ |- _ => rename Q into Ei end.
    destruct (oper_at A Ei eq_refl Eu NT) as (rl & OR & _). inversion OR; subst. refine (ty_shape_slot Eu (ys_opt (kid_shape A Ei U _ _ IH))); [left; reflexivity|assumption].
  - intros t b p NV i A S0. destruct (solid_at A S0 NV) as (u & Eu & NT & U). inversion S0; subst. match goal with Q : expr_of G' i = Some _ |- _ => rename Q into Ei end.
    pose proof (const_at A Ei eq_refl Eu) as K. inversion K as [| | | | |? ? ? ? AR| | | | |]; subst.
    assert (X : exists r, u = TRust r). { inversion AR; subst; eauto; [congruence| |]; match goal with F : foreign _ _ _ |- _ => destruct F as [->|(s & -> & _)]; eauto end. }
    destruct X as (r & ->). exact (ty_shape_slot Eu (ys_rust _ _)).
  - intros t ty NV i A S0. destruct (solid_at A S0 NV) as (u & Eu & NT & U). inversion S0; subst. match goal with Q : expr_of G' i = Some _ |- _ => rename Q into Ei end.
    pose proof (const_at A Ei eq_refl Eu) as K. inversion K; subst; try congruence. exact (ty_shape_slot Eu (ys_rust _ _)).
  - intros t i A S0. destruct (typed_at (i := i)) as (u & Eu); [pose proof (proj1 A); lia|]. inversion S0; subst. match goal with Q : expr_of G' i = Some _ |- _ => rename Q into Ei end.
    pose proof (const_at A Ei eq_refl Eu) as K. inversion K; subst. exact (ty_shape_slot Eu (ys_rust _ _)).
  - intros t s _ IH i A S0.
    assert (NV : ~ void (XSpan t)) by (intros (k & TK & V); inversion TK; subst; match goal with V : voidb (span_kind ?k0) = true |- _ => destruct k0; discriminate V end).
    destruct (solid_at A S0 NV) as (u & Eu & NT & U). inversion S0; subst. match goal with Q : expr_of G' i = Some _ |- _ => rename Q into Ei end.
    destruct (oper_at A Ei eq_refl Eu NT) as (rl & OR & _). inversion OR as [| | | | |c vs ? JO JT|]; subst. refine (ty_shape_slot Eu _).
    change (SRust :: parts s) with (parts SRust ++ parts s). rewrite <- (app_nil_r (parts s)). refine (joined_shape JT (joined_shapes JO (ss := [SRust; s]) _)).
    destruct (span_slot WB TY) as (sp & ES). constructor; [exact (ty_shape_slot ES (ys_rust _ _))|]. constructor; [|constructor].
    refine (kid_shape A Ei U _ _ IH); [left; reflexivity|assumption].
  - intros l ss NV _ IH i A S0. destruct (solid_at A S0 NV) as (u & Eu & NT & U). inversion S0; subst. match goal with Q : expr_of G' i = Some _ |- _ => rename Q into Ei end.
    destruct (oper_at A Ei eq_refl Eu NT) as (rl & OR & _). inversion OR as [| | | |? vs ? JO JT| |]; subst. refine (ty_shape_slot Eu (joined_shape JT (joined_shapes JO _))).
    apply IH; [|assumption]. apply Forall_forall. intros j Ij. exact (asked_child PA MA TY A Ei U Ij).
  - intros l t s NV It _ IH i A S0. destruct (solid_at A S0 NV) as (u & Eu & NT & U). inversion S0; subst. match goal with Q : expr_of G' i = Some _ |- _ => rename Q into Ei end.
    assert (X : exists j, In j js /\ stored G' rs j t).
    { match goal with F : Forall2 _ js l |- _ => clear - F It; induction F as [|a b l l' S F IH]; [destruct It|]; destruct It as [<-|It]; [exists a; cbn; auto|destruct (IH It) as (j & I0 & S'); exists j; cbn; auto] end. }
    destruct X as (j & Ij & Sj). pose proof (kid_shape A Ei U Ij Sj IH) as SJ.
    destruct (oper_at A Ei eq_refl Eu NT) as (rl & OR & CB). inversion OR as [| | | | | |? c w ? Ic Ew AL ALL]; subst. destruct (ALL j Ij) as (v & Ev & D). refine (ty_shape_slot Eu _).
    inversion SJ as [? a ? Ea TS]; subst. assert (a = v) by congruence. subst a. destruct D as [SI|[(r & ->)|(B & w' & Ew' & AL')]].
    + apply (proj1 (similar_shape G') _ _ SI). exact TS.
    + destruct (no_mixing Ei Ij Ev) as (r' & Er). assert (u = TRust r') by congruence. subst u. inversion TS; subst. constructor.
    + destruct (CB js j eq_refl Ij B) as (a & Ea' & SI). assert (a = w') by congruence. subst a. apply (proj1 (similar_shape G') _ _ SI). exact (alike_shape (alike_sym AL') TS).
  - intros is _ F. inversion F. constructor.
  - intros t l s ss _ IH _ IHl is FA F. inversion F; subst. inversion FA; subst. constructor; [apply IH; assumption|apply IHl; assumption].
Qed.

Lemma called_in_rs id t : rule_called rs [id] = Some t -> In (id, t) rs.
Proof.
  unfold rule_called. destruct (find _ rs) as [q|] eqn:F; [|discriminate]. intros Q. injection Q as <-. destruct (find_some _ _ F) as [I0 EQ]. apply String.eqb_eq in EQ. subst id. destruct q; exact I0.
Qed.
(** The specification gives one. *)
Theorem shapes_exist i t : asked i -> stored G' rs i t -> exists s, tshape rs ret t s.
Proof.
  destruct ST as (rk & apart & AP & SE).
  assert (K : forall n, forall t i, asked i -> stored G' rs i t -> (forall id, needs rs t id -> ~ bare rs id -> rk id < n) -> exists s, tshape rs ret t s).
  { intros n. induction n as [n IHn] using (well_founded_induction lt_wf).
    assert (SK : forall i t, asked i -> stored G' rs i t -> (~ void t -> is_unit G' i = false -> exists s, tshape rs ret t s) -> exists s, tshape rs ret t s).
    { intros i0 t0 A S0 H. destruct (is_unit G' i0) eqn:U.
      - exists SUnit. apply sh_void. exact (proj1 (asked_void PA MA TY RA RE ST A S0) U).
      - apply H; [|reflexivity]. intros V. apply (proj2 (asked_void PA MA TY RA RE ST A S0)) in V. congruence. }
    intros t0. induction t0 as [s| |a b c|p|l IHl|l IHl|t0 IHt|t0 IHt|t0 IHt|t0 IHt|t0 IHt|t0 b p IHt|t0 ty IHt|t0 IHt|t0 IHt] using tree_ind'; intros i0 A S0 ND; apply (SK _ _ A S0); intros NV U.
    - destruct NV. exists KInv. split; [constructor|reflexivity].
    - exists SChar. apply sh_any.
    - exists SChar. apply sh_class.
    - destruct (rule_called rs p) as [t1|] eqn:RC; [|eexists; apply sh_ext; exact RC]. inversion S0; subst; [|congruence].
      match goal with Q : expr_of G' i0 = Some (ENT ?x) |- _ => rename x into id end.
      pose proof (found (typed_source PA MA TY RA) id) as FD. destruct (find_rule G' id) as [rl|] eqn:F; [|congruence]. destruct FD as (t' & RC' & S1). assert (t' = t1) by congruence. subst t'.
      assert (NB : ~ bare rs id) by (intros B; apply NV; exists KInv; split; [exact (tk_bare _ RC B)|reflexivity]).
      destruct (IHn (rk id) (ND id (nd_call RC) NB) t1 (rexpr rl) (asked_root PA MA TY (proj1 (find_rule_in F))) S1) as (s & SH).
      + intros id' N1 NB'. destruct (SE id t1 id' (called_in_rs RC)) as [[LT _]|[-> B]]; [destruct (apart id) eqn:Q; [destruct (NB (AP _ Q))|reflexivity]|exact N1|exact LT|destruct (NB B)].
      + exists s. exact (sh_call RC SH).
    - inversion S0; subst. match goal with Q : expr_of G' i0 = Some _ |- _ => rename Q into Ei end.
      assert (X : exists ss, tshapes rs ret l ss); [|destruct X as (ss & X); eexists; exact (sh_seq NV X)].
      match goal with F : Forall2 _ js l |- _ => rename F into F2 end.
      assert (AC : Forall asked js) by (apply Forall_forall; intros j Ij; exact (asked_child PA MA TY A Ei U Ij)).
      assert (NC : forall t id, In t l -> needs rs t id -> ~ bare rs id -> rk id < n) by (intros t1 id I1 N1; apply ND; exact (nd_seq I1 N1)).
      clear - F2 AC NC IHl. induction F2 as [|j t1 js l Sj F2 IH]; [exists []; constructor|]. inversion AC; subst. inversion IHl; subst.
      match goal with H : forall i, asked i -> stored G' rs i t1 -> _ |- _ => destruct (H j ltac:(assumption) Sj) as (s & SH) end; [intros id; apply NC; left; reflexivity|].
      destruct IH as (ss & SS); [assumption|assumption|intros t2 id I2; apply NC; right; exact I2|]. exists (s :: ss). constructor; assumption.
    - inversion S0; subst. match goal with Q : expr_of G' i0 = Some _ |- _ => rename Q into Ei end.
      match goal with F : Forall2 _ js l |- _ => rename F into F2 end. pose proof (low_expr PA MA TY (proj1 A) Ei) as Ei'.
      destruct F2 as [|j t1 js l Sj F2]; [destruct (wb_alt WB Ei')|]. inversion IHl; subst.
      match goal with H : forall i, asked i -> stored G' rs i t1 -> _ |- _ => destruct (H j (asked_child PA MA TY A Ei U (or_introl eq_refl)) Sj) as (s & SH) end.
      + intros id N1. apply ND. eapply nd_alt; [left; reflexivity|exact N1].
      + exists s. eapply sh_alt; [exact NV|left; reflexivity|exact SH].
    - inversion S0; subst. destruct (IHt j) as (s & SH); [refine (asked_child PA MA TY A _ U _); [eassumption|left; reflexivity]|assumption|intros id N1; apply ND; constructor; exact N1|]. eexists. exact (sh_star NV SH).
    - inversion S0; subst. destruct (IHt j) as (s & SH); [refine (asked_child PA MA TY A _ U _); [eassumption|left; reflexivity]|assumption|intros id N1; apply ND; constructor; exact N1|]. eexists. exact (sh_plus NV SH).
    - inversion S0; subst. destruct (IHt j) as (s & SH); [refine (asked_child PA MA TY A _ U _); [eassumption|left; reflexivity]|assumption|intros id N1; apply ND; constructor; exact N1|]. eexists. exact (sh_opt NV SH).
    - destruct NV. exists KInv. split; [constructor|reflexivity].
    - destruct NV. exists KInv. split; [constructor|reflexivity].
    - eexists. exact (sh_act NV).
    - eexists. exact (sh_asc NV).
    - inversion S0; subst. destruct (IHt j) as (s & SH); [refine (asked_child PA MA TY A _ U _); [eassumption|left; reflexivity]|assumption|intros id N1; apply ND; constructor; exact N1|]. eexists. exact (sh_span SH).
    - eexists. apply sh_range. }
  intros A S0.
  assert (B : exists n, forall id, needs rs t id -> ~ bare rs id -> rk id < n); [|destruct B as (n & B); exact (K n t i A S0 B)].
  assert (M : exists n, forall q, In q rs -> rk (fst q) < n).
  { clear. induction rs as [|q l (n & IH)]; [exists 0; intros ? []|]. exists (S (rk (fst q) + n)). intros q' [<-|I0]; [lia|]. specialize (IH q' I0). lia. }
  destruct M as (n & M). exists n. intros id ND _. assert (X : exists t', rule_called rs [id] = Some t') by (clear - ND; induction ND; eauto). destruct X as (t' & RC). exact (M _ (called_in_rs RC)).
Qed.
End Shapes.

(** ---------------- C57 ---------------- *)
(** The type of the values of each parser is, up to the names of Rust types, the only one its rule suggests.
    Missing: rules with a value whose type depends on itself, choices that mix foreign and other values; the names of Rust types (for
    rules that tell them, see C50_declared). *)
Theorem C57_signature_partial : forall rust_type rust_item return_type generics, reads rust_type -> reads rust_item ->
  forall fuel ts m, oak rust_type rust_item return_type generics fuel ts = WOk (Some m) ->
  forall attrs bs, read_as rust_type rust_item ts attrs bs -> settled_types (block_rules bs) ->
  forall ret, ret = returned return_type (functions (block_items bs)) -> clear_choices (block_rules bs) ret ->
  forall n e, In (n, e) (block_rules bs) -> exists sg f, In (MParser n sg f) m /\
    forall s, tshape (block_rules bs) ret e s <-> rshape (sg_value sg) = s.
Proof.
  intros rt ri rty gen RT RI fuel ts m H attrs bs RD SE ret -> PC n e Ie.
  destruct (source_env RT RI H RD) as (fg & g & G' & PA & MA & RA & TY & C & RE). pose proof (C38_well_built PA MA) as WB.
  destruct (rule_tree PA MA RA Ie) as (rl & F & S1). destruct (find_rule_in F) as [Irl RN]. rewrite <- (typed_rules PA MA TY) in Irl. pose proof (typed_stored PA MA TY S1) as S0.
  pose proof (asked_root PA MA TY Irl) as AR. destruct (proj2 (content_parsers C) rl Irl) as (sg & f & Im & _ & PV). rewrite RN in Im. exists sg, f. split; [exact Im|].
  assert (SL : slot_shape G' (rexpr rl) (rshape (sg_value sg))).
  { unfold parser_value in PV. destruct (is_unit G' (rexpr rl)) eqn:U; [|exact (compiled_shape PV)]. apply WOk_inj' in PV. rewrite <- PV. cbn [rshape].
    unfold is_unit in U. destruct (ty_of G' (rexpr rl)) as [[]|] eqn:ER; try discriminate U. econstructor; [exact ER|constructor]. }
  assert (SD : forall s, tshape (block_rules bs) (returned rty (functions (block_items bs))) e s -> rshape (sg_value sg) = s).
  { intros s SH. exact (proj1 (proj2 (shape_det G')) _ _ SL _ (proj1 (shapes_sound PA MA TY RA RE SE PC) _ _ SH _ AR S0)). }
  intros s. split; [exact (SD s)|]. intros <-. destruct (shapes_exist PA MA TY RA RE SE AR S0) as (s & SH). rewrite (SD s SH). exact SH.
Qed.

(** The values are of that type.  Missing: as above, and the parsers that name variables out of scope (C28). *)
Theorem C57_values_partial : forall rust_type rust_item return_type generics, reads rust_type -> reads rust_item ->
  forall fuel ts m, oak rust_type rust_item return_type generics fuel ts = WOk (Some m) ->
  forall attrs bs, read_as rust_type rust_item ts attrs bs -> settled_types (block_rules bs) ->
  forall ret, ret = returned return_type (functions (block_items bs)) -> clear_choices (block_rules bs) ret ->
  forall n e, In (n, e) (block_rules bs) -> exists sg f, In (MParser n sg f) m /\
    forall (X : extern) off, ext_sane X -> (forall p s s1 vs evs, X Par p s (Some (s1, vs)) evs -> exists v, vs = [v] /\ made_outside v) ->
    forall s rest vs evs, tep (block_rules bs) X off (void (block_rules bs) ret) Par (TE e) s (Some (rest, vs)) evs -> of_type (tup vs) (sg_value sg).
Proof.
  intros rt ri rty gen RT RI fuel ts m H attrs bs RD SE ret -> PC n e Ie.
  destruct (source_env RT RI H RD) as (fg & g & G' & PA & MA & RA & TY & C & RE). pose proof (C38_well_built PA MA) as WB.
  destruct (rule_tree PA MA RA Ie) as (rl & F & S1). destruct (find_rule_in F) as [Irl RN]. pose proof (root_low WB Irl) as L. rewrite <- (typed_rules PA MA TY) in Irl. pose proof (typed_stored PA MA TY S1) as S0.
  pose proof (asked_root PA MA TY Irl) as AR. destruct (proj2 (content_parsers C) rl Irl) as (sg & f & Im & _ & PV). rewrite RN in Im. exists sg, f. split; [exact Im|].
  intros X off XS XO s rest vs evs EP. apply (proj2 (source_values PA MA TY RA RE SE X off (m := Par) s _ _ (or_intror AR) S0)) in EP.
  destruct (kinds_plain PA MA TY RA SE) as (rk & bad & HL & HB & _).
  assert (CT : exists k, compile_type k G' (rexpr rl) = WOk (sg_value sg)).
  { unfold parser_value in PV. destruct (is_unit G' (rexpr rl)) eqn:U; [|eauto]. apply WOk_inj' in PV. rewrite <- PV. exists 1. cbn [compile_type]. unfold is_unit in U. destruct (ty_of G' (rexpr rl)) as [[]|]; try discriminate U. reflexivity. }
  destruct CT as (k & CT). exact (C50_value_type_partial WB TY HL (no_self PA MA TY RA SE HB) (no_mixing PA MA TY RA RE SE PC) XS XO L EP CT).
Qed.
Theorem C57_parser_values_partial : forall rust_type rust_item return_type generics, reads rust_type -> reads rust_item ->
  forall fuel ts m, oak rust_type rust_item return_type generics fuel ts = WOk (Some m) -> toks_strs scalars ts ->
  forall attrs bs, read_as rust_type rust_item ts attrs bs -> settled_types (block_rules bs) ->
  forall ret, ret = returned return_type (functions (block_items bs)) -> clear_choices (block_rules bs) ret ->
  (forall n e, In (n, e) (block_rules bs) -> tidy (void (block_rules bs) ret) true e) ->
  forall n e, In (n, e) (block_rules bs) -> exists sg f, In (MParser n sg f) m /\
    forall X xf t, outside X xf t -> (forall p s s1 vs evs, X Par p s (Some (s1, vs)) evs -> exists v, vs = [v] /\ made_outside v) ->
    exists st log, called m xf Par n t st log /\ (is_failed st = true /\ data st = None \/ is_failed st = false /\ exists v, data st = Some v /\ of_type v (sg_value sg)).
Proof.
  intros rt ri rty gen RT RI fuel ts m H LT attrs bs RD SE ret Q PC TD n e Ie.
  destruct (C57_values_partial RT RI H RD SE Q PC Ie) as (sg & f & Im & K). exists sg, f. split; [exact Im|]. intros X xf t O XO.
  destruct (C56_parsers_partial RT RI H LT RD SE Q (clear_plain PC) (or_intror TD) O Ie) as (st & log & r & evs & CA & U & _ & _ & R). exists st, log. split; [exact CA|].
  destruct r as [[rest vs]|]; [right|left; exact R]. destruct R as [[S1 _] D1]. split; [unfold is_successful in S1; apply negb_true_iff in S1; exact S1|]. exists (tup vs). split; [exact D1|].
  exact (K X (off t) (ou_sane O) XO t rest vs evs (proj2 (U _ _) (conj eq_refl eq_refl))).
Qed.

(** ---------------- a concrete case ---------------- *)
(** [sum = num ("+" num)*] returns a pair of a value made by a Rust function and a vector of those; [C56_parser_case] and
    [C56_parser_module] meet the other hypotheses. *)
Example C57_case : (exists e, In ("sum", e) sum_rules /\ tshape sum_rules sum_returned e (STup [SRust; SVec SRust])) /\
  exists m, oak toy_type toy_item toy_return toy_generics 100 (print_grammar toy_toks sum_source) = WOk (Some m) /\
    exists sg f, In (MParser "sum" sg f) m /\ rshape (sg_value sg) = STup [SRust; SVec SRust] /\ sg_value sg = RTTuple [RTRust "u32"; RTVec (RTRust "u32")].
Proof.
  assert (NV : forall t k, tkind sum_rules sum_returned t k -> voidb k = false -> ~ void sum_rules sum_returned t).
  { intros t k K V (k' & K' & V'). rewrite (proj1 (tkind_det _ _) _ _ K _ K') in V. congruence. }
  split.
  - eexists. split; [left; reflexivity|].
    assert (NU : tkind sum_rules sum_returned (XCall ["num"]) KRust) by (eapply tk_call; [reflexivity|]; apply tk_act).
    assert (SN : tshape sum_rules sum_returned (XCall ["num"]) SRust).
    { eapply sh_call; [reflexivity|]. apply sh_act. eapply NV; [apply tk_act|reflexivity]. }
    assert (KS : tkind sum_rules sum_returned (XSeq [XStr [43%N]; XCall ["num"]]) KRust) by (apply (@tk_seq _ _ _ [KInv; KRust]); repeat constructor; exact NU).
    refine (@sh_seq _ _ _ [SRust; SVec SRust] _ _).
    + refine (NV _ KTuple _ eq_refl). apply (@tk_seq _ _ _ [KRust; KData]). constructor; [exact NU|]. constructor; [|constructor]. exact (tk_star KS).
    + constructor; [exact SN|]. constructor; [|constructor]. apply sh_star; [exact (NV _ _ (tk_star KS) eq_refl)|].
      refine (@sh_seq _ _ _ [SUnit; SRust] (NV _ _ KS eq_refl) _). constructor; [apply sh_void; exists KInv; split; [constructor|reflexivity]|]. constructor; [exact SN|constructor].
  - destruct C46_case as (m & H & _). exists m. split; [exact H|]. assert (M : WOk (Some m) = oak toy_type toy_item toy_return toy_generics 100 (print_grammar toy_toks sum_source)) by (symmetry; exact H).
    vm_compute in M. apply WOk_inj' in M. injection M as ->. eexists. eexists. split; [right; right; left; reflexivity|]. split; reflexivity.
Qed.

Print Assumptions C57_signature_partial.
Print Assumptions C57_values_partial.
Print Assumptions C57_parser_values_partial.
Print Assumptions C57_case.
