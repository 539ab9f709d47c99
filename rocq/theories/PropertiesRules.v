(** Property theorems about the types of expressions (C48).

    [type_inference E fuel G = WOk (Some G')] (Typing.v): type inference accepts the grammar [G] and gives
    the typed grammar [G']; [ty_of G' i] is the type of its expression [i].  [well_built], [layered]: see
    PropertiesTyping.v.  The first half of the file is the specification: the typing rules, operator by
    operator, without recursion, tables, passes or internal types. *)
From Verif Require Import Base Grammar PegSpec Target Compile CompileShape GenTotal WellFormed WfFacts Analysis AnalysisFacts Typing TypeRules SurfaceFacts
  RefFacts DepthFacts TypingSound TypingFit GenAgree TypingTop TypingVerdict TypingTotal TypingAnswer SumGrammar PropertiesTyping.
Set Implicit Arguments. Unset Strict Implicit.
Open Scope string_scope. Open Scope nat_scope. Open Scope list_scope.

(** ---------------- the rules ---------------- *)
(** An ascription [_ : s] encloses the expression [i]. *)
Definition enclosed (es : list expr) (s : string) (i : nat) : Prop :=
  exists a c, nth_error es a = Some (EAsc c (IRegular (TRust s))) /\ reaches es c i.
(** A Rust type nobody knows in the grammar is written [_], unless an ascription around it tells. *)
Definition foreign (es : list expr) (i : nat) (t : ty) : Prop := t = TRust "_" \/ exists s, t = TRust s /\ enclosed es s i.

(** [e > f] and [e >> f]: what [f] returns, in a box for [>>]. *)
Inductive action_rule (E : tenv) (es : list expr) (i : nat) : bool -> action -> ty -> Prop :=
| ar_plain g r : ret_of E g = Some (Some r) -> action_rule E es i false (ActPath [g]) (TRust r)
| ar_boxed g r : ret_of E g = Some (Some r) -> action_rule E es i true (ActPath [g]) (TRust ("Box<" ++ r ++ ">"))
| ar_unit b g : ret_of E g = Some None -> action_rule E es i b (ActPath [g]) TUnit
| ar_unknown b g t : ret_of E g = None -> foreign es i t -> action_rule E es i b (ActPath [g]) t
| ar_path b p t : length p <> 1 -> foreign es i t -> action_rule E es i b (ActPath p) t
| ar_expr b src t : foreign es i t -> action_rule E es i b (ActExpr src) t.

(** The operators whose type does not depend on those of their operands. *)
Inductive constant_rule (E : tenv) (es : list expr) (i : nat) : expr -> ty -> Prop :=
| cr_str s : constant_rule E es i (EStr s) TUnit
| cr_not c : constant_rule E es i (ENot c) TUnit
| cr_and c : constant_rule E es i (EAnd c) TUnit
| cr_any : constant_rule E es i EAny TAtom
| cr_class k : constant_rule E es i (EClass k) TAtom
| cr_act c b f t : action_rule E es i b f t -> constant_rule E es i (EAct c b f) t
| cr_rust c s : constant_rule E es i (EAsc c (IRegular (TRust s))) (TRust s)
| cr_asc_unit c : constant_rule E es i (EAsc c (IRegular TUnit)) TUnit
| cr_asc_invisible c : constant_rule E es i (EAsc c IInvisible) TUnit
| cr_range c : constant_rule E es i (ERange c) (TRust (range_ty E))
| cr_ext p t : foreign es i t -> constant_rule E es i (EExt p) t.
Definition constant (e : expr) : bool :=
  match e with ESeq _ | EAlt _ | EStar _ | EPlus _ | EOpt _ | ESpan _ | ENT _ => false | _ => true end.

(** The same type; what rustc finds out about foreign types is not known here. *)
Definition alike (t u : ty) : Prop := t = u \/ exists r s, t = TRust r /\ u = TRust s.
(** The values of operands one after the other: none for a unit, all those of a tuple. *)
Inductive joined (G : grammar) : list nat -> list nat -> Prop :=
| jo_nil : joined G [] []
| jo_unit c l vs : ty_of G c = Some TUnit -> joined G l vs -> joined G (c :: l) vs
| jo_tuple c l ts vs : ty_of G c = Some (TTuple ts) -> joined G l vs -> joined G (c :: l) (ts ++ vs)
| jo_one c l t vs : ty_of G c = Some t -> t <> TUnit -> (forall ts, t <> TTuple ts) -> joined G l vs -> joined G (c :: l) (c :: vs).
Definition joined_type (G : grammar) (vs : list nat) (t : ty) : Prop :=
  match vs with [] => False | [j] => exists u, ty_of G j = Some u /\ alike u t | _ => t = TTuple vs end.
(** The same type, looking into lists, options and tuples. *)
Inductive similar (G : grammar) : ty -> ty -> Prop :=
| si_same t : similar G t t
| si_foreign r s : similar G (TRust r) (TRust s)
| si_optional i j a b : ty_of G i = Some a -> ty_of G j = Some b -> similar G a b -> similar G (TOptional i) (TOptional j)
| si_list i j a b : ty_of G i = Some a -> ty_of G j = Some b -> similar G a b -> similar G (TList i) (TList j)
| si_tuple l1 l2 : similars G l1 l2 -> similar G (TTuple l1) (TTuple l2)
with similars (G : grammar) : list nat -> list nat -> Prop :=
| si_nil : similars G [] []
| si_cons i j a b l1 l2 : ty_of G i = Some a -> ty_of G j = Some b -> similar G a b -> similars G l1 l2 -> similars G (i :: l1) (j :: l2).

(** The type of the rule [rl] depends on the type of [d], and that of [d] on a call of [rl]. *)
Definition calls_back (G : grammar) (rl : rule) (d : nat) : Prop := spos G (rexpr rl) d /\ calls G (rname rl) d.
(** The other operators, when they have data, in the rule [rl].  [sp]: the slot of the type of spans. *)
Inductive operator_rule (G : grammar) (rl : rule) (sp : nat) : expr -> ty -> Prop :=
| or_star c : operator_rule G rl sp (EStar c) (TList c)
| or_plus c : operator_rule G rl sp (EPlus c) (TList c)
| or_opt c : operator_rule G rl sp (EOpt c) (TOptional c)
| or_call id r u t : find_rule G id = Some r -> ty_of G (rexpr r) = Some u -> u <> TUnit -> alike u t -> operator_rule G rl sp (ENT id) t
| or_seq l vs t : joined G l vs -> joined_type G vs t -> operator_rule G rl sp (ESeq l) t
| or_span c vs t : joined G [sp; c] vs -> joined_type G vs t -> operator_rule G rl sp (ESpan c) t
| or_alt l c u t : In c l -> ty_of G c = Some u -> alike u t ->
    (forall d, In d l -> exists v, ty_of G d = Some v /\ (similar G v t \/ (exists s, v = TRust s) \/
       (calls_back G rl d /\ exists w, ty_of G (rexpr rl) = Some w /\ alike w v))) -> operator_rule G rl sp (EAlt l) t.

(** What is needed of a grammar [G] typed as [G'], as [rec_ok] (TypingTop.v) but with types and not only numbers of values:
    a rule in [bad] has no data; and a rule that depends for its type on itself has no data, or is linear and all its
    choices with a branch that calls it have the type of the rule. *)
Definition rec_alike (G G' : grammar) (self : string -> Prop) (bad : string -> bool) : Prop := forall rl, In rl (rules G) ->
  is_unit G' (rexpr rl) = true \/
  (bad (rname rl) = false /\ (self (rname rl) -> linear G (rname rl) /\
     forall i l c, expr_of G i = Some (EAlt l) -> In c l -> calls_back G rl c ->
       exists a b, ty_of G' (rexpr rl) = Some a /\ ty_of G' i = Some b /\ similar G' a b)).
Lemma similar_length G l1 l2 : similars G l1 l2 -> length l1 = length l2.
Proof. induction 1; cbn; congruence. Qed.
Lemma rec_alike_ok G G' self bad : rec_alike G G' self bad -> rec_ok G G' self bad.
Proof.
  intros H rl Irl. destruct (H rl Irl) as [U|(B & K)]; [left; exact U|]. right. split; [exact B|]. intros S0. destruct (K S0) as (LI & A). split; [exact LI|].
  intros i l c Ei Ic SP CA. destruct (A i l c Ei Ic (conj SP CA)) as (a & b & Ea & Eb & SI). unfold card. rewrite Ea, Eb.
  destruct SI as [t|r s|i1 j1 a1 b1 E1 E2 S1|i1 j1 a1 b1 E1 E2 S1|l1 l2 SS]; try reflexivity. cbn. symmetry. exact (similar_length SS).
Qed.

(** ---------------- the table behind the typed grammar ---------------- *)
Local Notation IG G := (igrammar G).
Definition shows (T : list ity) (G' : grammar) : Prop := forall i t, nth_error T i = Some t -> exists u, ty_of G' i = Some u /\ reduce_final t = WOk u.
Lemma shown T G' i t u : shows T G' -> nth_error T i = Some t -> ty_of G' i = Some u -> reduce_final t = WOk u.
Proof. intros S1 Et Eu. destruct (S1 i t Et) as (v & Ev & Q). congruence. Qed.
Lemma typed_table E fuel G G' : well_built G -> type_inference E fuel G = WOk (Some G') -> exists T, shows T G' /\ length T = S (length (exprs G)) /\
  DInv (IG G) E (own G) (fun _ => False) T /\ (forall y, y < length (exprs G) -> done (IG G) T y)
  /\ rules G' = rules G /\ (forall i, i < length (exprs G) -> expr_of G' i = expr_of G i)
  /\ (forall rk self bad, layered G rk self bad -> DInv (IG G) E (own G) (fits (IG G) self bad) T).
Proof.
  intros WB H. destruct (infer_inv H) as (st1 & st2 & st3 & out & H1 & E1 & H2 & H3 & E3 & H4 & _ & ->).
  destruct (@inference_fit (IG G) E (ig_typable WB) (own G) (ig_owned WB) (ig_forest WB) (fun _ => 0) (fun _ => True) (fun _ => true) ltac:(intros rl i id _ Q; discriminate) fuel _ st1 st2 st3 (ig_blank G E) H1 H2 H3 E3) as [D3 DN].
  exists (tys st3). split; [|split; [|split; [|split; [|split; [|split]]]]].
  - intros i t Et. exact (proj2 (reduce_finals_at H4) i t Et).
  - rewrite (iv_len (di_inv D3)). apply ig_len.
  - destruct D3 as [A B C D F]. split; auto. intros y e t _ _ _ _ _ [].
  - intros y Ly. apply DN. rewrite ig_last. exact Ly.
  - reflexivity.
  - intros i Li. cbn [expr_of exprs]. apply ig_low, Li.
  - intros rk self bad HL. exact (proj1 (@inference_fit (IG G) E (ig_typable WB) (own G) (ig_owned WB) (ig_forest WB) rk self bad (ig_layered WB HL) fuel _ st1 st2 st3 (ig_blank G E) H1 H2 H3 E3)).
Qed.

Lemma reaches_low G c i : well_built G -> c < length (exprs G) -> reaches (exprs (IG G)) c i -> reaches (exprs G) c i.
Proof.
  intros WB L R. induction R as [c|c e d i Ee Id R IH]; [constructor|]. cbn [exprs igrammar] in Ee. rewrite nth_error_app1 in Ee by exact L.
  refine (rc_child Ee Id (IH _)). pose proof (wb_children WB Ee) as F. rewrite Forall_forall in F. specialize (F d Id). cbv beta in F. lia.
Qed.
Lemma ascribed_enclosed G s i : well_built G -> ascribed (IG G) s i -> enclosed (exprs G) s i.
Proof.
  intros WB (a & c & Ea & R). destruct (ig_cases Ea) as [[L Q]|[_ Q]]; [|discriminate]. exists a, c. split; [exact Q|]. apply (reaches_low WB); [|exact R].
  pose proof (wb_children WB Q) as F. inversion F; subst. lia.
Qed.

(** ---------------- C48 ---------------- *)
(** An expression that is not below one without data has the type of its rule. *)
Theorem C48_constant_types : forall E fuel G G' i e t, well_built G -> type_inference E fuel G = WOk (Some G') ->
  nth_error (exprs G) i = Some e -> constant e = true -> ty_of G' i = Some t ->
  constant_rule E (exprs G) i e t \/
  (t = TUnit /\ exists p e', nth_error (exprs G) p = Some e' /\ In i (children e') /\ ty_of G' p = Some TUnit).
Proof.
  intros E fuel G G' i e t WB H Ee CE Et. destruct (typed_table WB H) as (T & SH & LT & D3 & DN & RG & EG & _).
  assert (Li : i < length (exprs G)) by (apply nth_error_Some; congruence).
  destruct (nth_error T i) as [v|] eqn:Ev; [|apply nth_error_None in Ev; lia]. pose proof (shown SH Ev Et) as FV.
  destruct (di_shape D3) as (_ & CONST & _).
  assert (Ei : expr_of (IG G) i = Some e) by (rewrite ig_low by exact Li; exact Ee).
  assert (CT : exists u, const_ty E e = Some u) by (destruct e; try discriminate CE; eexists; reflexivity). destruct CT as (u & CT).
  destruct (CONST i e u v ltac:(rewrite ig_last; exact Li) Ei CT Ev) as [->|[->|[(U & p & (Lp & e' & Ep & Ip) & w & Ew & Uw)|(-> & s & -> & AS)]]].
  - discriminate FV.
  - left.
    destruct e as [lit| |cls|id|p|l|l|c|c|c|c|c|c b f|c v|c|c]; try discriminate CE; cbn [const_ty] in CT; injection CT as <-; cbn in FV; try (injection FV as <-; constructor).
    + left. reflexivity.
    + constructor. destruct f as [[|g [|g2 p]]|src]; cbn in FV.
      * injection FV as <-. apply ar_path; [discriminate|left; reflexivity].
      * destruct (ret_of E g) as [[r|]|] eqn:RO; cbn in FV; injection FV as <-.
        -- destruct b; [apply ar_boxed|apply ar_plain]; exact RO.
        -- apply ar_unit. exact RO.
        -- apply ar_unknown; [exact RO|left; reflexivity].
      * injection FV as <-. apply ar_path; [discriminate|left; reflexivity].
      * injection FV as <-. apply ar_expr. left. reflexivity.
    + destruct (wb_asc WB Ee) as [->|[->|(s & ->)]]; cbn in FV; injection FV as <-; constructor.
  - right. assert (t = TUnit) by (destruct v as [| | | |[]]; try discriminate U; cbn in FV; congruence). subst t. split; [reflexivity|].
    rewrite ig_last in Lp. rewrite ig_low in Ep by exact Lp. exists p, e'. split; [exact Ep|]. split; [exact Ip|].
    destruct (SH p w Ew) as (x & Ex & Q). rewrite Ex. destruct w as [| | | |[]]; try discriminate Uw; cbn in Q; congruence.
  - left. cbn in FV. injection FV as <-. assert (FO : foreign (exprs G) i (TRust s)) by (right; exists s; split; [reflexivity|exact (ascribed_enclosed WB AS)]).
    destruct e as [lit| |cls|id|p|l|l|c|c|c|c|c|c b f|c v|c|c]; try discriminate CE; cbn [const_ty] in CT; try discriminate CT.
    + constructor. exact FO.
    + constructor. injection CT as CT. destruct f as [[|g [|g2 p]]|src]; cbn in CT.
      * apply ar_path; [discriminate|exact FO].
      * destruct (ret_of E g) as [[r|]|] eqn:RO; try discriminate CT. apply ar_unknown; [exact RO|exact FO].
      * apply ar_path; [discriminate|exact FO].
      * apply ar_expr. exact FO.
    + injection CT as ->. destruct (wb_asc WB Ee) as [Q|[Q|(r & Q)]]; discriminate Q.
Qed.

(** Below an expression without data nothing has data. *)
Theorem C48_unit_operands : forall E fuel G G' i e c, well_built G -> type_inference E fuel G = WOk (Some G') ->
  nth_error (exprs G) i = Some e -> In c (children e) -> ty_of G' i = Some TUnit -> ty_of G' c = Some TUnit.
Proof.
  intros E fuel G G' i e c WB H Ee Ic Et. destruct (typed_table WB H) as (T & SH & LT & D3 & DN & RG & EG & _).
  assert (Li : i < length (exprs G)) by (apply nth_error_Some; congruence).
  destruct (nth_error T i) as [v|] eqn:Ev; [|apply nth_error_None in Ev; lia]. pose proof (shown SH Ev Et) as FV.
  assert (K : kid (IG G) i c) by (split; [rewrite ig_last; exact Li|exists e; split; [rewrite ig_low by exact Li; exact Ee|exact Ic]]).
  assert (U : unit_at T i) by (exists v; split; [exact Ev|]; destruct v as [| | | |[]]; cbn in FV; try discriminate FV; reflexivity).
  destruct (dn_unit (DN i Li) U K) as (w & Ew & Uw). destruct (SH c w Ew) as (x & Ex & Q). rewrite Ex. destruct w as [| | | |[]]; try discriminate Uw; cbn in Q; congruence.
Qed.

Lemma alike_of T G' a b u v : shows T G' -> reduce_final a = WOk u -> reduce_final b = WOk v -> sim a b -> alike u v.
Proof.
  intros _ Fa Fb [->|[[->|(r & ->)] [->|(s & ->)]]]; cbn in Fa, Fb; try (left; congruence); injection Fa as <-; injection Fb as <-; right; eauto.
Qed.
Lemma joined_of T G' l : shows T G' -> Forall (typed T) l -> joined G' l (flat_map (contrib T) l).
Proof.
  intros SH F. induction F as [|c l (u & Eu & Nu & Ru) F IH]; [constructor|]. cbn [flat_map]. unfold contrib at 1. rewrite Eu.
  destruct (SH c u Eu) as (t & Et & Q). destruct u as [| | | |[| |k|k|ts|s]]; cbn in Q; try discriminate Q; injection Q as <-; cbn [app].
  - apply jo_unit; assumption.
  - refine (jo_one Et _ _ IH); discriminate.
  - apply jo_unit; assumption.
  - refine (jo_one Et _ _ IH); discriminate.
  - refine (jo_one Et _ _ IH); discriminate.
  - refine (jo_one Et _ _ IH); discriminate.
  - exact (jo_tuple Et IH).
  - refine (jo_one Et _ _ IH); discriminate.
Qed.
Lemma joined_type_of T G' l a t : shows T G' -> tuple_of T l a -> reduce_final a = WOk t -> joined_type G' (flat_map (contrib T) l) t.
Proof.
  intros SH H F. unfold tuple_of in H. unfold joined_type. destruct (flat_map (contrib T) l) as [|j [|k js]]; [exact H| |subst a; cbn in F; congruence].
  destruct H as (_ & u & Eu & _ & S1). destruct (SH j u Eu) as (v & Ev & Q). exists v. split; [exact Ev|]. exact (alike_of SH Q F S1).
Qed.

Lemma similar_of T G' : shows T G' -> (forall a b, eqv T a b -> forall u v, reduce_final a = WOk u -> reduce_final b = WOk v -> similar G' u v)
  /\ (forall l1 l2, eqvs T l1 l2 -> similars G' l1 l2).
Proof.
  intros SH. apply eqv_mutind.
  - intros t u [->|(r & ->)] [->|(s & ->)] x y Fx Fy; cbn in Fx, Fy; injection Fx as <-; injection Fy as <-; constructor.
  - intros t u U1 U2 x y Fx Fy. assert (x = y); [|subst; constructor]. destruct t as [| | | |[]], u as [| | | |[]]; try discriminate; cbn in Fx, Fy; congruence.
  - intros x y Fx Fy. assert (x = y) by congruence. subst. constructor.
  - intros i j a b Ea Eb _ IH x y Fx Fy. cbn in Fx, Fy. injection Fx as <-. injection Fy as <-. destruct (SH i a Ea) as (u & Eu & Qu). destruct (SH j b Eb) as (v & Ev & Qv). exact (si_optional Eu Ev (IH _ _ Qu Qv)).
  - intros i j a b Ea Eb _ IH x y Fx Fy. cbn in Fx, Fy. injection Fx as <-. injection Fy as <-. destruct (SH i a Ea) as (u & Eu & Qu). destruct (SH j b Eb) as (v & Ev & Qv). exact (si_list Eu Ev (IH _ _ Qu Qv)).
  - intros l1 l2 _ IH x y Fx Fy. cbn in Fx, Fy. injection Fx as <-. injection Fy as <-. constructor. exact IH.
  - constructor.
  - intros i j a b l1 l2 Ea Eb _ IH _ IH2. destruct (SH i a Ea) as (u & Eu & Qu). destruct (SH j b Eb) as (v & Ev & Qv). exact (si_cons Eu Ev (IH _ _ Qu Qv) IH2).
Qed.

Lemma spos_same G1 G2 x y : exprs G1 = exprs G2 -> spos G1 x y -> spos G2 x y.
Proof. intros Q R. induction R as [x|x e c y Ex Ic R IH]; [constructor|]. refine (@sp_child G2 x e c y _ Ic IH). unfold expr_of in *. rewrite <- Q. exact Ex. Qed.
Lemma calls_same G1 G2 id x : exprs G1 = exprs G2 -> calls G1 id x -> calls G2 id x.
Proof. intros Q (j & R & Ej). exists j. split; [exact (spos_same Q R)|]. unfold expr_of in *. rewrite <- Q. exact Ej. Qed.
Lemma typed_exprs E fuel G G' : type_inference E fuel G = WOk (Some G') -> exprs G' = exprs (IG G).
Proof. intros H. destruct (infer_inv H) as (st1 & st2 & st3 & out & _ & _ & _ & _ & _ & _ & _ & ->). reflexivity. Qed.

(** In a rule whose type does not depend on itself through another rule, and on itself once at most. *)
Theorem C48_operator_types : forall E fuel G G' rk self bad rl i e t, well_built G -> type_inference E fuel G = WOk (Some G') ->
  layered G rk self bad -> In rl (rules G) -> bad (rname rl) = false -> (self (rname rl) -> linear G (rname rl)) -> reaches (exprs G) (rexpr rl) i ->
  nth_error (exprs G) i = Some e -> constant e = false -> ty_of G' i = Some t -> t <> TUnit ->
  operator_rule G' rl (length (exprs G)) e t.
Proof.
  intros E fuel G G' rk self bad rl i e t WB H HL Irl BF NS R Ee CE Et NT.
  destruct (typed_table WB H) as (T & SH & LT & _ & DN & RG & EG & DL). specialize (DL rk self bad HL).
  assert (Li : i < length (exprs G)) by (apply nth_error_Some; congruence).
  destruct (nth_error T i) as [v|] eqn:Ev; [|apply nth_error_None in Ev; lia]. pose proof (shown SH Ev Et) as FV.
  assert (Ei : expr_of (IG G) i = Some e) by (rewrite ig_low by exact Li; exact Ee).
  assert (Uv : is_unit_kind v = false) by (destruct v as [| | | |[]]; cbn in FV; try reflexivity; congruence).
  assert (Sv : settledb v = true) by (destruct v; cbn in FV; try discriminate FV; reflexivity).
  assert (RI : reaches (exprs (IG G)) (rexpr rl) i).
  { clear - R. induction R as [c|c e d i Ee Id R IH]; [constructor|]. refine (rc_child _ Id IH). cbn [exprs igrammar]. rewrite nth_error_app1; [exact Ee|]. apply nth_error_Some. congruence. }
  assert (OWN : own G i = rname rl) by (rewrite (reaches_own (ig_owned WB) RI); exact (ow_root (ig_owned WB) Irl)).
  assert (Li' : i < length (exprs (IG G)) - 1) by (rewrite ig_last; exact Li).
  pose proof (di_fit DL (y := i) (e := e) (t := v) Li' Ei Ev Sv Uv ltac:(rewrite OWN; apply (ig_fits WB); split; assumption)) as NOK.
  assert (TY : Forall (typed T) (visits e)).
  { destruct (di_shape DL) as (_ & _ & KI). eapply Forall_impl; [|exact (KI i e v Li' Ei Ev ltac:(intros ->; discriminate) Uv)].
    intros c (w & Ew & Nw). exists w. split; [exact Ew|]. split; [exact Nw|exact (di_rec DL Ew)]. }
  assert (SPN : exists s, nth_error T (length (exprs G)) = Some (IRegular (TRust s))) by (destruct (span_at (di_inv DL)) as (s & ES); rewrite ig_last in ES; eauto).
  destruct e as [lit| |cls|id|p|l|l|c|c|c|c|c|c b f|c w|c|c]; try discriminate CE; cbn [nodeok visits] in *.
  - destruct NOK as (r & u & F & Eu & S1 & Su & Uu). destruct (SH _ _ Eu) as (x & Ex & Q).
    refine (@or_call G' rl _ id r x t _ Ex _ (alike_of SH Q FV S1)).
    + unfold find_rule in *. rewrite RG. exact F.
    + intros ->. destruct u as [| | | |[]]; cbn in Q; try discriminate Q; discriminate Uu.
  - exact (or_seq rl _ (joined_of SH TY) (joined_type_of SH NOK FV)).
  - destruct NOK as [F (c & u & Ic & Eu & S1)]. destruct (SH _ _ Eu) as (x & Ex & Q). refine (@or_alt G' rl _ l c x t Ic Ex (alike_of SH Q FV S1) _).
    intros d Id. rewrite Forall_forall in F. destruct (F d Id) as (w & Ew & D). destruct (SH _ _ Ew) as (y & Ey & Qy). exists y. split; [exact Ey|].
    destruct D as [->|[D|[[->|(s & ->)]|(r & Ir & RN & SP & CA & D)]]].
    + left. assert (y = t) by congruence. subst y. constructor.
    + left. exact (proj1 (similar_of SH) w v D y t Qy FV).
    + right. left. cbn in Qy. injection Qy as <-. eauto.
    + right. left. cbn in Qy. injection Qy as <-. eauto.
    + right. right. rewrite (ow_child (ig_owned WB) Ei Id), OWN in RN, CA.
      assert (r = rl) by (pose proof (find_self (ig_forest WB) Ir) as Z1; pose proof (find_self (ig_forest WB) Irl) as Z2; rewrite RN in Z1; congruence). subst r.
      split; [split; [exact (spos_same (eq_sym (typed_exprs H)) SP)|exact (calls_same (eq_sym (typed_exprs H)) CA)]|].
      destruct D as [(q & -> & _)|(wr & Er & Sr & D)]; [discriminate Qy|]. destruct (SH _ _ Er) as (z & Ez & Qz). exists z. split; [exact Ez|].
      destruct D as [D|D]; [|exact (alike_of SH Qz Qy D)]. exfalso. apply NT.
      assert (Lr : rexpr rl < length (exprs G)) by exact (root_low WB Irl).
      assert (z = TUnit) by (destruct wr as [| | | |[]]; try discriminate D; cbn in Qz; congruence). subst z.
      assert (UD : forall x1 y1, reaches (exprs G) x1 y1 -> ty_of G' x1 = Some TUnit -> ty_of G' y1 = Some TUnit).
      { intros x1 y1 RR. induction RR as [x1|x1 e0 c0 y1 Ex1 Ic0 RR IH]; intros U; [exact U|]. apply IH. exact (C48_unit_operands WB H Ex1 Ic0 U). }
      pose proof (UD _ _ R Ez). congruence.
  - subst v. cbn in FV. injection FV as <-. constructor.
  - subst v. cbn in FV. injection FV as <-. constructor.
  - subst v. cbn in FV. injection FV as <-. constructor.
  - rewrite ig_last in NOK. refine (or_span rl _ (joined_type_of SH NOK FV)). apply (joined_of SH). constructor; [|exact TY].
    destruct SPN as (s & ES). eexists. split; [exact ES|]. split; [discriminate|reflexivity].
Qed.

(** ---------------- the hypotheses are met ---------------- *)
(** [r = . > number, . >> number, "x" > unit, (. > other):u8, s+, &"y", .. ("z" . ["a-b"]), #ext:u16] and [s = . / ["0-9"]]. *)
Definition E1 : tenv := mkEnv (fun s => if String.eqb s "number" then Some (Some "u32") else if String.eqb s "unit" then Some None else None) "SP" "RG" 50.
Definition ruG : grammar := mkG [mkRule "r" 20; mkRule "s" 23]
  [EAny; EAct 0 false (ActPath ["number"]); EAny; EAct 2 true (ActPath ["number"]); EStr [120%N]; EAct 4 false (ActPath ["unit"]); 
   EAny; EAct 6 false (ActPath ["other"]); EAsc 7 (IRegular (TRust "u8")); ENT "s"; EPlus 9; EStr [121%N]; EAnd 11;
   EStr [122%N]; EAny; EClass [(97%N, 98%N)]; ESeq [13; 14; 15]; ESpan 16; EExt ["ext"]; EAsc 18 (IRegular (TRust "u16"));
   ESeq [1; 3; 5; 8; 10; 12; 17; 19]; EAny; EClass [(48%N, 57%N)]; EAlt [21; 22]] [].
Example C48_case : well_built ruG /\ layered ruG (fun id => if String.eqb id "r" then 1 else 0) (fun _ => False) (fun _ => false)
  /\ exists G', type_inference E1 100 ruG = WOk (Some G') /\ types G' =
       [TAtom; TRust "u32"; TAtom; TRust "Box<u32>"; TUnit; TUnit; TAtom; TRust "u8"; TRust "u8"; TAtom; TList 9; TUnit; TUnit;
        TUnit; TAtom; TAtom; TTuple [14; 15]; TTuple [24; 14; 15]; TRust "u16"; TRust "u16"; TTuple [1; 3; 8; 10; 24; 14; 15; 19];
        TAtom; TAtom; TAtom; TRust "SP"].
Proof.
  split; [apply well_builtb_ok; vm_compute; reflexivity|]. split; [|eexists; split; [vm_compute; reflexivity|reflexivity]].
  intros rl i id Irl _ R Ee. destruct Irl as [<-|[<-|[]]]; cbn [rexpr rname] in *.
  - left. split; [|reflexivity]. assert (X : id = "s"); [|subst id; vm_compute; lia].
    do 24 (destruct i as [|i]; [cbn in Ee; try discriminate Ee; try (injection Ee as <-; reflexivity)|]). destruct i; discriminate Ee.
  - exfalso. inversion R as [x|x e c y Ex Ic R']; subst; [discriminate Ee|]. cbn in Ex. injection Ex as <-.
    destruct Ic as [<-|[<-|[]]]; (inversion R' as [x|x e c y Ex Ic R'']; subst; [discriminate Ee|]; cbn in Ex; injection Ex as <-; destruct Ic).
Qed.

Print Assumptions C48_constant_types.
Print Assumptions C48_unit_operands.
Print Assumptions C48_operator_types.
