(** Property theorems: the generated functions are well typed (C58). *)
From Coq Require Import Ascii Permutation.
From Verif Require Import Base Utf8 Stream ParseState RuntimeFacts Grammar PegSpec Target Compile TargetFacts ScopeFacts
  CompileShape EvalRules CompileCorrect ScopeGen GenTotal PegFacts Running WellFormed WfFacts WfSound WfSyntax WfTerm WfFuel PegRun Behave Values CharClass
  Analysis AnalysisFacts PropertiesWf PropertiesPeg PropertiesAnalysis Typing TypeRules SurfaceFacts RefFacts DepthFacts TypingSound TypingFit GenAgree TypingTop TypingVerdict
  PropertiesTyping SumGrammar Front FrontFacts FrontSpec FrontSound FrontRound FrontGrammar PropertiesFront Agree TreeSpec TreeFacts Literals Pipeline MiddleFuel PropertiesMain PropertiesRules RType PropertiesSignature Oak OakFacts PropertiesOak PropertiesRustc PropertiesModule
  TreeWf PropertiesVerdict TreeValues TreeEp PropertiesSource TreeKinds KindFacts KindTrees TreeNames FrontPrint PropertiesParsers PropertiesMutual PropertiesGen SourceChecks ScopeExact SourceNames PropertiesScope
  TreeShapes PropertiesShapes CodeTypes TypesGen.
Set Implicit Arguments. Unset Strict Implicit.
Open Scope string_scope. Open Scope nat_scope. Open Scope list_scope.

(** The functions that the code of the module [m] can call: those of [m], with their declared types; and those of other modules, whose
    parsers return something of a type that Oak does not know. *)
Inductive declares (m : list mod_item) : mode -> callee -> tsh -> Prop :=
| d_rec n sg f : In (MRecognizer n sg f) m -> declares m Rec (Local n) (rshape (sg_value sg))
| d_par n sg f : In (MParser n sg f) m -> declares m Par (Local n) (rshape (sg_value sg))
| d_rec_out p : declares m Rec (Foreign p) SUnit
| d_par_out p : declares m Par (Foreign p) SRust.
(** The functions that the actions of the rules [rs] call, with the types of their parameters: the values of the operand
    (ret: the types returned by the functions of the grammar). *)
Definition action_takes (rs : list (string * tree)) (ret : string -> option (option string)) (f : action) (us : list tsh) : Prop :=
  exists t b p s, f = ActPath p /\ part rs (XAct t b p) /\ tshape rs ret t s /\ us = parts s.
(** The code of the module [m] may call its functions, those of other modules, and the functions of actions as [A] says. *)
Definition declared (m : list mod_item) (A : action -> list tsh -> Prop) : decls := mkDecls (declares m) A.

(** ---------------- recognizers ---------------- *)
Lemma rules_have stream G rs l : compile_rules stream G rs = WOk l ->
  forall rl, In rl rs -> exists sg f, In (MRecognizer (rname rl) sg f) l /\ sg_value sg = RTUnit.
Proof.
  revert l. induction rs as [|rl rs IH]; intros l H rl' I0; [destruct I0|]. cbn [compile_rules] in H.
  apply wbind_ok in H. destruct H as (r & E1 & H). apply wbind_ok in H. destruct H as (p & E2 & H). apply wbind_ok in H. destruct H as (t & ET & H).
  apply wbind_ok in H. destruct H as (l' & E3 & H). injection H as <-. destruct I0 as [<-|I0].
  - eexists. eexists. split; [left; reflexivity|reflexivity].
  - destruct (IH l' E3 rl' I0) as (sg & f & I1 & Q). exists sg, f. split; [right; right; exact I1|exact Q].
Qed.
Lemma rules_unit stream G rs l : compile_rules stream G rs = WOk l -> forall n sg f, In (MRecognizer n sg f) l -> sg_value sg = RTUnit.
Proof.
  revert l. induction rs as [|rl rs IH]; intros l H n sg f I0; cbn [compile_rules] in H; [injection H as <-; destruct I0|].
  apply wbind_ok in H. destruct H as (r & E1 & H). apply wbind_ok in H. destruct H as (p & E2 & H). apply wbind_ok in H. destruct H as (t & ET & H).
  apply wbind_ok in H. destruct H as (l' & E3 & H). injection H as <-. destruct I0 as [Q|[Q|I0]]; [injection Q as <- <- <-; reflexivity|discriminate|exact (IH l' E3 n sg f I0)].
Qed.
Lemma content_have gen g G m : compile_mod_content gen g G = WOk m -> forall rl, In rl (rules G) -> declares m Rec (Local (rname rl)) SUnit.
Proof.
  intros H rl I0. unfold compile_mod_content in H. apply wbind_ok in H. destruct H as (l & E & H). injection H as <-.
  destruct (rules_have E I0) as (sg & f & I1 & Q). change SUnit with (rshape RTUnit). rewrite <- Q. eapply d_rec. apply in_app_iff. right. apply in_app_iff. left. exact I1.
Qed.
Lemma content_unit gen g G m : compile_mod_content gen g G = WOk m -> forall n sg f, In (MRecognizer n sg f) m -> sg_value sg = RTUnit.
Proof.
  intros H n sg f I0. unfold compile_mod_content in H. apply wbind_ok in H. destruct H as (l & E & H). injection H as <-.
  apply in_app_iff in I0. destruct I0 as [I0|I0]; [apply in_map_iff in I0; destruct I0 as (x & Q & _); discriminate|].
  apply in_app_iff in I0. destruct I0 as [I0|I0]; [exact (rules_unit E I0)|]. apply in_map_iff in I0. destruct I0 as (x & Q & _). discriminate.
Qed.

Section Code.
Variables (rust_type : list tok -> option (string * list tok)) (rust_item : list tok -> option (rust_item * list tok)).
Variables (ts : list tok) (fg : fgrammar) (g : agrammar) (E : tenv) (fuel : nat) (G' : grammar).
Hypothesis PA : parse_grammar rust_type rust_item ts = FOk fg.
Hypothesis MA : middle_answers fg (Some g).
Hypothesis TY : type_inference E fuel (shape g) = WOk (Some G').
Variables (gen : string -> string) (m : list mod_item).
Hypothesis C : compile_mod_content gen g G' = WOk m.
Local Notation N := (length (exprs (shape g))).
Local Notation PG := (plug (shape g) G').
Let WB : well_built (shape g) := C38_well_built PA MA.

Lemma low_calls (A0 : action -> list tsh -> Prop) (G : grammar) i e : (forall i e, expr_of G i = Some e -> expr_of (shape g) i = Some e \/ (forall id, e <> ENT id)) -> expr_of G i = Some e -> recty (declared m A0) e.
Proof.
  intros H Ee. destruct e as [lit| |cls|id|p|l|l|e|e|e|e|e|e bx f|e t0|e|e]; try exact I; [|exact (d_rec_out _ _)]. destruct (H _ _ Ee) as [Q|Q]; [|destruct (Q _ eq_refl)].
  destruct (wb_nt WB Q) as (rl & F). destruct (find_rule_in F) as [I0 <-]. rewrite <- (typed_rules PA MA TY) in I0. exact (content_have C I0).
Qed.
Lemma last_expr (G : grammar) a : exprs G = exprs (shape g) ++ [a] -> (forall id, a <> ENT id) -> forall i e, expr_of G i = Some e -> expr_of (shape g) i = Some e \/ (forall id, e <> ENT id).
Proof.
  intros Q NA i e. unfold expr_of. rewrite Q. destruct (Nat.lt_ge_cases i N) as [L|L]; [rewrite nth_error_app1 by exact L; auto|]. rewrite nth_error_app2 by exact L.
  destruct (i - N) as [|[|?]]; cbn; try discriminate. intros Z. injection Z as <-. right. exact NA.
Qed.
Lemma recognizers_typed (A0 : action -> list tsh -> Prop) rl f : gen_recognizer G' rl = COk f -> func_typed (declared m A0) f SUnit.
Proof.
  intros H. destruct (typed_shape PA MA TY) as (out & Q & LO).
  refine (@recognizer_types G' (declared m A0) (fun i => repeat SUnit (card G' i)) _ _ (fun _ => True) rl f H).
  - intros i. apply repeat_length.
  - intros i e Ee. refine (@low_calls _ G' _ _ _ Ee). intros i0 e0. refine (@last_expr G' (ESpan 0) _ _ i0 e0); [rewrite Q; reflexivity|discriminate].
Qed.

(** ---------------- parsers ---------------- *)
Variable rs : list (string * tree).
Hypothesis RA : rules_at (f_exprs fg) (f_rules fg) rs.
Variable ret : string -> option (option string).
Hypothesis RE : forall f, ret_of E f = ret f.
Hypothesis ST : settled_types rs.
Hypothesis PC : clear_choices rs ret.
Local Notation asked := (asked g G').

Definition shape_at (i : nat) : tsh := match compile_type (S N) G' i with WOk t => rshape t | _ => SRust end.
Definition codes (i : nat) : list tsh :=
  match ty_of G' i with None | Some TUnit => [] | Some (TTuple l) => map shape_at l | Some _ => [shape_at i] end.
Lemma ty_low i u : ty_of G' i = Some u -> i <= N.
Proof.
  intros H. destruct (typed_shape PA MA TY) as (out & Q & LO). rewrite Q in H. unfold ty_of in H. cbn [types] in H. assert (i < length out) by (apply nth_error_Some; congruence). lia.
Qed.
Lemma slot_some i : i <= N -> exists s, slot_shape G' i s.
Proof. intros L. destruct (types_finite WB TY L) as (t & Q). exists (rshape t). exact (compiled_shape Q). Qed.
Lemma slot_at i s : slot_shape G' i s -> shape_at i = s.
Proof.
  intros H. assert (L : i <= N) by (inversion H; subst; eapply ty_low; eassumption). destruct (types_finite WB TY L) as (t & Q). unfold shape_at. rewrite Q.
  exact (proj1 (proj2 (shape_det G')) _ _ (compiled_shape Q) _ H).
Qed.
Lemma slots_at l ss : slot_shapes G' l ss -> map shape_at l = ss.
Proof. induction 1 as [|j l s ss K KL IH]; [reflexivity|]. cbn [map]. rewrite (slot_at K), IH. reflexivity. Qed.
Lemma codes_parts i s : slot_shape G' i s -> codes i = parts s.
Proof.
  intros H. pose proof (slot_at H) as Q. inversion H as [? a ? Ea TS]; subst i0 s0. unfold codes. rewrite Ea. destruct TS; try (rewrite Q; reflexivity); [reflexivity|].
  cbn [parts]. match goal with F : slot_shapes _ _ _ |- _ => exact (slots_at F) end.
Qed.
Lemma slots_len l ss : slot_shapes G' l ss -> length ss = length l.
Proof. induction 1; cbn; congruence. Qed.
Lemma whole i s : slot_shape G' i s -> assemble (parts s) = s.
Proof.
  intros H. inversion H as [? a ? Ea TS]; subst. destruct TS as [| | | | |l ss F]; try reflexivity. destruct (C32_flat_types WB TY Ea) as [L _]. pose proof (slots_len F) as Q. cbn [parts].
  destruct ss as [|? [|? ?]]; cbn in Q; try (exfalso; lia). reflexivity.
Qed.
(** Not a tuple, and not empty. *)
Definition flat_slot (j : nat) : Prop := exists u, ty_of G' j = Some u /\ u <> TUnit /\ forall ks, u <> TTuple ks.
Lemma flat_parts j s : flat_slot j -> slot_shape G' j s -> parts s = [s].
Proof.
  intros (u & Eu & NU & NT) H. inversion H as [? a ? Ea TS]; subst. assert (a = u) by congruence. subst a. destruct TS; try reflexivity; [congruence|destruct (NT _ eq_refl)].
Qed.
Lemma joined_flat l vs : joined G' l vs -> Forall flat_slot vs.
Proof.
  induction 1 as [|c l vs Et _ IH|c l us vs Et _ IH|c l t vs Et N1 N2 _ IH]; [constructor|exact IH| |constructor; [exists t; auto|exact IH]].
  apply Forall_app. split; [exact (proj2 (C32_flat_types WB TY Et))|exact IH].
Qed.
Lemma flat_join vs ss : Forall flat_slot vs -> slot_shapes G' vs ss -> parts (assemble ss) = ss.
Proof.
  intros F H. destruct H as [|j l s ss K KL]; [reflexivity|]. destruct KL as [|j' l' s' ss' K' KL]; [|reflexivity]. cbn [assemble]. exact (flat_parts (Forall_inv F) K).
Qed.
Lemma slots_exist l : Forall (fun j => j <= N) l -> exists ss, slot_shapes G' l ss.
Proof. induction 1 as [|j l L F (ss & IH)]; [exists []; constructor|]. destruct (slot_some L) as (s & K). exists (s :: ss). constructor; assumption. Qed.
Lemma codes_parts_all l ss : slot_shapes G' l ss -> flat_map codes l = flat_map parts ss.
Proof. induction 1 as [|j l s ss K KL IH]; [reflexivity|]. cbn [flat_map]. rewrite (codes_parts K), IH. reflexivity. Qed.
Lemma codes_joined i t l vs : ty_of G' i = Some t -> joined G' l vs -> joined_type G' vs t -> Forall (fun j => j <= N) l -> codes i = flat_map codes l.
Proof.
  intros Et JO JT F. destruct (slots_exist F) as (ss & SS). pose proof (joined_shapes JO SS) as SV. pose proof (joined_shape JT SV) as TS.
  rewrite (codes_parts (ty_shape_slot Et TS)), (codes_parts_all SS). exact (flat_join (joined_flat JO) SV).
Qed.
Lemma codes_rust i s : ty_of G' i = Some (TRust s) -> codes i = [SRust].
Proof. intros H. rewrite (codes_parts (ty_shape_slot H (ys_rust _ _))). reflexivity. Qed.
Lemma codes_len i : length (codes i) = card PG i.
Proof. unfold codes, card. change (ty_of PG i) with (ty_of G' i). destruct (ty_of G' i) as [[]|]; try reflexivity. cbn. apply map_length. Qed.
Lemma codes_assemble i s : slot_shape G' i s -> assemble (codes i) = s.
Proof. intros H. rewrite (codes_parts H). exact (whole H). Qed.

Lemma parser_shape rl sg : parser_value G' rl = WOk (sg_value sg) -> slot_shape G' (rexpr rl) (rshape (sg_value sg)).
Proof.
  intros PV. unfold parser_value in PV. destruct (is_unit G' (rexpr rl)) eqn:U; [|exact (compiled_shape PV)]. apply WOk_inj' in PV. rewrite <- PV. cbn [rshape].
  unfold is_unit in U. destruct (ty_of G' (rexpr rl)) as [[]|] eqn:ER; try discriminate U. econstructor; [exact ER|constructor].
Qed.

Local Notation D := (declared m (action_takes rs ret)).
Lemma codes_typed i e : asked i -> (exists t, part rs t /\ stored G' rs i t) -> expr_of G' i = Some e -> is_unit G' i = false -> coty PG D codes i e.
Proof.
  intros A PS Ee U. destruct (typed_at PA MA TY (i := i)) as (u & Eu); [pose proof (proj1 A); lia|].
  assert (NT : u <> TUnit) by (intros ->; unfold is_unit in U; rewrite Eu in U; discriminate).
  assert (KL : Forall (fun j => j <= N) (children e)).
  { apply Forall_forall. intros j Ij. pose proof (proj1 (asked_child PA MA TY A Ee U Ij)). lia. }
  assert (CO : constant e = true -> constant_rule E (exprs (shape g)) i e u) by (intros Q; exact (const_at PA MA TY A Ee Q Eu)).
  assert (OP : constant e = false -> exists rl, operator_rule G' rl N e u /\
    forall l c, e = EAlt l -> In c l -> calls_back G' rl c -> exists a, ty_of G' (rexpr rl) = Some a /\ similar G' a u) by (intros Q; exact (oper_at PA MA TY RA RE ST PC A Ee Q Eu NT)).
  destruct e as [lit| |cls|id|p|l|l|e|e|e|e|e|e bx f|e t0|e|e]; cbn [coty].
  - specialize (CO eq_refl). inversion CO; subst; congruence.
  - specialize (CO eq_refl). inversion CO; subst. rewrite (codes_parts (ty_shape_slot Eu (ys_atom _))). reflexivity.
  - specialize (CO eq_refl). inversion CO; subst. rewrite (codes_parts (ty_shape_slot Eu (ys_atom _))). reflexivity.
  - destruct (OP eq_refl) as (rl0 & OR & _). inversion OR as [| | |? r w ? F Ew NW AL| | |]; subst. destruct (find_rule_in F) as [Ir <-].
    destruct (proj2 (content_parsers C) r Ir) as (sg & f & I1 & GP & PV). pose proof (parser_shape PV) as SP. inversion SP as [? a ? Ea TS]; subst. assert (a = w) by congruence. subst a.
    rewrite (codes_assemble (ty_shape_slot Eu (alike_shape AL TS))). exact (d_par I1).
  - specialize (CO eq_refl). inversion CO as [| | | | | | | | | |? ? FO]; subst. split; [|apply d_par_out]. destruct FO as [-> | (s & -> & _)]; exact (codes_rust Eu).
  - destruct (OP eq_refl) as (rl & OR & _). inversion OR as [| | | |? vs ? JO JT| |]; subst. exact (codes_joined Eu JO JT KL).
  - destruct (OP eq_refl) as (rl & OR & CB). inversion OR as [| | | | | |? c w ? Ic Ew AL ALL]; subst. apply Forall_forall. intros j Ij.
    pose proof KL as KL'. rewrite Forall_forall in KL'. destruct (slot_some (KL' j Ij)) as (s & SJ). rewrite (codes_parts SJ). symmetry. apply codes_parts. refine (ty_shape_slot Eu _).
    destruct (ALL j Ij) as (v & Ev & D). inversion SJ as [? a ? Ea TS]; subst. assert (a = v) by congruence. subst a. destruct D as [SI|[(r & ->)|(B & w' & Ew' & AL')]].
    + apply (proj1 (similar_shape G') _ _ SI). exact TS.
    + destruct (no_mixing PA MA TY RA RE ST PC Ee Ij Ev) as (r' & Er). assert (u = TRust r') by congruence. subst u. inversion TS; subst. constructor.
    + destruct (CB l j eq_refl Ij B) as (a & Ea' & SI). assert (a = w') by congruence. subst a. apply (proj1 (similar_shape G') _ _ SI). exact (alike_shape (alike_sym AL') TS).
  - destruct (OP eq_refl) as (rl & OR & _). inversion OR; subst. destruct (slot_some (Forall_inv KL)) as (s & SJ). rewrite (codes_assemble SJ), (codes_parts (ty_shape_slot Eu (ys_list SJ))). reflexivity.
  - destruct (OP eq_refl) as (rl & OR & _). inversion OR; subst. destruct (slot_some (Forall_inv KL)) as (s & SJ). rewrite (codes_assemble SJ), (codes_parts (ty_shape_slot Eu (ys_list SJ))). reflexivity.
  - destruct (OP eq_refl) as (rl & OR & _). inversion OR; subst. destruct (slot_some (Forall_inv KL)) as (s & SJ). rewrite (codes_assemble SJ), (codes_parts (ty_shape_slot Eu (ys_opt SJ))). reflexivity.
  - specialize (CO eq_refl). inversion CO; subst; congruence.
  - specialize (CO eq_refl). inversion CO; subst; congruence.
  - specialize (CO eq_refl). inversion CO as [| | | | |? ? ? ? AR| | | | |]; subst. split; [destruct (action_rust AR NT) as (s & ->); exact (codes_rust Eu)|]. intros _. cbn [d_act declared].
    destruct PS as (t & PT & S0). inversion S0; subst; match goal with Q : expr_of G' i = Some _ |- _ => rewrite Ee in Q; try discriminate Q; injection Q; intros; subst end.
    match goal with S1 : stored G' rs ?j ?t |- _ => pose proof (asked_child PA MA TY A Ee U (or_introl eq_refl)) as AC; destruct (shapes_exist PA MA TY RA RE ST AC S1) as (s & SH);
      pose proof (proj1 (shapes_sound PA MA TY RA RE ST PC) _ _ SH _ AC S1) as SL; do 4 eexists; split; [reflexivity|]; split; [exact PT|]; split; [exact SH|exact (codes_parts SL)] end.
  - specialize (CO eq_refl). pose proof (low_expr PA MA TY (proj1 A) Ee) as El. inversion CO; subst; try congruence.
    destruct (asc_child WB TY El) as (r & Er); [congruence|]. rewrite (codes_rust Eu). exact (codes_rust Er).
  - destruct (OP eq_refl) as (rl & OR & _). inversion OR as [| | | | |c vs ? JO JT|]; subst. destruct (span_slot WB TY) as (sp & ES).
    rewrite (codes_joined Eu JO JT) by (constructor; [lia|exact KL]). cbn [flat_map]. rewrite (codes_rust ES), app_nil_r. reflexivity.
  - pose proof (asked_range PA MA TY RA ST A U Ee) as UC. specialize (CO eq_refl). inversion CO; subst; try congruence. rewrite (codes_rust Eu). f_equal.
    unfold codes. unfold is_unit in UC. destruct (ty_of G' e) as [[]|]; try discriminate UC; reflexivity.
Qed.

(** The expressions that code is generated for: parts of rules, or empty. *)
Definition inside (i : nat) : Prop := asked i /\ (is_unit G' i = true \/ exists t, part rs t /\ stored G' rs i t).
Lemma inside_down i e : inside i -> expr_of PG i = Some e -> is_unit PG i = false -> Forall inside (children e).
Proof.
  intros [A S0] Ee U. pose proof (plug_child PA MA TY A Ee U) as AC. destruct S0 as [S0|(t & (n & e0 & I0 & WI) & S0)]; [change (is_unit PG i) with (is_unit G' i) in U; congruence|].
  assert (IN : forall u, In u (operands t) -> part rs u).
  { intros u Iu. exists n, e0. split; [exact I0|]. clear - WI Iu. induction WI as [t|t v x Iv WI IH]; [exact (wi_step Iu (wi_refl u))|exact (wi_step Iv (IH Iu))]. }
  rewrite (plug_low G' (proj1 A)) in Ee. apply (typed_grow PA MA TY) in Ee.
  rewrite Forall_forall in AC |- *. intros j Ij. split; [exact (AC j Ij)|].
  inversion S0; subst; match goal with Q : expr_of G' i = Some ?x |- _ => assert (e = x) as -> by congruence end; cbn [children operands] in *; try contradiction;
    try solve [destruct Ij as [<-|[]]; right; eexists; split; [apply IN; left; reflexivity|eassumption]];
    try solve [right; match goal with F : Forall2 _ _ _ |- _ => clear - F IN Ij; induction F as [|a b js l H F IHF]; [destruct Ij|]; destruct Ij as [<-|Ij]; [exists b; split; [apply IN; left; reflexivity|exact H]|apply IHF; [intros u Iu; apply IN; right; exact Iu|exact Ij]] end].
  destruct Ij as [<-|[]]. left. eapply asked_range; eassumption.
Qed.
Lemma parsers_typed rl sg f : coherent PG -> In rl (rules (shape g)) -> gen_parser PG rl = COk f -> parser_value G' rl = WOk (sg_value sg) ->
  (func_typed D f (rshape (sg_value sg)) <-> no_unbound_name f).
Proof.
  intros COH I0 GP PV. pose proof I0 as I1. rewrite <- (typed_rules PA MA TY) in I1. rewrite <- (codes_assemble (parser_shape PV)).
  assert (IR : inside (rexpr rl)).
  { split; [exact (asked_root PA MA TY I1)|]. right. destruct (rule_source (source_stored PA MA RA) I0) as (e & Ie & S0). exists e. split; [exists (rname rl), e; split; [exact Ie|constructor]|exact (typed_stored PA MA TY S0)]. }
  refine (@parser_types PG D codes codes_len _ inside rl f COH _ IR (content_have C I1) GP).
  - intros i e Ee. refine (@low_calls _ PG _ _ _ Ee). intros i0 e0. refine (@last_expr PG EAny _ _ i0 e0); [reflexivity|discriminate].
  - intros i e A Ee U. split; [|exact (inside_down A Ee U)]. destruct A as [A [V|PS]]; [change (is_unit PG i) with (is_unit G' i) in U; congruence|].
    rewrite (plug_low G' (proj1 A)) in Ee. exact (codes_typed A PS (typed_grow PA MA TY Ee) U).
Qed.
End Code.

(** ---------------- C58 ---------------- *)
(** Each recognizer of an accepted module is well typed, whatever the functions that actions call: it calls none. *)
Theorem C58_recognizers : forall rust_type rust_item return_type generics, reads rust_type -> reads rust_item ->
  forall fuel ts m, oak rust_type rust_item return_type generics fuel ts = WOk (Some m) ->
  forall A n sg f, In (MRecognizer n sg f) m -> func_typed (declared m A) f (rshape (sg_value sg)).
Proof.
  intros rt ri rty gen RT RI fuel ts m H A n sg f I0. destruct (oak_inv H) as (fg & g & G' & PA & M & TY & C). pose proof (middle_settles M) as MA.
  destruct (content_recognizers C I0) as (rl & I1 & RN & GR). rewrite (content_unit C I0). exact (recognizers_typed PA MA TY C A GR).
Qed.
(** Each parser is well typed, with functions of actions that take the values of their operands, unless it names a variable out of scope, which [names_fit] tells from the rule (C28).
    Missing: rules with a value whose type depends on itself, choices that mix foreign and other values; the names of Rust types. *)
Theorem C58_parsers_partial : forall rust_type rust_item return_type generics, reads rust_type -> reads rust_item ->
  forall fuel ts m, oak rust_type rust_item return_type generics fuel ts = WOk (Some m) ->
  forall attrs bs, read_as rust_type rust_item ts attrs bs -> settled_types (block_rules bs) ->
  forall ret, ret = returned return_type (functions (block_items bs)) -> clear_choices (block_rules bs) ret ->
  forall vd, (forall t, vd t = true <-> void (block_rules bs) ret t) ->
  forall n sg f, In (MParser n sg f) m -> exists e, In (n, e) (block_rules bs) /\
    (func_typed (declared m (action_takes (block_rules bs) ret)) f (rshape (sg_value sg)) <-> names_fit vd e = true).
Proof.
  intros rt ri rty gen RT RI fuel ts m H attrs bs RD SE ret -> PC vd VD n sg f I0.
  destruct (source_env RT RI H RD) as (fg & g & G' & PA & MA & RA & TY & C & RE). pose proof (C38_well_built PA MA) as WB.
  destruct (kinds_plain PA MA TY RA SE) as (rk & bad & HL & HBA & _). pose proof (rules_ok PA MA TY RA SE HBA) as HU.
  destruct (typed_coherent WB TY HL HU (choices_typed PA MA TY RA RE SE (clear_plain PC))) as (_ & COH & AG & _).
  destruct (proj1 (content_parsers C) n sg f I0) as (rl & I1 & RN & GP & PV). rewrite (typed_rules PA MA TY) in I1.
  pose proof (AG Par rl I1) as Q. cbn [gen_rule] in Q. rewrite Q in GP. destruct (names_source PA MA TY RA RE SE VD COH I1 GP) as (e & Ie & A & _). exists e. rewrite <- RN. split; [exact Ie|].
  rewrite (parsers_typed PA MA TY C RA RE SE PC COH I1 GP PV). exact A.
Qed.

(** ---------------- concrete cases ---------------- *)
Local Notation toy_oak := (oak toy_type toy_item toy_return toy_generics 100).
Lemma one_clear t k : (forall u, tkind (one_rules t) one_ret u (one_kind k t u)) -> all_check (clear_alt k t) 20 t = true -> clear_choices (one_rules t) one_ret.
Proof.
  intros T C l v v' (n & e & I0 & W) Iv _ F. exfalso. destruct I0 as [E|[]]. injection E as <- <-. pose proof (all_check_ok W C) as Q. cbn [clear_alt] in Q. rewrite forallb_forall in Q. specialize (Q v Iv).
  rewrite (proj1 (tkind_det _ _) _ _ (T v) _ F) in Q. discriminate.
Qed.
(** [r = . (("x" / "y") > f)] has a well typed parser; that of [r = ("a" ("x" / "y") "z" > f) / ("b" > f)] names an unbound flag. *)
Example C58_case : forall t k b, In (t, (k, b)) [(gap_tree, (KTuple, true)); (leak_tree, (KRust, false))] ->
  settled_types (one_rules t) /\ clear_choices (one_rules t) one_ret /\ (forall u, voidb (one_kind k t u) = true <-> void (one_rules t) one_ret u) /\
  exists m sg f, toy_oak (print_grammar toy_toks (one_rule t)) = WOk (Some m) /\ In (MParser "r" sg f) m /\ (func_typed (declared m (action_takes (one_rules t) one_ret)) f (rshape (sg_value sg)) <-> b = true).
Proof.
  intros t k b I0. assert (I1 : In (t, (k, b)) [(leak_tree, (KRust, false)); (gap_tree, (KTuple, true)); (left_tree, (KTuple, false))]) by (destruct I0 as [<-|[<-|[]]]; cbn; auto).
  destruct (C28_exact_case I1) as (m & O & RD & ST & _ & VD & (sg & f & IM) & NF).
  assert (T : forall u, tkind (one_rules t) one_ret u (one_kind k t u)).
  { destruct I0 as [Q|[Q|[]]]; injection Q as <- <- <-; apply one_kinds; try reflexivity; intros id H; unfold leak_tree, gap_tree in H; no_needs. }
  assert (CC : clear_choices (one_rules t) one_ret) by (apply (one_clear T); destruct I0 as [Q|[Q|[]]]; injection Q as <- <- <-; reflexivity).
  split; [exact ST|]. split; [exact CC|]. split; [exact VD|]. exists m, sg, f. split; [exact O|]. split; [exact IM|].
  destruct (C58_parsers_partial (proj1 toy_reads) (proj2 toy_reads) O RD ST eq_refl CC VD IM) as (e & Ie & X). destruct Ie as [E|[]]. injection E as <-. rewrite X, NF. reflexivity.
Qed.
(** [r = . / p] with [p] of another module (finding 18): the macro declares a [char], which only suits a [parse_p] that returns one. *)
Definition mix_tree : tree := XAlt [XAny; XCall ["p"]].
Lemma mixed_untyped (P : decls) K W st b1 b2 x y z : (forall t, P Par (Foreign ["p"]) t -> t = SRust) ->
  ~ typed P K W st (CLetMark x (CLetBool y true (CAssign b1 (CIfTrue y (CRestoreFF x (CAssign (CCallPar (Foreign ["p"]) [z] (CSuccess [z]) b2) CState)) CState)))) SChar.
Proof.
  intros HP T. inversion T; clear T; subst. match goal with H : typed _ _ _ _ (CLetBool _ _ _) _ |- _ => inversion H; clear H; subst end.
  match goal with H : typed _ _ _ _ (CAssign _ _) _ |- _ => inversion H; clear H; subst end; [|discriminate].
  match goal with H : typed _ _ _ _ (CIfTrue _ _ _) _ |- _ => inversion H; clear H; subst end.
  match goal with H : typed _ _ _ _ (CRestoreFF _ _) _ |- _ => inversion H; clear H; subst end.
  match goal with H : typed _ _ _ _ (CAssign _ _) _ |- _ => inversion H as [| | | | | | | | | | | | | | | | | | | | | |? ? ? v ? ? IC TB TC|? ? ? ? ? IC SM TB TC| | | | | | |]; clear H; subst end; [|discriminate].
  inversion TC as [? ? ? Q| | | | | | | | | | | | | | | | | | | | | | | | | | | | | |]; subst. cbn [s_data] in Q. subst v.
  inversion TB as [| | | | | | | | | | | | | | | | | | | | | | | | | | | |? ? ? ? us ? ? ? PP LU NX SM SD TS TF| |]; subst. apply HP in PP. destruct us as [|w [|? ?]]; try discriminate LU. cbn [assemble] in PP. subst w.
  inversion TS as [|? ? ? ? GV| | | | | | | | | | | | | | | | | | | | | | | | | | | | |]; subst. destruct GV as (ts & F & A). inversion F as [|? t ? ? IA F']; subst. inversion F'; subst. cbn [assemble] in A. subst t.
  destruct IA as (b & Kn). cbn in Kn. assert (E : name_eqb z z = true) by (apply name_eqb_eq; reflexivity). rewrite E in Kn. discriminate.
Qed.
Theorem C58_mixed_refuted : exists m sg f, toy_oak (print_grammar toy_toks (one_rule mix_tree)) = WOk (Some m) /\ In (MParser "r" sg f) m /\ no_unbound_name f /\ forall A, ~ func_typed (declared m A) f (rshape (sg_value sg)).
Proof.
  destruct (toy_oak (print_grammar toy_toks (one_rule mix_tree))) as [[m|]| |] eqn:O; vm_compute in O; try discriminate O. apply WOk_inj' in O. injection O as <-.
  eexists. eexists. eexists. split; [reflexivity|]. split; [right; right; left; reflexivity|]. split.
  - split; [intros [|? ?] k clo post Q; discriminate Q|]. split; reflexivity.
  - intros A (K & _ & T). cbn [fbody rshape sg_value] in T. refine (mixed_untyped _ T). intros t D. inversion D; reflexivity.
Qed.
Print Assumptions C58_recognizers.
Print Assumptions C58_parsers_partial.
Print Assumptions C58_case.
Print Assumptions C58_mixed_refuted.
