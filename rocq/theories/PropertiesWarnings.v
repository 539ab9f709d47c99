(** Property theorems on the warnings of the macro (C63).

    - [needs] (TreeKinds.v): the type of an expression depends on that of a rule; [has] (TypeSpec.v): the finite types;
    - [cycle_of], [linked] (Warnings.v): cycles of a relation on names. *)
From Coq Require Import Ascii.
From Verif Require Import Base Utf8 Stream ParseState RuntimeFacts Grammar PegSpec Target Compile TargetFacts ScopeFacts
  CompileShape EvalRules CompileCorrect ScopeGen GenTotal PegFacts Running WellFormed WfFacts WfSound WfSyntax WfTerm WfFuel PegRun Behave Values CharClass
  Analysis AnalysisFacts PropertiesWf PropertiesPeg PropertiesAnalysis Typing TypeRules SurfaceFacts RefFacts DepthFacts TypingSound TypingFit TypingAnswer GenAgree TypingFuel TypingTop TypingVerdict
  PropertiesTyping SumGrammar Front FrontFacts FrontSpec FrontSound FrontRound FrontGrammar PropertiesFront Agree TreeSpec TreeFacts Literals Pipeline MiddleFuel PropertiesMain RType Oak OakFacts PropertiesOak PropertiesRustc PropertiesModule
  TreeWf PropertiesVerdict TreeValues TreeEp PropertiesSource TreeKinds KindFacts KindTrees TreeNames FrontPrint PropertiesParsers PropertiesScope
  TypeSpec TypeDen TypeSurface TypeDepth TypeExact Warnings PropertiesTypes.
Set Implicit Arguments. Unset Strict Implicit.
Open Scope string_scope. Open Scope nat_scope. Open Scope list_scope.

(** ---------------- the warnings of one run of the macro ---------------- *)
(** In the order of their emission: patterns of useless operators (C35), ignored attributes, infinite types. *)
Record notices := mkNotices { useless : list warning; ignored : list (list string); infinite : list (list string) }.
Definition no_notice : notices := mkNotices [] [] [].
(** lib.rs:34-42, middle/mod.rs:28-36, middle/analysis/mod.rs:32-43, typing/mod.rs:29-32: the same run as [oak] (Oak.v). *)
Definition oak_warnings rust_type rust_item return_type generics (fuel : nat) (ts : list tok) : wres notices :=
  match parse_grammar rust_type rust_item ts with
  | FErr => WOk no_notice
  | FLoop => WLoop
  | FOk fg =>
    wbind (middle fuel fuel fg) (fun r =>
    match r with
    | None => WOk no_notice
    | Some g =>
      wbind (chaining (shape g) fuel fuel) (fun w =>
      wbind (typing_warnings (env_of return_type generics g fuel) fuel (shape g)) (fun l =>
        WOk (mkNotices w (attr_warnings (f_attrs fg)) l)))
    end)
  end.

(** ---------------- facts ---------------- *)
Lemma middle_chaining fuel passes fg g : middle fuel passes fg = WOk (Some g) -> exists w, chaining (shape g) fuel fuel = WOk w.
Proof.
  unfold middle. destruct (f_rules fg); [discriminate|]. intros H. apply wbind_ok in H. destruct H as (r0 & A & H). destruct r0 as [g0| |]; try discriminate. apply WOk_inj' in H. injection H as <-.
  assert (SH : shape (extract_stream_type g0) = shape g0) by (unfold extract_stream_type; destruct (find_map stream_alias_of (a_items g0)); reflexivity). rewrite SH. clear SH.
  unfold analyse in A.
  assert (PV : forall X Y (p : partial X) (k : X -> wres (partial Y)) y, pand p k = WOk (Value y) -> exists x, k x = WOk (Value y)).
  { intros X Y p k y Q. destruct p as [x|x|]; cbn in Q; [exists x; exact Q| |discriminate]. apply wbind_ok in Q. destruct Q as ([b|b|] & _ & Q); discriminate. }
  apply PV in A. destruct A as (g1 & A). apply PV in A. destruct A as (g2 & A). apply wbind_ok in A. destruct A as (es & _ & A). apply wbind_ok in A. destruct A as (b & _ & A). destruct b; [|discriminate].
  apply wbind_ok in A. destruct A as (w & W & A). apply WOk_inj' in A. injection A as <-. exists w. exact W.
Qed.
Lemma rule_recs_ok T : forall rs, (forall rl, In rl rs -> rexpr rl < length T) -> forall r, exists r', rule_recs T rs r = WOk r'.
Proof.
  induction rs as [|rl rs IH]; intros L r; cbn [rule_recs]; [eexists; reflexivity|]. destruct (nth_error T (rexpr rl)) as [t|] eqn:Q; [|apply nth_error_None in Q; specialize (L rl (or_introl eq_refl)); lia].
  unfold tget. rewrite Q. cbn [wbind]. apply IH. intros rl' I0. apply L. right. exact I0.
Qed.
Lemma located_ok G : forall r, Forall (fun p => cycle_of (type_needs G) (snd p)) r -> exists l, located_paths G r = WOk l.
Proof.
  induction 1 as [|[k p] r (ND & id & q & Q & L) _ IH]; cbn [located_paths]; [eexists; reflexivity|]. cbn [snd] in Q. subst p.
  assert (F : exists rl, find_rule G id = Some rl).
  { destruct (rev q ++ [id]) as [|b l] eqn:Qq; [destruct (rev q); discriminate|]. cbn [linked] in L. destruct L as [(rl & j & F & _) _]. exists rl. exact F. }
  destruct F as (rl & ->). destruct IH as (l & ->). eexists. reflexivity.
Qed.
(** When the types are inferred, the warnings are about cycles. *)
Lemma typing_warned G E fuel G' : well_built G -> type_inference E fuel G = WOk (Some G') ->
  exists l, typing_warnings E fuel G = WOk l /\ Forall (cycle_of (type_needs (igrammar G))) l.
Proof.
  intros WB TI. unfold type_inference, infer_from in TI. apply wbind_ok in TI. destruct TI as (o & TI & _). apply wbind_ok in TI. destruct TI as (st & Q1 & _).
  unfold typing_warnings. rewrite Q1. cbn [wbind]. destruct (terr st); [exists []; split; [reflexivity|constructor]|].
  destruct (blank_inv E (ig_blank G E)) as [I0 _]. unfold surface in Q1.
  destruct (@surface_ok (igrammar G) E (ig_typable WB) (own G) (ig_owned WB) fuel (rules (igrammar G)) (mkT (itable G E) false) st (incl_refl _) I0 Q1) as (I1 & _).
  assert (C : cyclics (igrammar G) (tys st)).
  { refine (@surface_cycles (igrammar G) E _ fuel _ _ _ _ Q1).
    - intros i j t Ee. destruct (tg_asc (ig_typable WB) Ee) as [-> | [-> | (s & ->)]]; exact Logic.I.
    - cbn [tys]. unfold itable, cyclics. apply Forall_app. split; [|repeat constructor]. apply Forall_forall. intros t It. apply repeat_spec in It. subst t. exact Logic.I. }
  destruct (@rule_recs_ok (tys st) (rules (igrammar G)) ltac:(intros rl Irl; rewrite (iv_len I1); exact (tg_rules (ig_typable WB) Irl)) []) as (r & Er).
  pose proof (@rule_recs_cyclic (igrammar G) (tys st) C _ [] r ltac:(constructor) Er) as Cr.
  destruct (@located_ok (igrammar G) (only_poly r)) as (l & El).
  { unfold only_poly. cbn in Cr. rewrite Forall_forall in *. intros p Ip. apply filter_In in Ip. destruct Ip as [Ip _]. exact (Cr p Ip). }
  assert (RW : recursive_warnings (igrammar G) (tys st) = WOk l) by (unfold recursive_warnings; rewrite Er; exact El).
  exists l. split; [exact RW|]. exact (warnings_cyclic C RW).
Qed.

(** ---------------- read on the source ---------------- *)
(** The type of rule [a] needs that of rule [b]. *)
Definition refers (rs : list (string * tree)) (a b : string) : Prop := exists e, In (a, e) rs /\ needs rs e b.

Lemma pair_unique A (rs : list (string * A)) n e e' : NoDup (map fst rs) -> In (n, e) rs -> In (n, e') rs -> e = e'.
Proof.
  intros ND Ie Ie'. induction rs as [|q l IHl]; [destruct Ie|]. cbn [map] in ND. inversion ND as [|? ? NI ND']; subst.
  destruct Ie as [->|Ie], Ie' as [Q|Ie']; [congruence| | |auto]; exfalso; apply NI; [apply (in_map fst) in Ie'|subst q; apply (in_map fst) in Ie]; assumption.
Qed.
(** A type is finite: no rule it needs is on a cycle. *)
Lemma has_acc_both rs R : NoDup (map fst rs) ->
  (forall t y, has rs R t y -> forall id, needs rs t id -> Acc (fun b a => refers rs a b) id) /\
  (forall l ys, have rs R l ys -> forall t id, In t l -> needs rs t id -> Acc (fun b a => refers rs a b) id).
Proof.
  intros ND. apply has_mutind; try (intros; match goal with H : needs _ _ _ |- _ => inversion H; subst; eauto; congruence end).
  - intros p t y RC _ IH id NI. inversion NI as [id' t' RC' Q1 Q2| | | | | |]; subst. assert (t' = t) as -> by congruence. constructor. intros b (e & Ie & NE).
    apply IH. rewrite (pair_unique ND (called_rule RC) Ie). exact NE.
  - intros t id [].
  - intros t l y ys _ IH1 _ IH2 u id [<-|I0] NI; eauto.
Qed.
Lemma linked_next (R : string -> string -> Prop) z x : forall l, linked R (l ++ [z]) -> In x l -> exists b, In b (l ++ [z]) /\ R x b.
Proof.
  induction l as [|a l IH]; intros L I0; [destruct I0|]. cbn [app linked] in L. destruct (l ++ [z]) as [|b l'] eqn:Q; [destruct l; discriminate|]. destruct L as [L1 L2].
  cbn [app]. rewrite Q. destruct I0 as [->|I0]; [exists b; split; [right; left; reflexivity|exact L1]|]. destruct (IH L2 I0) as (c & Ic & Rc). exists c. split; [right; exact Ic|exact Rc].
Qed.
Lemma acc_leaves (R : string -> string -> Prop) (P : string -> Prop) : (forall a, P a -> exists b, P b /\ R a b) -> forall a, Acc (fun b a => R a b) a -> ~ P a.
Proof. intros N a A. induction A as [a _ IH]. intros Pa. destruct (N a Pa) as (b & Pb & Rb). exact (IH b Rb Pb). Qed.
Lemma cycle_has rs R p : NoDup (map fst rs) -> cycle_of (refers rs) p -> forall n e y, In n p -> In (n, e) rs -> ~ has rs R e y.
Proof.
  intros ND (_ & id & q & -> & L) n e y Ip Ie H.
  assert (NX : forall a, In a (id :: rev q) -> exists b, In b (id :: rev q) /\ refers rs a b).
  { intros a Ia. change (id :: rev q ++ [id]) with ((id :: rev q) ++ [id]) in L. destruct (linked_next L Ia) as (b & Ib & Rb). exists b. split; [|exact Rb].
    apply in_app_or in Ib. destruct Ib as [Ib|[<-|[]]]; [exact Ib|left; reflexivity]. }
  refine (acc_leaves NX (a := n) _ _).
  - constructor. intros b (e' & Ie' & NE). rewrite <- (pair_unique ND Ie Ie') in NE. exact (proj1 (has_acc_both R ND) e y H b NE).
  - destruct Ip as [->|Ip]; [left; reflexivity|]. right. apply -> in_rev. exact Ip.
Qed.

(** The rules of the arena and of the source. *)
Lemma needs_source rust_type rust_item ts fg g bs : reads rust_type -> reads rust_item -> parse_grammar rust_type rust_item ts = FOk fg -> middle_answers fg (Some g) -> rules_at (f_exprs fg) (f_rules fg) (block_rules bs) ->
  forall a b, type_needs (igrammar (shape g)) a b -> refers (block_rules bs) a b.
Proof.
  intros RT RI PA MA RA a b (rl & j & F & SP & Ej). destruct (find_rule_name F) as [RN Irl]. cbn [igrammar rules] in Irl.
  destruct (rule_source (source_stored PA MA RA) Irl) as (e & Ie & Se). rewrite RN in Ie. exists e. split; [exact Ie|].
  refine (spos_needs SP Ej _). refine (stored_ext _ Se). intros i e0 E0. rewrite ig_low; [exact E0|]. apply nth_error_Some. unfold expr_of in E0. congruence.
Qed.

(** The warnings of an expanded source, whatever the fuel beyond some: useless operators as in C35; the attributes other
    than the two known ones; and paths of distinct rules, each of which needs the type of the rule before it on the path
    and the first that of the last.  No rule on a path has a (finite) type. *)
Theorem C63_warnings : forall rust_type rust_item return_type generics, reads rust_type -> reads rust_item ->
  forall fuel ts m, oak rust_type rust_item return_type generics fuel ts = WOk (Some m) ->
  forall attrs bs, read_as rust_type rust_item ts attrs bs ->
  exists ns, (exists N, forall fuel', N <= fuel' -> oak_warnings rust_type rust_item return_type generics fuel' ts = WOk ns) /\
    (exists fg g, parse_grammar rust_type rust_item ts = FOk fg /\ middle_answers fg (Some g) /\ warns (shape g) (useless ns)) /\
    (forall a, In a (ignored ns) <-> In a attrs /\ a <> ["debug_typing"] /\ a <> ["show_typing"]) /\
    (forall p, In p (infinite ns) -> cycle_of (refers (block_rules bs)) p /\
       forall n e R y, In n p -> In (n, e) (block_rules bs) -> ~ has (block_rules bs) R e y).
Proof.
  intros rt ri rty gen RT RI fuel ts m H attrs bs RD. destruct (oak_inv H) as (fg & g & G' & PA & M & TI & C).
  pose proof RD as (_ & fg' & PA' & AT & _ & RA). assert (fg' = fg) as -> by congruence. pose proof (middle_settles M) as MA.
  pose proof (C38_well_built PA MA) as WB. destruct (middle_chaining M) as (w & CH). destruct (typing_warned WB TI) as (l & TW & CY).
  assert (CM : forall k k', fuel <= k -> fuel <= k' -> chaining (shape g) k k' = WOk w).
  { intros k k' L L'. rewrite <- CH. apply below_ok; [apply chaining_below; assumption|congruence]. }
  exists (mkNotices w (attr_warnings (f_attrs fg)) l). split; [|split; [|split]]; cbn [useless ignored infinite].
  - exists fuel. intros k L. unfold oak_warnings. rewrite PA. rewrite (@middle_more_fuel fuel k fuel k fg L L) by congruence. rewrite M. cbn [wbind]. rewrite (CM k k L L). cbn [wbind].
    assert (TW' : typing_warnings (env_of rty gen g k) k (shape g) = WOk l).
    { unfold typing_warnings in *. destruct (surface (igrammar (shape g)) (env_of rty gen g fuel) fuel (mkT (itable (shape g) (env_of rty gen g fuel)) false)) as [st| |] eqn:Q; try discriminate.
      pose proof (@surface_below (igrammar (shape g)) (env_of rty gen g fuel) (env_of rty gen g k) eq_refl eq_refl L fuel k (mkT (itable (shape g) (env_of rty gen g fuel)) false) L) as B.
      apply below_ok in B; [|congruence]. change (itable (shape g) (env_of rty gen g k)) with (itable (shape g) (env_of rty gen g fuel)). rewrite B, Q. exact TW. }
    rewrite TW'. reflexivity.
  - exists fg, g. split; [exact PA|]. split; [exact MA|]. exists fuel. exact CM.
  - intros a. rewrite <- AT. unfold attr_warnings. rewrite filter_In. unfold attr_known. split.
    + intros [I0 Q]. split; [exact I0|]. split; intros ->; discriminate Q.
    + intros (I0 & N1 & N2). split; [exact I0|]. destruct a as [|id [|? ?]]; try reflexivity. destruct (String.eqb_spec id "debug_typing") as [->|]; [congruence|]. destruct (String.eqb_spec id "show_typing") as [->|]; [congruence|reflexivity].
  - intros p Ip. rewrite Forall_forall in CY. destruct (CY p Ip) as (ND & id & q & Q & L).
    assert (CC : cycle_of (refers (block_rules bs)) p).
    { split; [exact ND|]. exists id, q. split; [exact Q|]. exact (linked_mono (needs_source RT RI PA MA RA) L). }
    split; [exact CC|]. intros n e R y In_ Ie. exact (cycle_has (R := R) (names_nodup PA MA RA) CC In_ Ie).
Qed.
(** When no rule needs its own type nothing is said of infinite types. *)
Theorem C63_quiet : forall rust_type rust_item return_type generics, reads rust_type -> reads rust_item ->
  forall fuel ts m, oak rust_type rust_item return_type generics fuel ts = WOk (Some m) ->
  forall attrs bs, read_as rust_type rust_item ts attrs bs -> unrecursive (block_rules bs) ->
  exists N, forall fuel', N <= fuel' -> exists ns, oak_warnings rust_type rust_item return_type generics fuel' ts = WOk ns /\ infinite ns = [].
Proof.
  intros rt ri rty gen RT RI fuel ts m H attrs bs RD (rk & UR). destruct (C63_warnings RT RI H RD) as (ns & (N & K) & _ & _ & W). exists N. intros k L. exists ns. split; [exact (K k L)|].
  destruct (infinite ns) as [|p l] eqn:Q; [reflexivity|]. exfalso. destruct (W p (or_introl eq_refl)) as [CC _]. refine (cycle_down (rk := rk) _ CC). intros a b (e & Ie & NE). exact (UR _ _ _ Ie NE).
Qed.
(** Attributes are ignored indeed, the known ones too (they only print): the expansion depends on what is read besides them. *)
Definition but_level (g g' : agrammar) : Prop := with_level g LNothing = with_level g' LNothing.
Definition same_partial (p p' : partial agrammar) : Prop :=
  match p, p' with Value g, Value g' | Fake g, Fake g' => but_level g g' | Nothing, Nothing => True | _, _ => False end.
Definition same_run (r r' : wres (partial agrammar)) : Prop :=
  match r, r' with WOk p, WOk p' => same_partial p p' | WPanic, WPanic | WLoop, WLoop => True | _, _ => False end.
Lemma pand_same A (p : partial A) (k k' : A -> wres (partial agrammar)) : (forall a, same_run (k a) (k' a)) -> same_run (pand p k) (pand p k').
Proof.
  intros K. destruct p as [a|a|]; cbn [pand]; [apply K| |exact Logic.I]. specialize (K a). destruct (k a) as [[g|g|]| |], (k' a) as [[g'|g'|]| |]; cbn in *; auto; destruct K.
Qed.
Lemma wbind_same A (r : wres A) (k k' : A -> wres (partial agrammar)) : (forall a, same_run (k a) (k' a)) -> same_run (wbind r k) (wbind r k').
Proof. intros K. destruct r; cbn; auto. Qed.
Theorem C63_attributes : forall rust_type rust_item return_type generics fuel ts ts' fg fg',
  parse_grammar rust_type rust_item ts = FOk fg -> parse_grammar rust_type rust_item ts' = FOk fg' ->
  f_rules fg = f_rules fg' -> f_exprs fg = f_exprs fg' -> f_items fg = f_items fg' ->
  oak rust_type rust_item return_type generics fuel ts = oak rust_type rust_item return_type generics fuel ts'.
Proof.
  intros rt ri rty gen fuel ts ts' fg fg' P P' Q1 Q2 Q3. unfold oak. rewrite P, P'. unfold middle. rewrite <- Q1. destruct (f_rules fg) as [|r0 rs0] eqn:Qr; [reflexivity|].
  assert (SR : same_run (analyse fuel fuel fg) (analyse fuel fuel fg')).
  { unfold analyse. rewrite <- Q1, <- Q2, <- Q3, Qr. apply pand_same. intros g. apply pand_same. intros g1. apply wbind_same. intros es. apply wbind_same. intros b. destruct b; [|exact Logic.I].
    apply wbind_same. intros w. reflexivity. }
  destruct (analyse fuel fuel fg) as [p| |], (analyse fuel fuel fg') as [p'| |]; cbn in SR; try contradiction; try reflexivity. cbn [wbind].
  destruct p as [g|g|], p' as [g'|g'|]; cbn in SR; try contradiction; try reflexivity.
  assert (EX : but_level (extract_stream_type g) (extract_stream_type g')).
  { destruct g, g'. unfold but_level, with_level in *. cbn in SR. injection SR; intros; subst. unfold extract_stream_type. cbn [a_items]. destruct (find_map stream_alias_of a_items0); reflexivity. }
  generalize dependent (extract_stream_type g). intros h. generalize (extract_stream_type g'). intros h' EX.
  destruct h, h'. unfold but_level, with_level in EX. cbn in EX. injection EX; intros; subst. reflexivity.
Qed.

(** ---------------- concrete cases ---------------- *)
Local Notation toy_oak := (oak toy_type toy_item toy_return toy_generics 100).
Local Notation toy_warnings := (oak_warnings toy_type toy_item toy_return toy_generics).
Definition plain_rule (n : string) (t : tree) : list (list string) * source := ([], SRule n None t).
Definition next_rule (n m : string) : list (list string) * source := plain_rule n (XSeq [XAny; XOpt (XCall [m])]).
(** [#![inline] a = . b?;  #![show_typing] b = . c?;  c = . a?]. *)
Definition round_source : list (list (list string) * source) :=
  [([["inline"]], snd (next_rule "a" "b")); ([["show_typing"]], snd (next_rule "b" "c")); next_rule "c" "a"].
(** [r = . r?]. *)
Definition alone_source : list (list (list string) * source) := [next_rule "r" "r"].
Lemma next_canon at_ n m : Forall (fun p : list string => p <> []) at_ -> canon_block toy_type toy_item toy_toks (at_, snd (next_rule n m)).
Proof. intros A. split; [exact A|]. cbn. repeat split; try discriminate; try lia. Qed.
Local Notation blocks l := (map (fun q => meaning (snd q)) l).
Lemma next_read l : Forall (canon_block toy_type toy_item toy_toks) l -> read_as toy_type toy_item (print_grammar toy_toks l) (flat_map fst l) (blocks l).
Proof. intros C. exact (C38_canonical_read (rust_type := toy_type) (rust_item := toy_item) (ty_toks := toy_toks) (fun r => eq_refl) C). Qed.
(** A warning is emitted; the path is shown backwards: [a -> c -> b -> a], although [a] calls [b], [b] calls [c] and
    [c] calls [a]. *)
Example C63_case : (exists m, toy_oak (print_grammar toy_toks round_source) = WOk (Some m)) /\
  read_as toy_type toy_item (print_grammar toy_toks round_source) [["inline"]; ["show_typing"]] (blocks round_source) /\
  toy_warnings 100 (print_grammar toy_toks round_source) = WOk (mkNotices [] [["inline"]] [["a"; "c"; "b"]]) /\
  display_cycle ["a"; "c"; "b"] = "a -> c -> b -> a" /\ ~ refers (block_rules (blocks round_source)) "a" "c".
Proof.
  split; [eexists; vm_compute; reflexivity|]. split; [|split; [|split]].
  - apply (@next_read round_source). repeat (constructor; [apply next_canon; repeat constructor; discriminate|]). constructor.
  - vm_compute. reflexivity.
  - reflexivity.
  - intros (e & I0 & NE). vm_compute in I0. destruct I0 as [Q|[Q|[Q|[]]]]; try discriminate Q. injection Q as <-.
    repeat match goal with H : In _ (_ :: _) |- _ => destruct H as [<-|H] | H : In _ [] |- _ => destruct H | H : needs _ _ _ |- _ => inversion H; clear H; subst end.
Qed.
(** A rule that needs its own type is not always told: [r = . r?] has no type, nothing is said, and its parser returns [()]. *)
Theorem C63_silent_refuted : exists l m, toy_oak (print_grammar toy_toks l) = WOk (Some m) /\
  read_as toy_type toy_item (print_grammar toy_toks l) [] (blocks l) /\
  cycle_of (refers (block_rules (blocks l))) ["r"] /\ toy_warnings 100 (print_grammar toy_toks l) = WOk no_notice /\
  exists sg f, In (MParser "r" sg f) m /\ sg_value sg = RTUnit.
Proof.
  assert (O : exists m, toy_oak (print_grammar toy_toks alone_source) = WOk (Some m) /\ exists sg f, In (MParser "r" sg f) m /\ sg_value sg = RTUnit).
  { eexists. split; [vm_compute; reflexivity|]. eexists _, _. split; [right; right; left; reflexivity|reflexivity]. }
  destruct O as (m & O & P). exists alone_source, m. split; [exact O|]. split; [|split; [|split; [vm_compute; reflexivity|exact P]]].
  - apply (@next_read alone_source). constructor; [apply next_canon; constructor|constructor].
  - split; [constructor; [intros []|constructor]|]. exists "r", []. split; [reflexivity|]. cbn. split; [|exact Logic.I]. exists (XSeq [XAny; XOpt (XCall ["r"])]). split; [left; reflexivity|].
    refine (nd_seq (t := XOpt (XCall ["r"])) _ _); [right; left; reflexivity|]. constructor. refine (nd_call (t := XSeq [XAny; XOpt (XCall ["r"])]) _). reflexivity.
Qed.

Print Assumptions C63_warnings.
Print Assumptions C63_quiet.
Print Assumptions C63_attributes.
Print Assumptions C63_case.
Print Assumptions C63_silent_refuted.
