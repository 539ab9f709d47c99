(** Property theorem on the signatures of the parsers, read on the source (C62).

    - [has] (TypeSpec.v): the types of expressions; [written] (PropertiesTypes.v): how they are written in Rust;
    - [source_facts] (PropertiesTypes.v): the types of functions, spans and ranges of a source. *)
From Coq Require Import Ascii.
From Verif Require Import Base Utf8 Stream ParseState RuntimeFacts Grammar PegSpec Target Compile TargetFacts ScopeFacts
  CompileShape EvalRules CompileCorrect ScopeGen GenTotal PegFacts Running WellFormed WfFacts WfSound WfSyntax WfTerm WfFuel PegRun Behave Values CharClass
  Analysis AnalysisFacts PropertiesWf PropertiesPeg PropertiesAnalysis Typing TypeRules SurfaceFacts RefFacts DepthFacts TypingSound TypingFit TypingAnswer GenAgree TypingTop TypingVerdict
  PropertiesTyping SumGrammar Front FrontFacts FrontSpec FrontSound FrontRound FrontGrammar PropertiesFront Agree TreeSpec TreeFacts Literals Pipeline MiddleFuel PropertiesMain RType Oak OakFacts PropertiesOak PropertiesRustc PropertiesModule
  TreeWf PropertiesVerdict TreeValues TreeEp PropertiesSource TreeKinds KindFacts KindTrees TreeNames FrontPrint PropertiesParsers PropertiesScope
  TypeSpec TypeDen TypeSurface TypeDepth TypeExact PropertiesTypes.
Set Implicit Arguments. Unset Strict Implicit.
Open Scope string_scope. Open Scope nat_scope. Open Scope list_scope.

(** When no rule needs its own type: every rule has its parser, and what the signature of a parser says it returns is the
    type of the rule, written in Rust.  It is known ([foreign_in] does not hold of it). *)
Theorem C62_signatures : forall rust_type rust_item return_type generics, reads rust_type -> reads rust_item ->
  forall fuel ts m, oak rust_type rust_item return_type generics fuel ts = WOk (Some m) ->
  forall attrs bs, read_as rust_type rust_item ts attrs bs -> unrecursive (block_rules bs) ->
  (forall n e, In (n, e) (block_rules bs) -> exists sg f, In (MParser n sg f) m) /\
  (forall n sg f, In (MParser n sg f) m -> exists e y, In (n, e) (block_rules bs) /\
     has (block_rules bs) (source_facts return_type generics bs) e y /\ ~ foreign_in y /\ sg_value sg = written y).
Proof.
  intros rt ri rty gen RT RI fuel ts m H attrs bs RD UR.
  destruct (source_facts_env RT RI H RD) as (fg & g & G' & PA & MA & RA & TY & C & RE).
  destruct (inference_exact PA MA RA UR TY) as [[Q _]|[(G2 & Q & K) W]]; [discriminate|]. injection Q as <-.
  assert (RG : rules G' = rules (shape g)) by (destruct (typed_form TY) as (us & ->); reflexivity). destruct (content_parsers C) as [P1 P2]. split.
  - intros n e In_. destruct (rule_tree PA MA RA In_) as (rl & F & S0). destruct (find_rule_in F) as [Irl RN].
    destruct (P2 rl ltac:(rewrite RG; exact Irl)) as (sg & f & I0 & _). rewrite RN in I0. exists sg, f. exact I0.
  - intros n sg f I0. destruct (P1 n sg f I0) as (rl & Irl & RN & _ & PV). rewrite RG in Irl.
    destruct (rule_source (source_stored PA MA RA) Irl) as (e & Ie & Se). destruct (K rl e (sg_value sg) Irl Se PV) as (y & HY & WR). exists e, y. rewrite RN in Ie. split; [exact Ie|].
    split; [exact (has_ext RE HY)|]. split; [|exact WR]. destruct (W _ e Ie) as [(y' & HY' & N) _]. rewrite (has_det HY HY'). exact N.
Qed.

(** [r = $ .+ "a" (. >> f)?] with [fn f(..) -> u32]: the type of the span, a list and an option. *)
Definition shown_tree : tree := XSeq [XSpan (XPlus XAny); strs 97%N; XOpt (XAct XAny true ["f"])].
Lemma shown_needs rs id : ~ needs rs shown_tree id.
Proof.
  intros H. unfold shown_tree, strs in H.
  repeat match goal with H : In _ (_ :: _) |- _ => destruct H as [<-|H] | H : In _ [] |- _ => destruct H | H : needs _ _ _ |- _ => inversion H; clear H; subst end.
Qed.
Local Notation toy_oak := (oak toy_type toy_item toy_return toy_generics 100).
Local Notation shown_blocks := (map (fun q => meaning (snd q)) (one_rule shown_tree)).
Definition shown_type : vtype := YTup [YRust "<Range<Stream> as StreamSpan>::Output"; YList YChar; YOpt (YRust "Box<u32>")].
Example C62_case : exists m, toy_oak (print_grammar toy_toks (one_rule shown_tree)) = WOk (Some m) /\
  read_as toy_type toy_item (print_grammar toy_toks (one_rule shown_tree)) [] shown_blocks /\ unrecursive (block_rules shown_blocks) /\
  has (block_rules shown_blocks) (source_facts toy_return toy_generics shown_blocks) shown_tree shown_type /\
  exists sg f, In (MParser "r" sg f) m /\ sg_value sg = RTTuple [RTRust "<Range<Stream> as StreamSpan>::Output"; RTVec RTChar; RTOption (RTRust "Box<u32>")].
Proof.
  assert (C : canon_block toy_type toy_item toy_toks ([], SRule "r" None shown_tree)) by (split; [constructor|cbn; repeat split; try discriminate; try lia]).
  pose proof (C38_canonical_read (rust_type := toy_type) (rust_item := toy_item) (ty_toks := toy_toks) (fun r => eq_refl) (one_canon C)) as RD.
  assert (O : exists m, toy_oak (print_grammar toy_toks (one_rule shown_tree)) = WOk (Some m)) by (eexists; vm_compute; reflexivity).
  assert (UR : unrecursive (block_rules shown_blocks)).
  { exists (fun _ => 0). intros n e id [Q|[]] ND; injection Q as <- <-. destruct (shown_needs ND). }
  assert (HS : has (block_rules shown_blocks) (source_facts toy_return toy_generics shown_blocks) shown_tree shown_type).
  { refine (ha_seq (ys := [YTup [YRust "<Range<Stream> as StreamSpan>::Output"; YList YChar]; YInv; YOpt (YRust "Box<u32>")]) _). constructor; [|constructor; [constructor|constructor; [|constructor]]].
    - refine (ha_span (ret := source_facts toy_return toy_generics shown_blocks) (y := YList YChar) _). refine (ha_plus (y := YChar) _). constructor.
    - refine (ha_opt (y := YRust "Box<u32>") _). refine (ha_act _ (source_facts toy_return toy_generics shown_blocks) XAny true ["f"]). }
  destruct O as (m & O). exists m. split; [exact O|]. split; [exact RD|]. split; [exact UR|]. split; [exact HS|].
  destruct (C62_signatures (proj1 toy_reads) (proj2 toy_reads) O RD UR) as [A B]. destruct (A "r" shown_tree (or_introl eq_refl)) as (sg & f & I0). exists sg, f. split; [exact I0|].
  destruct (B "r" sg f I0) as (e & y & [Q|[]] & HY & _ & ->). injection Q as <-. rewrite (has_det HY HS). reflexivity.
Qed.

Print Assumptions C62_signatures.
Print Assumptions C62_case.
