(** Property theorems about the whole compiler (C45): from the tokens given to the macro to what the functions
    of the generated module do.

    - [d_grammar] (FrontSpec.v): the documented syntax; [tmatches] (TreeSpec.v): Ford's semantics on its trees;
    - [expands]: the macro accepts the tokens ([lib.rs:36-42]: parse, [middle::typecheck], then generate);
    - [returns], [succeeded] (Running.v, Behave.v): a call of [recognize_n] / [parse_n] on a fresh state over a text;
    - [outside]: the text is a Rust string; functions outside of the grammar behave as [X] says, return and consume. *)
From Coq Require Import Ascii Permutation.
From Verif Require Import Base Utf8 Stream ParseState RuntimeFacts Grammar PegSpec Target Compile TargetFacts ScopeFacts
  CompileShape EvalRules CompileCorrect ScopeGen GenTotal PegFacts Running WellFormed WfFacts WfSound WfSyntax WfTerm WfFuel PegRun Behave Values CharClass
  Analysis AnalysisFacts PropertiesWf PropertiesPeg PropertiesAnalysis Typing TypeRules SurfaceFacts RefFacts DepthFacts TypingSound TypingFit GenAgree TypingTop TypingVerdict
  PropertiesTyping SumGrammar Front FrontFacts FrontSpec FrontSound FrontRound FrontGrammar PropertiesFront Agree TreeSpec TreeFacts Literals Pipeline.
Set Implicit Arguments. Unset Strict Implicit.
Open Scope string_scope. Open Scope nat_scope. Open Scope list_scope.

(** The text and the functions outside of the grammar. *)
Record outside (X : extern) xf (t : text) : Prop := {
  ou_text : scalars t;
  ou_ext : ext_ok X xf t;
  ou_sane : ext_sane X;
  ou_consume : ext_consuming (ford_ext X)
}.

Section Statements.
Variables (rust_type : list tok -> option (string * list tok)) (rust_item : list tok -> option (rust_item * list tok)).

(** The macro accepts [ts]: [g] is the analysed grammar, [G'] the typed one, from which the code is generated. *)
Definition expands (E : tenv) (ts : list tok) (g : agrammar) (G' : grammar) : Prop :=
  exists fg fuel, parse_grammar rust_type rust_item ts = FOk fg /\ middle_answers fg (Some g) /\ type_inference E fuel (shape g) = WOk (Some G').
Hypothesis RT : reads rust_type.
Hypothesis RI : reads rust_item.

(** What a run tells about a rule [e] of the source [rs]. *)
Definition as_specified (rs : list (string * tree)) (X : extern) (e : tree) (t : text) (st : pst) : Prop :=
  (forall rest, succeeded t st rest <-> tmatches rs (ford_ext X) (TE e) t (Some rest)) /\
  (is_failed st = true <-> tmatches rs (ford_ext X) (TE e) t None) /\
  into_result st <> Panic.

(** The reading of the tokens in the documented syntax that the parser delivers. *)
Definition read_as (ts : list tok) (attrs : list (list string)) (bs : list block) : Prop :=
  d_grammar rust_type rust_item ts attrs bs /\
  exists fg, parse_grammar rust_type rust_item ts = FOk fg /\ f_attrs fg = attrs /\ f_items fg = block_items bs /\ rules_at (f_exprs fg) (f_rules fg) (block_rules bs).
Theorem C38_read : forall ts fg, parse_grammar rust_type rust_item ts = FOk fg -> exists attrs bs, read_as ts attrs bs.
Proof. intros ts fg P. destruct (C38_accepted_is_documented RT RI P) as (bs & D & I0 & RA). exists (f_attrs fg), bs. split; [exact D|]. exists fg. auto. Qed.

(** ---------------- recognizers: no condition ---------------- *)
Theorem C45_recognizers_read : forall E ts g G', expands E ts g G' -> toks_strs scalars ts ->
  forall attrs bs, read_as ts attrs bs -> NoDup (map fst (block_rules bs)) /\
  forall X xf t, outside X xf t -> forall n e, In (n, e) (block_rules bs) ->
    exists st, returns G' xf Rec n t st [] /\ as_specified (block_rules bs) X e t st.
Proof.
  intros E ts g G' (fg & fuel & PA & MA & TY) LT attrs bs (D & fg' & PA' & _ & _ & RA). assert (fg' = fg) as -> by congruence.
  pose proof (grammar_strs D LT) as LIT. split; [exact (names_nodup PA MA RA)|].
  intros X xf t [TX XO XS XC] n e In_. pose proof (module_ready PA MA TY RA LIT TX XO XS XC) as HR.
  destruct (rule_tree PA MA RA In_) as (rl & F & S0). pose proof (root_low (C38_well_built PA MA) (proj1 (find_rule_in F))) as L.
  assert (F' : find_rule G' n = Some rl) by (rewrite (found_rule_typed PA MA TY); exact F).
  destruct (run_total HR (m := Rec) I F') as (r & evs & st & _ & R & _). rewrite (recognizer_log HR F' R) in R. exists st. split; [exact R|].
  destruct (typed_shape PA MA TY) as (out & Q & _). destruct (C07_into_result HR (m := Rec) I F' R) as (_ & _ & _ & NP).
  assert (M : forall q, matches G' (ford_ext X) (IE (rexpr rl)) t q <-> tmatches (block_rules bs) (ford_ext X) (TE e) t q)
    by (intros q; rewrite Q; exact (tail_matches PA MA RA X (ESpan 0) out t q L S0)).
  split; [|split; [|exact NP]].
  - intros rest. rewrite (success_iff HR (m := Rec) I F' R rest). apply M.
  - rewrite (failure_iff HR (m := Rec) I F' R). apply M.
Qed.
Theorem C45_recognizers : forall E ts g G', expands E ts g G' -> toks_strs scalars ts ->
  exists attrs bs, d_grammar rust_type rust_item ts attrs bs /\ NoDup (map fst (block_rules bs)) /\
  forall X xf t, outside X xf t -> forall n e, In (n, e) (block_rules bs) ->
    exists st, returns G' xf Rec n t st [] /\ as_specified (block_rules bs) X e t st.
Proof.
  intros E ts g G' EX LT. pose proof EX as (fg & fuel & PA & _). destruct (C38_read PA) as (attrs & bs & RD). exists attrs, bs. split; [exact (proj1 RD)|]. exact (C45_recognizers_read EX LT RD).
Qed.

(** The same for a grammar written out from its trees (FrontGrammar.v). *)
Theorem C45_printed : forall ty_toks, (forall r, rust_type (TPunct ":"%char false :: r) = None) ->
  forall l, Forall (canon_block rust_type rust_item ty_toks) l ->
  let rs := block_rules (map (fun q => meaning (snd q)) l) in
  Forall (fun q => tree_strs scalars (snd q)) rs ->
  forall E g G', expands E (print_grammar ty_toks l) g G' ->
  forall X xf t, outside X xf t -> forall n e, In (n, e) rs ->
    exists st, returns G' xf Rec n t st [] /\ as_specified rs X e t st.
Proof.
  intros ty_toks NC l C rs LIT E g G' (fg & fuel & PA & MA & TY) X xf t [TX XO XS XC] n e In_.
  destruct (C38_round_trip NC C) as (fg' & PA' & _ & _ & RA). assert (fg' = fg) as -> by congruence. fold rs in RA.
  pose proof (module_ready PA MA TY RA LIT TX XO XS XC) as HR.
  destruct (rule_tree PA MA RA In_) as (rl & F & S0). pose proof (root_low (C38_well_built PA MA) (proj1 (find_rule_in F))) as L.
  assert (F' : find_rule G' n = Some rl) by (rewrite (found_rule_typed PA MA TY); exact F).
  destruct (run_total HR (m := Rec) I F') as (r & evs & st & _ & R & _). rewrite (recognizer_log HR F' R) in R. exists st. split; [exact R|].
  destruct (typed_shape PA MA TY) as (out & Q & _). destruct (C07_into_result HR (m := Rec) I F' R) as (_ & _ & _ & NP).
  assert (M : forall q, matches G' (ford_ext X) (IE (rexpr rl)) t q <-> tmatches rs (ford_ext X) (TE e) t q)
    by (intros q; rewrite Q; exact (tail_matches PA MA RA X (ESpan 0) out t q L S0)).
  split; [|split; [|exact NP]].
  - intros rest. rewrite (success_iff HR (m := Rec) I F' R rest). apply M.
  - rewrite (failure_iff HR (m := Rec) I F' R). apply M.
Qed.

(** ---------------- parsers ---------------- *)
(** Missing: the cases in which the generated parsers do not exist or do not compile (C28, C29). *)
Theorem C45_parsers_read_partial : forall E ts g G', expands E ts g G' -> toks_strs scalars ts ->
  forall rk self bad, layered (shape g) rk self bad ->
  rec_ok (shape g) G' self bad ->
  (forall i l j us s, expr_of G' i = Some (EAlt l) -> In j l -> ty_of G' i = Some (TTuple us) -> ty_of G' j <> Some (TRust s)) ->
  (forall rl f, In rl (rules G') -> gen_rule G' Par rl = COk f -> no_unbound_name f) ->
  forall attrs bs, read_as ts attrs bs -> NoDup (map fst (block_rules bs)) /\
  forall X xf t, outside X xf t -> forall n e, In (n, e) (block_rules bs) ->
    exists rl st log, find_rule G' n = Some rl /\ returns G' xf Par n t st log /\ as_specified (block_rules bs) X e t st /\
      exists r evs, ep G' X (off t) Par (IE (rexpr rl)) t r evs /\ log = action_trace evs /\
        data st = match r with Some (_, vs) => Some (tup vs) | None => None end /\ is_failed st = match r with Some _ => false | None => true end.
Proof.
  intros E ts g G' (fg & fuel & PA & MA & TY) LT rk self bad HL HU HR0 HN attrs bs (D & fg' & PA' & _ & _ & RA). assert (fg' = fg) as -> by congruence.
  pose proof (grammar_strs D LT) as LIT. split; [exact (names_nodup PA MA RA)|].
  destruct (typed_shape PA MA TY) as (out & Q & LO). pose proof (C38_well_built PA MA) as WB.
  destruct (typed_coherent WB TY HL HU HR0) as (_ & COH & AG & _).
  assert (MO : mode_ok (plug (shape g) G') Par).
  { split; [exact COH|]. intros rl f I1 GP. apply (HN rl f); [rewrite Q in I1 |- *; exact I1|]. rewrite (AG Par rl); [exact GP|]. rewrite Q in I1. exact I1. }
  intros X xf t [TX XO XS XC] n e In_. pose proof (plug_ready PA MA TY RA LIT TX XO XS XC) as HR.
  destruct (rule_tree PA MA RA In_) as (rl & F & S0). pose proof (root_low WB (proj1 (find_rule_in F))) as L.
  assert (F' : find_rule (plug (shape g) G') n = Some rl) by (rewrite Q; exact F).
  destruct (run_total HR (m := Par) MO F') as (r0 & evs0 & st & _ & R & _). exists rl, st, (acts evs0).
  split; [rewrite Q; exact F|]. split; [apply (same_run PA MA TY xf t); exact R|].
  assert (M : forall q, matches (plug (shape g) G') (ford_ext X) (IE (rexpr rl)) t q <-> tmatches (block_rules bs) (ford_ext X) (TE e) t q)
    by (intros q; rewrite Q; exact (tail_matches PA MA RA X EAny out t q L S0)).
  destruct (C07_into_result HR (m := Par) MO F' R) as (_ & _ & _ & NP).
  split; [split; [|split; [|exact NP]]|].
  - intros rest. rewrite (success_iff HR (m := Par) MO F' R rest). apply M.
  - rewrite (failure_iff HR (m := Par) MO F' R). apply M.
  - destruct (run_outcome HR (m := Par) MO F' R) as (r & evs & EP & LG & _ & _ & K). exists r, evs. split; [|split; [exact LG|]].
    + rewrite Q in EP |- *. unfold plug in EP. cbn [rules exprs types] in EP.
      refine (@ep_agree (rules (shape g)) (exprs (shape g) ++ [EAny]) (exprs (shape g) ++ [ESpan 0]) out out (length (exprs (shape g))) _ _ (root_low WB) _ _ _ _ _ _ _ _ EP L).
      * intros i Li. rewrite !nth_error_app1 by exact Li. reflexivity.
      * intros i e0 Li Ei. rewrite nth_error_app1 in Ei by exact Li. exact (wb_children WB Ei).
      * reflexivity.
    + destruct r as [[rest vs]|]; [|destruct K as [K1 K2]; auto]. destruct K as (_ & SC & DA). split; [exact DA|]. destruct SC as [SC _]. unfold is_successful in SC. apply negb_true_iff in SC. exact SC.
Qed.
Theorem C45_parsers_partial : forall E ts g G', expands E ts g G' -> toks_strs scalars ts ->
  forall rk self bad, layered (shape g) rk self bad ->
  rec_ok (shape g) G' self bad ->
  (forall i l j us s, expr_of G' i = Some (EAlt l) -> In j l -> ty_of G' i = Some (TTuple us) -> ty_of G' j <> Some (TRust s)) ->
  (forall rl f, In rl (rules G') -> gen_rule G' Par rl = COk f -> no_unbound_name f) ->
  exists attrs bs, d_grammar rust_type rust_item ts attrs bs /\ NoDup (map fst (block_rules bs)) /\
  forall X xf t, outside X xf t -> forall n e, In (n, e) (block_rules bs) ->
    exists rl st log, find_rule G' n = Some rl /\ returns G' xf Par n t st log /\ as_specified (block_rules bs) X e t st /\
      exists r evs, ep G' X (off t) Par (IE (rexpr rl)) t r evs /\ log = action_trace evs /\
        data st = match r with Some (_, vs) => Some (tup vs) | None => None end /\ is_failed st = match r with Some _ => false | None => true end.
Proof.
  intros E ts g G' EX LT rk self bad HL HU HR0 HN. pose proof EX as (fg & fuel & PA & _). destruct (C38_read PA) as (attrs & bs & RD). exists attrs, bs. split; [exact (proj1 RD)|].
  exact (C45_parsers_read_partial EX LT HL HU HR0 HN RD).
Qed.

(** ---------------- one outcome ---------------- *)
(** The specification gives each rule of an accepted grammar exactly one outcome on each text. *)
Theorem C45_one_outcome : forall E ts g G', expands E ts g G' -> toks_strs scalars ts ->
  exists attrs bs, d_grammar rust_type rust_item ts attrs bs /\
  forall X xf t, outside X xf t -> forall n e, In (n, e) (block_rules bs) ->
    exists r, forall q, tmatches (block_rules bs) (ford_ext X) (TE e) t q <-> q = r.
Proof.
  intros E ts g G' (fg & fuel & PA & MA & TY) LT. destruct (C38_accepted_is_documented RT RI PA) as (bs & D & _ & RA). exists (f_attrs fg), bs.
  split; [exact D|]. pose proof (grammar_strs D LT) as LIT.
  intros X xf t [TX XO XS XC] n e In_. pose proof (module_ready PA MA TY RA LIT TX XO XS XC) as HR.
  destruct (rule_tree PA MA RA In_) as (rl & F & S0). pose proof (root_low (C38_well_built PA MA) (proj1 (find_rule_in F))) as L.
  assert (F' : find_rule G' n = Some rl) by (rewrite (found_rule_typed PA MA TY); exact F).
  destruct (typed_shape PA MA TY) as (out & Q & _).
  assert (M : forall q, matches G' (ford_ext X) (IE (rexpr rl)) t q <-> tmatches (block_rules bs) (ford_ext X) (TE e) t q)
    by (intros q; rewrite Q; exact (tail_matches PA MA RA X (ESpan 0) out t q L S0)).
  destruct (ford_total HR t (in_rules_rule F')) as (r & Mr). exists r. intros q. rewrite <- M. split; [intros Mq; exact (matches_det XS Mq Mr)|intros ->; exact Mr].
Qed.
End Statements.

(** ---------------- acceptance by the middle end, from its parts ---------------- *)
Theorem C45_middle_accepts : forall fg es', parsed fg -> f_rules fg <> [] -> NoDup (map rname (f_rules fg)) -> NoDup (fn_names fg) ->
  resolve (length (f_exprs fg)) (f_rules fg) (f_exprs fg) = WOk es' -> accepted (mkG (f_rules fg) es' []) ->
  exists g, middle_answers fg (Some g) /\ shape g = mkG (f_rules fg) es' [].
Proof.
  intros fg es' P NE ND NF RE AC. destruct (C43_analysis_verdict P) as (r & N & R & V). destruct r as [g|].
  - exists g. split; [exists N; exact R|]. destruct V as (_ & _ & _ & V1 & V2 & _). unfold shape. rewrite V1. f_equal. congruence.
  - exfalso. destruct V as [V|[V|[V|(es0 & E0 & B)]]]; [exact (NE V)|exact (V ND)|exact (V NF)|]. assert (es0 = es') as -> by congruence.
    discriminate (C24_one_verdict B AC).
Qed.

(** ---------------- a concrete case ---------------- *)
(** [sum = num ("+" num)*    num: (u32) = ["0-9"]+ > number    fn number() {}] *)
Definition sum_source : list (list (list string) * source) :=
  [ ([], SRule "sum" None (XSeq [XCall ["num"]; XStar (XSeq [XStr [43%N]; XCall ["num"]])]));
    ([["show_typing"]], SRule "num" None (XAct (XPlus (XClass false [Interval 48%N 57%N] false)) false ["number"]));
    ([], SItem [TKw "fn"; TId "number"; TGroup Paren []; TGroup Brace []] (RFn "number" "")) ].
Example sum_source_canon : Forall (canon_block toy_type toy_item toy_toks) sum_source.
Proof.
  unfold sum_source. constructor; [split; [constructor|]|constructor; [split; [constructor; [discriminate|constructor]|]|constructor; [split; [constructor|]|constructor]]]; cbn.
  - repeat split; try discriminate; lia.
  - split; [discriminate|]. split; [constructor; [split; discriminate|constructor]|discriminate].
  - split; [intros r; reflexivity|]. exists "fn", [TId "number"; TGroup Paren []; TGroup Brace []]. split; reflexivity.
Qed.
Example sum_expands : exists g G', expands toy_type toy_item E0 (print_grammar toy_toks sum_source) g G' /\ length (rules G') = 2
  /\ toks_strs scalars (print_grammar toy_toks sum_source).
Proof.
  destruct (parse_grammar toy_type toy_item (print_grammar toy_toks sum_source)) as [fg| |] eqn:P; try (vm_compute in P; discriminate).
  pose proof (C38_parsed P) as PD. assert (Q : f_rules fg <> [] /\ NoDup (map rname (f_rules fg)) /\ NoDup (fn_names fg) /\
    exists es', resolve (length (f_exprs fg)) (f_rules fg) (f_exprs fg) = WOk es' /\ accepted (mkG (f_rules fg) es' []) /\
    exists G', type_inference E0 50 (mkG (f_rules fg) es' []) = WOk (Some G') /\ length (rules G') = 2).
  { clear PD. vm_compute in P. injection P as <-. cbn [f_rules f_exprs]. split; [discriminate|]. split; [apply nodupb_ok; reflexivity|].
    split; [apply nodupb_ok; reflexivity|]. eexists. split; [vm_compute; reflexivity|]. split; [exists 50, 20; vm_compute; reflexivity|].
    eexists. split; [vm_compute; reflexivity|reflexivity]. }
  destruct Q as (Q1 & Q2 & Q3 & es' & Q4 & Q5 & G' & Q6 & Q7). destruct (C45_middle_accepts PD Q1 Q2 Q3 Q4 Q5) as (g & MA & SH).
  exists g, G'. split; [exists fg, 50; split; [exact P|]; split; [exact MA|]; rewrite SH; exact Q6|]. split; [exact Q7|].
  repeat constructor.
Qed.

Print Assumptions C38_read.
Print Assumptions C45_recognizers_read.
Print Assumptions C45_parsers_read_partial.
Print Assumptions C45_recognizers.
Print Assumptions C45_printed.
Print Assumptions C45_parsers_partial.
Print Assumptions C45_one_outcome.
Print Assumptions C45_middle_accepts.
