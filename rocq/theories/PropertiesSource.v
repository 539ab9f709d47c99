(** Property theorems on the meaning of the source (C56): what the functions of the generated module report and return, from
    the syntax trees alone.

    - [tep] (TreeValues.v): the semantics of the documented syntax with values, actions and failures of terminals;
    - [error_trace] (Behave.v): the failures of a run as (byte offset, message); [farthest_of], [messages_at] (ParseState.v):
      their largest offset and the messages there. *)
From Coq Require Import Ascii Permutation.
From Verif Require Import Base Utf8 Stream ParseState RuntimeFacts Grammar PegSpec Target Compile TargetFacts ScopeFacts
  CompileShape EvalRules CompileCorrect ScopeGen GenTotal PegFacts Running WellFormed WfFacts WfSound WfSyntax WfTerm WfFuel PegRun Behave Values CharClass
  Analysis AnalysisFacts PropertiesWf PropertiesPeg PropertiesAnalysis Typing TypeRules SurfaceFacts RefFacts DepthFacts TypingSound TypingFit GenAgree TypingTop TypingVerdict
  PropertiesTyping SumGrammar Front FrontFacts FrontSpec FrontSound FrontRound FrontGrammar PropertiesFront Agree TreeSpec TreeFacts Literals Pipeline MiddleFuel PropertiesMain RType Oak OakFacts PropertiesOak TreeWf PropertiesVerdict TreeValues TreeEp.
Set Implicit Arguments. Unset Strict Implicit.
Open Scope string_scope. Open Scope nat_scope. Open Scope list_scope.

(** The failures of terminals of a run are [evs]; the state tells the farthest ones. *)
Definition reports (t : text) (evs : list event) (st : pst) : Prop :=
  bytes_offset (farthest_read st) = farthest_of 0 (error_trace t evs) /\
  expected st = messages_at (farthest_of 0 (error_trace t evs)) (error_trace t evs).

Lemma Forall2_weaken A B (P Q : A -> B -> Prop) l l' : (forall a b, P a b -> Q a b) -> Forall2 P l l' -> Forall2 Q l l'.
Proof. intros H F. induction F; constructor; auto. Qed.
Section Stored.
Variables (rust_type : list tok -> option (string * list tok)) (rust_item : list tok -> option (rust_item * list tok)).
Variables (ts : list tok) (fg : fgrammar) (g : agrammar) (E : tenv) (fuel : nat) (G' : grammar).
Hypothesis PA : parse_grammar rust_type rust_item ts = FOk fg.
Hypothesis MA : middle_answers fg (Some g).
Hypothesis TY : type_inference E fuel (shape g) = WOk (Some G').
Variable rs : list (string * tree).
Hypothesis RA : rules_at (f_exprs fg) (f_rules fg) rs.
Lemma typed_grow i e : expr_of (shape g) i = Some e -> expr_of G' i = Some e.
Proof.
  destruct (typed_shape PA MA TY) as (out & -> & _). unfold expr_of. cbn [exprs]. intros H. rewrite nth_error_app1; [exact H|]. apply nth_error_Some. congruence.
Qed.
Lemma typed_rules : rules G' = rules (shape g).
Proof. destruct (typed_shape PA MA TY) as (out & -> & _). reflexivity. Qed.
Lemma typed_stored i e : stored (shape g) rs i e -> stored G' rs i e.
Proof. apply stored_grow. exact typed_grow. Qed.
Lemma typed_source : Forall2 (fun r q => rname r = fst q /\ stored G' rs (rexpr r) (snd q)) (rules G') rs.
Proof.
  rewrite typed_rules. pose proof (source_stored PA MA RA) as K. refine (Forall2_weaken _ K). intros r q [N S0]. split; [exact N|apply typed_stored, S0].
Qed.
End Stored.

(** ---------------- recognizers: no condition ---------------- *)
(** The specification gives one outcome and one trace; the state tells the farthest failures of that trace. *)
Theorem C56_recognizer_errors : forall rust_type rust_item return_type generics, reads rust_type -> reads rust_item ->
  forall fuel ts m, oak rust_type rust_item return_type generics fuel ts = WOk (Some m) -> toks_strs scalars ts ->
  forall attrs bs, read_as rust_type rust_item ts attrs bs ->
  forall X xf t, outside X xf t -> forall n e, In (n, e) (block_rules bs) ->
    exists st r evs, called m xf Rec n t st [] /\
      (forall void q evs', tep (block_rules bs) X (off t) void Rec (TE e) t q evs' <-> q = r /\ evs' = evs) /\
      reports t evs st /\
      match r with Some (rest, _) => succeeded t st rest | None => is_failed st = true end.
Proof.
  intros rt ri ret gen RT RI fuel ts m H LT attrs bs (D & fg' & PA' & _ & _ & RA) X xf t [TX XO XS XC] n e In_.
  destruct (oak_expands H) as (g & G' & (fg & fuel' & PA & MA & TY) & C). assert (fg' = fg) as -> by congruence.
  pose proof (grammar_strs D LT) as LIT. pose proof (module_ready PA MA TY RA LIT TX XO XS XC) as HR.
  destruct (rule_tree PA MA RA In_) as (rl & F & S0).
  assert (F' : find_rule G' n = Some rl) by (rewrite (found_rule_typed PA MA TY); exact F).
  destruct (run_total HR (m := Rec) I F') as (r0 & evs0 & st & _ & R & _). rewrite (recognizer_log HR F' R) in R.
  destruct (run_outcome HR (m := Rec) I F' R) as (r & evs & EP & _ & FI & _ & K). exists st, r, evs. split; [|split; [|split]].
  - destruct R as (k & R). exists k. rewrite <- R. apply run_fn_ext. exact (content_prog C).
  - intros void q evs'. rewrite <- (tree_traces (typed_source PA MA TY RA) X (off t) void t q evs' (typed_stored PA MA TY S0)). split.
    + intros EP'. exact (ep_det XS EP' EP).
    + intros [-> ->]. exact EP.
  - exact (final_errors FI).
  - destruct r as [[rest vs]|]; [apply K|apply K].
Qed.

(** The order of the rules does not change what the recognizers report. *)
Lemma tep_same rs rs' X off void : (forall p, rule_called rs p = rule_called rs' p) -> forall m ti s r evs, tep rs X off void m ti s r evs -> tep rs' X off void m ti s r evs.
Proof. intros SM. induction 1; try (econstructor; eassumption); econstructor; try eassumption; congruence. Qed.
Theorem C55_errors_order : forall rust_type rust_item return_type generics, reads rust_type -> reads rust_item ->
  forall fuel ts m fuel' ts' m', oak rust_type rust_item return_type generics fuel ts = WOk (Some m) -> oak rust_type rust_item return_type generics fuel' ts' = WOk (Some m') ->
  toks_strs scalars ts -> toks_strs scalars ts' ->
  forall attrs bs attrs' bs', read_as rust_type rust_item ts attrs bs -> read_as rust_type rust_item ts' attrs' bs' -> Permutation (block_rules bs) (block_rules bs') ->
  forall X xf t, outside X xf t -> forall n e, In (n, e) (block_rules bs) ->
    exists st st', called m xf Rec n t st [] /\ called m' xf Rec n t st' [] /\
      bytes_offset (farthest_read st) = bytes_offset (farthest_read st') /\ expected st = expected st'.
Proof.
  intros rt ri ret gen RT RI fuel ts m fuel' ts' m' H H' LT LT' attrs bs attrs' bs' RD RD' P X xf t O n e I0.
  destruct (C45_macro_read RT RI H LT RD) as (ND & _).
  destruct (C56_recognizer_errors RT RI H LT RD O I0) as (st & r & evs & C & U & [R1 R2] & _).
  destruct (C56_recognizer_errors RT RI H' LT' RD' O (Permutation_in _ P I0)) as (st' & r' & evs' & C' & U' & [R1' R2'] & _).
  exists st, st'. split; [exact C|]. split; [exact C'|]. pose proof (called_permuted ND P) as SM.
  assert (Q : r = r' /\ evs = evs').
  { apply (U' (fun _ => False)). apply (tep_same SM). apply U. auto. }
  destruct Q as [-> ->]. rewrite R1, R2, R1', R2'. auto.
Qed.

(** ---------------- a concrete case ---------------- *)
(** [sum] reads ["1"] of ["1+"]; the failures are those of [num] before ["+"] and at the end of the text, the second is reported. *)
Definition sum_rules := block_rules (map (fun q => meaning (snd q)) sum_source).
Definition digits_desc := class_desc (class_intervals false [Interval 48%N 57%N] false).
Example C56_case_trace : forall X off void, exists e, In ("sum", e) sum_rules /\
  tep sum_rules X off void Rec (TE e) [49%N; 43%N] (Some ([43%N], [])) [EvErr [43%N] digits_desc; EvErr [] digits_desc].
Proof.
  intros X off void. eexists. split; [left; reflexivity|]. apply te_seq; [exact I|].
  assert (N : tep sum_rules X off void Rec (TE (XCall ["num"])) [49%N; 43%N] (Some ([43%N], [])) [EvErr [43%N] digits_desc]).
  { eapply te_call; [exact I|reflexivity|]. apply te_act_rec. eapply (@te_plus_ok _ _ _ _ Rec _ _ [43%N] [] [] [43%N] []).
    - exact I.
    - apply te_class_ok; [exact I|]. right. right. exists 48%N, 57%N. split; [left; reflexivity|split; vm_compute; discriminate].
    - apply te_star_stop. apply te_class_fail; [exact I|]. intros [[[K|K] _]|[[K|[]]|(lo & hi & [K|[]] & A & _)]]; try discriminate K. injection K as <- <-. vm_compute in A. apply A. reflexivity. }
  eapply (@te_seq_cons_ok _ _ _ _ Rec _ _ _ [43%N] [] [EvErr [43%N] digits_desc] [43%N] [] [EvErr [] digits_desc]); [exact N|].
  eapply (@te_seq_cons_ok _ _ _ _ Rec _ _ _ [43%N] [] [EvErr [] digits_desc] [43%N] [] []); [|apply te_seq_nil].
  eapply (@te_star _ _ _ _ Rec); [exact I|]. apply te_star_stop. apply te_seq; [exact I|].
  eapply (@te_seq_cons_fail _ _ _ _ Rec _ _ _ [] [] [] [EvErr [] digits_desc]).
  - apply (@te_str_ok _ _ _ _ Rec [43%N] []). exact I.
  - apply te_seq_fail. eapply te_call; [exact I|reflexivity|]. apply te_act_rec. apply te_plus_fail; [exact I|]. apply te_class_eof. exact I.
Qed.
(** The module of this source exists (C46_case): its recognizer reports these failures. *)
Example C56_case : exists m fg, oak toy_type toy_item toy_return toy_generics 100 (print_grammar toy_toks sum_source) = WOk (Some m) /\
  toks_strs scalars (print_grammar toy_toks sum_source) /\ parse_grammar toy_type toy_item (print_grammar toy_toks sum_source) = FOk fg /\
  rules_at (f_exprs fg) (f_rules fg) sum_rules /\
  farthest_of 0 (error_trace [49%N; 43%N] [EvErr [43%N] digits_desc; EvErr [] digits_desc]) = 2.
Proof.
  destruct C46_case as (m & H & _). destruct (C38_round_trip (ty_toks := toy_toks) (fun r => eq_refl) sum_source_canon) as (fg & P & _ & _ & RA).
  exists m, fg. split; [exact H|]. split; [destruct sum_expands as (? & ? & _ & _ & L); exact L|]. split; [exact P|]. split; [exact RA|]. reflexivity.
Qed.

Print Assumptions C56_recognizer_errors.
Print Assumptions C55_errors_order.
