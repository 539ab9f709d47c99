(** The theorems from the source (C28, C46, C56, C57) on the grammars of the repository: those of tests/grammars that meet
    their conditions, and what the theorems say of them. *)
From Verif Require Import Base Utf8 Stream ParseState RuntimeFacts Grammar PegSpec Target Compile TargetFacts ScopeFacts
  CompileShape EvalRules CompileCorrect ScopeGen GenTotal PegFacts Running WellFormed WfFacts WfSound WfSyntax WfTerm WfFuel PegRun Behave Values CharClass
  Analysis AnalysisFacts PropertiesWf PropertiesPeg PropertiesAnalysis Typing TypeRules SurfaceFacts RefFacts DepthFacts TypingSound TypingFit GenAgree TypingTop TypingVerdict
  PropertiesTyping SumGrammar Front FrontFacts FrontSpec FrontSound FrontRound FrontGrammar PropertiesFront Agree TreeSpec TreeFacts Literals Pipeline MiddleFuel PropertiesMain PropertiesRules RType PropertiesSignature Oak OakFacts PropertiesOak PropertiesRustc PropertiesModule
  TreeWf PropertiesVerdict TreeValues TreeEp PropertiesSource TreeKinds KindFacts KindTrees TreeNames FrontPrint PropertiesParsers TreeShapes PropertiesShapes
  SourceChecks Checks PropertiesRepo RepoGrammars RustReader.
Set Implicit Arguments. Unset Strict Implicit.
Open Scope string_scope. Open Scope nat_scope. Open Scope list_scope.

(** The check of SourceChecks.v on what the parser stores. *)
Definition front_check (bad : kind -> bool) (deep fuel : nat) (ts : list tok) : bool :=
  match parse_grammar syn_type syn_item ts with
  | FOk fg => match decode_rules (f_exprs fg) deep (f_rules fg) with
              | Some ds => whole_check ds (returned syn_return (functions (f_items fg))) (recognised ds fuel) (tangled ds fuel) bad fuel
              | None => false
              end
  | _ => false
  end.
Lemma front_check_ok bad deep fuel ts : front_check bad deep fuel ts = true ->
  forall attrs bs, read_as syn_type syn_item ts attrs bs -> exists S0 A, whole_check (block_rules bs) (returned syn_return (functions (block_items bs))) S0 A bad fuel = true.
Proof.
  unfold front_check. intros H attrs bs (_ & fg & PA & _ & IT & RA). rewrite PA in H. destruct (decode_rules (f_exprs fg) deep (f_rules fg)) as [ds|] eqn:D; [|discriminate].
  exists (recognised ds fuel), (tangled ds fuel). unfold whole_check in *. revert H. generalize (recognised ds fuel), (tangled ds fuel). intros S0 A H.
  rewrite (decode_rules_ok RA D), IT, source_erased, bare_erased in H. exact H.
Qed.
Definition clearly (k : kind) : bool := tupleb k || datab k.

(** The grammars of the repository but one (typing.rs, where the value of a recursive rule is its own value or a character). *)
Definition settled_repo : list (list tok) := filter (front_check clearly 60 14) repo.
Lemma settled_in ts : In ts settled_repo -> In ts repo /\ front_check clearly 60 14 ts = true.
Proof. exact (proj1 (filter_In (front_check clearly 60 14) ts repo)). Qed.
Lemma settled_repo_is : settled_repo = [calc_rs; calc2_rs; calc3_rs; combinators_rs; issue94_rs; json_rs; ntcc_rs; recursive_type_rs; stream_span_rs; type_name_rs; unreachable_rule_rs; useless_chaining_rs; well_formedness_rs].
Proof. vm_cast_no_check (eq_refl settled_repo). Qed.

(** They meet the conditions on the source: so (C46) the macro answers, (C28) the names of the parsers it generates are bound,
    (C56) each parser returns what the grammar specifies, and (C57) its value is of the type in its signature. *)
Example repo_source : forall ts, In ts settled_repo -> exists m attrs bs, oak syn_type syn_item syn_return syn_generics 400 ts = WOk (Some m) /\ read_as syn_type syn_item ts attrs bs /\
  let rs := block_rules bs in let ret := returned syn_return (functions (block_items bs)) in
  settled_types rs /\ clear_choices rs ret /\ (forall n e, In (n, e) rs -> tidy (void rs ret) true e) /\
  (forall n sg f, In (MParser n sg f) m -> no_unbound_name f) /\
  forall n e, In (n, e) rs -> exists sg f, In (MParser n sg f) m /\
  forall X xf t, outside X xf t -> (forall p s s1 vs evs, X Par p s (Some (s1, vs)) evs -> exists v, vs = [v] /\ made_outside v) ->
    exists st log r evs, called m xf Par n t st log /\ (forall q evs', tep rs X (off t) (void rs ret) Par (TE e) t q evs' <-> q = r /\ evs' = evs) /\
      log = action_trace evs /\ reports t evs st /\
      match r with
      | Some (rest, vs) => succeeded t st rest /\ data st = Some (tup vs) /\ of_type (tup vs) (sg_value sg)
      | None => is_failed st = true /\ data st = None
      end.
Proof.
  intros ts I0. destruct (settled_in I0) as [I1 FC]. clear I0. rename I1 into I0.
  pose proof repo_checked as C. rewrite forallb_forall in C. destruct (oak_check_ok (C ts I0)) as (m & H & _). clear C.
  pose proof (oak_inv H) as (fg & g & G' & PA & _). destruct (C38_read syn_type_reads syn_item_reads PA) as (attrs & bs & RD). exists m, attrs, bs. split; [exact H|]. split; [exact RD|].
  cbv zeta. destruct (front_check_ok FC RD) as (S0 & A & WC). destruct (whole_check_clear WC) as (SE & PC & TD). pose proof (clear_plain PC) as PP.
  split; [exact SE|]. split; [exact PC|]. split; [exact TD|]. split; [exact (C28_parsers_source_partial syn_type_reads syn_item_reads H RD SE eq_refl PP TD)|].
  intros n e Ie. destruct (C57_values_partial syn_type_reads syn_item_reads H RD SE eq_refl PC Ie) as (sg & f & Im & K). exists sg, f. split; [exact Im|]. intros X xf t O XO.
  destruct (C56_parsers_partial syn_type_reads syn_item_reads H (repo_literals I0) RD SE eq_refl PP (or_intror TD) O Ie) as (st & log & r & evs & CA & U & L & RP & R).
  exists st, log, r, evs. split; [exact CA|]. split; [exact U|]. split; [exact L|]. split; [exact RP|]. destruct r as [[rest vs]|]; [|exact R].
  destruct R as [R1 R2]. split; [exact R1|]. split; [exact R2|]. exact (K X (off t) (ou_sane O) XO t rest vs evs (proj2 (U _ _) (conj eq_refl eq_refl))).
Qed.
Print Assumptions repo_source.
