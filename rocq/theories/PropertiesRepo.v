(** The theorems on the grammars of the repository: the hypotheses of the theorems about the macro are met by the
    grammars of tests/grammars, and the model gives the results that the repository's own tests expect.

    RepoGrammars.v: the tokens of these grammars and the inputs of data/test, generated from the files of the repository.
    RustReader.v: stand-ins for the parsers of the crate syn, sufficient for these files. *)
From Coq Require Import Ascii.
From Verif Require Import Base Utf8 Stream ParseState RuntimeFacts Grammar PegSpec Target Compile TargetFacts ScopeFacts
  CompileCorrect PegFacts Running WellFormed WfSound PegRun Behave Values CharClass SumGrammar
  Analysis Typing Front FrontSpec PropertiesFront TreeSpec Literals PropertiesMain RType PropertiesSignature Oak OakFacts PropertiesOak PropertiesModule
  Blind RecOnly Linking PropertiesLink Checks RustcCheck RepoGrammars RustReader.
Set Implicit Arguments. Unset Strict Implicit.
Open Scope string_scope. Open Scope nat_scope. Open Scope list_scope.

Local Notation oak := (oak syn_type syn_item syn_return syn_generics 400).

(** tests/grammars. *)
Definition repo : list (list tok) :=
  [typing_rs; calc_rs; calc2_rs; calc3_rs; combinators_rs; issue94_rs; json_rs; ntcc_rs; recursive_type_rs; stream_span_rs; type_name_rs; unreachable_rule_rs; useless_chaining_rs; well_formedness_rs].
Lemma repo_checked : forallb (oak_check syn_type syn_item syn_return syn_generics 400) repo = true.
Proof. vm_cast_no_check (eq_refl true). Qed.

(** The literals are Rust strings. *)
Fixpoint tok_scalars (k : tok) : bool :=
  match k with
  | TStr s => forallb is_scalar s
  | TGroup _ l => (fix all (l : list tok) : bool := match l with [] => true | k :: l' => tok_scalars k && all l' end) l
  | _ => true
  end.
Lemma tok_scalars_ok : forall k, tok_scalars k = true -> tok_strs scalars k.
Proof.
  fix IH 1. intros k H. destruct k as [s|s|s|c j|d l|s]; cbn [tok_scalars tok_strs] in *; try exact I.
  - apply Forall_forall. intros c Ic. rewrite forallb_forall in H. exact (H c Ic).
  - revert H. induction l as [|k l IHl]; intros H; [exact I|]. apply andb_prop in H. destruct H as [H1 H2]. split; [exact (IH k H1)|exact (IHl H2)].
Qed.
Lemma toks_scalars ts : forallb tok_scalars ts = true -> toks_strs scalars ts.
Proof. intros H. apply Forall_forall. intros k Ik. rewrite forallb_forall in H. exact (tok_scalars_ok (H k Ik)). Qed.
Lemma repo_literals ts : In ts repo -> toks_strs scalars ts.
Proof.
  intros I0. apply toks_scalars. assert (C : forallb (forallb tok_scalars) repo = true) by (vm_compute; reflexivity).
  rewrite forallb_forall in C. exact (C ts I0).
Qed.
Lemma nothing_outside t : scalars t -> outside noX noxf t.
Proof. intros T. split; [exact T|apply noX_ok|exact noX_sane|exact noX_consuming]. Qed.
Lemma noxf_blind : blind noxf.
Proof.
  intros m p a b S0. unfold noxf. cbn [orel rcall fst snd]. split; [|reflexivity]. apply failure_same, error_same, S0.
Qed.

(** All of them are accepted, and their recognizers behave as specified on every text. *)
Example repo_recognizers : forall ts, In ts repo -> exists m attrs bs, oak ts = WOk (Some m) /\ read_as syn_type syn_item ts attrs bs /\
  forall X xf t, outside X xf t -> forall n e, In (n, e) (block_rules bs) -> exists st, called m xf Rec n t st [] /\ as_specified (block_rules bs) X e t st.
Proof.
  intros ts I0. assert (A : exists m, oak ts = WOk (Some m)).
  { pose proof repo_checked as C. rewrite forallb_forall in C. destruct (oak_check_ok (C ts I0)) as (m & H & _). eauto. }
  destruct A as (m & H). pose proof (oak_inv H) as (fg & g & G' & PA & _). destruct (C38_read syn_type_reads syn_item_reads PA) as (attrs & bs & RD). exists m, attrs, bs. split; [exact H|]. split; [exact RD|].
  exact (proj2 (C45_macro_read syn_type_reads syn_item_reads H (repo_literals I0) RD)).
Qed.
(** All of them meet the conditions of the theorems about parsers. *)
Example repo_parsers : forall ts, In ts repo -> exists m attrs bs, oak ts = WOk (Some m) /\ parsers_typable syn_type syn_item syn_return syn_generics 400 ts m /\ read_as syn_type syn_item ts attrs bs /\
  forall X xf t, outside X xf t -> forall n e, In (n, e) (block_rules bs) -> exists st log, called m xf Par n t st log /\ as_specified (block_rules bs) X e t st /\
    (is_failed st = true /\ data st = None \/ is_failed st = false /\ data st <> None).
Proof.
  intros ts I0. pose proof repo_checked as C. rewrite forallb_forall in C. destruct (oak_check_ok (C ts I0)) as (m & H & T & N).
  assert (PT : parsers_typable syn_type syn_item syn_return syn_generics 400 ts m) by (split; [intros g G' EX; exact (proj1 (T g G' EX))|exact N]).
  pose proof (oak_inv H) as (fg & g & G' & PA & _). destruct (C38_read syn_type_reads syn_item_reads PA) as (attrs & bs & RD). exists m, attrs, bs. split; [exact H|]. split; [exact PT|]. split; [exact RD|].
  exact (proj2 (C45_macro_parsers_read_partial syn_type_reads syn_item_reads H (repo_literals I0) (proj1 PT) N RD)).
Qed.
Example repo_signatures : forall ts, In ts repo -> exists m attrs bs, oak ts = WOk (Some m) /\ d_grammar syn_type syn_item ts attrs bs /\
  forall n e, In (n, e) (block_rules bs) -> exists sg f, In (MParser n sg f) m /\
    forall X xf t, outside X xf t -> (forall p s s1 vs evs, X Par p s (Some (s1, vs)) evs -> exists v, vs = [v] /\ made_outside v) ->
    exists st log, called m xf Par n t st log /\ as_specified (block_rules bs) X e t st /\ (is_failed st = true \/ exists v, data st = Some v /\ of_type v (sg_value sg)).
Proof.
  intros ts I0. pose proof repo_checked as C. rewrite forallb_forall in C. destruct (oak_check_ok (C ts I0)) as (m & H & T & N).
  destruct (C50_macro_partial syn_type_reads syn_item_reads H (repo_literals I0) (fun g G' EX => proj2 (T g G' EX)) N) as (attrs & bs & D & _ & K). exists m, attrs, bs. auto.
Qed.

(** ---------------- C51: calc3 uses the rules of calc2 ---------------- *)
Definition from_calc2 := ["number"; "identifier"].
Example calc3_with_calc2 : exists m3 m2 bs3 bs2, oak calc3_rs = WOk (Some m3) /\ oak calc2_rs = WOk (Some m2) /\
  (exists attrs, read_as syn_type syn_item calc3_rs attrs bs3) /\ (exists attrs, read_as syn_type syn_item calc2_rs attrs bs2) /\
  forall t, scalars t -> exists K, forall k, K <= k -> forall n e, In (n, e) (block_rules bs3) ->
    exists st log, called m3 (linked (prog_of m2) noxf k ["calc2"] from_calc2 noxf) Par n t st log /\
      behaves (block_rules bs3) (imported ["calc2"] from_calc2 (block_rules bs2) (ford_ext noX) (ford_ext noX)) e t st /\
      (is_failed st = true /\ data st = None \/ is_failed st = false /\ data st <> None).
Proof.
  pose proof repo_checked as C. rewrite forallb_forall in C.
  assert (I3 : In calc3_rs repo) by (right; right; right; left; reflexivity). assert (I2 : In calc2_rs repo) by (right; right; left; reflexivity).
  destruct (repo_parsers I3) as (m3 & at3 & bs3 & H3 & P3 & R3 & _). destruct (repo_parsers I2) as (m2 & at2 & bs2 & H2 & P2 & R2 & _).
  exists m3, m2, bs3, bs2. split; [exact H3|]. split; [exact H2|]. split; [eauto|]. split; [eauto|]. intros t T. pose proof (nothing_outside T) as O.
  pose proof (C51_parsers_partial syn_type_reads syn_item_reads H3 H2 (repo_literals I3) (repo_literals I2) P3 P2 R3 R2) as K. cbv zeta in K.
  destruct R2 as (D2 & fg & PA & _ & _ & RA).
  assert (Q : map rname (f_rules fg) = map fst (block_rules bs2) /\
    forallb (fun r => negb (existsb (String.eqb (rname r)) from_calc2) || cons_check (f_rules fg) (f_exprs fg) 50 (rexpr r)) (f_rules fg) = true /\ incl from_calc2 (map rname (f_rules fg))).
  { split; [clear - RA; induction RA as [|r q rs l [A _] _ IH]; cbn; congruence|]. clear - PA. vm_compute in PA. injection PA as <-. split; [vm_compute; reflexivity|].
    intros n [<-|[<-|[]]]; cbn; tauto. }
  destruct Q as (Q1 & Q2 & Q3). rewrite Q1 in Q3. refine (K ["calc2"] from_calc2 Q3 noX noxf noX noxf t O noxf_blind O _). apply C51_consuming; [exact noX_consuming|].
  intros n e IU Ie. rewrite forallb_forall in Q2.
  assert (W : exists r, In r (f_rules fg) /\ rname r = n /\ tree_at (f_exprs fg) (rexpr r) e).
  { clear - RA Ie. induction RA as [|r q rs l [A B] _ IH]; [destruct Ie|]. destruct Ie as [->|Ie]; [exists r; split; [left; reflexivity|auto]|]. destruct (IH Ie) as (r' & I' & W). exists r'. split; [right; exact I'|exact W]. }
  destruct W as (r & Ir & Nr & Tr). specialize (Q2 r Ir). apply orb_prop in Q2. destruct Q2 as [Q2|Q2]; [|exact (cons_check_ok RA Q2 Tr)]. exfalso.
  apply negb_true_iff in Q2. rewrite Nr in Q2. assert (existsb (String.eqb n) from_calc2 = true); [|congruence]. apply existsb_exists. exists n. split; [exact IU|apply String.eqb_refl].
Qed.

(** ---------------- C53: rustc compiles them, and the two checks accept them ---------------- *)
Example repo_rustc : forallb (fun ts => match oak ts with
  | WOk (Some m) => forallb (fun it => match it with MRecognizer _ _ f | MParser _ _ f => refs_ok f && moves_ok (fun n => ScopeFacts.mem n (func_chars f)) f | _ => true end) m
  | _ => false end) repo = true.
Proof. vm_cast_no_check (eq_refl true). Qed.

(** ---------------- signatures of the parsers ---------------- *)
Definition values_of (m : list mod_item) : list (string * rty) := flat_map (fun it => match it with MParser n sg _ => [(n, sg_value sg)] | _ => [] end) m.
Definition span_type_text := "<Range<Stream< 'a >> as StreamSpan>::Output".
Example stream_span_values : exists m, oak stream_span_rs = WOk (Some m) /\
  values_of m = [("expr", RTRust "Expr"); ("expr2", RTRust "Expr"); ("inner_expr", RTTuple [RTRust span_type_text; RTChar]); ("span_a", RTRust span_type_text); ("expr3", RTRust span_type_text)].
Proof. eexists. split; [vm_compute; reflexivity|]. vm_compute. reflexivity. Qed.
Example typing_values : exists m, oak typing_rs = WOk (Some m) /\
  values_of m = [("ra", RTChar); ("rd", RTUnit); ("re", RTUnit); ("factor", RTRust "Expr"); ("lparen", RTUnit); ("rparen", RTUnit);
    ("number", RTVec RTChar); ("identifier", RTVec RTChar); ("rule1", RTRust "MyUnit"); ("rule4", RTUnit); ("rule5", RTUnit)].
Proof. eexists. split; [vm_compute; reflexivity|]. vm_compute. reflexivity. Qed.
Example calc3_values : exists m, oak calc3_rs = WOk (Some m) /\
  firstn 10 (values_of m) = [("program", RTRust "PExpr"); ("expression", RTRust "PExpr"); ("term", RTRust "PExpr"); ("exponent", RTRust "PExpr"); ("factor", RTRust "Box<Expression>");
    ("let_expr", RTTuple [RTRust "String"; RTRust "PExpr"; RTRust "PExpr"]); ("let_binding", RTTuple [RTRust "String"; RTRust "PExpr"]);
    ("term_op", RTRust "BinOp"); ("factor_op", RTRust "BinOp"); ("exponent_op", RTRust "BinOp")].
Proof. eexists. split; [vm_compute; reflexivity|]. vm_compute. reflexivity. Qed.

(** ---------------- the tests of the repository ---------------- *)
(** tests/testoak.rs:236-247. *)
Definition observed (m : list mod_item) xf (rule : string) (t : text) : option RepoGrammars.expectation :=
  match run_fn (prog_of m) xf 4000 Rec rule (Running.start t) with
  | Done (st, _) =>
    match into_result st with
    | Ret (PSuccess _) => Some Match
    | Ret (PPartial _ _) => Some PartialMatch
    | Ret (PFailure _ _) => Some RepoGrammars.Error
    | Panic => None
    end
  | _ => None
  end.
Definition replay (ts : list tok) xf (rule : string) (l : list (RepoGrammars.expectation * text)) : bool :=
  match oak ts with
  | WOk (Some m) => forallb (fun q => match fst q, observed m xf rule (snd q) with
      | Match, Some Match | PartialMatch, Some PartialMatch | RepoGrammars.Error, Some RepoGrammars.Error => true | _, _ => false end) l
  | _ => false
  end.
Example repo_tests : forallb (fun '(ts, rule, l) => replay ts noxf rule l)
  [ (ntcc_rs, "ntcc", ntcc_data); (type_name_rs, "type_names", type_name_data); (calc_rs, "program", calc_data); (calc2_rs, "program", calc2_data);
    (combinators_rs, "str_literal", str_literal_data); (combinators_rs, "sequence", sequence_data); (combinators_rs, "any_single_char", any_single_char_data);
    (combinators_rs, "choice", choice_data); (combinators_rs, "repeat", repeat_data); (combinators_rs, "predicate", syntactic_predicate_data); (combinators_rs, "optional", optional_data);
    (combinators_rs, "char_class", char_class_data); (combinators_rs, "non_terminal", non_terminal_data) ] = true.
Proof. vm_compute. reflexivity. Qed.
Example repo_test_calc3 : match oak calc2_rs with WOk (Some m2) => replay calc3_rs (linked (prog_of m2) noxf 2000 ["calc2"] from_calc2 noxf) "program" calc3_data | _ => false end = true.
Proof. vm_compute. reflexivity. Qed.
(** tests/grammars/stream_span.rs, test_stream_span. *)
Definition parsed_value (ts : list tok) (rule : string) (t : text) : option value :=
  match oak ts with
  | WOk (Some m) => match run_fn (prog_of m) noxf 2000 Par rule (Running.start t) with Done (st, _) => if failed st then None else data st | _ => None end
  | _ => None
  end.
Example repo_test_span :
  parsed_value stream_span_rs "expr" [97; 98; 99; 98]%N = Some (VAct (ActPath ["make_expr"]) [VSpan 0 4; VSpan 0 1; VChar 98; VSpan 2 3; VChar 99]) /\
  parsed_value stream_span_rs "expr2" [97; 98; 99; 98]%N = Some (VAct (ActPath ["make_expr"]) [VSpan 0 4; VSpan 0 1; VChar 98; VSpan 2 3; VChar 99]) /\
  parsed_value stream_span_rs "expr3" [97; 99]%N = Some (VSpan 0 2) /\ parsed_value stream_span_rs "expr3" [98; 99]%N = Some (VSpan 0 2).
Proof. vm_compute. auto. Qed.
