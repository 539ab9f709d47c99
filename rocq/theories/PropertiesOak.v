(** Property theorems about the macro as one function (C45, C46, C47).

    [oak fuel ts] (Oak.v): parse, analyse, infer types, generate; [WOk None]: rejected with a diagnostic; [WOk (Some m)]:
    the items of the generated module; [WPanic]: the macro panics; [WLoop]: the fuel of the model is exhausted. *)
From Coq Require Import Ascii Permutation.
From Verif Require Import Base Utf8 Stream ParseState RuntimeFacts Grammar PegSpec Target Compile TargetFacts ScopeFacts
  CompileShape EvalRules CompileCorrect ScopeGen GenTotal PegFacts Running WellFormed WfFacts WfSound WfSyntax WfTerm WfFuel PegRun Behave Values CharClass
  Analysis AnalysisFacts PropertiesWf PropertiesPeg PropertiesAnalysis Typing TypeRules SurfaceFacts RefFacts DepthFacts TypingSound TypingFit GenAgree TypingTop TypingVerdict
  TypingTotal TypingAnswer TypingFuel MiddleFuel PropertiesTyping SumGrammar Front FrontFacts FrontSpec FrontSound FrontRound FrontGrammar PropertiesFront Agree TreeSpec TreeFacts Literals Pipeline
  PropertiesMain RType Oak OakFacts.
Set Implicit Arguments. Unset Strict Implicit.
Open Scope string_scope. Open Scope nat_scope. Open Scope list_scope.

(** ---------------- from the parts of [oak] ---------------- *)
Section Parts.
Variables (rust_type : list tok -> option (string * list tok)) (rust_item : list tok -> option (rust_item * list tok)).
Variable return_type : string -> option string.
Variable generics : string -> string.
Local Notation oak := (oak rust_type rust_item return_type generics).
Local Notation env_of := (env_of return_type generics).

(** One verdict of the middle end. *)
Lemma middle_settles fg fuel passes r : middle fuel passes fg = WOk r -> middle_answers fg r.
Proof. intros H. exists (fuel + passes). intros f p L1 L2. rewrite <- H. apply middle_more_fuel; [lia|lia|congruence]. Qed.
Lemma oak_inv fuel ts m : oak fuel ts = WOk (Some m) -> exists fg g G', parse_grammar rust_type rust_item ts = FOk fg /\ middle fuel fuel fg = WOk (Some g) /\
  type_inference (env_of g fuel) fuel (shape g) = WOk (Some G') /\ compile_mod_content generics g G' = WOk m.
Proof.
  unfold Oak.oak. destruct (parse_grammar rust_type rust_item ts) as [fg| |]; try discriminate. intros H. apply wbind_ok in H. destruct H as ([g|] & M & H); [|discriminate].
  apply wbind_ok in H. destruct H as ([G'|] & T & H); [|discriminate]. apply wbind_ok in H. destruct H as (m' & C & H). injection H as ->. exists fg, g, G'. auto.
Qed.
Lemma oak_expands fuel ts m : oak fuel ts = WOk (Some m) -> exists g G', expands rust_type rust_item (env_of g fuel) ts g G' /\ compile_mod_content generics g G' = WOk m.
Proof. intros H. destruct (oak_inv H) as (fg & g & G' & P & M & T & C). exists g, G'. split; [|exact C]. exists fg, fuel. split; [exact P|]. split; [exact (middle_settles M)|exact T]. Qed.

(** The functions of the module are those of the generator. *)
Lemma find_map_app (A B : Type) (f : A -> option B) l1 l2 : find_map f (l1 ++ l2) = match find_map f l1 with Some b => Some b | None => find_map f l2 end.
Proof. induction l1 as [|a l1 IH]; [reflexivity|]. cbn [app find_map]. destruct (f a); auto. Qed.
Lemma of_cres_ok A (r : cres A) a : of_cres r = WOk a -> r = COk a.
Proof. destruct r as [b|[]]; cbn; congruence. Qed.
Lemma rules_prog stream G rs l : compile_rules stream G rs = WOk l -> forall m id, prog_of l m id =
  match find (fun r => String.eqb (rname r) id) rs with Some rl => match gen_rule G m rl with COk f => Some f | CErr _ => None end | None => None end.
Proof.
  revert l. induction rs as [|rl rs IH]; intros l H m id; cbn [compile_rules] in H; [injection H as <-; reflexivity|].
  apply wbind_ok in H. destruct H as (r & E1 & H). apply wbind_ok in H. destruct H as (p & E2 & H). apply wbind_ok in H. destruct H as (t & _ & H). apply wbind_ok in H. destruct H as (l' & E3 & H). injection H as <-.
  apply of_cres_ok in E1, E2. specialize (IH l' E3 m id). cbn [find]. unfold prog_of in *. cbn [find_map]. destruct m; destruct (String.eqb (rname rl) id); cbn [gen_rule]; rewrite ?E1, ?E2; auto.
Qed.
Lemma content_prog g G items : compile_mod_content generics g G = WOk items -> forall m id, prog_of items m id = gen_prog G m id.
Proof.
  intros H m id. unfold compile_mod_content in H. apply wbind_ok in H. destruct H as (l & E & H). injection H as <-. unfold prog_of. rewrite find_map_app.
  assert (X : forall its, find_map (fun it => match m, it with Rec, MRecognizer n _ f | Par, MParser n _ f => if String.eqb n id then Some f else None | _, _ => None end) (map MItem its) = None)
    by (intros its; induction its as [|it its IH]; [reflexivity|]; cbn [map find_map]; destruct m; exact IH).
  rewrite X, find_map_app. clear X. pose proof (rules_prog E m id) as P. unfold prog_of in P. rewrite P. unfold gen_prog, find_rule.
  destruct (find (fun r => String.eqb (rname r) id) (rules G)) as [rl|] eqn:F.
  - destruct (gen_rule G m rl) as [f|] eqn:R; [reflexivity|]. exfalso. clear P. revert l E F. induction (rules G) as [|r0 rs IH]; intros l E F; [discriminate|].
    cbn [compile_rules] in E. apply wbind_ok in E. destruct E as (r & E1 & E). apply wbind_ok in E. destruct E as (p & E2 & E). apply wbind_ok in E. destruct E as (ty & _ & E). apply wbind_ok in E. destruct E as (l' & E3 & _).
    apply of_cres_ok in E1, E2. cbn [find] in F. destruct (String.eqb (rname r0) id); [|exact (IH l' E3 F)]. injection F as ->. destruct m; cbn [gen_rule] in R; congruence.
  - generalize (a_funs g) as fs. intros fs. induction fs as [|q fs IH]; [reflexivity|]. cbn [map find_map]. destruct m; exact IH.
Qed.
End Parts.

(** ---------------- C46: the macro ends, with one outcome ---------------- *)
Theorem C46_one_outcome : forall rust_type rust_item return_type generics, reads rust_type -> reads rust_item ->
  forall ts, exists r N, r <> WLoop /\ forall fuel, N <= fuel -> oak rust_type rust_item return_type generics fuel ts = r.
Proof. exact oak_ends. Qed.

(** When it panics, the grammar was read and analysed, and either type inference or the generation of the parser
    (not of the recognizer) of some rule panics. *)
Theorem C46_where_it_panics : forall rust_type rust_item return_type generics fuel ts, oak rust_type rust_item return_type generics fuel ts = WPanic ->
  exists fg g, parse_grammar rust_type rust_item ts = FOk fg /\ middle_answers fg (Some g) /\
    let E := env_of return_type generics g fuel in
    type_inference E fuel (shape g) = WPanic \/
    exists G' rl e, type_inference E fuel (shape g) = WOk (Some G') /\ In rl (rules G') /\ gen_rule G' Par rl = CErr e.
Proof.
  intros rt ri ret gen fuel ts H. unfold oak in H. destruct (parse_grammar rt ri ts) as [fg| |] eqn:P; try discriminate.
  destruct (C43_analysis_verdict (C38_parsed P)) as (r0 & N & M0 & _).
  destruct (middle fuel fuel fg) as [[g|]| |] eqn:M; try discriminate.
  2: { exfalso. pose proof (middle_more_fuel (k := fuel) (k' := fuel + N) (p := fuel) (p' := fuel + N) (fg := fg) ltac:(lia) ltac:(lia) ltac:(congruence)) as Q. rewrite M0 in Q by lia. congruence. }
  exists fg, g. split; [reflexivity|]. pose proof (middle_settles M) as MA. split; [exact MA|]. cbn [wbind] in H. cbv zeta.
  destruct (type_inference (env_of ret gen g fuel) fuel (shape g)) as [[G'|]| |] eqn:T; try discriminate; [|left; reflexivity]. right. exists G'.
  pose proof (C38_well_built P MA) as WB. pose proof (C29_recognizers_generated WB T) as RG. cbn [wbind] in H. unfold compile_mod_content in H.
  destruct (compile_rules (stream_ty gen g) G' (rules G')) as [l| |] eqn:C; try discriminate. clear H. pose proof (values_typed WB T) as VT.
  assert (X : forall rs, incl rs (rules G') -> compile_rules (stream_ty gen g) G' rs = WPanic -> exists rl e, In rl rs /\ gen_rule G' Par rl = CErr e).
  { induction rs as [|rl rs IH]; intros SUB Q; [discriminate|]. cbn [compile_rules] in Q. destruct (RG rl (SUB rl (or_introl eq_refl))) as (f & F). cbn [gen_rule] in F. rewrite F in Q. cbn [of_cres wbind] in Q.
    destruct (gen_parser G' rl) as [p|e] eqn:GP; [|exists rl, e; split; [left; reflexivity|exact GP]]. cbn [of_cres wbind] in Q. destruct (VT rl (SUB rl (or_introl eq_refl))) as (ty & TQ). rewrite TQ in Q. cbn [wbind] in Q. destruct (compile_rules (stream_ty gen g) G' rs) as [l| |] eqn:C'; try discriminate.
    destruct (IH ltac:(intros y Hy; apply SUB; right; exact Hy) eq_refl) as (rl' & e & I' & E'). exists rl', e. split; [right; exact I'|exact E']. }
  destruct (X (rules G') (incl_refl _) C) as (rl & e & I0 & E0). exists rl, e. auto.
Qed.

(** Missing: grammars in which a rule depends for its type on itself through another rule, rules with data that do not satisfy
    [rec_ok], and choices of several values with an external branch. *)
Theorem C46_no_panic_partial : forall rust_type rust_item return_type generics, reads rust_type -> reads rust_item ->
  forall ts,
  (forall fg g, parse_grammar rust_type rust_item ts = FOk fg -> middle_answers fg (Some g) ->
     exists rk self, layered (shape g) rk self (fun _ => false) /\
     forall fuel G', type_inference (env_of return_type generics g fuel) fuel (shape g) = WOk (Some G') ->
       rec_ok (shape g) G' self (fun _ => false) /\
       (forall i l j us s, expr_of G' i = Some (EAlt l) -> In j l -> ty_of G' i = Some (TTuple us) -> ty_of G' j <> Some (TRust s))) ->
  exists r N, forall fuel, N <= fuel -> oak rust_type rust_item return_type generics fuel ts = WOk r.
Proof.
  intros rt ri ret gen RT RI ts HY. destruct (@oak_ends rt ri ret gen RT RI ts) as (r & N & NL & K). destruct r as [r| |]; [exists r, N; exact K| |congruence]. exfalso.
  destruct (C46_where_it_panics (K N (le_n _))) as (fg & g & P & MA & _). destruct (HY fg g P MA) as (rk & self & HL & HT). pose proof (C38_well_built P MA) as WB.
  set (B := (length (rules (shape g)) + 1) * S (length (exprs (shape g))) + S (S (length (exprs (shape g)))) + N).
  destruct (C46_where_it_panics (K B ltac:(unfold B; lia))) as (fg' & g' & P' & MA' & Q). assert (fg' = fg) as -> by congruence.
  assert (g' = g) as ->. { destruct MA as (N1 & M1), MA' as (N2 & M2). specialize (M1 (N1 + N2) (N1 + N2) ltac:(lia) ltac:(lia)). rewrite M2 in M1 by lia. congruence. }
  cbv zeta in Q. destruct Q as [Q|(G' & rl & e & T & I0 & E)].
  - destruct (@inference_answers (shape g) (env_of ret gen g B) WB ltac:(cbn [cmp_fuel env_of]; unfold B; lia) B rk self HL ltac:(unfold B; lia)) as (r & R). congruence.
  - destruct (HT B G' T) as [H1 H2].
    destruct (C29_codegen_no_panic_partial WB T HL H1 H2 Par I0) as (f & F). congruence.
Qed.

(** ---------------- C47: what the module contains ---------------- *)
Definition functions (its : list rust_item) : list (string * string) := flat_map (fun it => match it with RFn n s => [(n, s)] | _ => [] end) its.
Definition other_items (its : list rust_item) : list rust_item := filter (fun it => match it with RFn _ _ => false | _ => true end) its.
(** The alias of the stream, unless the user gives it. *)
Definition stream_line (its : list rust_item) : list rust_item :=
  if existsb (fun it => match it with RAlias n _ => String.eqb n "Stream" | _ => false end) its then []
  else [RAlias "Stream" "pub type Stream<'a> = StrStream<'a>;"].
(** The alias in force. *)
Fixpoint stream_alias (its : list rust_item) : string :=
  match its with
  | [] => "pub type Stream<'a> = StrStream<'a>;"
  | RAlias n s :: its' => if String.eqb n "Stream" then s else stream_alias its'
  | _ :: its' => stream_alias its'
  end.
(** The functions take and return states over one stream type; recognizers return no value. *)
Definition over_stream (s : string) (it : mod_item) : Prop :=
  match it with MRecognizer _ sg _ => sg = mkSig s RTUnit | MParser _ sg _ => sg_stream sg = s | _ => False end.
Definition named (it : mod_item) : option (mode * string) :=
  match it with MRecognizer n _ _ => Some (Rec, n) | MParser n _ _ => Some (Par, n) | _ => None end.

Lemma functions_names fg : map fst (functions (f_items fg)) = fn_names fg.
Proof. unfold functions, fn_names. induction (f_items fg) as [|it l IH]; [reflexivity|]. cbn [flat_map]. rewrite map_app, IH. destruct it; reflexivity. Qed.
Lemma middle_items k p fg g : middle k p fg = WOk (Some g) -> NoDup (map rname (f_rules fg)) -> NoDup (fn_names fg) ->
  a_funs g = functions (f_items fg) /\ a_items g = other_items (f_items fg) ++ stream_line (f_items fg) /\ a_stream g = ("Stream", stream_alias (f_items fg)).
Proof.
  intros H ND NF. unfold middle in H. destruct (f_rules fg) as [|r0 rs0] eqn:ER; [discriminate|]. rewrite <- ER in *. clear ER r0 rs0. apply wbind_ok in H. destruct H as (q & A & H).
  destruct q as [g0| |]; try discriminate. apply WOk_inj' in H. injection H as <-. unfold analyse in A. rewrite (proj1 (C30_rules (a_new (f_exprs fg)) (f_rules fg)) ND) in A. cbn [pand] in A.
  assert (NF' : NoDup (map fst (functions (f_items fg)))).
  { rewrite functions_names. exact NF. }
  rewrite (proj1 (C30_functions (with_rules (a_new (f_exprs fg)) (f_rules fg)) (f_items fg)) NF') in A. cbn [pand] in A.
  apply wbind_ok in A. destruct A as (es & _ & A). cbv zeta in A. apply wbind_ok in A. destruct A as (b & _ & A). destruct b; [|discriminate]. apply wbind_ok in A. destruct A as (w & _ & A).
  apply WOk_inj' in A. injection A as <-. fold (other_items (f_items fg)). fold (functions (f_items fg)). unfold extract_stream_type. cbn [a_items with_level with_exprs with_rust].
  assert (S1 : find_map stream_alias_of (other_items (f_items fg)) = None /\ stream_line (f_items fg) = [RAlias "Stream" "pub type Stream<'a> = StrStream<'a>;"] /\ stream_alias (f_items fg) = "pub type Stream<'a> = StrStream<'a>;" \/
          find_map stream_alias_of (other_items (f_items fg)) = Some ("Stream", stream_alias (f_items fg)) /\ stream_line (f_items fg) = []).
  { clear. unfold stream_line. induction (f_items fg) as [|it l IH]; [left; repeat split; reflexivity|]. destruct it as [n s|n s|s]; cbn [other_items filter existsb orb stream_alias]; try exact IH.
    cbn [find_map stream_alias_of]. destruct (String.eqb n "Stream") eqn:Q; [right; apply String.eqb_eq in Q; subst n; split; reflexivity|exact IH]. }
  destruct S1 as [(-> & -> & SA)|[-> ->]]; cbn [a_funs a_items with_stream with_level with_exprs with_rust a_stream with_rules a_new default_stream fst snd]; repeat split; rewrite ?app_nil_r, ?SA; reflexivity.
Qed.

Theorem C47_module : forall rust_type rust_item return_type generics, reads rust_type -> reads rust_item ->
  forall fuel ts m, oak rust_type rust_item return_type generics fuel ts = WOk (Some m) ->
  exists attrs bs fns, d_grammar rust_type rust_item ts attrs bs /\
    m = map MItem (other_items (block_items bs) ++ stream_line (block_items bs)) ++ fns ++ map (fun q => MFun (fst q) (snd q)) (functions (block_items bs)) /\
    map named fns = flat_map (fun q => [Some (Rec, fst q); Some (Par, fst q)]) (block_rules bs) /\
    Forall (over_stream ("Stream" ++ generics (stream_alias (block_items bs)))) fns /\
    NoDup (map fst (block_rules bs)) /\ NoDup (map fst (functions (block_items bs))).
Proof.
  intros rt ri ret gen RT RI fuel ts m H. destruct (oak_inv H) as (fg & g & G' & P & M & T & C). destruct (C38_accepted_is_documented RT RI P) as (bs & D & IT & RA).
  pose proof (middle_settles M) as MA. destruct (C43_analysis_verdict (C38_parsed P)) as (r & N & R & V).
  assert (r = Some g) as ->. { destruct MA as (N0 & M0). specialize (M0 (N0 + N) (N0 + N) ltac:(lia) ltac:(lia)). rewrite R in M0 by lia. congruence. }
  destruct V as (_ & ND & NF & V1 & _). destruct (middle_items M ND NF) as (IF & II & IS). unfold compile_mod_content in C. apply wbind_ok in C. destruct C as (l & C & Q). apply WOk_inj' in Q. subst m.
  exists (f_attrs fg), bs, l. split; [exact D|]. rewrite II, IF, IT. split; [reflexivity|].
  assert (NM : map rname (rules G') = map fst (block_rules bs)).
  { destruct (typed_form T) as (us & ->). cbn [rules shape]. rewrite V1. clear - RA. induction RA as [|r q rs l [Q _] _ IH]; [reflexivity|]. cbn [map]. rewrite Q, IH. reflexivity. }
  split; [|split; [|split]].
  - assert (X : map named l = flat_map (fun n => [Some (Rec, n); Some (Par, n)]) (map rname (rules G'))).
    { clear - C. revert l C. induction (rules G') as [|rl rs IH]; intros l C; cbn [compile_rules] in C; [injection C as <-; reflexivity|].
      apply wbind_ok in C. destruct C as (r & _ & C). apply wbind_ok in C. destruct C as (p & _ & C). apply wbind_ok in C. destruct C as (ty & _ & C). apply wbind_ok in C. destruct C as (l' & C' & C). injection C as <-.
      cbn [map flat_map named app]. rewrite (IH l' C'). reflexivity. }
    rewrite X, NM. clear. induction (block_rules bs) as [|q l IH]; [reflexivity|]. cbn [map flat_map]. rewrite IH. reflexivity.
  - rewrite <- IT. unfold stream_ty in C. rewrite IS in C. cbn [fst snd] in C. clear - C. revert l C. induction (rules G') as [|rl rs IH]; intros l C; cbn [compile_rules] in C; [injection C as <-; constructor|].
    apply wbind_ok in C. destruct C as (r & _ & C). apply wbind_ok in C. destruct C as (p & _ & C). apply wbind_ok in C. destruct C as (ty & _ & C). apply wbind_ok in C. destruct C as (l' & C' & C).
    injection C as <-. repeat constructor. exact (IH l' C').
  - rewrite <- NM. destruct (typed_form T) as (us & ->). cbn [rules shape]. rewrite V1. exact ND.
  - rewrite <- IT, functions_names. exact NF.
Qed.

(** ---------------- C45 for the macro as a function ---------------- *)
(** A call of a function of the module. *)
Definition called (m : list mod_item) xf (md : mode) (id : string) (t : text) (st : pst) (log : alog) : Prop :=
  exists fuel, run_fn (prog_of m) xf fuel md id (Running.start t) = Done (st, log).
Theorem C45_macro_read : forall rust_type rust_item return_type generics, reads rust_type -> reads rust_item ->
  forall fuel ts m, oak rust_type rust_item return_type generics fuel ts = WOk (Some m) -> toks_strs scalars ts ->
  forall attrs bs, read_as rust_type rust_item ts attrs bs -> NoDup (map fst (block_rules bs)) /\
  forall X xf t, outside X xf t -> forall n e, In (n, e) (block_rules bs) ->
    exists st, called m xf Rec n t st [] /\ as_specified (block_rules bs) X e t st.
Proof.
  intros rt ri ret gen RT RI fuel ts m H LT attrs bs RD. destruct (oak_expands H) as (g & G' & EX & C). destruct (C45_recognizers_read EX LT RD) as (ND & K).
  split; [exact ND|]. intros X xf t O n e In_. destruct (K X xf t O n e In_) as (st & (k & R) & S). exists st. split; [|exact S].
  exists k. rewrite <- R. apply run_fn_ext. exact (content_prog C).
Qed.
Theorem C45_macro : forall rust_type rust_item return_type generics, reads rust_type -> reads rust_item ->
  forall fuel ts m, oak rust_type rust_item return_type generics fuel ts = WOk (Some m) -> toks_strs scalars ts ->
  exists attrs bs, d_grammar rust_type rust_item ts attrs bs /\ NoDup (map fst (block_rules bs)) /\
  forall X xf t, outside X xf t -> forall n e, In (n, e) (block_rules bs) ->
    exists st, called m xf Rec n t st [] /\ as_specified (block_rules bs) X e t st.
Proof.
  intros rt ri ret gen RT RI fuel ts m H LT. destruct (oak_inv H) as (fg & g & G' & PA & _). destruct (C38_read RT RI PA) as (attrs & bs & RD).
  exists attrs, bs. split; [exact (proj1 RD)|]. exact (C45_macro_read RT RI H LT RD).
Qed.

(** ---------------- a concrete case ---------------- *)
Definition toy_return (s : string) : option string := Some "u32".
Definition toy_generics (s : string) : string := "".
Example C46_case : exists m, oak toy_type toy_item toy_return toy_generics 100 (print_grammar toy_toks sum_source) = WOk (Some m) /\ length m = 6 /\
  map named m = [None; Some (Rec, "sum"); Some (Par, "sum"); Some (Rec, "num"); Some (Par, "num"); None].
Proof. eexists. split; [vm_compute; reflexivity|]. split; reflexivity. Qed.

(** The hypotheses of [C46_no_panic_partial] and [C45_parsers_partial] hold of it: [num] is below [sum]. *)
Example C46_case_layers : let ts := print_grammar toy_toks sum_source in
  forall fg g, parse_grammar toy_type toy_item ts = FOk fg -> middle_answers fg (Some g) ->
     exists rk self, layered (shape g) rk self (fun _ => false) /\
     forall fuel G', type_inference (env_of toy_return toy_generics g fuel) fuel (shape g) = WOk (Some G') ->
       rec_ok (shape g) G' self (fun _ => false) /\
       (forall i l j us s, expr_of G' i = Some (EAlt l) -> In j l -> ty_of G' i = Some (TTuple us) -> ty_of G' j <> Some (TRust s)).
Proof.
  intros ts fg g P (N & M). vm_compute in P. injection P as <-.
  match type of M with forall f p, _ -> _ -> middle f p ?F = _ => assert (Q : middle 100 100 F = WOk (Some g)) end.
  { rewrite <- (M (100 + N) (100 + N) ltac:(lia) ltac:(lia)). symmetry. apply middle_more_fuel; [lia|lia|]. vm_compute. discriminate. }
  clear M. vm_compute in Q. injection Q as <-. exists (fun id => if String.eqb id "sum" then 1 else 0), (fun _ => False). split.
  - intros rl i id Irl _ R Ee. unfold shape in *. cbn [a_rules a_exprs rules exprs] in *. destruct Irl as [<-|[<-|[]]]; cbn [rexpr rname] in *.
    + left. split; [|reflexivity]. assert (X : id = "num"); [|subst id; vm_compute; lia].
      do 9 (destruct i as [|i]; [cbn in Ee; try discriminate Ee; try (injection Ee as <-; reflexivity)|]). destruct i; discriminate Ee.
    + exfalso. inversion R as [x|x e c y Ex Ic R']; subst; [discriminate Ee|]. cbn in Ex. injection Ex as <-. destruct Ic.
  - intros fuel G' T. split; [intros rl _; right; split; [reflexivity|intros []]|].
    intros i l j us s Ei. exfalso. destruct (typed_form T) as (ts' & ->). unfold expr_of in Ei. cbn [exprs shape a_exprs app] in Ei.
    do 10 (destruct i as [|i]; [cbn in Ei; discriminate Ei|]). destruct i; discriminate Ei.
Qed.

Print Assumptions C46_one_outcome.
Print Assumptions C46_where_it_panics.
Print Assumptions C46_no_panic_partial.
Print Assumptions C47_module.
Print Assumptions C45_macro.
Print Assumptions C45_macro_read.
