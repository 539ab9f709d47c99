(** Property theorems: exactly which generated parsers have unbound names (C28) or misuse [&mut] parameters (C53). *)
From Coq Require Import Ascii Permutation.
From Verif Require Import Base Utf8 Stream ParseState RuntimeFacts Grammar PegSpec Target Compile TargetFacts ScopeFacts
  CompileShape EvalRules CompileCorrect ScopeGen GenTotal PegFacts Running WellFormed WfFacts WfSound WfSyntax WfTerm WfFuel PegRun Behave Values CharClass
  Analysis AnalysisFacts PropertiesWf PropertiesPeg PropertiesAnalysis Typing TypeRules SurfaceFacts RefFacts DepthFacts TypingSound TypingFit GenAgree TypingTop TypingVerdict
  PropertiesTyping SumGrammar Front FrontFacts FrontSpec FrontSound FrontRound FrontGrammar PropertiesFront Agree TreeSpec TreeFacts Literals Pipeline MiddleFuel PropertiesMain RType Oak OakFacts PropertiesOak RustcCheck RustcRefs PropertiesRustc PropertiesModule
  TreeWf PropertiesVerdict TreeValues TreeEp PropertiesSource TreeKinds KindFacts KindTrees TreeNames FrontPrint PropertiesParsers PropertiesMutual PropertiesGen SourceChecks ScopeExact SourceNames.
Set Implicit Arguments. Unset Strict Implicit.
Open Scope string_scope. Open Scope nat_scope. Open Scope list_scope.

(** On a typed arena ([coherent]: see CompileShape.v; [rule_sees]: ScopeExact.v). *)
Theorem C28_parser_names_exact : forall G rl f, coherent G -> gen_parser G rl = COk f -> (no_unbound_name f <-> rule_sees G rl = true).
Proof. intros G rl f. exact (@parser_names_exact G rl f). Qed.

(** ---------------- from the source ---------------- *)
(** The kind of an expression, from the kinds of the rules. *)
Section Decide.
Variables (rs : list (string * tree)) (ret : string -> option (option string)).
Fixpoint kind_with (K : string -> kind) (t : tree) : kind :=
  match t with
  | XStr _ | XNot _ | XAnd _ => KInv
  | XAny | XClass _ _ _ => KData
  | XCall p => match rule_called rs p, p with Some _, [id] => K id | _, _ => KForeign end
  | XSeq l => seq_kind (map (kind_with K) l)
  | XAlt l => alt_kind (map (kind_with K) l)
  | XStar t | XPlus t | XOpt t => rep_kind (kind_with K t)
  | XAct _ _ p => act_kind ret p
  | XAsc _ ty => asc_kind ty
  | XSpan t => span_kind (kind_with K t)
  | XRange _ => KRust
  end.
Lemma kind_with_ok K : (forall id t, rule_called rs [id] = Some t -> tkind rs ret (XCall [id]) (K id)) -> forall t, tkind rs ret t (kind_with K t).
Proof.
  intros H. assert (L : forall l, Forall (fun t => tkind rs ret t (kind_with K t)) l -> tkinds rs ret l (map (kind_with K) l)) by (induction 1; constructor; assumption).
  induction t using tree_ind'; cbn [kind_with]; try (constructor; auto; fail).
  destruct (rule_called rs p) as [u|] eqn:R; [|apply tk_ext, R]. destruct p as [|id [|? ?]]; try discriminate R. exact (H id u R).
Qed.
Lemma rule_kinds : settled_types rs -> exists K : string -> kind, forall id t, rule_called rs [id] = Some t -> tkind rs ret (XCall [id]) (K id).
Proof.
  intros ST. assert (A : forall l : list string, exists K : string -> kind, forall id, In id l -> tkind rs ret (XCall [id]) (K id)).
  { induction l as [|n l (K & IH)]; [exists (fun _ => KInv); intros id []|]. destruct (settled_kinds ret ST (XCall [n])) as (k & Hk).
    exists (fun id => if String.eqb id n then k else K id). intros id I0. destruct (String.eqb id n) eqn:Q; [apply String.eqb_eq in Q; subst; exact Hk|].
    apply IH. destruct I0 as [->|I0]; [rewrite String.eqb_refl in Q; discriminate|exact I0]. }
  destruct (A (map fst rs)) as (K & HK). exists K. intros id t R. apply HK. apply called_rule in R. apply in_map_iff. exists (id, t). auto.
Qed.
(** Whether an expression has a value can be decided. *)
Theorem C28_void_decided : settled_types rs -> exists vd : tree -> bool, forall t, vd t = true <-> void rs ret t.
Proof.
  intros ST. destruct (rule_kinds ST) as (K & HK). exists (fun t => voidb (kind_with K t)). intros t. pose proof (kind_with_ok HK t) as T. split; [intros V; eexists; eauto|].
  intros (k & T' & V). rewrite (proj1 (tkind_det rs ret) _ _ T _ T'). exact V.
Qed.
End Decide.

Section Exact.
Variables (rust_type : list tok -> option (string * list tok)) (rust_item : list tok -> option (rust_item * list tok)).
Variables (ts : list tok) (fg : fgrammar) (g : agrammar) (E : tenv) (fuel : nat) (G' : grammar).
Hypothesis PA : parse_grammar rust_type rust_item ts = FOk fg.
Hypothesis MA : middle_answers fg (Some g).
Hypothesis TY : type_inference E fuel (shape g) = WOk (Some G').
Variable rs : list (string * tree).
Hypothesis RA : rules_at (f_exprs fg) (f_rules fg) rs.
Variable ret : string -> option (option string).
Hypothesis RE : forall f, ret_of E f = ret f.
Hypothesis ST : settled_types rs.
Variable vd : tree -> bool.
Hypothesis VD : forall t, vd t = true <-> void rs ret t.
Local Notation PG := (plug (shape g) G').
Local Notation N := (length (exprs (shape g))).

Lemma plug_child i e : asked g G' i -> expr_of PG i = Some e -> is_unit PG i = false -> Forall (asked g G') (children e).
Proof.
  intros A Ee U. rewrite (plug_low G' (proj1 A)) in Ee. apply Forall_forall. intros j Ij. exact (asked_child PA MA TY A (typed_grow PA MA TY Ee) U Ij).
Qed.
Lemma plug_children i e : expr_of PG i = Some e -> Forall (fun j => j < i) (children e).
Proof.
  unfold plug, expr_of. cbn [exprs]. intros H. destruct (Nat.lt_ge_cases i N) as [L|L].
  - rewrite nth_error_app1 in H by exact L. exact (wb_children (C38_well_built PA MA) H).
  - rewrite nth_error_app2 in H by exact L. destruct (i - N) as [|k]; [cbn in H; injection H as <-; constructor|destruct k; discriminate].
Qed.
Lemma plug_stored i t : i < N -> stored PG rs i t -> stored G' rs i t.
Proof.
  intros L S0. refine (typed_stored PA MA TY _). revert i t L S0.
  assert (K : forall i t, stored PG rs i t -> i < N -> stored (shape g) rs i t).
  { fix IH 3. intros i t S0 L. pose proof (plug_low G' L) as Q.
    assert (C : forall e, expr_of (shape g) i = Some e -> forall j, In j (children e) -> j < N).
    { intros e Ee j Ij. pose proof (wb_children (C38_well_built PA MA) Ee) as F. rewrite Forall_forall in F. specialize (F j Ij). lia. }
    destruct S0 as [i s Ei|i Ei|i a b c Ei|i id t Ei R|i p Ei R|i js l Ei F|i js l Ei F|i j t Ei S1|i j t Ei S1|i j t Ei S1|i j t Ei S1|i j t Ei S1|i j t b p Ei S1|i j t ty Ei S1|i j t Ei S1|i u j t Ei Eu S1]; rewrite Q in Ei; specialize (C _ Ei); cbn [children] in C.
    1-5: econstructor; eassumption.
    1: eapply st_seq; [exact Ei|]. 2: eapply st_alt; [exact Ei|].
    1,2: clear Ei; revert C; induction F as [|j u js l S1 F IHF]; intros C; constructor; [apply IH; [exact S1|apply C; left; reflexivity]|apply IHF; intros k Ik; apply C; right; exact Ik].
    all: try (econstructor; [exact Ei|apply IH; [exact S1|apply C; left; reflexivity]]).
    pose proof (C _ (or_introl eq_refl)) as Lu. rewrite (plug_low G' Lu) in Eu. eapply st_range; [exact Ei|exact Eu|]. apply IH; [exact S1|].
    pose proof (wb_children (C38_well_built PA MA) Eu) as F. apply Forall_inv in F. lia. }
  auto.
Qed.
Lemma plug_void i t : asked g G' i -> stored PG rs i t -> is_unit PG i = vd t.
Proof.
  intros A S0. pose proof (asked_void PA MA TY RA RE ST A (plug_stored (proj1 A) S0)) as V. rewrite <- VD in V. change (is_unit PG i) with (is_unit G' i).
  destruct (is_unit G' i), (vd t); try reflexivity; destruct V as [V1 V2]; [symmetry; apply V1|apply V2]; reflexivity.
Qed.
Lemma plug_range i u : asked g G' i -> is_unit PG i = false -> expr_of PG i = Some (ERange u) -> is_unit PG u = true.
Proof. intros A U Ee. rewrite (plug_low G' (proj1 A)) in Ee. exact (asked_range PA MA TY RA ST A U (typed_grow PA MA TY Ee)). Qed.
Lemma plug_card i : asked g G' i -> (0 <? card PG i) = negb (is_unit PG i).
Proof.
  intros A. unfold card, is_unit. change (ty_of PG i) with (ty_of G' i). destruct (ty_of G' i) as [t|] eqn:Et.
  - destruct t as [| | | |js|]; try reflexivity. destruct (C32_flat_types (C38_well_built PA MA) TY Et) as [L _]. cbn. destruct js; [cbn in L; lia|reflexivity].
  - exfalso. destruct (typed_shape PA MA TY) as (out & Q & LO). rewrite Q in Et. unfold ty_of in Et. cbn [types] in Et. apply nth_error_None in Et. destruct A as [L _]. lia.
Qed.
Lemma names_source rl f : coherent PG -> In rl (rules (shape g)) -> gen_parser PG rl = COk f ->
  exists e, In (rname rl, e) rs /\ (no_unbound_name f <-> names_fit vd e = true) /\ (refs_ok f = true <-> params_fit vd e = true).
Proof.
  intros COH I0 GP. destruct (rule_source (source_stored PA MA RA) I0) as (e & Ie & S0). exists e. split; [exact Ie|].
  assert (AS : asked g G' (rexpr rl)) by (apply (asked_root PA MA TY); rewrite (typed_rules PA MA TY); exact I0).
  assert (S1 : stored PG rs (rexpr rl) e).
  { refine (stored_ext _ S0). unfold plug, expr_of. cbn [exprs]. intros i e0 E0. rewrite nth_error_app1; [exact E0|apply nth_error_Some; congruence]. }
  assert (L : rexpr rl < gen_fuel PG) by (unfold gen_fuel, plug; cbn [exprs]; rewrite app_length; pose proof (proj1 AS); cbn [length]; lia).
  split.
  - rewrite (parser_names_exact COH GP). unfold rule_sees. rewrite (@names_same PG rs vd (asked g G') plug_child plug_children plug_void plug_range plug_card _ e AS S1 L). reflexivity.
  - rewrite (parser_refs COH GP). unfold rule_refs. rewrite (@params_same PG rs vd (asked g G') plug_child plug_children plug_void plug_range plug_card _ e AS S1 L). reflexivity.
Qed.
End Exact.

(** The names of the generated parsers: exactly which rules have an unbound one.  [vd] decides which expressions have no
    value ([C28_void_decided]); [names_fit]: SourceNames.v.
    Missing: rules with a value whose type depends on itself, choices that mix foreign values and tuples. *)
Theorem C28_parsers_exact_partial : forall rust_type rust_item return_type generics, reads rust_type -> reads rust_item ->
  forall fuel ts m, oak rust_type rust_item return_type generics fuel ts = WOk (Some m) ->
  forall attrs bs, read_as rust_type rust_item ts attrs bs -> settled_types (block_rules bs) ->
  forall ret, ret = returned return_type (functions (block_items bs)) -> plain_choices (block_rules bs) ret ->
  forall vd, (forall t, vd t = true <-> void (block_rules bs) ret t) ->
  forall n sg f, In (MParser n sg f) m -> exists e, In (n, e) (block_rules bs) /\ (no_unbound_name f <-> names_fit vd e = true).
Proof.
  intros rt ri rty gen RT RI fuel ts m H attrs bs RD SE ret -> PC vd VD n sg f I0.
  destruct (source_env RT RI H RD) as (fg & g & G' & PA & MA & RA & TY & C & RE). pose proof (C38_well_built PA MA) as WB.
  destruct (kinds_plain PA MA TY RA SE) as (rk & bad & HL & HBA & _). pose proof (rules_ok PA MA TY RA SE HBA) as HU.
  destruct (typed_coherent WB TY HL HU (choices_typed PA MA TY RA RE SE PC)) as (_ & COH & AG & _).
  destruct (proj1 (content_parsers C) n sg f I0) as (rl & I1 & RN & GP & _). rewrite (typed_rules PA MA TY) in I1.
  pose proof (AG Par rl I1) as Q. cbn [gen_rule] in Q. rewrite Q in GP. destruct (names_source PA MA TY RA RE SE VD COH I1 GP) as (e & Ie & A & _). exists e. rewrite <- RN. auto.
Qed.
(** The [&mut] parameters of the closures of the generated parsers ([params_fit]: SourceNames.v), for the same grammars. *)
Theorem C53_parsers_exact_partial : forall rust_type rust_item return_type generics, reads rust_type -> reads rust_item ->
  forall fuel ts m, oak rust_type rust_item return_type generics fuel ts = WOk (Some m) ->
  forall attrs bs, read_as rust_type rust_item ts attrs bs -> settled_types (block_rules bs) ->
  forall ret, ret = returned return_type (functions (block_items bs)) -> plain_choices (block_rules bs) ret ->
  forall vd, (forall t, vd t = true <-> void (block_rules bs) ret t) ->
  forall n sg f, In (MParser n sg f) m -> exists e, In (n, e) (block_rules bs) /\ (refs_ok f = true <-> params_fit vd e = true).
Proof.
  intros rt ri rty gen RT RI fuel ts m H attrs bs RD SE ret -> PC vd VD n sg f I0.
  destruct (source_env RT RI H RD) as (fg & g & G' & PA & MA & RA & TY & C & RE). pose proof (C38_well_built PA MA) as WB.
  destruct (kinds_plain PA MA TY RA SE) as (rk & bad & HL & HBA & _). pose proof (rules_ok PA MA TY RA SE HBA) as HU.
  destruct (typed_coherent WB TY HL HU (choices_typed PA MA TY RA RE SE PC)) as (_ & COH & AG & _).
  destruct (proj1 (content_parsers C) n sg f I0) as (rl & I1 & RN & GP & _). rewrite (typed_rules PA MA TY) in I1.
  pose proof (AG Par rl I1) as Q. cbn [gen_rule] in Q. rewrite Q in GP. destruct (names_source PA MA TY RA RE SE VD COH I1 GP) as (e & Ie & _ & A). exists e. rewrite <- RN. auto.
Qed.

(** ---------------- concrete cases ---------------- *)
Local Notation toy_oak := (oak toy_type toy_item toy_return toy_generics 100).
Definition toy_fn : list (list string) * source := ([], SItem [TKw "fn"; TId "f"; TGroup Paren []; TGroup Brace []] (RFn "f" "")).
(** [r = ("a" ("x" / "y") "z" > f) / ("b" > f)]: the closure for "z" has to clear the flag of the outer choice, unknown to it. *)
Definition leak_tree : tree := XAlt [XAct (XSeq [strs 97%N; XAlt [strs 120%N; strs 121%N]; strs 122%N]) false ["f"]; XAct (strs 98%N) false ["f"]].
(** [r = . (("x" / "y") > f)]: a choice in an action with a value to the left, but no closure. *)
Definition gap_tree : tree := XSeq [XAny; XAct (XAlt [strs 120%N; strs 121%N]) false ["f"]].
(** [r = . ("x" ("y" / "z") "a" > f)]: the closure for "a" ends with the value of [.]. *)
Definition left_tree : tree := XSeq [XAny; XAct (XSeq [strs 120%N; XAlt [strs 121%N; strs 122%N]; strs 97%N]) false ["f"]].
Definition one_rule (t : tree) : list (list (list string) * source) := [([], SRule "r" None t); toy_fn].
Definition one_rules (t : tree) : list (string * tree) := [("r", t)].
Definition one_ret := returned toy_return [("f", "")].
Definition one_void (k : kind) (t : tree) : tree -> bool := fun u => voidb (kind_with (one_rules t) one_ret (fun _ => k) u).
Definition one_kind (k : kind) (t u : tree) : kind := kind_with (one_rules t) one_ret (fun _ => k) u.
Lemma one_kinds t k : one_kind k t t = k -> rule_called (one_rules t) ["r"] = Some t -> (forall id, ~ needs (one_rules t) t id) ->
  settled_types (one_rules t) /\ forall u, tkind (one_rules t) one_ret u (one_kind k t u).
Proof.
  intros Q R ND. assert (ST : settled_types (one_rules t)).
  { apply alone_settled. exists (fun _ => 0). intros n e id [E|[]] NI. injection E as <- <-. destruct (ND id NI). }
  split; [exact ST|]. destruct (rule_kinds one_ret ST) as (K & HK). pose proof (kind_with_ok HK t) as T.
  assert (SA : forall u, (forall id, ~ needs (one_rules t) u id) -> kind_with (one_rules t) one_ret K u = one_kind k t u).
  { clear. assert (LI : forall l, Forall (fun u => (forall id, ~ needs (one_rules t) u id) -> kind_with (one_rules t) one_ret K u = one_kind k t u) l -> (forall u id, In u l -> ~ needs (one_rules t) u id) ->
      map (kind_with (one_rules t) one_ret K) l = map (kind_with (one_rules t) one_ret (fun _ => k)) l).
    { induction 1 as [|u l Hu _ IH]; intros NL; [reflexivity|]. cbn [map]. f_equal; [apply Hu; intros id; apply NL; left; reflexivity|apply IH; intros v id Iv; apply NL; right; exact Iv]. }
    induction u using tree_ind'; intros NI; unfold one_kind; cbn [kind_with]; try reflexivity.
    - destruct p as [|id [|? ?]]; try reflexivity. destruct (rule_called (one_rules t) [id]) eqn:R; [|reflexivity]. destruct (NI id). econstructor. exact R.
    - f_equal. apply LI; [assumption|]. intros v id Iv NV. apply (NI id). econstructor; eassumption.
    - f_equal. apply LI; [assumption|]. intros v id Iv NV. apply (NI id). econstructor; eassumption.
    - f_equal. apply IHu. intros id NV. apply (NI id). constructor. exact NV.
    - f_equal. apply IHu. intros id NV. apply (NI id). constructor. exact NV.
    - f_equal. apply IHu. intros id NV. apply (NI id). constructor. exact NV.
    - f_equal. apply IHu. intros id NV. apply (NI id). constructor. exact NV. }
  rewrite (SA t ND), Q in T. apply kind_with_ok. intros id u R'. pose proof (called_rule R') as [E|[]]. injection E as <- <-. exact (tk_call R' T).
Qed.
Definition clear_alt (k : kind) (t u : tree) : bool := match u with XAlt l => forallb (fun v => negb (foreignb (one_kind k t v))) l | _ => true end.
Lemma one_plain t k : (forall u, tkind (one_rules t) one_ret u (one_kind k t u)) -> all_check (clear_alt k t) 20 t = true -> plain_choices (one_rules t) one_ret.
Proof.
  intros T C l v v' (n & e & I0 & W) Iv _ F _. destruct I0 as [E|[]]. injection E as <- <-. pose proof (all_check_ok W C) as Q. cbn [clear_alt] in Q. rewrite forallb_forall in Q. specialize (Q v Iv).
  rewrite (proj1 (tkind_det _ _) _ _ (T v) _ F) in Q. discriminate.
Qed.
Lemma one_decides t k : (forall u, tkind (one_rules t) one_ret u (one_kind k t u)) -> forall u, voidb (one_kind k t u) = true <-> void (one_rules t) one_ret u.
Proof. intros T u. split; [intros V; eexists; eauto|]. intros (k' & T' & V). rewrite (proj1 (tkind_det _ _) _ _ (T u) _ T'). exact V. Qed.
Lemma one_canon t : canon_block toy_type toy_item toy_toks ([], SRule "r" None t) -> Forall (canon_block toy_type toy_item toy_toks) (one_rule t).
Proof.
  intros C. constructor; [exact C|]. constructor; [|constructor]. split; [constructor|]. cbn. split; [intros r; reflexivity|]. exists "fn", [TId "f"; TGroup Paren []; TGroup Brace []]. split; reflexivity.
Qed.
Ltac no_needs := repeat match goal with H : needs _ (XSeq _) _ |- _ => inversion H; clear H; subst | H : needs _ (XAlt _) _ |- _ => inversion H; clear H; subst
  | H : needs _ (XStr _) _ |- _ => inversion H | H : needs _ XAny _ |- _ => inversion H | H : needs _ (XAct _ _ _) _ |- _ => inversion H | H : In _ (_ :: _) |- _ => destruct H as [<-|H] | H : In _ [] |- _ => destruct H end.

(** All hypotheses of the two theorems are met by these three rules, of which the second only has all its names bound. *)
Example C28_exact_case : forall t k b, In (t, (k, b)) [(leak_tree, (KRust, false)); (gap_tree, (KTuple, true)); (left_tree, (KTuple, false))] -> exists m,
  toy_oak (print_grammar toy_toks (one_rule t)) = WOk (Some m) /\
  read_as toy_type toy_item (print_grammar toy_toks (one_rule t)) [] (map (fun q => meaning (snd q)) (one_rule t)) /\
  settled_types (one_rules t) /\ plain_choices (one_rules t) one_ret /\ (forall u, voidb (one_kind k t u) = true <-> void (one_rules t) one_ret u) /\
  (exists sg f, In (MParser "r" sg f) m) /\ names_fit (fun u => voidb (one_kind k t u)) t = b.
Proof.
  assert (RD : forall t, canon_block toy_type toy_item toy_toks ([], SRule "r" None t) -> read_as toy_type toy_item (print_grammar toy_toks (one_rule t)) [] (map (fun q => meaning (snd q)) (one_rule t))).
  { intros t C. exact (C38_canonical_read (rust_type := toy_type) (rust_item := toy_item) (ty_toks := toy_toks) (fun r => eq_refl) (one_canon C)). }
  assert (ALL : forall t k b m, toy_oak (print_grammar toy_toks (one_rule t)) = WOk (Some m) -> canon_block toy_type toy_item toy_toks ([], SRule "r" None t) ->
    one_kind k t t = k -> (forall id, ~ needs (one_rules t) t id) -> all_check (clear_alt k t) 20 t = true -> (exists sg f, In (MParser "r" sg f) m) -> names_fit (fun u => voidb (one_kind k t u)) t = b ->
    exists m, toy_oak (print_grammar toy_toks (one_rule t)) = WOk (Some m) /\
      read_as toy_type toy_item (print_grammar toy_toks (one_rule t)) [] (map (fun q => meaning (snd q)) (one_rule t)) /\
      settled_types (one_rules t) /\ plain_choices (one_rules t) one_ret /\ (forall u, voidb (one_kind k t u) = true <-> void (one_rules t) one_ret u) /\
      (exists sg f, In (MParser "r" sg f) m) /\ names_fit (fun u => voidb (one_kind k t u)) t = b).
  { intros t k b m H C K ND PL IM NF. destruct (one_kinds K eq_refl ND) as [ST T]. exists m. split; [exact H|]. split; [exact (RD t C)|]. split; [exact ST|]. split; [exact (one_plain T PL)|]. split; [exact (one_decides T)|]. split; [exact IM|exact NF]. }
  intros t k b [Q|[Q|[Q|[]]]]; injection Q as <- <- <-.
  all: eapply ALL; [vm_compute; reflexivity|split; [constructor|cbn; repeat split; try discriminate; lia]|vm_compute; reflexivity|intros id H; unfold leak_tree, gap_tree, left_tree in H; no_needs|vm_compute; reflexivity| |vm_compute; reflexivity].
  all: eexists; eexists; right; right; left; reflexivity.
Qed.
(** So the macro accepts two rules whose parser rustc rejects. *)
Theorem C28_source_refuted : forall t, t = leak_tree \/ t = left_tree -> exists m sg f, toy_oak (print_grammar toy_toks (one_rule t)) = WOk (Some m) /\ In (MParser "r" sg f) m /\ ~ no_unbound_name f.
Proof.
  intros t H. assert (K : exists k, In (t, (k, false)) [(leak_tree, (KRust, false)); (gap_tree, (KTuple, true)); (left_tree, (KTuple, false))]) by (destruct H as [-> | ->]; eexists; [left|right; right; left]; reflexivity).
  destruct K as (k & I0). destruct (C28_exact_case I0) as (m & O & RD & ST & PL & VD & (sg & f & IM) & NF). exists m, sg, f. split; [exact O|]. split; [exact IM|].
  destruct (C28_parsers_exact_partial (proj1 toy_reads) (proj2 toy_reads) O RD ST eq_refl PL VD IM) as (e & Ie & X). destruct Ie as [E|[]]. injection E as <-. intros NU. apply X in NU. congruence.
Qed.

Print Assumptions C28_parser_names_exact.
Print Assumptions C28_void_decided.
Print Assumptions C28_parsers_exact_partial.
Print Assumptions C28_source_refuted.
Print Assumptions C53_parsers_exact_partial.
