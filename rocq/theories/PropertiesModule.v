(** Property theorems about the parsers of the generated module, from the tokens given to the macro (C45, C50).

    [oak fuel ts = WOk (Some m)] (Oak.v): the macro turns the tokens [ts] into the module [m]; [called m xf Par n t st log]
    (PropertiesOak.v): calling [parse_n] of [m] on the text [t] ends in the state [st], the actions called being [log];
    [sg_value sg]: the type of values in a signature; [of_type]: see PropertiesSignature.v. *)
From Coq Require Import Ascii Permutation.
From Verif Require Import Base Utf8 Stream ParseState RuntimeFacts Grammar PegSpec Target Compile TargetFacts ScopeFacts
  CompileShape EvalRules CompileCorrect ScopeGen GenTotal PegFacts Running WellFormed WfFacts WfSound WfSyntax WfTerm WfFuel PegRun Behave Values CharClass
  Analysis AnalysisFacts PropertiesWf PropertiesPeg PropertiesAnalysis Typing TypeRules SurfaceFacts RefFacts DepthFacts TypingSound TypingFit GenAgree TypingTop TypingVerdict
  TypingTotal TypingAnswer TypingFuel MiddleFuel PropertiesTyping SumGrammar Front FrontFacts FrontSpec FrontSound FrontRound FrontGrammar PropertiesFront Agree TreeSpec TreeFacts Literals Pipeline
  PropertiesMain PropertiesRules RType PropertiesSignature Oak OakFacts PropertiesOak.
Set Implicit Arguments. Unset Strict Implicit.
Open Scope string_scope. Open Scope nat_scope. Open Scope list_scope.

Section Parts.
Variables (rust_type : list tok -> option (string * list tok)) (rust_item : list tok -> option (rust_item * list tok)).
Variable return_type : string -> option string.
Variable generics : string -> string.
Local Notation oak := (oak rust_type rust_item return_type generics).
Local Notation env_of := (env_of return_type generics).

(** The parsers of the module are those of the generator, with their types. *)
Lemma rules_parsers stream G rs l : compile_rules stream G rs = WOk l ->
  (forall n sg f, In (MParser n sg f) l -> exists rl, In rl rs /\ rname rl = n /\ gen_parser G rl = COk f /\ parser_value G rl = WOk (sg_value sg)) /\
  (forall rl, In rl rs -> exists sg f, In (MParser (rname rl) sg f) l /\ gen_parser G rl = COk f /\ parser_value G rl = WOk (sg_value sg)).
Proof.
  revert l. induction rs as [|rl rs IH]; intros l H; cbn [compile_rules] in H; [injection H as <-; split; [intros n sg f []|intros rl []]|].
  apply wbind_ok in H. destruct H as (r & E1 & H). apply wbind_ok in H. destruct H as (p & E2 & H). apply wbind_ok in H. destruct H as (t & ET & H).
  apply wbind_ok in H. destruct H as (l' & E3 & H). injection H as <-. apply of_cres_ok in E1, E2. destruct (IH l' E3) as [A B]. split.
  - intros n sg f [Q|[Q|I0]]; [discriminate| |].
    + injection Q as <- <- <-. exists rl. split; [left; reflexivity|]. auto.
    + destruct (A n sg f I0) as (rl' & I1 & Q). exists rl'. split; [right; exact I1|exact Q].
  - intros rl' [<-|I0].
    + exists (mkSig stream t), p. split; [right; left; reflexivity|]. auto.
    + destruct (B rl' I0) as (sg & f & I1 & Q). exists sg, f. split; [right; right; exact I1|exact Q].
Qed.
Lemma content_parsers g G m : compile_mod_content generics g G = WOk m ->
  (forall n sg f, In (MParser n sg f) m -> exists rl, In rl (rules G) /\ rname rl = n /\ gen_parser G rl = COk f /\ parser_value G rl = WOk (sg_value sg)) /\
  (forall rl, In rl (rules G) -> exists sg f, In (MParser (rname rl) sg f) m /\ gen_parser G rl = COk f /\ parser_value G rl = WOk (sg_value sg)).
Proof.
  intros H. unfold compile_mod_content in H. apply wbind_ok in H. destruct H as (l & E & H). injection H as <-. destruct (rules_parsers E) as [A B]. split.
  - intros n sg f I0. apply in_app_iff in I0. destruct I0 as [I0|I0]; [apply in_map_iff in I0; destruct I0 as (x & Q & _); discriminate|].
    apply in_app_iff in I0. destruct I0 as [I0|I0]; [exact (A n sg f I0)|]. apply in_map_iff in I0. destruct I0 as (x & Q & _). discriminate.
  - intros rl I0. destruct (B rl I0) as (sg & f & I1 & Q). exists sg, f. split; [|exact Q]. apply in_app_iff. right. apply in_app_iff. left. exact I1.
Qed.
End Parts.

(** ---------------- C45: the parsers of the module ---------------- *)
(** What is needed of the typed grammar [G']: see [C29_codegen_no_panic_partial] for the three conditions; a choice of
    several values has no external branch (C29); see [C45_parsers_partial]. *)
Definition typable_parsers (g : agrammar) (G' : grammar) : Prop :=
  exists rk self bad, layered (shape g) rk self bad /\
  rec_ok (shape g) G' self bad /\
  (forall i l j us s, expr_of G' i = Some (EAlt l) -> In j l -> ty_of G' i = Some (TTuple us) -> ty_of G' j <> Some (TRust s)).

Theorem C45_macro_parsers_read_partial : forall rust_type rust_item return_type generics, reads rust_type -> reads rust_item ->
  forall fuel ts m, oak rust_type rust_item return_type generics fuel ts = WOk (Some m) -> toks_strs scalars ts ->
  (forall g G', expands rust_type rust_item (env_of return_type generics g fuel) ts g G' -> typable_parsers g G') ->
  (forall n sg f, In (MParser n sg f) m -> no_unbound_name f) ->
  forall attrs bs, read_as rust_type rust_item ts attrs bs -> NoDup (map fst (block_rules bs)) /\
  forall X xf t, outside X xf t -> forall n e, In (n, e) (block_rules bs) ->
    exists st log, called m xf Par n t st log /\ as_specified (block_rules bs) X e t st /\
      (is_failed st = true /\ data st = None \/ is_failed st = false /\ data st <> None).
Proof.
  intros rt ri ret gen RT RI fuel ts m H LT HT HN attrs bs RD. destruct (oak_expands H) as (g & G' & EX & C). destruct (HT g G' EX) as (rk & self & bad & HL & HU & HR0).
  assert (HN' : forall rl f, In rl (rules G') -> gen_rule G' Par rl = COk f -> no_unbound_name f).
  { intros rl f I0 GP. destruct (proj2 (content_parsers C) rl I0) as (sg & f' & I1 & GP' & _). cbn [gen_rule] in GP. assert (f' = f) as -> by congruence. exact (HN _ _ _ I1). }
  destruct (C45_parsers_read_partial EX LT HL HU HR0 HN' RD) as (ND & K). split; [exact ND|].
  intros X xf t O n e In_. destruct (K X xf t O n e In_) as (rl & st & log & F & (k & R) & SP & r & evs & EP & LG & DA & FA). exists st, log.
  split; [exists k; rewrite <- R; apply run_fn_ext; exact (content_prog C)|]. split; [exact SP|]. destruct r as [[rest vs]|]; [right|left]; split; auto; congruence.
Qed.
Theorem C45_macro_parsers_partial : forall rust_type rust_item return_type generics, reads rust_type -> reads rust_item ->
  forall fuel ts m, oak rust_type rust_item return_type generics fuel ts = WOk (Some m) -> toks_strs scalars ts ->
  (forall g G', expands rust_type rust_item (env_of return_type generics g fuel) ts g G' -> typable_parsers g G') ->
  (forall n sg f, In (MParser n sg f) m -> no_unbound_name f) ->
  exists attrs bs, d_grammar rust_type rust_item ts attrs bs /\ NoDup (map fst (block_rules bs)) /\
  forall X xf t, outside X xf t -> forall n e, In (n, e) (block_rules bs) ->
    exists st log, called m xf Par n t st log /\ as_specified (block_rules bs) X e t st /\
      (is_failed st = true /\ data st = None \/ is_failed st = false /\ data st <> None).
Proof.
  intros rt ri ret gen RT RI fuel ts m H LT HT HN. destruct (oak_inv H) as (fg & g & G' & PA & _). destruct (C38_read RT RI PA) as (attrs & bs & RD).
  exists attrs, bs. split; [exact (proj1 RD)|]. exact (C45_macro_parsers_read_partial RT RI H LT HT HN RD).
Qed.

(** ---------------- C50: signatures in the module ---------------- *)
(** What is needed of the typed grammar [G'], as [typable_parsers] but about types and not only numbers of values. *)
Definition typable_values (g : agrammar) (G' : grammar) : Prop :=
  exists rk self bad, layered (shape g) rk self bad /\
  rec_alike (shape g) G' self bad /\
  (forall i l j s, expr_of G' i = Some (EAlt l) -> In j l -> ty_of G' j = Some (TRust s) -> exists r, ty_of G' i = Some (TRust r)).
(** Missing: as in [C50_value_type_partial]. *)
Theorem C50_macro_partial : forall rust_type rust_item return_type generics, reads rust_type -> reads rust_item ->
  forall fuel ts m, oak rust_type rust_item return_type generics fuel ts = WOk (Some m) -> toks_strs scalars ts ->
  (forall g G', expands rust_type rust_item (env_of return_type generics g fuel) ts g G' -> typable_values g G') ->
  (forall n sg f, In (MParser n sg f) m -> no_unbound_name f) ->
  exists attrs bs, d_grammar rust_type rust_item ts attrs bs /\ NoDup (map fst (block_rules bs)) /\
  forall n e, In (n, e) (block_rules bs) -> exists sg f, In (MParser n sg f) m /\
    forall X xf t, outside X xf t -> (forall p s s1 vs evs, X Par p s (Some (s1, vs)) evs -> exists v, vs = [v] /\ made_outside v) ->
    exists st log, called m xf Par n t st log /\ as_specified (block_rules bs) X e t st /\
      (is_failed st = true \/ exists v, data st = Some v /\ of_type v (sg_value sg)).
Proof.
  intros rt ri ret gen RT RI fuel ts m H LT HT HN. destruct (oak_expands H) as (g & G' & EX & C).
  destruct (HT g G' EX) as (rk & self & bad & HL & HU & HF).
  assert (HN' : forall rl f, In rl (rules G') -> gen_rule G' Par rl = COk f -> no_unbound_name f).
  { intros rl f0 I0 GP. destruct (proj2 (content_parsers C) rl I0) as (sg0 & f' & I1 & GP' & _). cbn [gen_rule] in GP. assert (f' = f0) as -> by congruence. exact (HN _ _ _ I1). }
  pose proof EX as (fg & fuel' & PA & MA & TY). pose proof (C38_well_built PA MA) as WB.
  destruct (C50_parsers_partial RT RI EX LT HL HU HF HN') as (attrs & bs & D & ND & K). exists attrs, bs. split; [exact D|]. split; [exact ND|].
  intros n e Ie. destruct (K n e Ie) as (rl & ty & F & CT & KR). destruct (find_rule_in F) as [Irl RN]. destruct (proj2 (content_parsers C) rl Irl) as (sg & f & Im & _ & PV). rewrite RN in Im.
  exists sg, f. split; [exact Im|]. assert (sg_value sg = ty) as ->.
  { pose proof (CT (S (length (exprs G'))) ltac:(lia)) as Q. unfold parser_value in PV. destruct (is_unit G' (rexpr rl)) eqn:U; [|congruence]. cbn [compile_type] in Q. unfold is_unit in U.
    destruct (ty_of G' (rexpr rl)) as [[]|]; try discriminate U; congruence. }
  intros X xf t O X1. destruct (KR X xf t O X1) as (st & log & (k & R) & SP & V). exists st, log. split; [exists k; rewrite <- R; apply run_fn_ext; exact (content_prog C)|]. split; [exact SP|exact V].
Qed.

(** ---------------- C50: the type a rule declares ---------------- *)
(** The type of the value of an expression that tells it, in the concrete syntax: no value for literals and predicates; a
    character; what the user's function returns (in a [Box] for [>>]); the ascribed type; a range of streams.
    [stream]: the stream type; [fns]: the functions of the grammar; [ret]: the return type written in a function. *)
Inductive declares (ret : string -> option string) (stream : string) (fns : list (string * string)) : tree -> rty -> Prop :=
| de_str s : declares ret stream fns (XStr s) RTUnit
| de_not e : declares ret stream fns (XNot e) RTUnit
| de_and e : declares ret stream fns (XAnd e) RTUnit
| de_any : declares ret stream fns XAny RTChar
| de_class a b c : declares ret stream fns (XClass a b c) RTChar
| de_act e f src r : In (f, src) fns -> ret src = Some r -> declares ret stream fns (XAct e false [f]) (RTRust r)
| de_boxed e f src r : In (f, src) fns -> ret src = Some r -> declares ret stream fns (XAct e true [f]) (RTRust ("Box<" ++ r ++ ">"))
| de_proc e b f src : In (f, src) fns -> ret src = None -> declares ret stream fns (XAct e b [f]) RTUnit
| de_asc e s : declares ret stream fns (XAsc e (IRegular (TRust s))) (RTRust s)
| de_asc_unit e : declares ret stream fns (XAsc e (IRegular TUnit)) RTUnit
| de_asc_none e : declares ret stream fns (XAsc e IInvisible) RTUnit
| de_range e : declares ret stream fns (XRange e) (RTRust ("Range<" ++ stream ++ ">")).

Theorem C50_declared : forall rust_type rust_item return_type generics, reads rust_type -> reads rust_item ->
  forall fuel ts m, oak rust_type rust_item return_type generics fuel ts = WOk (Some m) ->
  exists attrs bs, d_grammar rust_type rust_item ts attrs bs /\
  forall n e t, In (n, e) (block_rules bs) ->
    declares return_type ("Stream" ++ generics (stream_alias (block_items bs))) (functions (block_items bs)) e t ->
    exists sg f, In (MParser n sg f) m /\ sg_value sg = t.
Proof.
  intros rt ri ret gen RT RI fuel ts m H. destruct (oak_inv H) as (fg & g & G' & PA & M & T & C). destruct (C38_accepted_is_documented RT RI PA) as (bs & D & IT & RA).
  pose proof (middle_settles M) as MA. pose proof (C38_well_built PA MA) as WB. destruct (C43_analysis_verdict (C38_parsed PA)) as (r & N & R & V).
  assert (r = Some g) as ->. { destruct MA as (N0 & M0). specialize (M0 (N0 + N) (N0 + N) ltac:(lia) ltac:(lia)). rewrite R in M0 by lia. congruence. }
  destruct V as (_ & ND & NF & V1 & _). destruct (middle_items M ND NF) as (IF & II & IS). exists (f_attrs fg), bs. split; [exact D|].
  intros n e t In_ DE. destruct (rule_tree PA MA RA In_) as (rl & F & S0). destruct (find_rule_in F) as [Irl RN]. pose proof (root_low WB Irl) as L.
  assert (RG : rules G' = rules (shape g)) by (destruct (typed_form T) as (us & ->); reflexivity).
  destruct (proj2 (content_parsers C) rl ltac:(rewrite RG; exact Irl)) as (sg & f & Im & _ & PV). rewrite RN in Im. exists sg, f. split; [exact Im|].
  assert (FN : forall id src, In (id, src) (functions (block_items bs)) -> ret_of (env_of ret gen g fuel) id = Some (ret src)).
  { intros id src I0. cbn [ret_of env_of]. rewrite IF, IT. assert (NF' : NoDup (map fst (functions (block_items bs)))) by (rewrite <- IT, functions_names; exact NF).
    clear - I0 NF'. induction (functions (block_items bs)) as [|q l IH]; [destruct I0|]. cbn [find map] in *. inversion NF' as [|? ? NI NF2]; subst. destruct I0 as [->|I0].
    - cbn [fst]. rewrite String.eqb_refl. reflexivity.
    - destruct (String.eqb (fst q) id) eqn:Q; [|exact (IH I0 NF2)]. exfalso. apply String.eqb_eq in Q. apply NI. rewrite Q. exact (in_map fst _ _ I0). }
  assert (RO : forall x t0, expr_of (shape g) (rexpr rl) = Some x -> constant x = true -> ty_of G' (rexpr rl) = Some t0 -> constant_rule (env_of ret gen g fuel) (exprs (shape g)) (rexpr rl) x t0).
  { intros x t0 Ex Cx Et. destruct (C48_constant_types WB T Ex Cx Et) as [K|(_ & p & e' & Ep & Ic & _)]; [exact K|]. exfalso.
    refine (@fo_root _ (ig_forest WB) (rexpr rl) p _ _); [exists rl; split; [exact Irl|reflexivity]|]. assert (Lp : p < length (exprs (shape g))) by (apply nth_error_Some; congruence).
    split; [rewrite ig_last; exact Lp|]. exists e'. split; [rewrite ig_low by exact Lp; exact Ep|exact Ic]. }
  assert (TY : exists t0, ty_of G' (rexpr rl) = Some t0).
  { destruct (typed_table WB T) as (T0 & SH & LT & _). destruct (nth_error T0 (rexpr rl)) as [v|] eqn:Ev; [|apply nth_error_None in Ev; lia]. destruct (SH _ v Ev) as (u & Eu & _). eauto. }
  destruct TY as (t0 & Et).
  assert (SV : t0 = TUnit /\ sg_value sg = RTUnit \/ t0 = TAtom /\ sg_value sg = RTChar \/ (exists s, t0 = TRust s /\ sg_value sg = RTRust s) \/ (exists i, t0 = TList i) \/ (exists i, t0 = TOptional i) \/ (exists js, t0 = TTuple js)).
  { unfold parser_value, is_unit in PV. cbn [compile_type] in PV. rewrite Et in PV. destruct t0; cbn [ty_is_unit] in PV; try (apply WOk_inj' in PV; rewrite <- PV); eauto 10. }
  assert (AR : forall x b id t1 t2, action_rule (env_of ret gen g fuel) (exprs (shape g)) x b (ActPath [id]) t1 -> ret_of (env_of ret gen g fuel) id = Some t2 ->
    match t2 with None => t1 = TUnit | Some r => t1 = TRust (if b then "Box<" ++ r ++ ">" else r) end).
  { intros x b id t1 t2 A Q. inversion A; subst; try congruence.
    - assert (t2 = Some r) as -> by congruence. reflexivity.
    - assert (t2 = Some r) as -> by congruence. reflexivity.
    - assert (t2 = None) as -> by congruence. reflexivity.
    - cbn [length] in *. congruence. }
  assert (FIN : forall x, expr_of (shape g) (rexpr rl) = Some x -> constant x = true ->
     (constant_rule (env_of ret gen g fuel) (exprs (shape g)) (rexpr rl) x t0 -> match t with RTUnit => t0 = TUnit | RTChar => t0 = TAtom | RTRust s => t0 = TRust s | _ => False end) -> sg_value sg = t).
  { intros x Ex Cx K. specialize (K (RO x t0 Ex Cx Et)). destruct t; try contradiction; subst t0; destruct SV as [[Q1 Q2]|[[Q1 Q2]|[(s' & Q1 & Q2)|[(i' & Q1)|[(i' & Q1)|(i' & Q1)]]]]]; congruence. }
  inversion DE; subst; inversion S0; subst; (eapply FIN; [eassumption|reflexivity|]); intros K; inversion K; subst; try reflexivity; try discriminate.
  - match goal with A : action_rule _ _ _ _ _ _, I0 : In (_, ?src) _, Q : ret ?src = _ |- _ => pose proof (AR _ _ _ _ _ A (FN _ _ I0)) as X; rewrite Q in X; exact X end.
  - match goal with A : action_rule _ _ _ _ _ _, I0 : In (_, ?src) _, Q : ret ?src = _ |- _ => pose proof (AR _ _ _ _ _ A (FN _ _ I0)) as X; rewrite Q in X; exact X end.
  - match goal with A : action_rule _ _ _ _ _ _, I0 : In (_, ?src) _, Q : ret ?src = _ |- _ => pose proof (AR _ _ _ _ _ A (FN _ _ I0)) as X; rewrite Q in X; exact X end.
  - cbn [range_ty env_of]. unfold range_type, stream_ty. rewrite IS, IT. reflexivity.
Qed.

Print Assumptions C45_macro_parsers_partial.
Print Assumptions C50_macro_partial.
Print Assumptions C50_declared.
Print Assumptions C45_macro_parsers_read_partial.
