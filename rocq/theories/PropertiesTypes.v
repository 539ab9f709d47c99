(** Property theorems on the verdict of type inference, read on the source (C61).

    - [has], [fine], [well_typed] (TypeSpec.v): the types of expressions and which grammars are well typed;
    - [sound_source] (PropertiesVerdict.v): what the analysis demands. *)
From Coq Require Import Ascii Permutation.
From Verif Require Import Base Utf8 Stream ParseState RuntimeFacts Grammar PegSpec Target Compile TargetFacts ScopeFacts
  CompileShape EvalRules CompileCorrect ScopeGen GenTotal PegFacts Running WellFormed WfFacts WfSound WfSyntax WfTerm WfFuel PegRun Behave Values CharClass
  Analysis AnalysisFacts PropertiesWf PropertiesPeg PropertiesAnalysis Typing TypeRules SurfaceFacts RefFacts DepthFacts TypingSound TypingFit TypingAnswer GenAgree TypingTop TypingVerdict
  PropertiesTyping SumGrammar Front FrontFacts FrontSpec FrontSound FrontRound FrontGrammar PropertiesFront Agree TreeSpec TreeFacts Literals Pipeline MiddleFuel PropertiesMain RType Oak OakFacts PropertiesOak PropertiesRustc PropertiesModule
  TreeWf PropertiesVerdict TreeValues TreeEp PropertiesSource TreeKinds KindFacts KindTrees TreeNames FrontPrint PropertiesParsers PropertiesScope
  TypeSpec TypeDen TypeSurface TypeDepth TypeExact.
Set Implicit Arguments. Unset Strict Implicit.
Open Scope string_scope. Open Scope nat_scope. Open Scope list_scope.

(** No rule needs its own type, through whichever rules. *)
Definition unrecursive (rs : list (string * tree)) : Prop :=
  exists rk : string -> nat, forall n e id, In (n, e) rs -> needs rs e id -> rk id < rk n.
Lemma unrecursive_alone rs : unrecursive rs -> settled_alone rs.
Proof. intros (rk & H). exists rk. intros n e id I0 ND. left. exact (H n e id I0 ND). Qed.

(** ---------------- only what the facts say counts ---------------- *)
Definition same_facts (r r' : rust_facts) : Prop := (forall f, returns r f = returns r' f) /\ span_name r = span_name r' /\ range_name r = range_name r'.
Lemma same_facts_sym r r' : same_facts r r' -> same_facts r' r. Proof. intros (A & B & C). repeat split; auto. Qed.
Lemma act_type_ext (ret ret' : rust_facts) b p : same_facts ret ret' -> act_type ret b p = act_type ret' b p.
Proof. intros (Q & _). destruct p as [|f [|? ?]]; cbn; rewrite ?Q; reflexivity. Qed.
Lemma has_ext rs ret ret' t y : same_facts ret ret' -> has rs ret t y -> has rs ret' t y.
Proof.
  intros Q. revert t y. apply (proj1 (@has_mutind rs ret (fun t y => has rs ret' t y) (fun l ys => have rs ret' l ys)
    ltac:(constructor) ltac:(constructor) ltac:(constructor) ltac:(intros; econstructor; eassumption) ltac:(intros; econstructor; eassumption) ltac:(intros; econstructor; eassumption)
    ltac:(intros; econstructor; eassumption) ltac:(intros; econstructor; eassumption) ltac:(intros; econstructor; eassumption) ltac:(intros; econstructor; eassumption) ltac:(constructor) ltac:(constructor)
    ltac:(intros; rewrite (act_type_ext _ _ Q); constructor) ltac:(constructor) ltac:(intros; rewrite (proj1 (proj2 Q)); econstructor; eassumption) ltac:(intros; rewrite (proj2 (proj2 Q)); constructor) ltac:(constructor) ltac:(intros; econstructor; eassumption))).
Qed.
Lemma fine_ext rs ret ret' p t : same_facts ret ret' -> fine rs ret p t -> fine rs ret' p t.
Proof.
  intros Q. pose proof (same_facts_sym Q) as Q'.
  assert (VS : forall u, valueless rs ret u -> valueless rs ret' u) by (intros u (y & H & N); exists y; split; [exact (has_ext Q H)|exact N]).
  assert (VS' : forall u, valueless rs ret' u -> valueless rs ret u) by (intros u (y & H & N); exists y; split; [exact (has_ext Q' H)|exact N]).
  assert (VD : forall u, TypeSpec.valued rs ret u -> TypeSpec.valued rs ret' u) by (intros u (y & H & N); exists y; split; [exact (has_ext Q H)|exact N]).
  assert (VD' : forall u, TypeSpec.valued rs ret' u -> TypeSpec.valued rs ret u) by (intros u (y & H & N); exists y; split; [exact (has_ext Q' H)|exact N]).
  assert (TY : forall u, typable_tree rs ret u -> typable_tree rs ret' u) by (intros u (y & H); exists y; exact (has_ext Q H)).
  assert (CL : forall u, claimable rs ret u -> claimable rs ret' u) by (intros u [(s & H)|H]; [left; exists s|right]; exact (has_ext Q H)).
  induction 1; [apply fi_nothing|apply fi_hidden|apply fi_hidden_act|apply fi_hidden_asc|apply fi_hidden_range|apply fi_open|apply fi_open_act|apply fi_open_asc|apply fi_open_range
    |apply fi_claimed_call|apply fi_claimed_seq|apply fi_claimed_alt|apply fi_claimed_act|apply fi_claimed_asc]; auto.
Qed.
Lemma well_typed_ext rs ret ret' : same_facts ret ret' -> well_typed rs ret -> well_typed rs ret'.
Proof. intros Q W n e I0. destruct (W n e I0) as [(y & H & N) F]. split; [exists y; split; [exact (has_ext Q H)|exact N]|exact (fine_ext Q F)]. Qed.

(** ---------------- the Rust types written in the module ---------------- *)
(** Nothing is written [()]; [_] is for a type known to Rust only. *)
Fixpoint written (y : vtype) : rty :=
  match y with
  | YInv | YUnit => RTUnit
  | YForeign => RTRust "_"
  | YChar => RTChar
  | YRust s => RTRust s
  | YOpt y => RTOption (written y)
  | YList y => RTVec (written y)
  | YTup l => RTTuple (map written l)
  end.
Lemma den_written_both R T G' : reduce_finals T = WOk (types G') ->
  (forall u y, den R T u y -> forall i, nth_error T i = Some u -> exists k, compile_type k G' i = WOk (written y)) /\
  (forall l ys, dens R T l ys -> exists k, wmap (compile_type k G') l = WOk (map written ys)).
Proof.
  intros RF. destruct (reduce_finals_at RF) as [_ FIN].
  assert (TY : forall i u, nth_error T i = Some u -> exists t, ty_of G' i = Some t /\ reduce_final u = WOk t) by (intros i u Ei; exact (FIN i u Ei)).
  apply den_mutind; try (intros; match goal with A : nth_error T ?i = Some ?u |- _ => destruct (TY i u A) as (t & Et & Q); cbn in Q; apply WOk_inj' in Q; subst t; exists 1; cbn [compile_type]; rewrite Et; reflexivity end).
  - intros j u y _ Ej _ IH i Ei. destruct (TY i _ Ei) as (t & Et & Q). cbn in Q. apply WOk_inj' in Q. subst t. destruct (IH j Ej) as (k & K). exists (Datatypes.S k). cbn [compile_type]. rewrite Et, K. reflexivity.
  - intros j u y _ Ej _ IH i Ei. destruct (TY i _ Ei) as (t & Et & Q). cbn in Q. apply WOk_inj' in Q. subst t. destruct (IH j Ej) as (k & K). exists (Datatypes.S k). cbn [compile_type]. rewrite Et, K. reflexivity.
  - intros l ys _ (k & K) i Ei. destruct (TY i _ Ei) as (t & Et & Q). cbn in Q. apply WOk_inj' in Q. subst t. exists (Datatypes.S k). cbn [compile_type]. rewrite Et, K. reflexivity.
  - exists 0. reflexivity.
  - intros i l u y ys _ Ei _ IH _ (k2 & K2). destruct (IH i Ei) as (k1 & K1). exists (k1 + k2). cbn [wmap map].
    rewrite (@compile_type_more G' k1 (k1 + k2) i _ ltac:(lia) K1). cbn [wbind]. assert (X : wmap (compile_type (k1 + k2) G') l = WOk (map written ys)).
    { clear - K2. revert K2. generalize (map written ys). induction l as [|j l IH]; intros zs H; cbn [wmap] in *; [exact H|]. apply wbind_ok in H. destruct H as (z & Z & H). apply wbind_ok in H. destruct H as (zs' & Z' & H).
      rewrite (@compile_type_more G' k2 (k1 + k2) j _ ltac:(lia) Z). cbn [wbind]. rewrite (IH _ Z'). exact H. }
    rewrite X. reflexivity.
Qed.
Lemma den_parser R T G' rl u y t : reduce_finals T = WOk (types G') -> nth_error T (rexpr rl) = Some u -> den R T u y -> parser_value G' rl = WOk t -> t = written y.
Proof.
  intros RF Eu D PV. destruct (proj1 (den_written_both R RF) u y D (rexpr rl) Eu) as (k & K). unfold parser_value in PV. destruct (is_unit G' (rexpr rl)) eqn:U.
  - apply WOk_inj' in PV. subst t. unfold is_unit in U. destruct k as [|k]; [discriminate|]. cbn [compile_type] in K. destruct (ty_of G' (rexpr rl)) as [[]|]; try discriminate U. apply WOk_inj' in K. exact K.
  - exact (compile_type_det PV K).
Qed.

Lemma NoDup_flat_map_one A B (f : A -> list B) l : NoDup (flat_map f l) -> forall a, In a l -> NoDup (f a).
Proof.
  induction l as [|x l IH]; intros ND a I0; [destruct I0|]. cbn [flat_map] in ND. destruct I0 as [<-|I0]; [exact (NoDup_app_l ND)|exact (IH (NoDup_app_r ND) a I0)].
Qed.
(** ---------------- type inference answers exactly ---------------- *)
Lemma inference_exact : forall rust_type rust_item ts fg g, parse_grammar rust_type rust_item ts = FOk fg -> middle_answers fg (Some g) ->
  forall rs, rules_at (f_exprs fg) (f_rules fg) rs -> unrecursive rs ->
  forall E fuel r, type_inference E fuel (shape g) = WOk r ->
  (r = None /\ ~ well_typed rs (facts_of E)) \/
  ((exists G', r = Some G' /\ forall rl e t, In rl (rules (shape g)) -> stored (shape g) rs (rexpr rl) e -> parser_value G' rl = WOk t -> exists y, has rs (facts_of E) e y /\ t = written y) /\ well_typed rs (facts_of E)).
Proof.
  intros rt ri ts fg g PA MA rs RA (rk & HRK) E fuel r H. pose proof (C38_well_built PA MA) as WB. set (G := shape g) in *.
  unfold type_inference in H. apply wbind_ok in H. destruct H as (q & H & Q).
  assert (LAST : length (exprs (igrammar G)) - 1 = length (exprs G)) by apply ig_last.
  assert (RS : Forall2 (fun r0 q0 => rname r0 = fst q0 /\ stored (igrammar G) rs (rexpr r0) (snd q0)) (rules (igrammar G)) rs).
  { pose proof (source_stored PA MA RA) as SS. change (rules (igrammar G)) with (rules (shape g)). clear - SS.
    assert (X : forall l1 (l2 : list (string * tree)), Forall2 (fun r0 q0 => rname r0 = fst q0 /\ stored (shape g) rs (rexpr r0) (snd q0)) l1 l2 ->
      Forall2 (fun r0 q0 => rname r0 = fst q0 /\ stored (igrammar (shape g)) rs (rexpr r0) (snd q0)) l1 l2); [|exact (X _ _ SS)].
    induction 1 as [|r0 q0 l1 l2 [A B] _ IH]; constructor; [|exact IH]. split; [exact A|]. refine (stored_ext _ B).
    intros i e Ee. rewrite ig_low; [exact Ee|]. apply nth_error_Some. unfold expr_of in Ee. congruence. }
  pose proof (all_once WB) as ND.
  destruct (@infer_exact (igrammar G) E rs (own G) rk (ig_typable WB) (ig_owned WB) (ig_forest WB) RS HRK) with (fuel := fuel) (T0 := itable G E) (r := q) as [[-> N]|[(out & T & -> & RF & TL) W]].
  - intros rl I0. rewrite LAST. exact (root_low WB I0).
  - intros i e Li Ee. rewrite LAST in Li. rewrite ig_low in Ee by exact Li. apply NoDup_app_r in ND. unfold expr_of in Ee. exact (NoDup_flat_map_one ND (nth_error_In _ _ Ee)).
  - exact (NoDup_app_l ND).
  - exact (ig_blank G E).
  - rewrite LAST. unfold itable. rewrite nth_error_app2 by (rewrite repeat_length; lia). rewrite repeat_length, Nat.sub_diag. reflexivity.
  - exact H.
  - left. split; [|exact N]. apply WOk_inj' in Q. congruence.
  - right. split; [|exact W]. apply WOk_inj' in Q. eexists. split; [symmetry; exact Q|]. intros rl e t Irl Se PV.
    assert (Se' : stored (igrammar G) rs (rexpr rl) e).
    { refine (stored_ext _ Se). intros i e0 Ee. rewrite ig_low; [exact Ee|]. apply nth_error_Some. unfold expr_of in Ee. congruence. }
    destruct (TL rl e Irl Se') as (u & y & R & Eu & HY & D). exists y. split; [exact HY|]. eapply den_parser; [|exact Eu|exact D|exact PV]. exact RF.
Qed.

(** ---------------- C61 ---------------- *)
(** What Rust code tells, in a source: the return types of its functions, and the types of spans and ranges over its stream
    type.  [generics]: the generic parameters in the text of an alias. *)
Definition range_text (generics : string -> string) (bs : list block) : string := "Range<Stream" ++ generics (stream_alias (block_items bs)) ++ ">".
Definition source_facts (return_type : string -> option string) (generics : string -> string) (bs : list block) : rust_facts :=
  mkFacts (returned return_type (functions (block_items bs))) ("<" ++ range_text generics bs ++ " as StreamSpan>::Output") (range_text generics bs).
(** What a source must be for the macro not to reject it. *)
Definition typed_source (return_type : string -> option string) (generics : string -> string) (bs : list block) : Prop :=
  sound_source bs /\ well_typed (block_rules bs) (source_facts return_type generics bs).
Lemma env_facts return_type generics g bs fuel : a_funs g = functions (block_items bs) -> a_stream g = ("Stream", stream_alias (block_items bs)) ->
  same_facts (facts_of (env_of return_type generics g fuel)) (source_facts return_type generics bs).
Proof.
  intros IF IS. assert (Q : range_type generics g = range_text generics bs) by (unfold range_type, stream_ty, range_text; rewrite IS; reflexivity).
  split; [|split].
  - intros f. cbn [returns facts_of ret_of env_of source_facts]. unfold returned. rewrite IF. reflexivity.
  - cbn [span_name facts_of span_ty env_of source_facts]. unfold span_type. rewrite Q. reflexivity.
  - exact Q.
Qed.
Lemma source_facts_env rust_type rust_item return_type generics fuel ts m : reads rust_type -> reads rust_item -> oak rust_type rust_item return_type generics fuel ts = WOk (Some m) ->
  forall attrs bs, read_as rust_type rust_item ts attrs bs ->
  exists fg g G', parse_grammar rust_type rust_item ts = FOk fg /\ middle_answers fg (Some g) /\ rules_at (f_exprs fg) (f_rules fg) (block_rules bs) /\
    type_inference (env_of return_type generics g fuel) fuel (shape g) = WOk (Some G') /\ compile_mod_content generics g G' = WOk m /\
    same_facts (facts_of (env_of return_type generics g fuel)) (source_facts return_type generics bs).
Proof.
  intros RT RI H attrs bs (D & fg' & PA' & _ & IT & RA). destruct (oak_inv H) as (fg & g & G' & PA & M & T & C). assert (fg' = fg) as -> by congruence.
  pose proof (middle_settles M) as MA. destruct (C43_analysis_verdict (C38_parsed PA)) as (r & N & R & V).
  assert (r = Some g) as ->. { destruct MA as (N0 & M0). specialize (M0 (N0 + N) (N0 + N) ltac:(lia) ltac:(lia)). rewrite R in M0 by lia. congruence. }
  destruct V as (_ & ND & NF & V1 & _). destruct (middle_items M ND NF) as (IF & II & IS).
  exists fg, g, G'. repeat (split; [assumption|]). apply env_facts; congruence.
Qed.

(** The verdict of the macro, when no rule needs its own type: the source is rejected exactly when it is not sound or
    not well typed.  (When it is not rejected, the generator may still panic: C46.) *)
Theorem C61_verdict : forall rust_type rust_item return_type generics, reads rust_type -> reads rust_item ->
  forall ts attrs bs, read_as rust_type rust_item ts attrs bs -> unrecursive (block_rules bs) ->
  exists r N, (forall fuel, N <= fuel -> oak rust_type rust_item return_type generics fuel ts = r) /\ r <> WLoop /\
    ((r = WOk None /\ ~ typed_source return_type generics bs) \/ (r <> WOk None /\ typed_source return_type generics bs)).
Proof.
  intros rt ri rty gen RT RI ts attrs bs RD UR. destruct (@C46_one_outcome rt ri rty gen RT RI ts) as (r & N & NL & K). exists r, N. split; [exact K|]. split; [exact NL|].
  destruct (C54_verdict RT RI RD) as (fg & PA & [[S (g & MA)]|[NS MA]]).
  2: { left. split; [|intros [S _]; exact (NS S)]. destruct (C54_macro_rejects rty gen RT RI RD NS) as (N' & R). rewrite <- (K (N + N')) by lia. apply R. lia. }
  destruct RD as (D & fg' & PA' & _ & IT & RA). assert (fg' = fg) as -> by congruence.
  pose proof (C38_well_built PA MA) as WB. set (G := shape g) in *.
  destruct (C43_analysis_verdict (C38_parsed PA)) as (r' & N1 & R1 & V). destruct MA as (N0 & M0).
  assert (r' = Some g) as ->. { specialize (M0 (N0 + N1) (N0 + N1) ltac:(lia) ltac:(lia)). rewrite R1 in M0 by lia. congruence. }
  assert (MA : middle_answers fg (Some g)) by (exists N0; exact M0).
  destruct V as (_ & ND & NF & _). destruct (middle_items (M0 _ _ (le_n _) (le_n _)) ND NF) as (IF & _ & IS).
  set (B := (length (rules G) + 1) * Datatypes.S (length (exprs G)) + Datatypes.S (Datatypes.S (length (exprs G))) + N + N0).
  assert (RE : same_facts (facts_of (env_of rty gen g B)) (source_facts rty gen bs)) by (apply env_facts; congruence).
  destruct UR as (rk & HRK). assert (UR : unrecursive (block_rules bs)) by (exists rk; exact HRK).
  assert (HL : layered G rk (fun _ => False) (fun _ => false)).
  { intros rl i id Irl _ P Ee. left. split; [|reflexivity]. destruct (rule_source (source_stored PA MA RA) Irl) as (e & Ie & Se). exact (HRK _ _ _ Ie (spos_needs P Ee Se)). }
  destruct (@inference_answers G (env_of rty gen g B) WB ltac:(cbn [cmp_fuel env_of]; unfold B; lia) B rk _ HL ltac:(unfold B; lia)) as (q & TI).
  assert (O : r = match q with Some G' => wbind (compile_mod_content gen g G') (fun m => WOk (Some m)) | None => WOk None end).
  { rewrite <- (K B) by (unfold B; lia). unfold Oak.oak. rewrite PA, M0 by (unfold B; lia). cbn [wbind]. fold G. rewrite TI. cbn [wbind]. destruct q; reflexivity. }
  destruct (inference_exact PA MA RA UR TI) as [[-> NW]|[(G' & -> & _) W]].
  - left. split; [exact O|]. intros [_ W]. apply NW. exact (well_typed_ext (same_facts_sym RE) W).
  - right. split; [|split; [exact S|exact (well_typed_ext RE W)]]. rewrite O. destruct (compile_mod_content gen g G'); discriminate.
Qed.
(** A source that is expanded is well typed. *)
Theorem C61_expanded : forall rust_type rust_item return_type generics, reads rust_type -> reads rust_item ->
  forall fuel ts m, oak rust_type rust_item return_type generics fuel ts = WOk (Some m) ->
  forall attrs bs, read_as rust_type rust_item ts attrs bs -> unrecursive (block_rules bs) -> typed_source return_type generics bs.
Proof.
  intros rt ri rty gen RT RI fuel ts m H attrs bs RD UR. split; [exact (C54_macro_accepts RT RI H RD)|].
  destruct (source_facts_env RT RI H RD) as (fg & g & G' & PA & MA & RA & TY & _ & RE).
  destruct (inference_exact PA MA RA UR TY) as [[Q _]|[_ W]]; [discriminate|]. exact (well_typed_ext RE W).
Qed.
(** Without choices between foreign values and tuples: the macro expands exactly the sound and well-typed sources, and
    rejects the others with an error; it never panics. *)
Theorem C61_module : forall rust_type rust_item return_type generics, reads rust_type -> reads rust_item ->
  forall ts attrs bs, read_as rust_type rust_item ts attrs bs -> unrecursive (block_rules bs) ->
  plain_choices (block_rules bs) (returned return_type (functions (block_items bs))) ->
  (typed_source return_type generics bs /\ exists m N, forall fuel, N <= fuel -> oak rust_type rust_item return_type generics fuel ts = WOk (Some m)) \/
  (~ typed_source return_type generics bs /\ exists N, forall fuel, N <= fuel -> oak rust_type rust_item return_type generics fuel ts = WOk None).
Proof.
  intros rt ri rty gen RT RI ts attrs bs RD UR PC. destruct (C61_verdict rty gen RT RI RD UR) as (r & N & K & _ & V).
  destruct (C46_no_panic_source_partial gen RT RI RD (unrecursive_alone UR) PC) as (r' & N' & K').
  assert (Q : r = WOk r'). { rewrite <- (K (N + N')) by lia. apply K'. lia. }
  subst r. destruct V as [[Q NT]|[Q T]]; [right|left]; (split; [assumption|]).
  - exists N. intros fuel L. rewrite (K fuel L). exact Q.
  - destruct r' as [m|]; [|congruence]. exists m, N. exact K.
Qed.

(** ---------------- concrete cases ---------------- *)
Local Notation toy_oak := (oak toy_type toy_item toy_return toy_generics 100).
(** [sum = num ("+" num)*; num = ["0-9"]+ > number]: the hypotheses of the three theorems are met. *)
Example C61_case : (exists m, toy_oak (print_grammar toy_toks sum_source) = WOk (Some m)) /\
  read_as toy_type toy_item (print_grammar toy_toks sum_source) (flat_map fst sum_source) (map (fun q => meaning (snd q)) sum_source) /\
  unrecursive sum_rules /\ plain_choices sum_rules sum_returned /\ typed_source toy_return toy_generics (map (fun q => meaning (snd q)) sum_source).
Proof.
  destruct C46_case as (m & H & _). pose proof (C38_canonical_read (rust_type := toy_type) (rust_item := toy_item) (ty_toks := toy_toks) (fun r => eq_refl) sum_source_canon) as RD.
  assert (UR : unrecursive sum_rules).
  { exists (fun id => if String.eqb id "sum" then 1 else 0). intros n e id [Q|[Q|[]]] ND; injection Q as <- <-.
    - assert (X : id = "num"); [|subst id; vm_compute; lia].
      repeat match goal with H : needs _ (XSeq _) _ |- _ => inversion H; clear H; subst | H : needs _ (XStar _) _ |- _ => inversion H; clear H; subst
        | H : needs _ (XStr _) _ |- _ => inversion H | H : needs _ (XCall _) _ |- _ => inversion H; clear H; subst; reflexivity | H : In _ (_ :: _) |- _ => destruct H as [<-|H] | H : In _ [] |- _ => destruct H end.
    - inversion ND. }
  split; [exists m; exact H|]. split; [exact RD|]. split; [exact UR|]. split; [exact (proj1 (proj2 C56_parser_case))|].
  exact (C61_expanded (proj1 toy_reads) (proj2 toy_reads) H RD UR).
Qed.
(** Three rules that are sound and rejected: the branches of [r = "a" / .] have no common type; a character is not of type
    [T]; and a span, whatever it holds, is not accepted where a value of a Rust type is built. *)
Definition mixed_tree : tree := XAlt [strs 97%N; XAny].
Definition char_tree : tree := XAsc XAny (IRegular (TRust "T")).
Definition span_tree : tree := XAsc (XSpan (strs 97%N)) (IRegular (TRust "T")).
Example C61_rejected_case : forall t, In t [mixed_tree; char_tree; span_tree] ->
  toy_oak (print_grammar toy_toks (one_rule t)) = WOk None /\
  read_as toy_type toy_item (print_grammar toy_toks (one_rule t)) [] (map (fun q => meaning (snd q)) (one_rule t)) /\
  unrecursive (one_rules t) /\ sound_source (map (fun q => meaning (snd q)) (one_rule t)) /\ ~ well_typed (one_rules t) (source_facts toy_return toy_generics (map (fun q => meaning (snd q)) (one_rule t))).
Proof.
  assert (ALL : forall t, canon_block toy_type toy_item toy_toks ([], SRule "r" None t) -> (forall id, ~ needs (one_rules t) t id) ->
    (forall fg, parse_grammar toy_type toy_item (print_grammar toy_toks (one_rule t)) = FOk fg -> exists g, middle 100 100 fg = WOk (Some g)) ->
    read_as toy_type toy_item (print_grammar toy_toks (one_rule t)) [] (map (fun q => meaning (snd q)) (one_rule t)) /\
    unrecursive (one_rules t) /\ sound_source (map (fun q => meaning (snd q)) (one_rule t))).
  { intros t C ND M. pose proof (C38_canonical_read (rust_type := toy_type) (rust_item := toy_item) (ty_toks := toy_toks) (fun r => eq_refl) (one_canon C)) as RD.
    change (flat_map fst (one_rule t)) with (@nil (list string)) in RD. split; [exact RD|]. split; [exists (fun _ => 0); intros n e id [Q|[]] NI; injection Q as <- <-; destruct (ND id NI)|].
    destruct (C54_verdict (proj1 toy_reads) (proj2 toy_reads) RD) as (fg & PA & [[S0 _]|[_ MA]]); [exact S0|]. exfalso. destruct (M fg PA) as (g & G0). apply middle_settles in G0.
    destruct G0 as (N1 & A), MA as (N2 & B). specialize (A (N1 + N2) (N1 + N2) ltac:(lia) ltac:(lia)). rewrite B in A by lia. discriminate. }
  assert (MID : forall t, In t [mixed_tree; char_tree; span_tree] -> forall fg, parse_grammar toy_type toy_item (print_grammar toy_toks (one_rule t)) = FOk fg -> exists g, middle 100 100 fg = WOk (Some g)).
  { intros t I0 fg P. destruct I0 as [<-|[<-|[<-|[]]]]; vm_compute in P; injection P as <-; eexists; vm_compute; reflexivity. }
  assert (ND : forall t, In t [mixed_tree; char_tree; span_tree] -> forall id, ~ needs (one_rules t) t id).
  { intros t [<-|[<-|[<-|[]]]] id H; unfold mixed_tree, char_tree, span_tree in H; no_needs; try (match goal with X : needs _ _ _ |- _ => inversion X end). }
  assert (CN : forall t, In t [mixed_tree; char_tree; span_tree] -> canon_block toy_type toy_item toy_toks ([], SRule "r" None t)).
  { intros t [<-|[<-|[<-|[]]]]; (split; [constructor|cbn; repeat split; try discriminate; try lia]). all: right; right; exists "T"; (split; [reflexivity|]); (split; [intros r _; reflexivity|]); cbn; (split; [discriminate|reflexivity]). }
  intros t I0. split; [destruct I0 as [<-|[<-|[<-|[]]]]; vm_compute; reflexivity|]. destruct (ALL t (CN t I0) (ND t I0) (MID t I0)) as (A & B & C).
  split; [exact A|]. split; [exact B|]. split; [exact C|]. intros W. destruct (W "r" t (or_introl eq_refl)) as [(y & H & _) F]. destruct I0 as [<-|[<-|[<-|[]]]].
  - (* no common type *)
    clear - H. inversion H; subst. repeat match goal with H : have _ _ _ _ |- _ => inversion H; clear H; subst | H : has _ _ XAny _ |- _ => inversion H; clear H; subst | H : has _ _ (strs _) _ |- _ => inversion H; clear H; subst end.
    match goal with X : agree _ _ |- _ => destruct X as [(l & r & D & A & B)|(_ & _ & D & _)] end.
    + destruct l as [|a [|b l]]; cbn in D; [|injection D as <- <- <-; discriminate (A YInv (or_introl eq_refl))|].
      * injection D as <- <-. destruct (B YChar (or_introl eq_refl)) as [Q|Q]; [|discriminate Q]. unfold akin in Q. cbn in Q. discriminate Q.
      * injection D as <- <- D. destruct l; discriminate D.
    + destruct D as [D|[D|[]]]; discriminate.
  - (* a character is not claimed *)
    clear - F. inversion F as [? V|? ? V|? ? ? ? V|? ? ? V|? ? V|? ? B|? ? ? ? V|? ? V|? V|? V|? V|? V|? ? ? V|? ? V]; subst; try discriminate.
    + destruct V as (y1 & H1 & Q1). inversion H1; subst. discriminate Q1.
    + match goal with H : fine _ _ Claimed XAny |- _ => inversion H end.
  - (* nor is a span *)
    clear - F. inversion F as [? V|? ? V|? ? ? ? V|? ? ? V|? ? V|? ? B|? ? ? ? V|? ? V|? V|? V|? V|? V|? ? ? V|? ? V]; subst; try discriminate.
    + destruct V as (y1 & H1 & Q1). inversion H1; subst. discriminate Q1.
    + match goal with H : fine _ _ Claimed (XSpan _) |- _ => inversion H end.
Qed.

Print Assumptions C61_verdict.
Print Assumptions C61_expanded.
Print Assumptions C61_module.
Print Assumptions C61_case.
Print Assumptions C61_rejected_case.
