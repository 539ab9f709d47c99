(** Property theorems on what a generated function depends on (C66).

    The specification: [leads], [asks], and [within] (TreeWf.v), [rule_called] (TreeSpec.v). *)
From Coq Require Import Ascii.
From Verif Require Import Base Utf8 Stream ParseState RuntimeFacts Grammar PegSpec Target Compile TargetFacts ScopeFacts
  CompileShape EvalRules CompileCorrect ScopeGen GenTotal PegFacts Running WellFormed WfFacts WfSound WfSyntax WfTerm WfFuel PegRun Behave Values CharClass
  Analysis AnalysisFacts PropertiesWf PropertiesPeg PropertiesAnalysis Typing TypeRules SurfaceFacts RefFacts DepthFacts TypingSound TypingFit TypingAnswer GenAgree TypingFuel TypingTop TypingVerdict
  PropertiesTyping SumGrammar Front FrontFacts FrontSpec FrontSound FrontRound FrontGrammar PropertiesFront Agree TreeSpec TreeFacts Literals Pipeline MiddleFuel PropertiesMain RType Oak OakFacts PropertiesOak PropertiesRustc PropertiesModule
  TreeWf PropertiesVerdict TreeValues TreeEp PropertiesSource TreeKinds KindFacts KindTrees TreeNames FrontPrint PropertiesParsers PropertiesScope
  TypeSpec TypeDen TypeSurface TypeDepth TypeExact Warnings PropertiesTypes PropertiesWarnings PropertiesRules PropertiesSignature UnitActions UnitDepth UnitTop ActionCalls PropertiesUnit.
Set Implicit Arguments. Unset Strict Implicit.
Open Scope string_scope. Open Scope nat_scope. Open Scope list_scope.

(** ---------------- the errors of one run of the macro ---------------- *)
(** ---------------- specification ---------------- *)
(** Rules that a rule calls, directly or not. *)
Inductive leads (rs : list (string * tree)) : string -> string -> Prop :=
| ld_self n : leads rs n n
| ld_call n e id t k : In (n, e) rs -> within e (XCall [id]) -> rule_called rs [id] = Some t -> leads rs id k -> leads rs n k.
(** Functions outside of the grammar that these rules call. *)
Definition asks (rs : list (string * tree)) (n : string) (p : list string) : Prop :=
  exists k e, leads rs n k /\ In (k, e) rs /\ within e (XCall p) /\ rule_called rs p = None.
Lemma leads_snoc rs n k e id t : leads rs n k -> In (k, e) rs -> within e (XCall [id]) -> rule_called rs [id] = Some t -> leads rs n id.
Proof. induction 1 as [n|n e' id' t' k I0 W RC _ IH]; intros I1 W1 R1; [exact (ld_call I1 W1 R1 (ld_self rs id))|exact (ld_call I0 W RC (IH I1 W1 R1))]. Qed.

(** A generated function behaves the same, step for step (same bound on the depth of calls, same state, same calls of actions, same
    panics), with other functions outside of the module, and in a program with other functions for its rules, as long as those
    of the rules it leads to, and those that these rules call outside, are the same; for a recognizer, only recognizers count. *)
Theorem C66_locality : forall rust_type rust_item return_type generics, reads rust_type -> reads rust_item ->
  forall fuel ts m, oak rust_type rust_item return_type generics fuel ts = WOk (Some m) ->
  forall attrs bs, read_as rust_type rust_item ts attrs bs ->
  forall md n prog xf xf',
  (forall md' id, leads (block_rules bs) n id -> md' = Rec \/ md = Par -> prog_of m md' id = prog md' id) ->
  (forall md' p st, asks (block_rules bs) n p -> md' = Rec \/ md = Par -> xf md' p st = xf' md' p st) ->
  forall k st, run_fn (prog_of m) xf k md n st = run_fn prog xf' k md n st.
Proof.
  intros rt ri rty gen RT RI fuel ts m H attrs bs RD md n prog xf xf' SP SX k st.
  destruct (source_env RT RI H RD) as (fg & g & G' & PA & MA & RA & TI & C & RE).
  pose proof (source_stored PA MA RA) as SS. set (G := shape g) in *.
  assert (EXT : forall i e, expr_of G i = Some e -> expr_of (igrammar G) i = Some e).
  { intros i e Ee. rewrite ig_low; [exact Ee|]. apply nth_error_Some. unfold expr_of in Ee. congruence. }
  assert (FORM : rules G' = rules G /\ exprs G' = exprs (igrammar G)).
  { destruct (infer_inv TI) as (st1 & st2 & st3 & out & _ & _ & _ & _ & _ & _ & _ & ->). split; reflexivity. }
  destruct FORM as [FR FE].
  set (R := fun md' c => (md' = Rec \/ md = Par) /\ match c with Local id => leads (block_rules bs) n id | Foreign p => asks (block_rules bs) n p end).
  refine (@run_same (fun _ => True) R (prog_of m) prog xf xf' _ _ _ k md n st _).
  - intros md' id f [M LE] PR. destruct (prog_rule C PR) as (rl & Irl & RN & GR). rewrite FR in Irl.
    destruct (rule_source SS Irl) as (t & It & St). pose proof (stored_ext EXT St) as S0. rewrite RN in It.
    assert (PART : forall i e, reaches (exprs (igrammar G)) (rexpr rl) i -> expr_of G' i = Some e -> (forall j u, e <> EAsc j u) -> exists u, within t u /\ stored (igrammar G) (block_rules bs) i u /\ expr_of (igrammar G) i = Some e).
    { intros i e Ri Ei NA. unfold expr_of in Ei. rewrite FE in Ei. change (expr_of (igrammar G) i = Some e) in Ei.
      destruct (proj1 (sub_within (block_rules bs) Ri) t S0) as [(u & WI & Su)|(j & u & Q & _)]; [eauto|]. exfalso. refine (NA j (IRegular TUnit) _). congruence. }
    refine (@rule_calls (fun _ => True) R (md = Par) G' (fun i => reaches (exprs (igrammar G)) (rexpr rl) i) _ _ _ _ md' rl f M _ (rc_self _ _) GR).
    + intros i e c Ri Ei Ic. unfold expr_of in Ei. rewrite FE in Ei. exact (reaches_snoc Ri Ei Ic).
    + auto.
    + intros m1 i id1 M1 Ri Ei. split; [exact M1|]. destruct (PART i _ Ri Ei ltac:(discriminate)) as (u & WI & Su & Ei'). inversion Su; subst; try congruence.
      assert (Q : ENT id0 = ENT id1) by congruence. injection Q as ->. eapply leads_snoc; eassumption.
    + intros m1 i p M1 Ri Ei. split; [exact M1|]. destruct (PART i _ Ri Ei ltac:(discriminate)) as (u & WI & Su & Ei'). inversion Su; subst; try congruence.
      assert (Q : EExt p0 = EExt p) by congruence. injection Q as ->. exists (rname rl), t. auto.
    + rewrite RN. split; [left; reflexivity|exact LE].
  - intros md' id [M LE]. exact (SP md' id LE M).
  - intros md' p s [M AS]. exact (SX md' p s AS M).
  - split; [destruct md; auto|constructor].
Qed.
(** Nothing outside of the grammar is called: nothing outside counts. *)
Theorem C66_closed : forall rust_type rust_item return_type generics, reads rust_type -> reads rust_item ->
  forall fuel ts m, oak rust_type rust_item return_type generics fuel ts = WOk (Some m) ->
  forall attrs bs, read_as rust_type rust_item ts attrs bs -> forall n, (forall p, ~ asks (block_rules bs) n p) ->
  forall xf xf' k md st, run_fn (prog_of m) xf k md n st = run_fn (prog_of m) xf' k md n st.
Proof.
  intros rt ri rty gen RT RI fuel ts m H attrs bs RD n NO xf xf' k md st. apply (C66_locality RT RI H RD); [reflexivity|]. intros md' p s A. destruct (NO p A).
Qed.
(** The functions of other rules can be removed from the module, and for recognizers all parsers. *)
Definition kept (par : bool) (keep : string -> bool) (it : mod_item) : bool :=
  match it with MRecognizer n _ _ => keep n | MParser n _ _ => par && keep n | _ => true end.
Lemma prog_kept par keep m md id : keep id = true -> md = Rec \/ par = true -> prog_of (filter (kept par keep) m) md id = prog_of m md id.
Proof.
  intros K P. unfold prog_of. induction m as [|it m IH]; [reflexivity|]. cbn [filter find_map]. destruct (kept par keep it) eqn:KE.
  - cbn [find_map]. rewrite IH. reflexivity.
  - rewrite IH. destruct it as [ri|n sg f|n sg f|n src]; try discriminate KE; destruct md; cbn [kept] in KE; try reflexivity.
    + destruct (String.eqb_spec n id) as [->|]; [congruence|reflexivity].
    + destruct (String.eqb_spec n id) as [->|]; [|reflexivity]. destruct P as [P|P]; [discriminate|]. rewrite P, K in KE. discriminate.
Qed.
Theorem C66_removed : forall rust_type rust_item return_type generics, reads rust_type -> reads rust_item ->
  forall fuel ts m, oak rust_type rust_item return_type generics fuel ts = WOk (Some m) ->
  forall attrs bs, read_as rust_type rust_item ts attrs bs ->
  forall n par keep, (forall id, leads (block_rules bs) n id -> keep id = true) ->
  forall xf k md st, md = Rec \/ par = true -> run_fn (prog_of (filter (kept par keep) m)) xf k md n st = run_fn (prog_of m) xf k md n st.
Proof.
  intros rt ri rty gen RT RI fuel ts m H attrs bs RD n par keep KE xf k md st MD. symmetry. apply (C66_locality RT RI H RD); [|reflexivity].
  intros md' id L M. symmetry. apply prog_kept; [exact (KE id L)|]. destruct MD as [->|MD]; [destruct M as [M|M]; [auto|discriminate]|auto].
Qed.

(** ---------------- two sources ---------------- *)
Section Local.
Variables rs rs' : list (string * tree).
Variable n : string.
Hypothesis SAME : forall k e p, leads rs n k -> In (k, e) rs -> within e (XCall p) -> rule_called rs p = rule_called rs' p.
Variables (X : extern) (off : text -> nat) (void : tree -> Prop).
(** A part of a rule that [n] leads to. *)
Definition near (t : tree) : Prop := exists k e, leads rs n k /\ In (k, e) rs /\ within e t.
Definition near_item (ti : titem) : Prop := match ti with TE t | TStar t => near t | TSeq l | TAlt l => Forall near l end.
Lemma within_trans a b c : within a b -> within b c -> within a c.
Proof. induction 1; intros; [assumption|]. econstructor; eauto. Qed.
Lemma near_down t u : near t -> In u (operands t) -> near u.
Proof. intros (k & e & L & I0 & W) Iu. exists k, e. split; [exact L|]. split; [exact I0|]. exact (within_trans W (wi_step Iu (wi_refl u))). Qed.
Lemma near_all t : near t -> Forall near (operands t).
Proof. intros N. apply Forall_forall. intros u Iu. exact (near_down N Iu). Qed.
Lemma called_in p t : rule_called rs p = Some t -> exists id, p = [id] /\ In (id, t) rs.
Proof.
  unfold rule_called. destruct p as [|id [|]]; try discriminate. destruct (find (fun q => String.eqb (fst q) id) rs) as [[i0 u]|] eqn:F; [|discriminate].
  intros Q. injection Q as ->. apply find_some in F. destruct F as [I0 E]. apply String.eqb_eq in E. cbn in E. subst. eauto.
Qed.
Lemma near_call p t : near (XCall p) -> rule_called rs p = Some t -> near t.
Proof.
  intros (k & e & L & I0 & W) RC. destruct (called_in RC) as (id & -> & I1). exists id, t. split; [exact (leads_snoc L I0 W RC)|]. split; [exact I1|constructor].
Qed.
Lemma near_same p : near (XCall p) -> rule_called rs p = rule_called rs' p.
Proof. intros (k & e & L & I0 & W). exact (SAME L I0 W). Qed.
Lemma tep_local m ti s r evs : tep rs X off void m ti s r evs -> near_item ti -> tep rs' X off void m ti s r evs.
Proof.
  induction 1; cbn [near_item] in *; intros N.
  all: try (match goal with RC : rule_called rs ?p = Some ?t |- _ => eapply te_call; [assumption|rewrite <- (near_same N); exact RC|]; match goal with IH : _ -> tep _ _ _ _ _ _ _ _ _ |- _ => exact (IH (near_call N RC)) end end).
  all: try (match goal with RC : rule_called rs ?p = None |- _ => eapply te_ext; [assumption|rewrite <- (near_same N); exact RC|assumption] end).
  all: try (econstructor; try eassumption; repeat match goal with IH : _ -> tep _ _ _ _ _ _ _ _ _ |- _ => specialize (IH ltac:(first [exact N | exact (near_all N) | exact (near_down N (or_introl eq_refl)) | exact (Forall_inv N) | exact (Forall_inv_tail N)])) end; eassumption).
Qed.
End Local.
(** The recognizer of a rule does the same in two sources where the rules that it leads to are the same, whatever the other rules:
    the same part of the text is read, or both fail, with the same farthest failures. *)
Theorem C66_recognizers : forall rust_type rust_item return_type generics, reads rust_type -> reads rust_item ->
  forall fuel ts m fuel' ts' m', oak rust_type rust_item return_type generics fuel ts = WOk (Some m) -> oak rust_type rust_item return_type generics fuel' ts' = WOk (Some m') ->
  toks_strs scalars ts -> toks_strs scalars ts' ->
  forall attrs bs attrs' bs', read_as rust_type rust_item ts attrs bs -> read_as rust_type rust_item ts' attrs' bs' ->
  forall n e, In (n, e) (block_rules bs) -> In (n, e) (block_rules bs') ->
  (forall k f p, leads (block_rules bs) n k -> In (k, f) (block_rules bs) -> within f (XCall p) -> rule_called (block_rules bs) p = rule_called (block_rules bs') p) ->
  forall X xf t, outside X xf t -> exists st st' r, called m xf Rec n t st [] /\ called m' xf Rec n t st' [] /\
    bytes_offset (farthest_read st) = bytes_offset (farthest_read st') /\ expected st = expected st' /\
    match r with Some rest => succeeded t st rest /\ succeeded t st' rest | None => is_failed st = true /\ is_failed st' = true end.
Proof.
  intros rt ri ret gen RT RI fuel ts m fuel' ts' m' H H' LT LT' attrs bs attrs' bs' RD RD' n e I0 I0' SM X xf t O.
  destruct (C56_recognizer_errors RT RI H LT RD O I0) as (st & r & evs & C & U & [R1 R2] & F).
  destruct (C56_recognizer_errors RT RI H' LT' RD' O I0') as (st' & r' & evs' & C' & U' & [R1' R2'] & F').
  assert (Q : r = r' /\ evs = evs').
  { apply (U' (fun _ => False)). apply (tep_local SM); [apply U; auto|]. exists n, e. split; [constructor|]. split; [exact I0|constructor]. }
  destruct Q as [<- <-]. exists st, st', (option_map fst r). rewrite R1, R2, R1', R2'. repeat (split; [assumption||reflexivity|]). destruct r as [[rest vs]|]; cbn [option_map fst]; auto.
Qed.

(** ---------------- the values ---------------- *)
Section LocalKinds.
Variables rs rs' : list (string * tree).
Variable n : string.
Variables ret ret' : string -> option (option string).
Hypothesis SAME : forall k e p, leads rs n k -> In (k, e) rs -> within e (XCall p) -> rule_called rs p = rule_called rs' p.
Hypothesis THERE : forall k e, leads rs n k -> In (k, e) rs' -> In (k, e) rs.
Hypothesis RET : forall t b f, near rs n (XAct t b [f]) -> ret f = ret' f.
Lemma leads_back m k : leads rs' m k -> leads rs n m -> leads rs n k.
Proof.
  induction 1 as [m|m e id t k I0 W RC _ IH]; intros L; [exact L|]. apply IH. pose proof (THERE L I0) as I1.
  refine (leads_snoc (t := t) L I1 W _). rewrite (SAME L I1 W). exact RC.
Qed.
Lemma near_fall l t : Forall (near rs n) l -> In t l -> near rs n t.
Proof. intros F. exact (proj1 (Forall_forall _ _) F t). Qed.
Lemma bare_local id : bare rs id -> leads rs n id -> bare rs' id.
Proof.
  intros (S0 & S1 & S2) L. exists (fun i => S0 i /\ leads rs n i). split; [auto|]. intros k e I0 [Sk Lk]. pose proof (THERE Lk I0) as I1. specialize (S2 k e I1 Sk).
  assert (NE : near rs n e) by (exists k, e; split; [exact Lk|split; [exact I1|constructor]]). clear - SAME S2 NE.
  induction S2 as [s|t|t|t|i t R B|l B IH|l NN B IH|t B IH|t B IH|t B IH]; try (constructor; fail).
  - apply ba_call with (t := t); [rewrite <- (near_same SAME NE); exact R|]. split; [exact B|]. destruct NE as (k & e & L & I0 & W). exact (leads_snoc L I0 W R).
  - constructor. intros t It. exact (IH t It (near_down NE It)).
  - constructor; [exact NN|]. intros t It. exact (IH t It (near_down NE It)).
  - constructor. exact (IH (near_down NE (or_introl eq_refl))).
  - constructor. exact (IH (near_down NE (or_introl eq_refl))).
  - constructor. exact (IH (near_down NE (or_introl eq_refl))).
Qed.
Lemma tkind_local : (forall t k, tkind rs ret t k -> near rs n t -> tkind rs' ret' t k) /\ (forall l ks, tkinds rs ret l ks -> Forall (near rs n) l -> tkinds rs' ret' l ks).
Proof.
  apply tkind_mutind.
  - constructor.
  - constructor.
  - constructor.
  - intros p t k RC _ IH N. eapply tk_call; [rewrite <- (near_same SAME N); exact RC|exact (IH (near_call N RC))].
  - intros id t RC B N. eapply tk_bare; [rewrite <- (near_same SAME N); exact RC|]. apply (bare_local B). destruct N as (k & e & L & I0 & W). exact (leads_snoc L I0 W RC).
  - intros p RN N. apply tk_ext. rewrite <- (near_same SAME N). exact RN.
  - intros l ks _ IH N. constructor. exact (IH (near_all N)).
  - intros l ks _ IH N. constructor. exact (IH (near_all N)).
  - intros t k _ IH N. constructor. exact (IH (near_down N (or_introl eq_refl))).
  - intros t k _ IH N. constructor. exact (IH (near_down N (or_introl eq_refl))).
  - intros t k _ IH N. constructor. exact (IH (near_down N (or_introl eq_refl))).
  - constructor.
  - constructor.
  - intros t b p N. replace (act_kind ret p) with (act_kind ret' p); [constructor|]. destruct p as [|f [|]]; try reflexivity. cbn [act_kind]. rewrite (RET N). reflexivity.
  - constructor.
  - intros t k _ IH N. constructor. exact (IH (near_down N (or_introl eq_refl))).
  - constructor.
  - constructor.
  - intros t l k ks _ IH _ IHl N. inversion N; subst. constructor; auto.
Qed.
End LocalKinds.
Lemma leads_from rs n k : leads rs n k -> k = n \/ exists m e t, leads rs n m /\ In (m, e) rs /\ within e (XCall [k]) /\ rule_called rs [k] = Some t.
Proof.
  induction 1 as [n|n e id t k I0 W RC L IH]; [auto|]. right. destruct IH as [->|(m & e' & t' & L' & I1 & W1 & R1)].
  - exists n, e, t. split; [constructor|auto].
  - exists m, e', t'. split; [exact (ld_call I0 W RC L')|auto].
Qed.
(** The rules that a rule leads to are the same in both. *)
Lemma local_there rs rs' n e : NoDup (map fst rs') -> In (n, e) rs -> In (n, e) rs' ->
  (forall k f p, leads rs n k -> In (k, f) rs -> within f (XCall p) -> rule_called rs p = rule_called rs' p) ->
  forall k f, leads rs n k -> In (k, f) rs' -> In (k, f) rs.
Proof.
  intros ND I0 I0' SM k f L I1. apply (TreeWf.called_in ND) in I1. destruct (leads_from L) as [->|(m & e' & t & L' & I2 & W & RC)].
  - apply (TreeWf.called_in ND) in I0'. assert (f = e) as -> by congruence. exact I0.
  - rewrite <- (SM m e' [k] L' I2 W) in I1. destruct (called_in I1) as (id & Q & I3). injection Q as <-. exact I3.
Qed.
Lemma near_there rs rs' n e : NoDup (map fst rs) -> NoDup (map fst rs') -> In (n, e) rs -> In (n, e) rs' ->
  (forall k f p, leads rs n k -> In (k, f) rs -> within f (XCall p) -> rule_called rs p = rule_called rs' p) ->
  (forall k f p, leads rs' n k -> In (k, f) rs' -> within f (XCall p) -> rule_called rs' p = rule_called rs p) /\ forall t, near rs n t -> near rs' n t.
Proof.
  intros ND ND' I0 I0' SM. pose proof (local_there ND' I0 I0' SM) as TH.
  assert (SM' : forall k f p, leads rs' n k -> In (k, f) rs' -> within f (XCall p) -> rule_called rs' p = rule_called rs p).
  { intros k f p L I1 W. pose proof (leads_back SM TH L (ld_self rs n)) as L1. symmetry. exact (SM k f p L1 (TH k f L1 I1) W). }
  split; [exact SM'|]. pose proof (local_there ND I0' I0 SM') as TH'. intros t (k & f & L & I1 & W).
  pose proof (leads_back SM' TH' L (ld_self rs' n)) as L1. exists k, f. split; [exact L1|]. split; [exact (TH' k f L1 I1)|exact W].
Qed.
Lemma tep_void_near rs n X o v v' : (forall t, near rs n t -> (v t <-> v' t)) -> forall m ti s r evs, tep rs X o v m ti s r evs -> near_item rs n ti -> tep rs X o v' m ti s r evs.
Proof.
  intros VV. assert (VA : forall m t, near rs n t -> TreeValues.valued v m t -> TreeValues.valued v' m t) by (intros [] t N; cbn; [auto|]; intros A B; apply A, (VV t N), B).
  assert (VN : forall t, near rs n t -> ~ v t -> ~ v' t) by (intros t N A B; apply A, (VV t N), B).
  induction 1; cbn [near_item] in *; intros N.
  all: try (match goal with RC : rule_called _ _ = Some _ |- _ => eapply te_call; [exact (VA _ _ N ltac:(eassumption))|exact RC|]; match goal with IH : _ -> tep _ _ _ _ _ _ _ _ _ |- _ => exact (IH (near_call N RC)) end end).
  all: repeat match goal with IH : _ -> tep _ _ _ _ _ _ _ _ _ |- _ => specialize (IH ltac:(first [exact N | exact (near_all N) | exact (near_down N (or_introl eq_refl)) | exact (Forall_inv N) | exact (Forall_inv_tail N)])) end.
  all: try (econstructor; eauto; fail).
  - apply te_void; [apply (VV _ N); assumption|assumption].
  - eapply te_act_ok; [apply (VN _ N); assumption| |eassumption]. rewrite <- (VV _ (near_down N (or_introl eq_refl))). assumption.
Qed.
(** The parser of a rule, too: in two sources where the rules that it leads to are the same, and the return types of the functions that
    they name as actions, whatever the other rules: it reads the same part of the text, calls the same actions with the same values,
    returns the same value, and reports the same farthest failures.
    Missing: what [C56_parsers_partial] leaves out, in either source. *)
Theorem C66_parsers_partial : forall rust_type rust_item return_type generics, reads rust_type -> reads rust_item ->
  forall fuel ts m fuel' ts' m', oak rust_type rust_item return_type generics fuel ts = WOk (Some m) -> oak rust_type rust_item return_type generics fuel' ts' = WOk (Some m') ->
  toks_strs scalars ts -> toks_strs scalars ts' ->
  forall attrs bs attrs' bs', read_as rust_type rust_item ts attrs bs -> read_as rust_type rust_item ts' attrs' bs' ->
  forall ret ret', ret = returned return_type (functions (block_items bs)) -> ret' = returned return_type (functions (block_items bs')) ->
  settled_types (block_rules bs) -> plain_choices (block_rules bs) ret -> (forall n e, In (n, e) (block_rules bs) -> tidy (void (block_rules bs) ret) true e) ->
  settled_types (block_rules bs') -> plain_choices (block_rules bs') ret' -> (forall n e, In (n, e) (block_rules bs') -> tidy (void (block_rules bs') ret') true e) ->
  forall n e, In (n, e) (block_rules bs) -> In (n, e) (block_rules bs') ->
  (forall k f p, leads (block_rules bs) n k -> In (k, f) (block_rules bs) -> within f (XCall p) -> rule_called (block_rules bs) p = rule_called (block_rules bs') p) ->
  (forall k f t b a, leads (block_rules bs) n k -> In (k, f) (block_rules bs) -> within f (XAct t b [a]) -> ret a = ret' a) ->
  forall X xf t, outside X xf t ->
    exists st st' log, called m xf Par n t st log /\ called m' xf Par n t st' log /\ data st = data st' /\ is_failed st = is_failed st' /\
      bytes_offset (farthest_read st) = bytes_offset (farthest_read st') /\ expected st = expected st' /\
      (is_failed st = false -> exists rest, succeeded t st rest /\ succeeded t st' rest).
Proof.
  intros rt ri rty gen RT RI fuel ts m fuel' ts' m' H H' LT LT' attrs bs attrs' bs' RD RD' ret ret' Q Q' ST PC TD ST' PC' TD' n e I0 I0' SM RS X xf t O.
  destruct (C45_macro_read RT RI H LT RD) as (ND & _). destruct (C45_macro_read RT RI H' LT' RD') as (ND' & _).
  destruct (C56_parsers_partial RT RI H LT RD ST Q PC (or_intror TD) O I0) as (st & log & r & evs & C & U & L & [R1 R2] & K).
  destruct (C56_parsers_partial RT RI H' LT' RD' ST' Q' PC' (or_intror TD') O I0') as (st' & log' & r' & evs' & C' & U' & L' & [R1' R2'] & K').
  destruct (near_there ND ND' I0 I0' SM) as (SM' & NT). pose proof (local_there ND' I0 I0' SM) as TH. pose proof (local_there ND I0' I0 SM') as TH'.
  destruct (near_there ND' ND I0' I0 SM') as (_ & NT').
  assert (RN : forall u b f, near (block_rules bs) n (XAct u b [f]) -> ret f = ret' f) by (intros u b f (k & g & A1 & A2 & A3); exact (RS k g u b f A1 A2 A3)).
  assert (RN' : forall u b f, near (block_rules bs') n (XAct u b [f]) -> ret' f = ret f) by (intros u b f N; symmetry; exact (RN u b f (NT' _ N))).
  assert (VS : forall u, near (block_rules bs) n u -> (void (block_rules bs) ret u <-> void (block_rules bs') ret' u)).
  { intros u N. split; intros (k & K1 & V); exists k; (split; [|exact V]).
    - exact (proj1 (tkind_local SM TH RN) _ _ K1 N).
    - exact (proj1 (tkind_local SM' TH' RN') _ _ K1 (NT _ N)). }
  assert (NE : near (block_rules bs) n e) by (exists n, e; split; [constructor|split; [exact I0|constructor]]).
  assert (E : r = r' /\ evs = evs').
  { apply U'. apply (tep_local SM); [|exact NE]. apply (tep_void_near VS); [|exact NE]. apply U. auto. }
  destruct E as [-> ->]. exists st, st', log. subst log log'. split; [exact C|]. split; [exact C'|]. rewrite R1, R2, R1', R2'.
  destruct r' as [[rest vs]|].
  - destruct K as [SU D1], K' as [SU' D2]. pose proof SU as [S1 _]. pose proof SU' as [S2 _]. unfold is_successful in S1, S2. apply negb_true_iff in S1, S2. rewrite D1, D2, S1, S2.
    repeat (split; [reflexivity|]). intros _. exists rest. auto.
  - destruct K as [S1 D1], K' as [S2 D2]. rewrite D1, D2, S1, S2. repeat (split; [reflexivity|]). discriminate.
Qed.

(** ---------------- concrete cases ---------------- *)
Local Notation toy_oak := (oak toy_type toy_item toy_return toy_generics 100).
Local Notation blocks l := (map (fun q => meaning (snd q)) l).
(** [r = a a*;  a = .;  b = t], where [t] calls outside, or not. *)
Definition local_source (t u : tree) : list (list (list string) * source) :=
  [plain_rule "r" (XSeq [XCall ["a"]; XStar (XCall ["a"])]); plain_rule "a" t; plain_rule "b" u].
Definition local_rules (t u : tree) : list (string * tree) := block_rules (blocks (local_source t u)).
Lemma local_body p : within (XSeq [XCall ["a"]; XStar (XCall ["a"])]) (XCall p) -> p = ["a"].
Proof.
  intros W. inversion W as [|? u ? I0 W1]; subst. cbn in I0. destruct I0 as [<-|[<-|[]]].
  - inversion W1 as [|? ? ? I1 _]; subst; [reflexivity|destruct I1].
  - inversion W1 as [|? ? ? I1 W2]; subst. cbn in I1. destruct I1 as [<-|[]]. inversion W2 as [|? ? ? I2 _]; subst; [reflexivity|destruct I2].
Qed.
Lemma leaf_calls t p : t = XAny \/ (exists s, t = XStr s) -> ~ within t (XCall p).
Proof. intros T W. destruct T as [->|(s & ->)]; inversion W as [|? ? ? I0 _]; subst; destruct I0. Qed.
Lemma local_in t u k e : In (k, e) (local_rules t u) -> (k = "r" /\ e = XSeq [XCall ["a"]; XStar (XCall ["a"])]) \/ (k = "a" /\ e = t) \/ (k = "b" /\ e = u).
Proof. intros [Q|[Q|[Q|[]]]]; apply pair_inj in Q; destruct Q as [<- <-]; auto. Qed.
Lemma local_leads t u k : t = XAny \/ (exists s, t = XStr s) -> leads (local_rules t u) "r" k -> k = "r" \/ k = "a".
Proof.
  intros T L. inversion L as [n Q1 Q2|n e id v k' I0 W RC L2 Q1 Q2]; subst; [auto|]. right.
  destruct (local_in I0) as [[_ ->]|[[Q _]|[Q _]]]; try discriminate Q. pose proof (local_body W) as Q. injection Q as ->.
  inversion L2 as [n Q1 Q2|n e2 id v2 k' I2 W2 RC2 L3 Q1 Q2]; subst; [reflexivity|]. exfalso.
  destruct (local_in I2) as [[Q _]|[[_ ->]|[Q _]]]; try discriminate Q. exact (leaf_calls T W2).
Qed.
Lemma local_called t u : t = XAny \/ (exists s, t = XStr s) -> forall k f p, leads (local_rules t u) "r" k -> In (k, f) (local_rules t u) -> within f (XCall p) -> p = ["a"].
Proof.
  intros T k f p L I0 W. destruct (local_leads T L) as [-> | ->].
  - destruct (local_in I0) as [[_ ->]|[[Q _]|[Q _]]]; try discriminate Q. exact (local_body W).
  - destruct (local_in I0) as [[Q _]|[[_ ->]|[Q _]]]; try discriminate Q. destruct (leaf_calls T W).
Qed.
Lemma local_same t u u' : t = XAny \/ (exists s, t = XStr s) -> forall k f p, leads (local_rules t u) "r" k -> In (k, f) (local_rules t u) -> within f (XCall p) -> rule_called (local_rules t u) p = rule_called (local_rules t u') p.
Proof. intros T k f p L I0 W. rewrite (local_called T L I0 W). reflexivity. Qed.
Lemma local_canon t u : canon_block toy_type toy_item toy_toks (plain_rule "a" t) -> canon_block toy_type toy_item toy_toks (plain_rule "b" u) ->
  Forall (canon_block toy_type toy_item toy_toks) (local_source t u).
Proof.
  intros T U. constructor; [|constructor; [exact T|constructor; [exact U|constructor]]]. split; [constructor|]. cbn. repeat split; try discriminate; try lia; repeat constructor; try discriminate.
Qed.
Example C66_case : exists m m', toy_oak (print_grammar toy_toks (local_source XAny (XNot (XCall ["out"; "p"])))) = WOk (Some m) /\ toy_oak (print_grammar toy_toks (local_source XAny (XStr [120%N]))) = WOk (Some m') /\
  read_as toy_type toy_item (print_grammar toy_toks (local_source XAny (XNot (XCall ["out"; "p"])))) [] (blocks (local_source XAny (XNot (XCall ["out"; "p"])))) /\
  asks (local_rules XAny (XNot (XCall ["out"; "p"]))) "b" ["out"; "p"] /\ (forall p, ~ asks (local_rules XAny (XNot (XCall ["out"; "p"]))) "r" p) /\ leads (local_rules XAny (XNot (XCall ["out"; "p"]))) "r" "a" /\
  (forall k f p, leads (local_rules XAny (XNot (XCall ["out"; "p"]))) "r" k -> In (k, f) (local_rules XAny (XNot (XCall ["out"; "p"]))) -> within f (XCall p) ->
     rule_called (local_rules XAny (XNot (XCall ["out"; "p"]))) p = rule_called (local_rules XAny (XStr [120%N])) p).
Proof.
  eexists _, _. split; [vm_compute; reflexivity|]. split; [vm_compute; reflexivity|]. split; [|split; [|split; [|split]]].
  - refine (next_read (local_canon _ _)); (split; [constructor|]); cbn; repeat split; try discriminate; try lia; repeat constructor; try discriminate.
  - exists "b", (XNot (XCall ["out"; "p"])). split; [constructor|]. split; [right; right; left; reflexivity|]. split; [eapply wi_step; [left; reflexivity|constructor]|reflexivity].
  - intros p (k & e & L & I0 & W & RN). rewrite (local_called (or_introl eq_refl) L I0 W) in RN. discriminate RN.
  - eapply ld_call with (id := "a"); [left; reflexivity|eapply wi_step; [left; reflexivity|constructor]|reflexivity|constructor].
  - apply local_same. left. reflexivity.
Qed.
(** The conditions on values are met too. *)
Example C66_values_case : forall u, u = XAny \/ u = XStr [120%N] -> forall ret,
  settled_types (local_rules XAny u) /\ plain_choices (local_rules XAny u) ret /\ forall n e, In (n, e) (local_rules XAny u) -> tidy (void (local_rules XAny u) ret) true e.
Proof.
  intros u U ret. split; [|split].
  - apply alone_settled. exists (fun id => if String.eqb id "r" then 1 else 0). intros n e id I0 D. destruct (local_in I0) as [[-> ->]|[[-> ->]|[-> ->]]].
    + left. assert (id = "a") as ->; [|vm_compute; lia]. inversion D as [|l t i It Nt| | | | |]; subst. destruct It as [<-|[<-|[]]].
      * inversion Nt; subst; reflexivity.
      * inversion Nt as [| | |t i N1| | |]; subst. inversion N1; subst; reflexivity.
    + inversion D.
    + destruct U as [-> | ->]; inversion D.
  - intros l t1 t2 (n & e & I0 & W). exfalso. destruct (local_in I0) as [[-> ->]|[[-> ->]|[-> ->]]].
    + inversion W as [|? v ? I1 W1]; subst. destruct I1 as [<-|[<-|[]]]; inversion W1 as [|? v ? I2 W2]; subst; [destruct I2|]. destruct I2 as [<-|[]]. inversion W2 as [|? v ? I3 W3]; subst. destruct I3.
    + inversion W as [|? v ? I1 W1]; subst. destruct I1.
    + destruct U as [-> | ->]; inversion W as [|? v ? I1 W1]; subst; destruct I1.
  - intros n e I0. destruct (local_in I0) as [[-> ->]|[[-> ->]|[-> ->]]].
    + apply ti_seq. apply ts_cons; [apply ti_leaf; reflexivity|]. apply ts_cons; [|constructor]. apply ti_star, ti_leaf. reflexivity.
    + apply ti_leaf. reflexivity.
    + destruct U as [-> | ->]; apply ti_leaf; reflexivity.
Qed.
(** Rules that are led to count: with another [a], [r] fails on ["b"]. *)
Example C66_counts : exists m m' st st', toy_oak (print_grammar toy_toks (local_source XAny XAny)) = WOk (Some m) /\ toy_oak (print_grammar toy_toks (local_source (XStr [97%N]) XAny)) = WOk (Some m') /\
  called m noxf Rec "r" [98%N] st [] /\ is_failed st = false /\ called m' noxf Rec "r" [98%N] st' [] /\ is_failed st' = true.
Proof.
  eexists _, _, _, _. split; [vm_compute; reflexivity|]. split; [vm_compute; reflexivity|]. split; [exists 100; vm_compute; reflexivity|]. split; [reflexivity|]. split; [exists 100; vm_compute; reflexivity|reflexivity].
Qed.

Print Assumptions C66_locality.
Print Assumptions C66_closed.
Print Assumptions C66_removed.
Print Assumptions C66_recognizers.
Print Assumptions C66_parsers_partial.
Print Assumptions C66_case.
Print Assumptions C66_values_case.
Print Assumptions C66_counts.
