(** Property theorems about the verdict of the analysis, exactly (C54), and about the order of the rules (C55).

    [read_as ts attrs bs] (PropertiesMain.v): the tokens [ts] are read as the rules and items [bs] of the documented syntax;
    [well_formed rs] (TreeWf.v): none of the five defects is in the rules [rs]; [functions] (PropertiesOak.v): the user's
    functions; [called] (PropertiesOak.v): a call of a function of the module; [oak]: the macro (Oak.v). *)
From Coq Require Import Ascii Permutation Relations.
From Verif Require Import Base Utf8 Stream ParseState RuntimeFacts Grammar PegSpec Target Compile
  PegFacts Running WellFormed WfFacts WfSound WfSyntax WfTerm WfFuel WfExact PegRun Behave CharClass
  Analysis AnalysisFacts PropertiesWf PropertiesPeg PropertiesAnalysis Typing SumGrammar Front FrontFacts FrontSpec FrontSound FrontRound FrontGrammar PropertiesFront TreeSpec TreeFacts TreeWf Literals Pipeline
  MiddleFuel PropertiesMain RType Oak OakFacts PropertiesOak.
Set Implicit Arguments. Unset Strict Implicit.
Open Scope string_scope. Open Scope nat_scope. Open Scope list_scope.

(** ---------------- the order of the rules does not matter to the specifications ---------------- *)
Section Order.
Variables rs rs' : list (string * tree).
Hypothesis SAME : forall p, rule_called rs p = rule_called rs' p.
Lemma empties_same t : empties rs t -> empties rs' t.
Proof.
  intros H. pattern t, H. apply empties_mut with (P0 := fun l _ => all_empty rs' l); intros; try solve [econstructor; eauto].
  eapply em_call; [rewrite <- SAME; eassumption|assumption].
Qed.
Lemma all_empty_same l : all_empty rs l -> all_empty rs' l.
Proof. induction 1; constructor; auto using empties_same. Qed.
Lemma succeeds_same t : succeeds rs t -> succeeds rs' t.
Proof.
  intros H. pattern t, H. apply succeeds_mut with (P0 := fun l _ => all_succeed rs' l); intros; try solve [econstructor; eauto].
  eapply su_call; [rewrite <- SAME; eassumption|assumption].
Qed.
Lemma idles_same t : idles rs t -> idles rs' t.
Proof.
  intros H. pattern t, H. apply idles_mut with (P0 := fun l _ => all_idle rs' l); intros; try solve [econstructor; eauto].
  eapply id_call; [rewrite <- SAME; eassumption|assumption].
Qed.
Lemma first_same t id : calls_first rs t id -> calls_first rs' t id.
Proof.
  induction 1; [eapply cf_call; rewrite <- SAME; eassumption|apply cf_seq; [apply all_empty_same|]; assumption|eapply cf_alt; eassumption|eapply cf_un; eassumption].
Qed.
Lemma matches_same X ti s r : tmatches rs X ti s r -> tmatches rs' X ti s r.
Proof.
  induction 1; try solve [econstructor; eauto].
  - eapply t_call; [rewrite <- SAME; eassumption|assumption].
  - eapply t_ext; [rewrite <- SAME; eassumption|assumption].
Qed.
End Order.
Lemma called_permuted (rs rs' : list (string * tree)) : NoDup (map fst rs) -> Permutation rs rs' -> forall p, rule_called rs p = rule_called rs' p.
Proof.
  intros ND P. assert (ND' : NoDup (map fst rs')) by (eapply Permutation_NoDup; [apply Permutation_map; exact P|exact ND]).
  intros [|id [|]]; try reflexivity.
  destruct (rule_called rs [id]) as [t|] eqn:C.
  - symmetry. apply (called_in ND'). eapply Permutation_in; [exact P|]. apply (called_in ND). exact C.
  - destruct (rule_called rs' [id]) as [t|] eqn:C'; [|reflexivity]. apply (called_in ND') in C'. apply (Permutation_in _ (Permutation_sym P)) in C'. apply (called_in ND) in C'. congruence.
Qed.
Lemma well_formed_permuted (rs rs' : list (string * tree)) : NoDup (map fst rs) -> Permutation rs rs' -> well_formed rs -> well_formed rs'.
Proof.
  intros ND P [L R B N I]. pose proof (called_permuted ND P) as S. assert (S' : forall p, rule_called rs' p = rule_called rs p) by (intros; symmetry; apply S).
  assert (PT : forall t, part rs' t -> part rs t). { intros t (n & e & I0 & W). exists n, e. split; [|exact W]. eapply Permutation_in; [apply Permutation_sym; exact P|exact I0]. }
  split.
  - intros id C. apply (L id). eapply clos_iff; [|exact C]. intros a b (t & C0 & F). exists t. split; [rewrite S; exact C0|exact (first_same S' F)].
  - intros t Q E. eapply R; [|exact (empties_same S' E)]. destruct Q; [left|right]; auto.
  - intros l1 t l2 Q NE E. eapply B; [apply PT; exact Q|exact NE|exact (succeeds_same S' E)].
  - intros t Q E. eapply N; [apply PT; exact Q|exact (succeeds_same S' E)].
  - intros t Q E D. eapply I; [apply PT; exact Q|exact (succeeds_same S' E)|exact (idles_same S' D)].
Qed.

(** ---------------- C54 ---------------- *)
(** What a source must be for the analysis to accept it. *)
Definition sound_source (bs : list block) : Prop :=
  block_rules bs <> [] /\ NoDup (map fst (block_rules bs)) /\ NoDup (map fst (functions (block_items bs))) /\ well_formed (block_rules bs).

Lemma verdict_of : forall rust_type rust_item ts fg bs, parse_grammar rust_type rust_item ts = FOk fg ->
  f_items fg = block_items bs -> rules_at (f_exprs fg) (f_rules fg) (block_rules bs) ->
    (sound_source bs /\ exists g, middle_answers fg (Some g)) \/ (~ sound_source bs /\ middle_answers fg None).
Proof.
  intros rt ri ts fg bs PA IT RA.
  pose proof (C38_parsed PA) as PD. destruct (C31_resolution (pa_arena PD)) as (es' & RE & _). specialize (RE _ (le_n _)).
  pose proof (rules_names RA) as NM.
  assert (FN : map fst (functions (block_items bs)) = fn_names fg) by (rewrite <- IT; apply functions_names).
  assert (RN : f_rules fg <> [] <-> block_rules bs <> []).
  { split; intros N E; apply N; rewrite E in NM.
    - destruct (f_rules fg); [reflexivity|discriminate NM].
    - destruct (block_rules bs); [reflexivity|discriminate NM]. }
  assert (WF : NoDup (map fst (block_rules bs)) -> (accepted (mkG (f_rules fg) es' []) <-> well_formed (block_rules bs))).
  { intros ND. pose proof (resolved_analysable (pa_arena PD) (pa_calls PD) (pa_choice PD) [] RE) as AN. rewrite (accepted_iff_sane AN).
    apply sane_iff; [|exact ND]. exact (rules_resolved [] (pa_arena PD) RE NM RA). }
  destruct (C43_analysis_verdict PD) as (r & N & R & V). destruct r as [g|].
  - left. split; [|exists g, N; exact R]. destruct V as (V1 & V2 & V3 & V4 & V5 & _ & V6). rewrite NM in V2. split; [apply RN; exact V1|]. split; [exact V2|]. split; [rewrite FN; exact V3|].
    apply (WF V2). assert (a_exprs g = es') as <- by congruence. rewrite <- V4. apply (V6 []).
  - right. split; [|exists N; exact R]. intros (S1 & S2 & S3 & S4). destruct V as [V|[V|[V|(es0 & E0 & B)]]].
    + apply RN in S1. exact (S1 V).
    + rewrite NM in V. exact (V S2).
    + rewrite FN in S3. exact (V S3).
    + assert (es0 = es') as -> by congruence. discriminate (C24_one_verdict B (proj2 (WF S2) S4)).
Qed.
Theorem C54_verdict : forall rust_type rust_item, reads rust_type -> reads rust_item ->
  forall ts attrs bs, read_as rust_type rust_item ts attrs bs -> exists fg, parse_grammar rust_type rust_item ts = FOk fg /\
    ((sound_source bs /\ exists g, middle_answers fg (Some g)) \/ (~ sound_source bs /\ middle_answers fg None)).
Proof.
  intros rt ri RT RI ts attrs bs (D & fg & PA & _ & IT & RA). exists fg. split; [exact PA|]. exact (verdict_of PA IT RA).
Qed.
(** In particular for the text of a source. *)
Theorem C54_printed : forall rust_type rust_item ty_toks, (forall r, rust_type (TPunct ":" false :: r) = None) ->
  forall l, Forall (canon_block rust_type rust_item ty_toks) l -> let bs := map (fun q => meaning (snd q)) l in
  exists fg, parse_grammar rust_type rust_item (print_grammar ty_toks l) = FOk fg /\
    ((sound_source bs /\ exists g, middle_answers fg (Some g)) \/ (~ sound_source bs /\ middle_answers fg None)).
Proof.
  intros rt ri tt NC l C bs. destruct (C38_round_trip NC C) as (fg & PA & _ & IT & RA). exists fg. split; [exact PA|]. exact (verdict_of PA IT RA).
Qed.

(** Hence the macro delivers a module only for such sources, and a diagnostic, and nothing else, for the others. *)
Theorem C54_macro_accepts : forall rust_type rust_item return_type generics, reads rust_type -> reads rust_item ->
  forall fuel ts m, oak rust_type rust_item return_type generics fuel ts = WOk (Some m) ->
  forall attrs bs, read_as rust_type rust_item ts attrs bs -> sound_source bs.
Proof.
  intros rt ri ret gen RT RI fuel ts m H attrs bs RD. destruct (oak_inv H) as (fg & g & G' & PA & M & _). apply middle_settles in M.
  destruct (C54_verdict RT RI RD) as (fg' & PA' & [[S _]|[_ MA]]); [exact S|]. assert (fg' = fg) as -> by congruence.
  destruct M as (N1 & M), MA as (N2 & MA). specialize (M (N1 + N2) (N1 + N2) ltac:(lia) ltac:(lia)). rewrite MA in M by lia. discriminate.
Qed.
Theorem C54_macro_rejects : forall rust_type rust_item return_type generics, reads rust_type -> reads rust_item ->
  forall ts attrs bs, read_as rust_type rust_item ts attrs bs -> ~ sound_source bs ->
  exists N, forall fuel, N <= fuel -> oak rust_type rust_item return_type generics fuel ts = WOk None.
Proof.
  intros rt ri ret gen RT RI ts attrs bs RD NS. destruct (C54_verdict RT RI RD) as (fg & PA & [[S _]|[_ (N & MA)]]); [contradiction|].
  exists N. intros fuel L. unfold Oak.oak. rewrite PA, (MA fuel fuel L L). reflexivity.
Qed.

(** ---------------- C55 ---------------- *)
(** The same rules and functions, in any order. *)
Record same_source (bs bs' : list block) : Prop := {
  ss_rules : Permutation (block_rules bs) (block_rules bs');
  ss_funs : Permutation (functions (block_items bs)) (functions (block_items bs'))
}.
Theorem C55_verdict_order : forall bs bs', same_source bs bs' -> sound_source bs -> sound_source bs'.
Proof.
  intros bs bs' [P F] (S1 & S2 & S3 & S4). split; [|split; [|split]].
  - intros E. apply S1. rewrite E in P. apply Permutation_sym, Permutation_nil in P. exact P.
  - eapply Permutation_NoDup; [apply Permutation_map; exact P|exact S2].
  - eapply Permutation_NoDup; [apply Permutation_map; exact F|exact S3].
  - exact (well_formed_permuted S2 P S4).
Qed.
(** The recognizers of the two modules match the same texts, and stop at the same place. *)
Theorem C55_recognizers_order : forall rust_type rust_item return_type generics, reads rust_type -> reads rust_item ->
  forall fuel ts m fuel' ts' m', oak rust_type rust_item return_type generics fuel ts = WOk (Some m) -> oak rust_type rust_item return_type generics fuel' ts' = WOk (Some m') ->
  toks_strs scalars ts -> toks_strs scalars ts' ->
  forall attrs bs attrs' bs', read_as rust_type rust_item ts attrs bs -> read_as rust_type rust_item ts' attrs' bs' -> Permutation (block_rules bs) (block_rules bs') ->
  forall X xf t, outside X xf t -> forall n e, In (n, e) (block_rules bs) ->
    exists st st', called m xf Rec n t st [] /\ called m' xf Rec n t st' [] /\ is_failed st = is_failed st' /\
      forall rest, succeeded t st rest <-> succeeded t st' rest.
Proof.
  intros rt ri ret gen RT RI fuel ts m fuel' ts' m' H H' LT LT' attrs bs attrs' bs' RD RD' P X xf t O n e I.
  destruct (C45_macro_read RT RI H LT RD) as (ND & K). destruct (C45_macro_read RT RI H' LT' RD') as (ND' & K').
  destruct (K X xf t O n e I) as (st & C & S1 & S2 & _). destruct (K' X xf t O n e (Permutation_in _ P I)) as (st' & C' & S1' & S2' & _).
  exists st, st'. split; [exact C|]. split; [exact C'|]. pose proof (called_permuted ND P) as SM. assert (SM' : forall p, rule_called (block_rules bs') p = rule_called (block_rules bs) p) by (intros; symmetry; apply SM).
  assert (M : forall q, tmatches (block_rules bs) (ford_ext X) (TE e) t q <-> tmatches (block_rules bs') (ford_ext X) (TE e) t q)
    by (intros q; split; apply matches_same; assumption).
  split.
  - destruct (is_failed st) eqn:F, (is_failed st') eqn:F'; try reflexivity.
    + assert (false = true) by (apply S2', M, S2; reflexivity). discriminate.
    + assert (false = true) by (apply S2, M, S2'; reflexivity). discriminate.
  - intros rest. rewrite S1, S1'. apply M.
Qed.

(** ---------------- concrete cases ---------------- *)
(** [sum = num ("+" num)*    num = ["0-9"]+ > number] *)
Example C54_case : let bs := map (fun q => meaning (snd q)) sum_source in sound_source bs /\ sound_source (rev bs).
Proof.
  cbn zeta. assert (S0 : sound_source (map (fun q => meaning (snd q)) sum_source)).
  { destruct (C54_printed (ty_toks := toy_toks) (fun r => eq_refl) sum_source_canon) as (fg & PA & [[V _]|[_ (N & V)]]); [exact V|]. exfalso.
    vm_compute in PA. injection PA as <-. match type of V with forall f p, _ -> _ -> middle f p ?F = _ => assert (Q : middle 100 100 F = WOk None) end.
    { rewrite <- (V (100 + N) (100 + N) ltac:(lia) ltac:(lia)). symmetry. apply middle_more_fuel; [lia|lia|]. vm_compute. discriminate. }
    vm_compute in Q. discriminate Q. }
  split; [exact S0|]. apply (@C55_verdict_order (map (fun q => meaning (snd q)) sum_source)); [|exact S0]. split; vm_compute; [apply perm_swap|apply Permutation_refl].
Qed.
(** One source for each of the five defects. *)
Definition A := XStr [97%N].
(** [r = "a"? r / "a"] *)
Example C54_left : ~ well_formed [("r", XAlt [XSeq [XOpt A; XCall ["r"]]; A])].
Proof.
  intros [L _ _ _ _]. apply (L "r"). apply t_step. eexists. split; [reflexivity|]. apply cf_alt with (t := XSeq [XOpt A; XCall ["r"]]); [left; reflexivity|].
  apply (@cf_seq _ [XOpt A] (XCall ["r"]) []); [repeat constructor|]. eapply cf_call. reflexivity.
Qed.
(** [r = ("a"?)*] *)
Example C54_repeat : ~ well_formed [("r", XStar (XOpt A))].
Proof. intros [_ R _ _ _]. apply (R (XOpt A)); [left; eexists; eexists; split; [left; reflexivity|constructor]|constructor]. Qed.
(** [r = "a"* / "a"] *)
Example C54_branch : ~ well_formed [("r", XAlt [XStar A; A])].
Proof. intros [_ _ B _ _]. apply (B [] (XStar A) [A]); [eexists; eexists; split; [left; reflexivity|constructor]|discriminate|constructor]. Qed.
(** [r = !("a"?) "a"] *)
Example C54_not : ~ well_formed [("r", XSeq [XNot (XOpt A); A])].
Proof. intros [_ _ _ N _]. apply (N (XOpt A)); [eexists; eexists; split; [left; reflexivity|]|constructor]. eapply wi_step; [left; reflexivity|constructor]. Qed.
(** [r = (!"a")? "a"] *)
Example C54_idle : ~ well_formed [("r", XSeq [XOpt (XNot A); A])].
Proof. intros [_ _ _ _ I0]. apply (I0 (XOpt (XNot A))); [eexists; eexists; split; [left; reflexivity|]|constructor|repeat constructor]. eapply wi_step; [left; reflexivity|constructor]. Qed.

Print Assumptions C54_verdict.
Print Assumptions C54_printed.
Print Assumptions C54_macro_accepts.
Print Assumptions C54_macro_rejects.
Print Assumptions C55_verdict_order.
Print Assumptions C55_recognizers_order.
