(** Property theorems about grammars that use the rules of other grammars (C51) and about the errors recorded before a
    call (C52).

    A grammar calls the rule [n] of the grammar in the module [path] by [path::n] (README of the repository: external
    non-terminals; tests/grammars/calc3.rs uses the rules of calc2.rs in this way).
    [linked (prog_of m2) xf2 k path used xf0]: the functions outside of a module, where those called [path::n], [n] in
    [used], are the functions of the module [m2], run for at most [k] steps of the model; the others are [xf0]. *)
From Coq Require Import Ascii Permutation.
From Verif Require Import Base Utf8 Stream ParseState RuntimeFacts Grammar PegSpec Target Compile TargetFacts ScopeFacts
  CompileShape EvalRules CompileCorrect ScopeGen GenTotal PegFacts Running WellFormed WfFacts WfSound WfSyntax WfTerm WfFuel PegRun Behave Values CharClass
  Analysis AnalysisFacts PropertiesWf PropertiesPeg PropertiesAnalysis Typing TypeRules SurfaceFacts RefFacts DepthFacts TypingSound TypingFit GenAgree TypingTop TypingVerdict
  TypingTotal TypingAnswer TypingFuel MiddleFuel PropertiesTyping SumGrammar Front FrontFacts FrontSpec FrontSound FrontRound FrontGrammar PropertiesFront Agree TreeSpec TreeFacts Literals Pipeline
  PropertiesMain PropertiesRules RType PropertiesSignature Oak OakFacts PropertiesOak PropertiesModule Blind RecOnly Linking.
Set Implicit Arguments. Unset Strict Implicit.
Open Scope string_scope. Open Scope nat_scope. Open Scope list_scope.

(** ---------------- specification ---------------- *)
(** Ford's semantics of a path: a rule of the imported grammar [rs2], or another function. *)
Definition imported (path used : list string) (rs2 : list (string * tree)) (X2 X0 : list string -> text -> option text -> Prop) (p : list string) (s : text) (r : option text) : Prop :=
  (exists n e, In n used /\ In (n, e) rs2 /\ p = path ++ [n] /\ tmatches rs2 X2 (TE e) s r) \/
  ((forall n, In n used -> p <> path ++ [n]) /\ X0 p s r).

(** Trees that consume a character when they match. *)
Inductive consumes (rs : list (string * tree)) : tree -> Prop :=
| cs_str lit : lit <> [] -> consumes rs (XStr lit)
| cs_any : consumes rs XAny
| cs_class a b c : consumes rs (XClass a b c)
| cs_call p t : rule_called rs p = Some t -> consumes rs t -> consumes rs (XCall p)
| cs_ext p : rule_called rs p = None -> consumes rs (XCall p)
| cs_seq l t : In t l -> consumes rs t -> consumes rs (XSeq l)
| cs_alt l : (forall t, In t l -> consumes rs t) -> consumes rs (XAlt l)
| cs_plus t : consumes rs t -> consumes rs (XPlus t)
| cs_act t b p : consumes rs t -> consumes rs (XAct t b p)
| cs_asc t y : consumes rs t -> consumes rs (XAsc t y)
| cs_span t : consumes rs t -> consumes rs (XSpan t)
| cs_range t : consumes rs t -> consumes rs (XRange t).

Section Consumes.
Variables (rs : list (string * tree)) (X : list string -> text -> option text -> Prop).
Hypothesis XC : forall p s s1, X p s (Some s1) -> length s1 < length s.
Lemma never_longer it s r : tmatches rs X it s r -> forall s1, r = Some s1 -> length s1 <= length s.
Proof.
  induction 1; intros q Q; try discriminate Q; try (injection Q as <-); try lia; cbn [length]; rewrite ?app_length; try lia; auto.
  - subst r. pose proof (XC H0). lia.
  - specialize (IHtmatches2 _ Q). specialize (IHtmatches1 _ eq_refl). lia.
  - specialize (IHtmatches2 _ Q). specialize (IHtmatches1 _ eq_refl). lia.
  - specialize (IHtmatches2 _ Q). specialize (IHtmatches1 _ eq_refl). lia.
Qed.
Definition item_consumes (it : titem) : Prop :=
  match it with TE t => consumes rs t | TSeq l => exists t, In t l /\ consumes rs t | TAlt l => forall t, In t l -> consumes rs t | TStar _ => False end.
Lemma consumes_some it s r : tmatches rs X it s r -> item_consumes it -> forall s1, r = Some s1 -> length s1 < length s.
Proof.
  induction 1; cbn [item_consumes]; intros C q Q; try discriminate Q; try contradiction; try (inversion C; subst; auto; fail).
  - injection Q as <-. inversion C; subst. rewrite app_length. destruct lit; [contradiction|]. cbn [length]. lia.
  - injection Q as <-. cbn [length]. lia.
  - injection Q as <-. cbn [length]. lia.
  - inversion C; subst; [|congruence]. apply IHtmatches; [|reflexivity]. cbn [item_consumes]. congruence.
  - subst r. exact (XC H0).
  - inversion C; subst. apply IHtmatches; [|reflexivity]. cbn [item_consumes]. eauto.
  - inversion C; subst. pose proof (never_longer H0 eq_refl). specialize (IHtmatches1 ltac:(cbn; assumption) _ eq_refl). lia.
  - destruct C as (t0 & [] & _).
  - destruct C as (t0 & [<-|I0] & C); pose proof (never_longer H eq_refl); pose proof (never_longer H0 Q).
    + specialize (IHtmatches1 C _ eq_refl). lia.
    + specialize (IHtmatches2 (ex_intro _ t0 (conj I0 C)) _ Q). lia.
  - injection Q as <-. apply IHtmatches; [|reflexivity]. apply C. left. reflexivity.
  - apply IHtmatches2; [|exact Q]. intros t0 I0. apply C. right. exact I0.
Qed.
End Consumes.

(** ---------------- a module, seen from outside ---------------- *)
Lemma gen_plug rust_type rust_item (ts : list tok) fg g E fuel G' : parse_grammar rust_type rust_item ts = FOk fg -> middle_answers fg (Some g) -> type_inference E fuel (shape g) = WOk (Some G') ->
  forall m id, gen_prog G' m id = gen_prog (plug (shape g) G') m id.
Proof.
  intros PA MA TY. destruct (typed_shape PA MA TY) as (out & -> & LO). pose proof (C38_well_built PA MA) as WB. unfold plug. cbn [rules exprs types]. intros m id.
  refine (@gen_prog_agree (rules (shape g)) (exprs (shape g) ++ [ESpan 0]) (exprs (shape g) ++ [EAny]) out (length (exprs (shape g))) _ _ _ (root_low WB) m id).
  - intros i L. rewrite !nth_error_app1 by exact L. reflexivity.
  - intros i e L Ee. rewrite nth_error_app1 in Ee by exact L. exact (wb_children WB Ee).
  - rewrite !app_length. reflexivity.
Qed.
Lemma linked_ext md p1 p2 xf2 k path used xf0 : (forall m id, p1 m id = p2 m id) -> forall m p st, linked_by md p1 xf2 k path used xf0 m p st = linked_by md p2 xf2 k path used xf0 m p st.
Proof. intros H m p st. unfold linked_by. destruct (import path used p) as [n|]; [apply run_fn_ext, H|reflexivity]. Qed.
Lemma linked_blind prog xf2 k path used xf0 : blind xf2 -> blind xf0 -> blind (linked prog xf2 k path used xf0).
Proof. intros B2 B0 m p a b S0. unfold linked, linked_by. destruct (import path used p) as [n|]; [exact (@run_fn_blind prog xf2 B2 k m n a b S0)|exact (B0 m p a b S0)]. Qed.
Lemma ext_ok_same X xf xf' t : (forall m p st, xf m p st = xf' m p st) -> ext_ok X xf t -> ext_ok X xf' t.
Proof.
  intros H O m p s r evs Hs Hx. specialize (O m p s r evs Hs Hx). destruct r as [[s1 vs]|].
  - destruct O as (A & B & O). split; [exact A|]. split; [exact B|]. intros ei. destruct (O ei) as (d & Q & D). exists d. rewrite <- H. auto.
  - intros ei. destruct (O ei) as (cur & d & Q). exists cur, d. rewrite <- H. exact Q.
Qed.
Lemma tmatches_same rs (X Y : list string -> text -> option text -> Prop) : (forall p s r, X p s r -> Y p s r) -> forall it s r, tmatches rs X it s r -> tmatches rs Y it s r.
Proof. intros H it s r M. induction M; solve [econstructor; eauto | eapply t_ext; eauto | eapply t_call; eauto | eapply t_opt_some; eauto | eapply t_opt_none; eauto | eapply t_plus_ok; eauto | eapply t_plus_fail; eauto | eapply t_str_fail; eauto | eapply t_class_fail; eauto | eapply t_class_eof | eapply t_any_fail | eapply t_not_ok; eauto | eapply t_not_fail; eauto | eapply t_and_ok; eauto | eapply t_and_fail; eauto | eapply t_seq_cons; eauto | eapply t_seq_fail; eauto | eapply t_alt_first; eauto | eapply t_alt_next; eauto | eapply t_star_stop; eauto | eapply t_star_more; eauto]. Qed.
Lemma in_names (rs : list (string * tree)) n : In n (map fst rs) -> exists e, In (n, e) rs.
Proof. intros H. apply in_map_iff in H. destruct H as ([n' e] & <- & I0). exists e. exact I0. Qed.

Section Module.
Variables (rust_type : list tok -> option (string * list tok)) (rust_item : list tok -> option (rust_item * list tok)).
Variable generics : string -> string.
Hypothesis RT : reads rust_type.
Hypothesis RI : reads rust_item.
Variables (ts : list tok) (fg : fgrammar) (g : agrammar) (E : tenv) (fuel : nat) (G' : grammar) (m2 : list mod_item) (rs : list (string * tree)).
Hypothesis PA : parse_grammar rust_type rust_item ts = FOk fg.
Hypothesis MA : middle_answers fg (Some g).
Hypothesis TY : type_inference E fuel (shape g) = WOk (Some G').
Hypothesis CM : compile_mod_content generics g G' = WOk m2.
Hypothesis RA : Forall2 (fun r q => rname r = fst q /\ tree_at (f_exprs fg) (rexpr r) (snd q)) (f_rules fg) rs.
Hypothesis LIT : Forall (fun q => tree_strs scalars (snd q)) rs.
Variable md : mode -> mode.
Hypothesis MR : md Rec = Rec.
Hypothesis MO : forall m, mode_ok (plug (shape g) G') (md m).

Lemma module_link path used X2 xf2 X0 xf0 t : incl used (map fst rs) -> outside X2 xf2 t -> blind xf2 -> outside X0 xf0 t ->
  (forall n e s s1, In n used -> In (n, e) rs -> tmatches rs (ford_ext X2) (TE e) s (Some s1) -> length s1 < length s) ->
  exists X', (forall p s r, ford_ext X' p s r <-> imported path used rs (ford_ext X2) (ford_ext X0) p s r) /\
  exists K, forall k, K <= k -> outside X' (linked_by md (prog_of m2) xf2 k path used xf0) t.
Proof.
  intros US [TX XO XS XC] BX [TX0 XO0 XS0 XC0] CO. pose proof (plug_ready PA MA TY RA LIT TX XO XS XC) as HR.
  destruct (typed_shape PA MA TY) as (out & Q & LO). pose proof (C38_well_built PA MA) as WB.
  pose proof (names_nodup PA MA RA) as ND.
  assert (FR : forall n e, In (n, e) rs -> exists rl, find_rule (plug (shape g) G') n = Some rl /\
     forall s r, matches (plug (shape g) G') (ford_ext X2) (IE (rexpr rl)) s r <-> tmatches rs (ford_ext X2) (TE e) s r).
  { intros n e I0. destruct (rule_tree PA MA RA I0) as (rl & F & S0). exists rl. split; [rewrite Q; exact F|]. intros s r. rewrite Q.
    exact (tail_matches PA MA RA X2 EAny out s r (root_low WB (proj1 (find_rule_in F))) S0). }
  assert (US' : forall n, In n used -> exists rl, find_rule (plug (shape g) G') n = Some rl).
  { intros n I0. destruct (in_names (US n I0)) as (e & Ie). destruct (FR n e Ie) as (rl & F & _). eauto. }
  assert (CO' : forall n rl s s1, In n used -> find_rule (plug (shape g) G') n = Some rl -> matches (plug (shape g) G') (ford_ext X2) (IE (rexpr rl)) s (Some s1) -> length s1 < length s).
  { intros n rl s s1 I0 F M. destruct (in_names (US n I0)) as (e & Ie). destruct (FR n e Ie) as (rl' & F' & K). assert (rl' = rl) as -> by congruence. apply (CO n e s s1 I0 Ie), K, M. }
  exists (joined (plug (shape g) G') X2 t md path used X0).
  assert (FE : forall p s r, ford_ext (joined (plug (shape g) G') X2 t md path used X0) p s r <-> imported path used rs (ford_ext X2) (ford_ext X0) p s r).
  { intros p s r. pose proof (joined_ford HR MR path US' X0 p) as J. unfold imported. destruct (import path used p) as [n|] eqn:IM.
    - destruct J as (rl & F & J). rewrite J. destruct (import_some IM) as [-> IU]. destruct (in_names (US n IU)) as (e & Ie). destruct (FR n e Ie) as (rl' & F' & K). assert (rl' = rl) as -> by congruence. rewrite K. split.
      + intros M. left. exists n, e. auto.
      + intros [(n' & e' & _ & Ie' & Q' & M)|[NQ _]]; [|destruct (NQ n IU eq_refl)]. apply app_inv_head in Q'. injection Q' as <-.
        assert (e' = e) as ->; [|exact M]. clear - ND Ie Ie'. induction rs as [|q l IH]; [destruct Ie|]. cbn [map] in ND. inversion ND as [|? ? NI ND']; subst.
        destruct Ie as [->|Ie], Ie' as [Ie'|Ie']; [congruence| | |exact (IH ND' Ie Ie')]; exfalso; apply NI; [exact (in_map fst _ _ Ie')|]. subst q. exact (in_map fst _ _ Ie).
    - rewrite J. split.
      + intros M. right. split; [|exact M]. intros n IU ->. rewrite (import_used path IU) in IM. discriminate.
      + intros [(n' & e' & IU & _ & -> & _)|[_ M]]; [|exact M]. rewrite (import_used path IU) in IM. discriminate. }
  split; [exact FE|].
  destruct (joined_ok HR MR MO BX path US' CO' XO0) as (K & HK). exists K. intros k L. split; [exact TX| | |].
  - refine (ext_ok_same _ (HK k L)). intros m p st. apply linked_ext. intros m0 id. rewrite (content_prog CM). symmetry. exact (gen_plug PA MA TY m0 id).
  - exact (joined_sane HR MR MO path used XS0).
  - exact (joined_consuming HR MR path US' CO' XC0).
Qed.
End Module.

(** ---------------- C51: rules of other grammars ---------------- *)
(** The rules [used] of the other grammar consume: a recursion through them terminates. *)
Definition used_consume (used : list string) (rs2 : list (string * tree)) (X2 : extern) : Prop :=
  forall n e s s1, In n used -> In (n, e) rs2 -> tmatches rs2 (ford_ext X2) (TE e) s (Some s1) -> length s1 < length s.
(** What a call tells about a rule [e] of [rs], the functions outside having the semantics [X]. *)
Definition behaves (rs : list (string * tree)) (X : list string -> text -> option text -> Prop) (e : tree) (t : text) (st : pst) : Prop :=
  (forall rest, succeeded t st rest <-> tmatches rs X (TE e) t (Some rest)) /\
  (is_failed st = true <-> tmatches rs X (TE e) t None) /\
  into_result st <> Panic.
Lemma as_behaves rs X Y e t st : (forall p s r, ford_ext X p s r <-> Y p s r) -> as_specified rs X e t st -> behaves rs Y e t st.
Proof.
  intros H (A & B & C). assert (K : forall r, tmatches rs (ford_ext X) (TE e) t r <-> tmatches rs Y (TE e) t r) by (intros r; split; apply tmatches_same; intros p s q; apply H).
  split; [|split; [|exact C]]; [intros rest; rewrite A|rewrite B]; apply K.
Qed.

Section Statements.
Variables (rust_type : list tok -> option (string * list tok)) (rust_item : list tok -> option (rust_item * list tok)).
Variable return_type : string -> option string.
Variable generics : string -> string.
Hypothesis RT : reads rust_type.
Hypothesis RI : reads rust_item.
Local Notation oak := (oak rust_type rust_item return_type generics).

(** Recognizers, with no condition on the types of either grammar. *)
Theorem C51_recognizers : forall fuel1 ts1 m1 fuel2 ts2 m2, oak fuel1 ts1 = WOk (Some m1) -> oak fuel2 ts2 = WOk (Some m2) -> toks_strs scalars ts1 -> toks_strs scalars ts2 ->
  forall attrs1 bs1 attrs2 bs2, read_as rust_type rust_item ts1 attrs1 bs1 -> read_as rust_type rust_item ts2 attrs2 bs2 ->
  let rs1 := block_rules bs1 in let rs2 := block_rules bs2 in
  forall path used, incl used (map fst rs2) ->
  forall X2 xf2 X0 xf0 t, outside X2 xf2 t -> blind xf2 -> outside X0 xf0 t -> used_consume used rs2 X2 ->
  exists K, forall k, K <= k -> forall n e, In (n, e) rs1 ->
    exists st, called m1 (linked (prog_of m2) xf2 k path used xf0) Rec n t st [] /\
      behaves rs1 (imported path used rs2 (ford_ext X2) (ford_ext X0)) e t st.
Proof.
  intros fuel1 ts1 m1 fuel2 ts2 m2 H1 H2 L1 L2 attrs1 bs1 attrs2 bs2 R1 R2.
  destruct (C45_macro_read RT RI H1 L1 R1) as (_ & K1).
  destruct (oak_inv H2) as (fg & g & G' & PA & M & TY & CM). pose proof (middle_settles M) as MA.
  destruct R2 as (D2 & fg2 & PA2 & _ & _ & RA). assert (fg2 = fg) as -> by congruence. pose proof (grammar_strs D2 L2) as LIT. cbv zeta. intros path used US X2 xf2 X0 xf0 t O2 BX O0 CO.
  destruct (@module_link rust_type rust_item generics ts2 fg g _ fuel2 G' m2 (block_rules bs2) PA MA TY CM RA LIT (fun _ => Rec) eq_refl (fun _ => I) path used X2 xf2 X0 xf0 t US O2 BX O0 CO) as (X' & FE & K & HK).
  exists K. intros k L n e In_. destruct (K1 X' _ t (HK k L) n e In_) as (st & (j & R) & SP). exists st. split; [|exact (as_behaves FE SP)]. exists j. rewrite <- R.
  destruct (oak_inv H1) as (fg1 & g1 & G1 & _ & _ & _ & CM1). rewrite !(fun xf => run_fn_ext xf j Rec n (Running.start t) (content_prog CM1)).
  apply run_fn_rec; [exact (@recognizers_rec G1)|]. intros p st0. reflexivity.
Qed.

(** What the theorems about parsers need of a grammar ([C45_macro_parsers_partial]). *)
Definition parsers_typable (fuel : nat) (ts : list tok) (m : list mod_item) : Prop :=
  (forall g G', expands rust_type rust_item (env_of return_type generics g fuel) ts g G' -> typable_parsers g G') /\
  (forall n sg f, In (MParser n sg f) m -> no_unbound_name f).

(** Missing: as in [C45_macro_parsers_partial], for both grammars. *)
Theorem C51_parsers_partial : forall fuel1 ts1 m1 fuel2 ts2 m2, oak fuel1 ts1 = WOk (Some m1) -> oak fuel2 ts2 = WOk (Some m2) -> toks_strs scalars ts1 -> toks_strs scalars ts2 ->
  parsers_typable fuel1 ts1 m1 -> parsers_typable fuel2 ts2 m2 ->
  forall attrs1 bs1 attrs2 bs2, read_as rust_type rust_item ts1 attrs1 bs1 -> read_as rust_type rust_item ts2 attrs2 bs2 ->
  let rs1 := block_rules bs1 in let rs2 := block_rules bs2 in
  forall path used, incl used (map fst rs2) ->
  forall X2 xf2 X0 xf0 t, outside X2 xf2 t -> blind xf2 -> outside X0 xf0 t -> used_consume used rs2 X2 ->
  exists K, forall k, K <= k -> forall n e, In (n, e) rs1 ->
    exists st log, called m1 (linked (prog_of m2) xf2 k path used xf0) Par n t st log /\
      behaves rs1 (imported path used rs2 (ford_ext X2) (ford_ext X0)) e t st /\
      (is_failed st = true /\ data st = None \/ is_failed st = false /\ data st <> None).
Proof.
  intros fuel1 ts1 m1 fuel2 ts2 m2 H1 H2 L1 L2 [T1 N1] [T2 N2] attrs1 bs1 attrs2 bs2 R1 R2.
  destruct (C45_macro_parsers_read_partial RT RI H1 L1 T1 N1 R1) as (_ & K1).
  destruct (oak_inv H2) as (fg & g & G' & PA & M & TY & CM). pose proof (middle_settles M) as MA.
  destruct R2 as (D2 & fg2 & PA2 & _ & _ & RA). assert (fg2 = fg) as -> by congruence. pose proof (grammar_strs D2 L2) as LIT. cbv zeta. intros path used US X2 xf2 X0 xf0 t O2 BX O0 CO.
  assert (EX : expands rust_type rust_item (env_of return_type generics g fuel2) ts2 g G') by (exists fg, fuel2; auto).
  destruct (T2 g G' EX) as (rk & self & bad & HL & HU & HR0). pose proof (C38_well_built PA MA) as WB. destruct (typed_shape PA MA TY) as (out & Q & LO).
  destruct (typed_coherent WB TY HL HU HR0) as (_ & COH & AG & _).
  assert (MO : mode_ok (plug (shape g) G') Par).
  { split; [exact COH|]. intros rl f I1 GP. assert (I2 : In rl (rules (shape g))) by (rewrite Q in I1; exact I1). assert (I3 : In rl (rules G')) by (rewrite Q; exact I2).
    destruct (proj2 (content_parsers CM) rl I3) as (sg & f' & Im & GP' & _). assert (f' = f) as ->; [|exact (N2 _ _ _ Im)].
    pose proof (AG Par rl I2) as A. cbn [gen_rule] in A, GP. congruence. }
  assert (MO' : forall m, mode_ok (plug (shape g) G') m) by (intros [|]; [exact I|exact MO]).
  destruct (@module_link rust_type rust_item generics ts2 fg g _ fuel2 G' m2 (block_rules bs2) PA MA TY CM RA LIT (fun m => m) eq_refl MO' path used X2 xf2 X0 xf0 t US O2 BX O0 CO) as (X' & FE & K & HK).
  exists K. intros k L n e In_. destruct (K1 X' _ t (HK k L) n e In_) as (st & log & R & SP & DA). exists st, log. split; [exact R|]. split; [exact (as_behaves FE SP)|exact DA].
Qed.
End Statements.

(** The condition on the used rules, from the source. *)
Theorem C51_consuming : forall used rs2 X2, ext_consuming (ford_ext X2) -> (forall n e, In n used -> In (n, e) rs2 -> consumes rs2 e) -> used_consume used rs2 X2.
Proof.
  intros used rs2 X2 XC H n e s s1 IU Ie M. exact (consumes_some (fun p s s1 Q => ec_consume XC (p := p) (s := s) (s1 := s1) Q) M (H n e IU Ie) eq_refl).
Qed.
(** Imported functions may themselves be imported: the condition [blind] is met by the functions of a module. *)
Theorem C51_chains : forall prog xf2 k path used xf0, blind xf2 -> blind xf0 -> blind (linked prog xf2 k path used xf0).
Proof. exact linked_blind. Qed.

(** ---------------- C52: nothing depends on the errors recorded before ---------------- *)
(** [a] and [b] are at the same place with the same data, and differ by the errors recorded so far. *)
Theorem C52_past_errors : forall m xf, blind xf -> forall fuel md n (a b : pst), failed a = failed b -> current a = current b -> data a = data b ->
  match run_fn (prog_of m) xf fuel md n a, run_fn (prog_of m) xf fuel md n b with
  | Done (a', la), Done (b', lb) => failed a' = failed b' /\ current a' = current b' /\ data a' = data b' /\ la = lb
  | Timeout, Timeout | Crash, Crash | Stuck, Stuck => True
  | _, _ => False
  end.
Proof.
  intros m xf BX fuel md n a b F C D. pose proof (@run_fn_blind (prog_of m) xf BX fuel md n a b (conj F (conj C D))) as B.
  destruct (run_fn (prog_of m) xf fuel md n a) as [[a' la]| | |], (run_fn (prog_of m) xf fuel md n b) as [[b' lb]| | |]; cbn [orel] in B; auto. destruct B as ((B1 & B2 & B3) & B4). auto.
Qed.

Print Assumptions C51_recognizers.
Print Assumptions C51_parsers_partial.
Print Assumptions C51_consuming.
Print Assumptions C51_chains.
Print Assumptions C52_past_errors.
