(** Property theorems on the meaning of the source (C56), second part: the parsers.

    - [tep] (TreeValues.v): the semantics of the documented syntax with values, actions and failures of terminals;
    - [tkind], [void], [settled_types] (TreeKinds.v): which expressions have a value;
    - [plain_choices] (KindTrees.v): no choice mixes foreign values and tuples. *)
From Coq Require Import Ascii Permutation.
From Verif Require Import Base Utf8 Stream ParseState RuntimeFacts Grammar PegSpec Target Compile TargetFacts ScopeFacts
  CompileShape EvalRules CompileCorrect ScopeGen GenTotal PegFacts Running WellFormed WfFacts WfSound WfSyntax WfTerm WfFuel PegRun Behave Values CharClass
  Analysis AnalysisFacts PropertiesWf PropertiesPeg PropertiesAnalysis Typing TypeRules SurfaceFacts RefFacts DepthFacts TypingSound TypingFit GenAgree TypingTop TypingVerdict
  PropertiesTyping SumGrammar Front FrontFacts FrontSpec FrontSound FrontRound FrontGrammar PropertiesFront Agree TreeSpec TreeFacts Literals Pipeline MiddleFuel PropertiesMain RType Oak OakFacts PropertiesOak PropertiesRustc PropertiesModule
  TreeWf PropertiesVerdict TreeValues TreeEp PropertiesSource TreeKinds KindFacts KindTrees TreeNames FrontPrint.
Set Implicit Arguments. Unset Strict Implicit.
Open Scope string_scope. Open Scope nat_scope. Open Scope list_scope.

(** The canonical text of a grammar is in the documented syntax, and is read as what it was made from. *)
Theorem C38_canonical_read : forall rust_type rust_item ty_toks, (forall r, rust_type (TPunct ":" false :: r) = None) ->
  forall l, Forall (canon_block rust_type rust_item ty_toks) l ->
  read_as rust_type rust_item (print_grammar ty_toks l) (flat_map fst l) (map (fun q => meaning (snd q)) l).
Proof. intros rt ri tt H l C. split; [exact (grammar_print C)|]. destruct (C38_round_trip H C) as (fg & P & A & I0 & R). exists fg. auto. Qed.

(** The functions of the grammar, with the type they return if they say one. *)
Definition returned (return_type : string -> option string) (fns : list (string * string)) (f : string) : option (option string) :=
  match find (fun q => String.eqb (fst q) f) fns with Some q => Some (return_type (snd q)) | None => None end.

Lemma source_env rust_type rust_item return_type generics fuel ts m : reads rust_type -> reads rust_item -> oak rust_type rust_item return_type generics fuel ts = WOk (Some m) ->
  forall attrs bs, read_as rust_type rust_item ts attrs bs ->
  exists fg g G', parse_grammar rust_type rust_item ts = FOk fg /\ middle_answers fg (Some g) /\ rules_at (f_exprs fg) (f_rules fg) (block_rules bs) /\
    type_inference (env_of return_type generics g fuel) fuel (shape g) = WOk (Some G') /\ compile_mod_content generics g G' = WOk m /\
    forall f, ret_of (env_of return_type generics g fuel) f = returned return_type (functions (block_items bs)) f.
Proof.
  intros RT RI H attrs bs (D & fg' & PA' & _ & IT & RA). destruct (oak_inv H) as (fg & g & G' & PA & M & T & C). assert (fg' = fg) as -> by congruence.
  pose proof (middle_settles M) as MA. destruct (C43_analysis_verdict (C38_parsed PA)) as (r & N & R & V).
  assert (r = Some g) as ->. { destruct MA as (N0 & M0). specialize (M0 (N0 + N) (N0 + N) ltac:(lia) ltac:(lia)). rewrite R in M0 by lia. congruence. }
  destruct V as (_ & ND & NF & V1 & _). destruct (middle_items M ND NF) as (IF & II & IS).
  exists fg, g, G'. repeat (split; [assumption|]). intros f. unfold returned. cbn [ret_of env_of]. rewrite IF, IT. reflexivity.
Qed.

Lemma tkind_ext rs ret ret' : (forall f, ret f = ret' f) -> (forall t k, tkind rs ret t k -> tkind rs ret' t k) /\ (forall l ks, tkinds rs ret l ks -> tkinds rs ret' l ks).
Proof.
  intros Q. assert (A : forall p, act_kind ret p = act_kind ret' p) by (intros [|f [|? ?]]; cbn; rewrite ?Q; reflexivity).
  apply tkind_mutind; intros; try (econstructor; eassumption). rewrite A. constructor.
Qed.
Lemma akind_ret G ret ret' B : (forall f, ret f = ret' f) -> (forall i k, akind G ret B i k -> akind G ret' B i k) /\ (forall l ks, akinds G ret B l ks -> akinds G ret' B l ks).
Proof.
  intros Q. assert (A : forall p, act_kind ret p = act_kind ret' p) by (intros [|f [|? ?]]; cbn; rewrite ?Q; reflexivity).
  apply akind_mutind; intros; try (econstructor; eassumption). eapply ak_const; [eassumption|]. match goal with e : expr |- _ => destruct e; cbn in *; try assumption end. match goal with f : action |- _ => destruct f; cbn in *; rewrite <- ?A; assumption end.
Qed.
Lemma akind_types rl es us us' ret B : (forall i k, akind (mkG rl es us) ret B i k -> akind (mkG rl es us') ret B i k) /\ (forall l ks, akinds (mkG rl es us) ret B l ks -> akinds (mkG rl es us') ret B l ks).
Proof. apply akind_mutind; intros; econstructor; eassumption. Qed.
Lemma bnode_types rl es us us' ret B i : bnode (mkG rl es us) ret B i -> bnode (mkG rl es us') ret B i.
Proof.
  induction 1 as [i e Ee C|i id r Ee F R|i l Ee _ IH|i l Ee NE _ IH|i c Ee _ IH|i c Ee _ IH|i c Ee _ IH];
    [exact (@bn_const (mkG rl es us') ret B i e Ee C)|exact (@bn_call (mkG rl es us') ret B i id r Ee F R)|exact (@bn_seq (mkG rl es us') ret B i l Ee IH)|exact (@bn_alt (mkG rl es us') ret B i l Ee NE IH)|exact (@bn_star (mkG rl es us') ret B i c Ee IH)|exact (@bn_plus (mkG rl es us') ret B i c Ee IH)|exact (@bn_opt (mkG rl es us') ret B i c Ee IH)].
Qed.

(** Less is pending: more is allowed. *)
Lemma act_safe_top G n : forall i, act_safe G n false i = true -> act_safe G n true i = true.
Proof.
  induction n as [|n IH]; intros i; [discriminate|]. cbn [act_safe]. destruct (is_unit G i); [auto|]. destruct (expr_of G i) as [e|]; [|auto].
  destruct e; auto.
  - intros H. revert H. generalize l. intros l0. induction l0 as [|j l0 IHl]; [reflexivity|]. cbn [safe_seq andb]. intros H. apply andb_prop in H. destruct H as [H1 H2].
    rewrite (IH _ H1). cbn [andb]. destruct (card G j =? 0); [exact (IHl H2)|exact H2].
  - intros H. revert H. generalize l. intros l0. induction l0 as [|j l0 IHl]; [reflexivity|]. cbn [safe_alt]. destruct l0 as [|k l0]; [apply IH|]. intros H. apply andb_prop in H. destruct H as [H1 H2].
    rewrite H1. exact (IHl H2).
  - intros H. apply orb_true_iff in H. destruct H as [->|H]; [reflexivity|discriminate H].
Qed.

(** ---------------- parsers ---------------- *)
Section Parsers.
Variables (rust_type : list tok -> option (string * list tok)) (rust_item : list tok -> option (rust_item * list tok)).
Variables (ts : list tok) (fg : fgrammar) (g : agrammar) (E : tenv) (fuel : nat) (G' : grammar).
Hypothesis PA : parse_grammar rust_type rust_item ts = FOk fg.
Hypothesis MA : middle_answers fg (Some g).
Hypothesis TY : type_inference E fuel (shape g) = WOk (Some G').
Variable rs : list (string * tree).
Hypothesis RA : rules_at (f_exprs fg) (f_rules fg) rs.
Variable ret : string -> option (option string).
Hypothesis RE : forall f, ret_of E f = ret f.
Hypothesis ST : settled_types rs.
Local Notation N := (length (exprs (shape g))).
Lemma WB : well_built (shape g). Proof. exact (C38_well_built PA MA). Qed.
Lemma kinds_plain : exists rk bad, plain_rules (shape g) E rk (bare rs) bad.
Proof.
  destruct (settled_layered (source_stored PA MA RA) ST) as (rk & bad & HL & HB). exists rk, bad. split; [exact HL|]. split; [exact HB|]. intros rl I0 B.
  pose proof (typed_source PA MA TY RA) as RS. destruct (typed_shape PA MA TY) as (out & Q & _). rewrite Q in RS. exact (bnode_types _ (bare_rule (ret_of E) RS I0 B)).
Qed.
Lemma low_expr i e : i < N -> expr_of G' i = Some e -> expr_of (shape g) i = Some e.
Proof. destruct (typed_shape PA MA TY) as (out & -> & _). unfold expr_of. cbn [exprs]. intros L H. rewrite nth_error_app1 in H by exact L. exact H. Qed.
Lemma arena_kind i k t : akind (igrammar (shape g)) (ret_of E) (bare rs) i k -> stored G' rs i t -> tkind rs ret t k.
Proof.
  intros A S0. apply (proj1 (akind_ret _ _ RE)) in A. refine (akind_tkind (typed_source PA MA TY RA) _ S0).
  destruct (typed_shape PA MA TY) as (out & -> & _). exact (proj1 (akind_types _ _ _ _ _ _) _ _ A).
Qed.
(** The nodes whose values may be asked for. *)
Definition asked (i : nat) : Prop := i < N /\ forall p e, nth_error (exprs (shape g)) p = Some e -> In i (children e) -> ty_of G' p <> Some TUnit.
Lemma asked_kind i : asked i -> exists k, akind (igrammar (shape g)) (ret_of E) (bare rs) i k /\ is_unit G' i = voidb k.
Proof. intros [L NP]. destruct kinds_plain as (rk & bad & HL). exact (final_kinds WB TY HL L NP). Qed.
Lemma asked_root rl : In rl (rules G') -> asked (rexpr rl).
Proof.
  rewrite (typed_rules PA MA TY). intros I0. split; [exact (root_low WB I0)|]. intros p e Ep Ic _. assert (Lp : p < N) by (apply nth_error_Some; congruence).
  refine (@fo_root _ (ig_forest WB) (rexpr rl) p _ _); [exists rl; split; [exact I0|reflexivity]|]. split; [rewrite ig_last; exact Lp|]. exists e. split; [rewrite ig_low by exact Lp; exact Ep|exact Ic].
Qed.
(** The rules that only recognise have no value. *)
Lemma rules_split bad : (forall id, bad id = true -> bare rs id) -> forall rl, In rl (rules (shape g)) -> is_unit G' (rexpr rl) = true \/ (bad (rname rl) = false /\ ~ bare rs (rname rl)).
Proof.
  intros HB rl I0.
  assert (K : bare rs (rname rl) -> is_unit G' (rexpr rl) = true).
  { intros B. destruct kinds_plain as (rk & bad' & _ & _ & HN). assert (I1 : In rl (rules G')) by (rewrite (typed_rules PA MA TY); exact I0).
    destruct (asked_kind (asked_root I1)) as (k & A & U). rewrite U, (proj1 (@bnode_only (igrammar (shape g)) (ret_of E) (bare rs) HN) _ _ A (HN rl I0 B)). reflexivity. }
  destruct (is_unit G' (rexpr rl)) eqn:U; [left; reflexivity|]. right. split.
  - destruct (bad (rname rl)) eqn:Q; [|reflexivity]. specialize (K (HB _ Q)). congruence.
  - intros B. specialize (K B). congruence.
Qed.
Lemma rules_ok bad : (forall id, bad id = true -> bare rs id) -> rec_ok (shape g) G' (bare rs) bad.
Proof. intros HB rl I0. destruct (rules_split HB I0) as [U|[B N]]; [left; exact U|right; split; [exact B|intros X; destruct (N X)]]. Qed.
Lemma asked_child i e j : asked i -> expr_of G' i = Some e -> is_unit G' i = false -> In j (children e) -> asked j.
Proof.
  intros [L _] Ee U Ij. pose proof (low_expr L Ee) as Ee'. pose proof (wb_children WB Ee') as F. rewrite Forall_forall in F. specialize (F j Ij). split; [lia|].
  intros p e' Ep Ic Q. assert (Lp : p < N) by (apply nth_error_Some; congruence).
  assert (p = i) as ->.
  { refine (@fo_parent _ (ig_forest WB) p i j _ _); (split; [rewrite ig_last; assumption|]); [exists e'|exists e]; (split; [rewrite ig_low by assumption|]); assumption. }
  unfold is_unit in U. rewrite Q in U. discriminate.
Qed.
Lemma asked_void i t : asked i -> stored G' rs i t -> (is_unit G' i = true <-> void rs ret t).
Proof.
  intros A S0. destruct (asked_kind A) as (k & AK & U). pose proof (arena_kind AK S0) as TK. rewrite U. split; [intros V; exists k; auto|].
  intros (k' & TK' & V). rewrite (proj1 (tkind_det rs ret) _ _ TK _ TK'). exact V.
Qed.
Lemma asked_range i u : asked i -> is_unit G' i = false -> expr_of G' i = Some (ERange u) -> is_unit G' u = true.
Proof.
  intros A U Ee. pose proof (low_expr (proj1 A) Ee) as Ee'. destruct (wb_range WB Ee') as (k & Ek).
  assert (AU : asked u) by (apply (asked_child A Ee U); left; reflexivity). destruct (asked_kind AU) as (k' & AK & Q). rewrite Q.
  assert (Eu : expr_of (igrammar (shape g)) u = Some (EAsc k (IRegular TUnit))) by (rewrite ig_low by exact (proj1 AU); exact Ek).
  inversion AK as [? e ? Ei C| | | | | | | |]; subst; try congruence. assert (e = EAsc k (IRegular TUnit)) by congruence. subst e. injection C as <-. reflexivity.
Qed.
Lemma source_values X o m i t s r evs : (m = Rec \/ asked i) -> stored G' rs i t -> (ep G' X o m (IE i) s r evs <-> tep rs X o (void rs ret) m (TE t) s r evs).
Proof.
  intros O S0. apply (@tree_values G' rs (typed_source PA MA TY RA) X o (void rs ret) asked).
  - intros i0 rl _ I0. exact (asked_root I0).
  - exact asked_child.
  - exact asked_void.
  - exact asked_range.
  - destruct m; [exact I|]. destruct O as [O|O]; [discriminate|exact O].
  - exact S0.
Qed.
Lemma choices_mix i l j us s : expr_of G' i = Some (EAlt l) -> In j l -> solid us -> ty_of G' i = Some us -> ty_of G' j = Some (TRust s) ->
  exists l0 t t', part rs (XAlt l0) /\ In t l0 /\ In t' l0 /\ tkind rs ret t KForeign /\ tkind rs ret t' (solid_kind us).
Proof.
  intros Ei Ij SU Ti Tj. destruct kinds_plain as (rk & bad & HL).
  assert (L : i < N).
  { destruct (typed_shape PA MA TY) as (out & Q & _). rewrite Q in Ei. unfold expr_of in Ei. cbn [exprs] in Ei. destruct (Nat.lt_ge_cases i N) as [L|L]; [exact L|]. rewrite nth_error_app2 in Ei by exact L.
    destruct (i - N) as [|[|?]]; cbn in Ei; discriminate. }
  pose proof (low_expr L Ei) as Ei'. destruct (final_alts WB TY HL Ei' Ij SU Ti Tj) as (AF & j' & Ij' & AD).
  destruct (arena_part (source_stored PA MA RA) (names_nodup PA MA RA) (all_in_rules WB L)) as (u & P & [S0|(k & Ek & _)]); [|congruence].
  pose proof (typed_stored PA MA TY S0) as S1. inversion S1 as [| | | | | |? js l0 Ej F2| | | | | | | | |]; subst; try congruence. assert (js = l) as -> by congruence.
  assert (K : forall c, In c l -> exists t, In t l0 /\ stored G' rs c t) by (intros c Ic; clear - F2 Ic; induction F2 as [|a b l l' S F IH]; [destruct Ic|]; destruct Ic as [<-|Ic]; [exists b; cbn; auto|destruct (IH Ic) as (t & I0 & S'); exists t; cbn; auto]).
  destruct (K j Ij) as (t & It & St). destruct (K j' Ij') as (t' & It' & St'). exists l0, t, t'. repeat split; try assumption; eauto using arena_kind.
Qed.
Lemma choices_solid : clear_choices rs ret -> forall i l j us s, expr_of G' i = Some (EAlt l) -> In j l -> solid us -> ty_of G' i = Some us -> ty_of G' j <> Some (TRust s).
Proof.
  intros CC i l j us s Ei Ij SU Ti Tj. destruct (choices_mix Ei Ij SU Ti Tj) as (l0 & t & t' & P & It & It' & F & D). destruct (CC _ _ _ P It It' F) as [C1 C2]. destruct us; cbn in D; contradiction.
Qed.
Hypothesis PC : plain_choices rs ret.
Lemma choices_typed : forall i l j us s, expr_of G' i = Some (EAlt l) -> In j l -> ty_of G' i = Some (TTuple us) -> ty_of G' j <> Some (TRust s).
Proof.
  intros i l j us s Ei Ij Ti Tj. assert (SU : solid (TTuple us)) by (split; [|intros r]; discriminate).
  destruct (choices_mix Ei Ij SU Ti Tj) as (l0 & t & t' & P & It & It' & F & D). exact (PC P It It' F D).
Qed.

(** The names of the generated parsers. *)
Local Notation PG := (plug (shape g) G').
Lemma plug_low i : i < N -> expr_of PG i = expr_of (shape g) i.
Proof. intros L. unfold expr_of, plug. cbn [exprs]. apply nth_error_app1, L. Qed.
Lemma stored_choice_free : forall t, (forall l, ~ within t (XAlt l)) -> forall i fuel0, i < N -> stored (shape g) rs i t -> i < fuel0 -> choice_free PG fuel0 i = true.
Proof.
  assert (LI : forall l, Forall (fun t => (forall l, ~ within t (XAlt l)) -> forall i fuel0, i < N -> stored (shape g) rs i t -> i < fuel0 -> choice_free PG fuel0 i = true) l ->
    (forall t l', In t l -> ~ within t (XAlt l')) -> forall js fuel0, Forall2 (stored (shape g) rs) js l -> (forall j, In j js -> j < N /\ j < fuel0) -> forallb (choice_free PG fuel0) js = true).
  { intros l F NW js fuel0 F2. induction F2 as [|j t js l S0 F2 IH]; intros B; [reflexivity|]. cbn [forallb]. inversion F; subst. destruct (B j (or_introl eq_refl)) as [B1 B2]. apply andb_true_intro. split.
    - apply H1; try assumption. intros l'. apply NW. left. reflexivity.
    - apply IH; [assumption| |]; intros; [apply NW|apply B]; right; assumption. }
  assert (CH : forall i e f, expr_of (shape g) i = Some e -> i < S f -> forall j, In j (children e) -> j < i /\ j < N /\ j < f).
  { intros i e f Ee L j Ij. pose proof (wb_children WB Ee) as F. rewrite Forall_forall in F. specialize (F j Ij). assert (i < N) by (apply nth_error_Some; unfold expr_of in Ee; congruence). lia. }
  induction t as [s| |a b c|p|l IHl|l IHl|t IHt|t IHt|t IHt|t IHt|t IHt|t b p IHt|t ty IHt|t IHt|t IHt] using tree_ind'; intros NW i [|f] Li S0 Lf; try lia;
    inversion S0; subst; cbn [choice_free]; rewrite (plug_low Li); match goal with Q : expr_of (shape g) i = Some ?e |- _ => rewrite Q; pose proof (CH i e f Q Lf) as CI end; cbn [children forallb] in *; try reflexivity.
  - apply (LI l); [exact IHl| |assumption|intros j Ij; destruct (CI j Ij) as (_ & ? & ?); auto]. intros t l' It W. apply (NW l'). eapply wi_step; [exact It|exact W].
  - exfalso. apply (NW l). constructor.
  - rewrite IHt; try assumption; try reflexivity; try (apply (CI _ (or_introl eq_refl))). intros l' W. apply (NW l'). eapply wi_step; [left; reflexivity|exact W].
  - rewrite IHt; try assumption; try reflexivity; try (apply (CI _ (or_introl eq_refl))). intros l' W. apply (NW l'). eapply wi_step; [left; reflexivity|exact W].
  - rewrite IHt; try assumption; try reflexivity; try (apply (CI _ (or_introl eq_refl))). intros l' W. apply (NW l'). eapply wi_step; [left; reflexivity|exact W].
  - rewrite IHt; try assumption; try reflexivity; try (apply (CI _ (or_introl eq_refl))). intros l' W. apply (NW l'). eapply wi_step; [left; reflexivity|exact W].
  - rewrite IHt; try assumption; try reflexivity; try (apply (CI _ (or_introl eq_refl))). intros l' W. apply (NW l'). eapply wi_step; [left; reflexivity|exact W].
  - rewrite IHt; try assumption; try reflexivity; try (apply (CI _ (or_introl eq_refl))). intros l' W. apply (NW l'). eapply wi_step; [left; reflexivity|exact W].
  - rewrite IHt; try assumption; try reflexivity; try (apply (CI _ (or_introl eq_refl))). intros l' W. apply (NW l'). eapply wi_step; [left; reflexivity|exact W].
  - rewrite IHt; try assumption; try reflexivity; try (apply (CI _ (or_introl eq_refl))). intros l' W. apply (NW l'). eapply wi_step; [left; reflexivity|exact W].
  - destruct (CI _ (or_introl eq_refl)) as (C1 & C2 & C3). rewrite andb_true_r. destruct f as [|f]; [lia|]. cbn [choice_free]. rewrite (plug_low C2).
    match goal with Q : expr_of (shape g) ?u = Some (EAsc _ _) |- _ => rewrite Q; pose proof (CH u _ f Q C3) as CJ end. cbn [children forallb] in *.
    rewrite IHt; try assumption; try reflexivity; try (apply (CJ _ (or_introl eq_refl))). intros l' W. apply (NW l'). eapply wi_step; [left; reflexivity|exact W].
Qed.
Lemma plug_unit i : is_unit PG i = is_unit G' i.
Proof. reflexivity. Qed.
Lemma tidy_both : (forall b t, tidy (void rs ret) b t -> forall i fuel0, asked i -> stored (shape g) rs i t -> i < fuel0 -> act_safe PG fuel0 b i = true) /\
  (forall b l, tidy_seq (void rs ret) b l -> forall js fuel0, Forall (fun j => asked j /\ j < fuel0) js -> Forall2 (stored (shape g) rs) js l -> safe_seq PG (act_safe PG fuel0) b js = true) /\
  (forall b l, tidy_alt (void rs ret) b l -> forall js fuel0, Forall (fun j => asked j /\ j < fuel0) js -> Forall2 (stored (shape g) rs) js l -> safe_alt (act_safe PG fuel0) b js = true).
Proof.
  assert (VC : forall i t, asked i -> stored (shape g) rs i t -> void rs ret t -> card PG i = 0).
  { intros i t A S0 V. apply (proj2 (asked_void A (typed_stored PA MA TY S0))) in V. unfold is_unit, card in *. change (ty_of PG i) with (ty_of G' i). destruct (ty_of G' i) as [[]|]; try discriminate V; reflexivity. }
  assert (START : forall b i f e, asked i -> i < S f -> expr_of (shape g) i = Some e ->
    (is_unit G' i = false -> (forall j, In j (children e) -> asked j /\ j < f) -> match e with
      | EStr _ | EAny | EClass _ | ENT _ | EExt _ | ENot _ | EAnd _ => true
      | ESeq l => safe_seq PG (act_safe PG f) b l
      | EAlt l => safe_alt (act_safe PG f) b l
      | EStar i | EPlus i | EOpt i => act_safe PG f false i
      | EAct i _ _ => choice_free PG f i || (b && act_safe PG f true i)
      | EAsc i _ | ESpan i | ERange i => act_safe PG f b i
      end = true) -> act_safe PG (S f) b i = true).
  { intros b i f e A L Ee K. cbn [act_safe]. rewrite plug_unit. destruct (is_unit G' i) eqn:U; [reflexivity|]. rewrite (plug_low (proj1 A)), Ee. apply K; [reflexivity|].
    intros j Ij. pose proof (wb_children WB Ee) as F. rewrite Forall_forall in F. specialize (F j Ij). split; [|lia]. exact (asked_child A (typed_grow PA MA TY Ee) U Ij). }
  apply tidy_mutind.
  - intros b t V i [|f] A S0 L; [lia|]. cbn [act_safe]. rewrite plug_unit. apply (proj2 (asked_void A (typed_stored PA MA TY S0))) in V. rewrite V. reflexivity.
  - intros b t O i [|f] A S0 L; [lia|]. inversion S0; subst; cbn in O; try discriminate O; (eapply START; [exact A|exact L|eassumption|]); intros U CI; try reflexivity.
    + subst l. match goal with F : Forall2 _ _ [] |- _ => inversion F end; reflexivity.
    + subst l. match goal with F : Forall2 _ _ [] |- _ => inversion F end; reflexivity.
  - intros b l TS IH i [|f] A S0 L; [lia|]. inversion S0; subst. eapply START; [exact A|exact L|eassumption|]. intros U CI. apply IH; [apply Forall_forall; exact CI|assumption].
  - intros b l TS IH i [|f] A S0 L; [lia|]. inversion S0; subst. eapply START; [exact A|exact L|eassumption|]. intros U CI. apply IH; [apply Forall_forall; exact CI|assumption].
  - intros b t T IH i [|f] A S0 L; [lia|]. inversion S0; subst. eapply START; [exact A|exact L|eassumption|]. intros U CI. apply IH; try assumption; apply CI; left; reflexivity.
  - intros b t T IH i [|f] A S0 L; [lia|]. inversion S0; subst. eapply START; [exact A|exact L|eassumption|]. intros U CI. apply IH; try assumption; apply CI; left; reflexivity.
  - intros b t T IH i [|f] A S0 L; [lia|]. inversion S0; subst. eapply START; [exact A|exact L|eassumption|]. intros U CI. apply IH; try assumption; apply CI; left; reflexivity.
  - intros b t bx p NW i [|f] A S0 L; [lia|]. inversion S0; subst. eapply START; [exact A|exact L|eassumption|]. intros U CI. apply orb_true_iff. left.
    destruct (CI _ (or_introl eq_refl)) as [[CA _] CL]. apply (stored_choice_free NW); assumption.
  - intros t bx p T IH i [|f] A S0 L; [lia|]. inversion S0; subst. eapply START; [exact A|exact L|eassumption|]. intros U CI. apply orb_true_iff. right. cbn [andb]. apply IH; try assumption; apply CI; left; reflexivity.
  - intros b t ty T IH i [|f] A S0 L; [lia|]. inversion S0; subst. eapply START; [exact A|exact L|eassumption|]. intros U CI. apply IH; try assumption; apply CI; left; reflexivity.
  - intros b t T IH i [|f] A S0 L; [lia|]. inversion S0; subst. eapply START; [exact A|exact L|eassumption|]. intros U CI. apply IH; try assumption; apply CI; left; reflexivity.
  - intros b t i [|f] A S0 L; [lia|]. inversion S0; subst. eapply START; [exact A|exact L|eassumption|]. intros U CI. destruct (CI _ (or_introl eq_refl)) as [CA CL]. destruct f as [|f]; [lia|].
    cbn [act_safe]. rewrite plug_unit, (asked_range A U); [reflexivity|]. apply (typed_grow PA MA TY). eassumption.
  - intros b js f _ F. inversion F. reflexivity.
  - intros b t l T IH TL IHL js f FA F. inversion F; subst. inversion FA as [|? ? [A1 A2] FA']; subst. cbn [safe_seq]. rewrite (IH _ _ A1) by assumption. cbn [andb].
    assert (LL : safe_seq PG (act_safe PG f) false l0 = true) by (apply IHL; assumption). destruct (b && (card PG x =? 0)) eqn:Q; [|exact LL].
    clear - LL. assert (MONO : forall n i, act_safe PG n false i = true -> act_safe PG n true i = true) by (intros n0 i0; apply act_safe_top).
    induction l0 as [|j l0 IH]; [reflexivity|]. cbn [safe_seq andb] in LL |- *. apply andb_prop in LL. destruct LL as [L1 L2]. rewrite (MONO _ _ L1). cbn [andb]. destruct (card PG j =? 0); [exact (IH L2)|exact L2].
  - intros b t l T IH V TL IHL js f FA F. inversion F; subst. inversion FA as [|? ? [A1 A2] FA']; subst. cbn [safe_seq]. rewrite (IH _ _ A1) by assumption.
    match goal with S0 : stored _ _ ?x t |- _ => rewrite (VC x t A1 S0 V) end. cbn [andb Nat.eqb]. rewrite andb_true_r. apply IHL; assumption.
  - intros b js f _ F. inversion F. reflexivity.
  - intros b t T IH js f FA F. inversion F as [|? ? ? ? ? F']; subst. inversion F'; subst. inversion FA as [|? ? [A1 A2] FA']; subst. cbn [safe_alt]. apply IH; assumption.
  - intros b t l NE T IH TL IHL js f FA F. inversion F as [|x ? l0 ? ? F']; subst. inversion FA as [|? ? [A1 A2] FA']; subst. destruct l0 as [|y l0]; [inversion F'; congruence|].
    cbn [safe_alt]. rewrite (IH _ _ A1) by assumption. cbn [andb]. exact (IHL _ _ FA' F').
Qed.
Lemma names_bound rl f : coherent PG -> In rl (rules G') -> (forall n e, In (n, e) rs -> tidy (void rs ret) true e) -> gen_parser PG rl = COk f -> no_unbound_name f.
Proof.
  intros COH I0 TD GP. refine (parser_scoped COH _ GP). unfold rule_act_safe.
  assert (K : exists e, In (rname rl, e) rs /\ stored (shape g) rs (rexpr rl) e).
  { rewrite (typed_rules PA MA TY) in I0. pose proof (source_stored PA MA RA) as RS.
    assert (GEN : forall (P : nat -> tree -> Prop) l l', Forall2 (fun r q => rname r = fst q /\ P (rexpr r) (snd q)) l l' -> In rl l -> exists e, In (rname rl, e) l' /\ P (rexpr rl) e).
    { clear. intros P l l' F. induction F as [|r q l l' [N S] _ IH]; [intros []|]. intros [<-|I]; [|destruct (IH I) as (e & I' & S'); exists e; cbn; auto].
      exists (snd q). split; [left; destruct q; cbn in *; congruence|exact S]. }
    exact (GEN _ _ _ RS I0). }
  destruct K as (e & Ie & S0). apply (proj1 tidy_both true e (TD _ _ Ie)); [exact (asked_root I0)|exact S0|].
  unfold gen_fuel, plug. cbn [exprs]. rewrite app_length. pose proof (proj1 (asked_root I0)). cbn [length]. lia.
Qed.
End Parsers.

(** Missing: rules with a value whose type depends on itself, choices that mix foreign values and tuples, and the generated parsers that
    name variables out of scope (C28). *)
Theorem C56_parsers_partial : forall rust_type rust_item return_type generics, reads rust_type -> reads rust_item ->
  forall fuel ts m, oak rust_type rust_item return_type generics fuel ts = WOk (Some m) -> toks_strs scalars ts ->
  forall attrs bs, read_as rust_type rust_item ts attrs bs -> settled_types (block_rules bs) ->
  forall ret, ret = returned return_type (functions (block_items bs)) -> plain_choices (block_rules bs) ret ->
  (forall n sg f, In (MParser n sg f) m -> no_unbound_name f) \/ (forall n e, In (n, e) (block_rules bs) -> tidy (void (block_rules bs) ret) true e) ->
  forall X xf t, outside X xf t -> forall n e, In (n, e) (block_rules bs) ->
    exists st log r evs, called m xf Par n t st log /\
      (forall q evs', tep (block_rules bs) X (off t) (void (block_rules bs) ret) Par (TE e) t q evs' <-> q = r /\ evs' = evs) /\
      log = action_trace evs /\ reports t evs st /\
      match r with
      | Some (rest, vs) => succeeded t st rest /\ data st = Some (tup vs)
      | None => is_failed st = true /\ data st = None
      end.
Proof.
  intros rt ri return_type gen RT RI fuel ts m H LT attrs bs RD SE ret -> PC NB X xf t O n e In_.
  destruct (source_env RT RI H RD) as (fg & g & G' & PA & MA & RA & TY & C & RE). destruct RD as (D & _).
  destruct O as [TX XO XS XC]. pose proof (grammar_strs D LT) as LIT. pose proof (C38_well_built PA MA) as WB.
  destruct (typed_shape PA MA TY) as (out & Q & LO). destruct (kinds_plain PA MA TY RA SE) as (rk & bad & HL & HBA & _).
  pose proof (rules_ok PA MA TY RA SE HBA) as HU.
  destruct (typed_coherent WB TY HL HU (choices_typed PA MA TY RA RE SE PC)) as (_ & COH & AG & _).
  assert (HN' : forall rl f, In rl (rules G') -> gen_rule G' Par rl = COk f -> no_unbound_name f).
  { destruct NB as [HN|TD]; [|intros rl f I0 GP; rewrite (AG Par rl) in GP by (rewrite <- (typed_rules PA MA TY); exact I0); exact (names_bound PA MA TY RA RE SE COH I0 TD GP)].
    intros rl f I0 GP. destruct (proj2 (content_parsers C) rl I0) as (sg & f' & I1 & GP' & _). cbn [gen_rule] in GP. assert (f' = f) as -> by congruence. exact (HN _ _ _ I1). }
  assert (MO : mode_ok (plug (shape g) G') Par).
  { split; [exact COH|]. intros rl f I1 GP. apply (HN' rl f); [rewrite Q in I1 |- *; exact I1|]. rewrite (AG Par rl); [exact GP|]. rewrite Q in I1. exact I1. }
  pose proof (plug_ready PA MA TY RA LIT TX XO XS XC) as HR.
  destruct (rule_tree PA MA RA In_) as (rl & F & S0). pose proof (root_low WB (proj1 (find_rule_in F))) as L.
  assert (F' : find_rule (plug (shape g) G') n = Some rl) by (rewrite Q; exact F).
  destruct (run_total HR (m := Par) MO F') as (r0 & evs0 & st & _ & R & _). exists st, (acts evs0).
  destruct (run_outcome HR (m := Par) MO F' R) as (r & evs & EP & LG & FI & _ & K). exists r, evs.
  assert (EP' : ep G' X (off t) Par (IE (rexpr rl)) t r evs).
  { rewrite Q in EP |- *. unfold plug in EP. cbn [rules exprs types] in EP.
    refine (@ep_agree (rules (shape g)) (exprs (shape g) ++ [EAny]) (exprs (shape g) ++ [ESpan 0]) out out (length (exprs (shape g))) _ _ (root_low WB) _ _ _ _ _ _ _ _ EP L).
    - intros i Li. rewrite !nth_error_app1 by exact Li. reflexivity.
    - intros i e0 Li Ei. rewrite nth_error_app1 in Ei by exact Li. exact (wb_children WB Ei).
    - reflexivity. }
  assert (AS : asked g G' (rexpr rl)) by (apply (asked_root PA MA TY); rewrite (typed_rules PA MA TY); exact (proj1 (find_rule_in F))).
  split; [|split; [|split; [exact LG|split; [exact (final_errors FI)|]]]].
  - assert (RR : returns G' xf Par n t st (acts evs0)) by (apply (same_run PA MA TY xf t); exact R). destruct RR as (k & R'). exists k. rewrite <- R'. apply run_fn_ext. exact (content_prog C).
  - intros q evs'. rewrite <- (source_values PA MA TY RA RE SE X (off t) (m := Par) t q evs' (or_intror AS) (typed_stored PA MA TY S0)). split.
    + intros E1. exact (ep_det XS E1 EP').
    + intros [-> ->]. exact EP'.
  - destruct r as [[rest vs]|]; [|exact K]. destruct K as (_ & SC & DA). split; [exact SC|exact DA].
Qed.

(** ---------------- conditions on the source for C28, C46 ---------------- *)
(** On such sources the macro answers: a module or errors, no panic. *)
Theorem C46_no_panic_source_partial : forall rust_type rust_item return_type generics, reads rust_type -> reads rust_item ->
  forall ts attrs bs, read_as rust_type rust_item ts attrs bs -> settled_alone (block_rules bs) ->
  plain_choices (block_rules bs) (returned return_type (functions (block_items bs))) ->
  exists r N, forall fuel, N <= fuel -> oak rust_type rust_item return_type generics fuel ts = WOk r.
Proof.
  intros rt ri rty gen RT RI ts attrs bs (D & fg' & PA' & _ & IT & RA) SE PC. apply (C46_no_panic_partial RT RI). intros fg g PA MA. assert (fg' = fg) as -> by congruence.
  destruct (alone_layered (source_stored PA MA RA) SE) as (rk & HL). exists rk, (bare (block_rules bs)). split; [exact HL|]. intros fuel G' TY. pose proof (alone_settled SE) as ST.
  destruct (C43_analysis_verdict (C38_parsed PA)) as (r & N & R & V). pose proof MA as MA0.
  assert (M : exists k, middle k k fg = WOk (Some g)) by (destruct MA as (k & M); exists k; apply M; apply le_n).
  destruct M as (k & M). assert (r = Some g) as ->. { destruct MA as (N0 & M0). specialize (M0 (N0 + N) (N0 + N) ltac:(lia) ltac:(lia)). rewrite R in M0 by lia. congruence. }
  destruct V as (_ & ND & NF & _). destruct (middle_items M ND NF) as (IF & _ & _).
  assert (RE : forall f, ret_of (env_of rty gen g fuel) f = returned rty (functions (block_items bs)) f); [|split; [apply (rules_ok PA MA0 TY RA ST); discriminate|exact (choices_typed PA MA0 TY RA RE ST PC)]]. intros f. unfold returned. cbn [ret_of env_of]. rewrite IF, IT. reflexivity.
Qed.
(** All the names of the generated parsers are bound. *)
Theorem C28_parsers_source_partial : forall rust_type rust_item return_type generics, reads rust_type -> reads rust_item ->
  forall fuel ts m, oak rust_type rust_item return_type generics fuel ts = WOk (Some m) ->
  forall attrs bs, read_as rust_type rust_item ts attrs bs -> settled_types (block_rules bs) ->
  forall ret, ret = returned return_type (functions (block_items bs)) -> plain_choices (block_rules bs) ret ->
  (forall n e, In (n, e) (block_rules bs) -> tidy (void (block_rules bs) ret) true e) ->
  forall n sg f, In (MParser n sg f) m -> no_unbound_name f.
Proof.
  intros rt ri rty gen RT RI fuel ts m H attrs bs RD SE ret -> PC TD n sg f I0.
  destruct (source_env RT RI H RD) as (fg & g & G' & PA & MA & RA & TY & C & RE). pose proof (C38_well_built PA MA) as WB.
  destruct (kinds_plain PA MA TY RA SE) as (rk & bad & HL & HBA & _).
  pose proof (rules_ok PA MA TY RA SE HBA) as HU.
  destruct (typed_coherent WB TY HL HU (choices_typed PA MA TY RA RE SE PC)) as (_ & COH & AG & _).
  destruct (proj1 (content_parsers C) n sg f I0) as (rl & I1 & _ & GP & _).
  pose proof (AG Par rl ltac:(rewrite <- (typed_rules PA MA TY); exact I1)) as Q. cbn [gen_rule] in Q. rewrite Q in GP. exact (names_bound PA MA TY RA RE SE COH I1 TD GP).
Qed.

(** ---------------- the order of the rules ---------------- *)
(** The kinds do not depend on the order of the rules. *)
Lemma bare_same rs rs' : (forall p, rule_called rs p = rule_called rs' p) -> (forall q, In q rs' -> In q rs) -> forall id, bare rs id -> bare rs' id.
Proof.
  intros SM IN id (S0 & S1 & S2). exists S0. split; [exact S1|]. intros n e I0 Sn. specialize (S2 n e (IN _ I0) Sn). clear - SM S2.
  induction S2 as [s|t|t|t|i t R B|l B IH|l NE B IH|t B IH|t B IH|t B IH]; try (constructor; assumption). apply ba_call with (t := t); [rewrite <- SM; exact R|exact B].
Qed.
Lemma tkind_same rs rs' ret : (forall p, rule_called rs p = rule_called rs' p) -> (forall q, In q rs' -> In q rs) ->
  (forall t k, tkind rs ret t k -> tkind rs' ret t k) /\ (forall l ks, tkinds rs ret l ks -> tkinds rs' ret l ks).
Proof.
  intros SM IN. apply tkind_mutind; intros; try (econstructor; eassumption).
  - eapply tk_call; [rewrite <- SM; eassumption|assumption].
  - eapply tk_bare; [rewrite <- SM; eassumption|]. eapply bare_same; eassumption.
  - apply tk_ext. rewrite <- SM. assumption.
Qed.
Lemma void_same rs rs' ret : (forall p, rule_called rs p = rule_called rs' p) -> (forall q, In q rs <-> In q rs') -> forall t, void rs ret t <-> void rs' ret t.
Proof.
  intros SM IN t. split; intros (k & K & V); exists k; (split; [|exact V]).
  - exact (proj1 (tkind_same ret SM (fun q => proj2 (IN q))) _ _ K).
  - refine (proj1 (tkind_same ret _ (fun q => proj1 (IN q))) _ _ K). intros p. symmetry. apply SM.
Qed.
Lemma tep_void rs X o v v' : (forall t, v t <-> v' t) -> forall m ti s r evs, tep rs X o v m ti s r evs -> tep rs X o v' m ti s r evs.
Proof.
  intros VV. assert (VA : forall m t, valued v m t -> valued v' m t) by (intros [] t; cbn; [auto|]; intros A B; apply A, VV, B).
  assert (VN : forall t, ~ v t -> ~ v' t) by (intros t A B; apply A, VV, B).
  induction 1; try (econstructor; eauto; fail).
  - apply te_void; [apply VV; assumption|assumption].
  - eapply te_act_ok; [apply VN; assumption| |eassumption]. rewrite <- VV. assumption.
Qed.
(** Two grammars with the same rules in another order: the parsers report and return the same. *)
Theorem C55_parsers_order_partial : forall rust_type rust_item return_type generics, reads rust_type -> reads rust_item ->
  forall fuel ts m fuel' ts' m', oak rust_type rust_item return_type generics fuel ts = WOk (Some m) -> oak rust_type rust_item return_type generics fuel' ts' = WOk (Some m') ->
  toks_strs scalars ts -> toks_strs scalars ts' ->
  forall attrs bs attrs' bs', read_as rust_type rust_item ts attrs bs -> read_as rust_type rust_item ts' attrs' bs' -> Permutation (block_rules bs) (block_rules bs') ->
  forall ret, ret = returned return_type (functions (block_items bs)) -> ret = returned return_type (functions (block_items bs')) ->
  settled_types (block_rules bs) -> plain_choices (block_rules bs) ret -> (forall n e, In (n, e) (block_rules bs) -> tidy (void (block_rules bs) ret) true e) ->
  forall X xf t, outside X xf t -> forall n e, In (n, e) (block_rules bs) ->
    exists st st' log, called m xf Par n t st log /\ called m' xf Par n t st' log /\ data st = data st' /\ is_failed st = is_failed st' /\
      bytes_offset (farthest_read st) = bytes_offset (farthest_read st') /\ expected st = expected st'.
Proof.
  intros rt ri rty gen RT RI fuel ts m fuel' ts' m' H H' LT LT' attrs bs attrs' bs' RD RD' P ret Q Q' ST PC TD X xf t O n e I0.
  destruct (C45_macro_read RT RI H LT RD) as (ND & _). pose proof (called_permuted ND P) as SM.
  destruct (C56_parsers_partial RT RI H LT RD ST Q PC (or_intror TD) O I0) as (st & log & r & evs & C & U & L & [R1 R2] & K).
  assert (INP : forall q, In q (block_rules bs) <-> In q (block_rules bs')) by (intros q; split; apply Permutation_in; [exact P|exact (Permutation_sym P)]).
  assert (ST' : settled_types (block_rules bs')).
  { destruct ST as (rk & apart & S0 & S1). assert (BS : forall id, bare (block_rules bs) id -> bare (block_rules bs') id) by (apply bare_same; [exact SM|intros q; apply INP]).
    exists rk, apart. split; [intros id A; exact (BS _ (S0 id A))|]. intros n0 e0 id I1 NA NE. destruct (S1 n0 e0 id) as [LK|[LK1 LK2]]; [apply INP; exact I1|exact NA| |left; exact LK|right; split; [exact LK1|exact (BS _ LK2)]].
    clear - NE SM. induction NE; econstructor; try eassumption. rewrite SM. eassumption. }
  assert (SM' : forall p, rule_called (block_rules bs') p = rule_called (block_rules bs) p) by (intros p; symmetry; apply SM).
  assert (PC' : plain_choices (block_rules bs') ret).
  { intros l t1 t2 (n0 & e0 & I1 & W) I2 I3 K1 K2. apply (PC l t1 t2); try assumption; [|exact (proj1 (tkind_same ret SM' (fun q => proj1 (INP q))) _ _ K1)|exact (proj1 (tkind_same ret SM' (fun q => proj1 (INP q))) _ _ K2)].
    exists n0, e0. split; [exact (Permutation_in _ (Permutation_sym P) I1)|exact W]. }
  pose proof (void_same ret SM INP) as VS.
  assert (TD' : forall n0 e0, In (n0, e0) (block_rules bs') -> tidy (void (block_rules bs') ret) true e0).
  { intros n0 e0 I1. specialize (TD n0 e0 (Permutation_in _ (Permutation_sym P) I1)).
    assert (GEN : (forall b t, tidy (void (block_rules bs) ret) b t -> tidy (void (block_rules bs') ret) b t) /\
      (forall b t, tidy_seq (void (block_rules bs) ret) b t -> tidy_seq (void (block_rules bs') ret) b t) /\ (forall b t, tidy_alt (void (block_rules bs) ret) b t -> tidy_alt (void (block_rules bs') ret) b t)).
    { clear - VS. apply tidy_mutind; intros; try (econstructor; eauto; fail); [apply ti_void; apply VS; assumption|apply ts_void; try assumption; apply VS; assumption]. }
    exact (proj1 GEN _ _ TD). }
  destruct (C56_parsers_partial RT RI H' LT' RD' ST' Q' PC' (or_intror TD') O (Permutation_in _ P I0)) as (st' & log' & r' & evs' & C' & U' & L' & [R1' R2'] & K').
  assert (E : r = r' /\ evs = evs').
  { apply U'. apply (tep_same SM). apply (tep_void VS). apply U. auto. }
  destruct E as [-> ->]. exists st, st', log. subst log log'. split; [exact C|]. split; [exact C'|]. rewrite R1, R2, R1', R2'.
  destruct r' as [[rest vs]|].
  - destruct K as [[S1 _] D1], K' as [[S2 _] D2]. unfold is_successful in *. apply negb_true_iff in S1, S2. rewrite D1, D2, S1, S2. auto.
  - destruct K as [S1 D1], K' as [S2 D2]. rewrite D1, D2, S1, S2. auto.
Qed.

(** ---------------- a concrete case ---------------- *)
(** The rules of [sum_source] meet the conditions: [sum] depends on [num], whose type is that of its action. *)
Definition sum_returned := returned toy_return (functions (block_items (map (fun q => meaning (snd q)) sum_source))).
Example C56_parser_case : settled_types sum_rules /\ plain_choices sum_rules sum_returned /\ forall n e, In (n, e) sum_rules -> tidy (void sum_rules sum_returned) true e.
Proof.
  assert (UP : forall t l, within t (XAlt l) -> (exists l', t = XAlt l') \/ exists u, In u (operands t) /\ within u (XAlt l)).
  { intros t l W. inversion W; subst; eauto. }
  assert (NA : forall l, ~ part sum_rules (XAlt l)).
  { intros l (n & e & I0 & W). destruct I0 as [Q|[Q|[]]]; injection Q as Q1 Q2; subst n e.
    - destruct (UP _ _ W) as [(l' & Q)|(u & [<-|[<-|[]]] & W1)]; [discriminate Q| |].
      + destruct (UP _ _ W1) as [(l' & Q)|(u & [] & _)]; discriminate Q.
      + destruct (UP _ _ W1) as [(l' & Q)|(u & [<-|[]] & W2)]; [discriminate Q|]. destruct (UP _ _ W2) as [(l' & Q)|(u & [<-|[<-|[]]] & W3)]; [discriminate Q| |];
        destruct (UP _ _ W3) as [(l' & Q)|(u & [] & _)]; discriminate Q.
    - destruct (UP _ _ W) as [(l' & Q)|(u & [<-|[]] & W1)]; [discriminate Q|]. destruct (UP _ _ W1) as [(l' & Q)|(u & [<-|[]] & W2)]; [discriminate Q|].
      destruct (UP _ _ W2) as [(l' & Q)|(u & [] & _)]; discriminate Q. }
  split; [|split].
  - apply alone_settled. exists (fun id => if String.eqb id "sum" then 1 else 0). intros n e id [Q|[Q|[]]] ND; injection Q as <- <-.
    + assert (X : id = "num"); [|subst id; left; vm_compute; lia].
      repeat match goal with H : needs _ (XSeq _) _ |- _ => inversion H; clear H; subst | H : needs _ (XStar _) _ |- _ => inversion H; clear H; subst
        | H : needs _ (XStr _) _ |- _ => inversion H | H : needs _ (XCall _) _ |- _ => inversion H; clear H; subst; reflexivity | H : In _ (_ :: _) |- _ => destruct H as [<-|H] | H : In _ [] |- _ => destruct H end.
    + inversion ND.
  - intros l t t' P. destruct (NA l P).
  - intros n e [Q|[Q|[]]]; injection Q as <- <-.
    + apply ti_seq. apply ts_cons; [apply ti_leaf; reflexivity|]. apply ts_cons; [|constructor]. apply ti_star, ti_seq. apply ts_cons; [apply ti_leaf; reflexivity|]. apply ts_cons; [apply ti_leaf; reflexivity|constructor].
    + apply ti_act. intros l W. apply (NA l). exists "num". eexists. split; [right; left; reflexivity|]. eapply wi_step; [left; reflexivity|exact W].
Qed.
(** [num] reads the digits of ["7+"], calls [number] with them and returns its value. *)
Example C56_value_case : forall X off, exists e, In ("num", e) sum_rules /\
  tep sum_rules X off (void sum_rules sum_returned) Par (TE e) [55%N; 43%N] (Some ([43%N], [act_value (ActPath ["number"]) false false [VVec [VChar 55%N]]]))
    ([EvErr [43%N] digits_desc] ++ act_events (ActPath ["number"]) false [VVec [VChar 55%N]]).
Proof.
  intros X off. eexists. split; [right; left; reflexivity|].
  assert (NV : forall t k, tkind sum_rules sum_returned t k -> voidb k = false -> ~ void sum_rules sum_returned t).
  { intros t k K V (k' & K' & V'). rewrite (proj1 (tkind_det _ _) _ _ K _ K') in V. congruence. }
  assert (NC : ~ void sum_rules sum_returned (XClass false [Interval 48%N 57%N] false)) by (eapply NV; [constructor|reflexivity]).
  assert (NP : ~ void sum_rules sum_returned (XPlus (XClass false [Interval 48%N 57%N] false))) by (eapply NV; [constructor; constructor|reflexivity]).
  apply te_act_ok.
  - eapply NV; [constructor|]. reflexivity.
  - split; [discriminate|]. intros V. destruct (NP V).
  - eapply (@te_plus_ok _ _ _ _ Par _ _ [43%N] [VChar 55%N] [] [43%N] [] [EvErr [43%N] digits_desc]).
    + exact NP.
    + apply (@te_class_ok _ _ _ _ Par); [exact NC|]. right. right. exists 48%N, 57%N. split; [left; reflexivity|split; vm_compute; discriminate].
    + apply te_star_stop. apply te_class_fail; [exact NC|]. intros [[[K|K] _]|[[K|[]]|(lo & hi & [K|[]] & A & _)]]; try discriminate K. injection K as <- <-. vm_compute in A. apply A. reflexivity.
Qed.
(** The module of this source exists (C46_case), and the source is read as [sum_source]: all hypotheses are met. *)
Example C56_parser_module : exists m, oak toy_type toy_item toy_return toy_generics 100 (print_grammar toy_toks sum_source) = WOk (Some m) /\
  toks_strs scalars (print_grammar toy_toks sum_source) /\ read_as toy_type toy_item (print_grammar toy_toks sum_source) (flat_map fst sum_source) (map (fun q => meaning (snd q)) sum_source).
Proof.
  destruct C46_case as (m & H & _). exists m. split; [exact H|]. split; [destruct sum_expands as (? & ? & _ & _ & L); exact L|].
  apply C38_canonical_read; [reflexivity|exact sum_source_canon].
Qed.

Print Assumptions C38_canonical_read.
Print Assumptions C56_parsers_partial.
Print Assumptions C46_no_panic_source_partial.
Print Assumptions C28_parsers_source_partial.
Print Assumptions C55_parsers_order_partial.
Print Assumptions C56_parser_case.
Print Assumptions C56_value_case.
