(** Property theorems about the size of the generated code (C40), from the source. *)
From Coq Require Import Ascii Permutation.
From Verif Require Import Base Utf8 Stream ParseState RuntimeFacts Grammar PegSpec Target Compile TargetFacts ScopeFacts
  CompileShape EvalRules CompileCorrect ScopeGen GenTotal PegFacts Running WellFormed WfFacts WfSound WfSyntax WfTerm WfFuel PegRun Behave Values CharClass
  Analysis AnalysisFacts PropertiesWf PropertiesPeg PropertiesAnalysis Typing TypeRules SurfaceFacts RefFacts DepthFacts TypingSound TypingFit GenAgree TypingTop TypingVerdict
  PropertiesTyping SumGrammar Front FrontFacts FrontSpec FrontSound FrontRound FrontGrammar PropertiesFront Agree TreeSpec TreeFacts Literals Pipeline MiddleFuel PropertiesMain PropertiesRules RType Oak OakFacts PropertiesOak RustcCheck RustcRefs PropertiesRustc PropertiesModule
  TreeWf PropertiesVerdict TreeValues TreeEp PropertiesSource TreeKinds KindFacts KindTrees TreeNames FrontPrint PropertiesParsers PropertiesMutual PropertiesGen SourceChecks ScopeExact SourceNames PropertiesScope CodeSize PropertiesSize.
Set Implicit Arguments. Unset Strict Implicit.
Open Scope string_scope. Open Scope nat_scope. Open Scope list_scope.

(** ---------------- specification, on the source ---------------- *)
(** The size of an expression: its operators and operands, with the intervals of the character classes; [.. e] counts
    for two ([e : ()] is in it). *)
Fixpoint t_nodes (t : tree) : nat :=
  match t with
  | XStr _ | XAny | XCall _ => 1
  | XClass a items b => S (length (class_intervals a items b))
  | XSeq l | XAlt l => S (list_sum (map t_nodes l))
  | XStar t | XPlus t | XOpt t | XNot t | XAnd t | XAct t _ _ | XAsc t _ | XSpan t => S (t_nodes t)
  | XRange t => 2 + t_nodes t
  end.
(** Its nesting. *)
Fixpoint t_height (t : tree) : nat :=
  match t with
  | XStr _ | XAny | XCall _ | XClass _ _ _ => 1
  | XSeq l | XAlt l => S (list_max (map t_height l))
  | XStar t | XPlus t | XOpt t | XNot t | XAnd t | XAct t _ _ | XAsc t _ | XSpan t => S (t_height t)
  | XRange t => 2 + t_height t
  end.
Section Spec.
Variable rs : list (string * tree).
(** The expressions without value. *)
Variable vd : tree -> bool.
(** No choice stands at the end of the operand of an action that other expressions follow ([position]: CodeSize.v). *)
Fixpoint t_calm (m : mode) (p : position) (t : tree) : bool :=
  match t, t_mode vd m t with
  | (XStr _ | XAny | XClass _ _ _ | XCall _), _ => true
  | XSeq l, m => all_but_last (t_calm m Mid) (t_calm m p) l
  | XAlt l, m => match p with Acted => false | _ => forallb (t_calm m Tail) l end
  | (XStar t | XPlus t | XOpt t), m => t_calm m Tail t
  | (XNot t | XAnd t), _ => t_calm Rec Tail t
  | XAct t _ _, m => t_calm m (match m with Rec => p | Par => acted p end) t
  | (XAsc t _ | XSpan t), m => t_calm m p t
  | XRange t, _ => t_calm Rec p t
  end.
Definition calm_rule (t : tree) : bool := t_calm Par Tail t.
(** A bound of the number of values of an expression, [W] being such a bound for the rules. *)
Variable W : string -> nat.
Fixpoint t_width (t : tree) : nat :=
  match t with
  | XStr _ | XNot _ | XAnd _ => 0
  | XAny | XClass _ _ _ | XStar _ | XPlus _ | XOpt _ | XAct _ _ _ | XAsc _ _ | XRange _ => 1
  | XCall p => match p, rule_called rs p with [id], Some _ => W id | _, _ => 1 end
  | XSeq l => list_sum (map t_width l)
  | XAlt l => list_max (map t_width l)
  | XSpan t => S (t_width t)
  end.
(** [W] is one, and no expression of the grammar has more than [w] values. *)
Definition widths (w : nat) : Prop := (forall n e, In (n, e) rs -> t_width e <= W n) /\ forall t, part rs t -> t_width t <= w.
End Spec.

(** ---------------- the arena and the source ---------------- *)
Section Sizes.
Variables (G : grammar) (rs : list (string * tree)).
Hypothesis LOW : forall i e, expr_of G i = Some e -> Forall (fun j => j < i) (children e).

Lemma sizes_same : forall t i fuel, stored G rs i t -> i < fuel -> nodes G fuel i = t_nodes t /\ height G fuel i = t_height t.
Proof.
  assert (ALL : forall l, Forall (fun t => forall i fuel, stored G rs i t -> i < fuel -> nodes G fuel i = t_nodes t /\ height G fuel i = t_height t) l ->
     forall js i n, Forall2 (stored G rs) js l -> Forall (fun j => j < i) js -> i <= n -> map (nodes G n) js = map t_nodes l /\ map (height G n) js = map t_height l).
  { induction 1 as [|t l Ht HF IH]; intros js i n F2 LT Le; inversion F2 as [|j ? js' ? S0 F2']; subst; [auto|]. inversion LT as [|? ? Lj LT']; subst.
    destruct (IH _ _ _ F2' LT' Le) as [A B]. destruct (Ht j n S0 ltac:(lia)) as [C D]. cbn [map]. split; congruence. }
  induction t as [s| |a b c|q|l IHl|l IHl|t IH|t IH|t IH|t IH|t IH|t b q IH|t ty IH|t IH|t IH] using tree_ind';
    intros i fuel S0 L; (destruct fuel as [|n]; [lia|]); inversion S0; subst; cbn [nodes height t_nodes t_height];
    match goal with E : expr_of G i = Some ?e |- _ => pose proof (LOW E) as D; rewrite E; cbn [children intervals map] in * end;
    try (split; reflexivity); try (cbn [list_sum list_max fold_right]; split; lia);
    try solve [apply Forall_inv in D; match goal with S1 : stored G rs ?j ?t0 |- context [nodes G n ?j] => destruct (IH j n S1 ltac:(lia)) as [A B]; rewrite A, B; cbn [list_sum list_max fold_right]; split; lia end];
    try solve [match goal with F : Forall2 _ _ _ |- _ => destruct (ALL l IHl _ i n F D) as [A B]; [lia|]; rewrite A, B; split; reflexivity end].
  apply Forall_inv in D.
  destruct n as [|n]; [lia|]. cbn [nodes height]. match goal with E : expr_of G u = Some ?e |- _ => pose proof (LOW E) as D2; rewrite E; cbn [children intervals map] in * end.
  apply Forall_inv in D2. destruct (IH j n ltac:(assumption) ltac:(lia)) as [A B]. rewrite A, B. cbn [list_sum list_max fold_right]. split; lia.
Qed.
End Sizes.

Section Arena.
Variables (G : grammar) (rs : list (string * tree)) (void : tree -> bool) (asked : nat -> Prop).
Hypothesis DOWN : forall i e, asked i -> expr_of G i = Some e -> is_unit G i = false -> Forall asked (children e).
Hypothesis LOW : forall i e, expr_of G i = Some e -> Forall (fun j => j < i) (children e).
Hypothesis VOID : forall i t, asked i -> stored G rs i t -> is_unit G i = void t.
Hypothesis RANGE : forall i u, asked i -> is_unit G i = false -> expr_of G i = Some (ERange u) -> is_unit G u = true.
Local Notation ok := (SourceNames.ok asked).

Lemma calm_same : forall t i fuel m p, ok m i -> stored G rs i t -> i < fuel -> calm G fuel m p i = t_calm void m p t.
Proof.
  assert (ALL : forall l, Forall (fun t => forall i fuel m p, ok m i -> stored G rs i t -> i < fuel -> calm G fuel m p i = t_calm void m p t) l ->
     forall js m i n, Forall2 (stored G rs) js l -> Forall (fun j => ok m j /\ j < i) js -> i <= n ->
       (forall p, all_but_last (calm G n m Mid) (calm G n m p) js = all_but_last (t_calm void m Mid) (t_calm void m p) l) /\
       (forall p, forallb (calm G n m p) js = forallb (t_calm void m p) l)).
  { induction 1 as [|t l Ht HF IH]; intros js m i n F2 LT Le; inversion F2 as [|j ? js' ? S0 F2' ]; subst; [auto|].
    inversion LT as [|? ? [Aj Lj] LT']; subst. destruct (IH _ _ _ _ F2' LT' Le) as [A B]. assert (Ln : j < n) by lia. split; intros p.
    - cbn [all_but_last]. inversion F2' as [|j' ? ? ? S1 F3]; subst; [apply Ht; assumption|]. rewrite A, (Ht j n) by assumption. reflexivity.
    - cbn [forallb]. rewrite B, (Ht j n) by assumption. reflexivity. }
  assert (MODE : forall m i t, ok m i -> stored G rs i t -> CodeSize.mode_at G m i = t_mode void m t).
  { intros m i t A S0. destruct m; [reflexivity|]. cbn. rewrite (VOID (A eq_refl) S0). reflexivity. }
  assert (OKD : forall m i e, ok m i -> expr_of G i = Some e -> Forall (fun j => ok (CodeSize.mode_at G m i) j /\ j < i) (children e)).
  { intros m i e A Ee. pose proof (LOW Ee) as L. rewrite Forall_forall in L |- *. intros j Ij. split; [|exact (L j Ij)]. intros Q.
    destruct m; [discriminate Q|]. cbn in Q. destruct (is_unit G i) eqn:U; [discriminate|]. pose proof (DOWN (A eq_refl) Ee U) as D. rewrite Forall_forall in D. exact (D j Ij). }
  assert (OKR : forall i, ok Rec i) by (intros i Q; discriminate).
  induction t as [s| |a b c|q|l IHl|l IHl|t IH|t IH|t IH|t IH|t IH|t b q IH|t ty IH|t IH|t IH] using tree_ind';
    intros i fuel m p A0 S0 L0; (destruct fuel as [|n]; [lia|]); pose proof (MODE _ _ _ A0 S0) as M; inversion S0; subst;
    match goal with Ee : expr_of G i = Some _ |- _ => pose proof (OKD _ _ _ A0 Ee) as OD; cbn [children] in OD end;
    cbn [calm t_calm]; match goal with E : expr_of G i = Some _ |- _ => rewrite E end; try reflexivity; rewrite <- ?M; try (apply Forall_inv in OD; destruct OD as [OJ LJ]).
  - match goal with F : Forall2 _ _ _ |- _ => destruct (ALL l IHl _ _ i n F OD ltac:(lia)) as [A B] end. rewrite A. destruct (CodeSize.mode_at G m i); reflexivity.
  - match goal with F : Forall2 _ _ _ |- _ => destruct (ALL l IHl _ _ i n F OD ltac:(lia)) as [A B] end. rewrite B. destruct (CodeSize.mode_at G m i); destruct p; reflexivity.
  - rewrite (IH j n) by (auto; lia). destruct (CodeSize.mode_at G m i); reflexivity.
  - rewrite (IH j n) by (auto; lia). destruct (CodeSize.mode_at G m i); reflexivity.
  - rewrite (IH j n) by (auto; lia). destruct (CodeSize.mode_at G m i); reflexivity.
  - rewrite (IH j n) by (auto; lia). destruct (CodeSize.mode_at G m i); reflexivity.
  - rewrite (IH j n) by (auto; lia). destruct (CodeSize.mode_at G m i); reflexivity.
  - rewrite (IH j n) by (auto; lia). destruct (CodeSize.mode_at G m i); reflexivity.
  - rewrite (IH j n) by (auto; lia). destruct (CodeSize.mode_at G m i); reflexivity.
  - rewrite (IH j n) by (auto; lia). destruct (CodeSize.mode_at G m i); reflexivity.
  - assert (RM : CodeSize.mode_at G (CodeSize.mode_at G m i) u = Rec).
    { destruct m; [reflexivity|]. cbn. destruct (is_unit G i) eqn:U; [reflexivity|]. cbn. rewrite (RANGE (A0 eq_refl) U ltac:(eassumption)). reflexivity. }
    match goal with E : expr_of G u = Some _ |- _ => pose proof (LOW E) as L2; rename E into Eu end. cbn [children] in L2. apply Forall_inv in L2.
    destruct n as [|n]; [lia|]. cbn [calm]. rewrite Eu, RM. rewrite (IH j n) by (auto; lia). destruct (CodeSize.mode_at G m i); reflexivity.
Qed.
End Arena.

(** ---------------- C40 ---------------- *)
(** Recognizers: for every grammar the macro accepts. *)
Theorem C40_macro_recognizers : forall rust_type rust_item return_type generics, reads rust_type -> reads rust_item ->
  forall fuel ts m, oak rust_type rust_item return_type generics fuel ts = WOk (Some m) ->
  forall attrs bs, read_as rust_type rust_item ts attrs bs ->
  forall n sg f, In (MRecognizer n sg f) m -> exists e, In (n, e) (block_rules bs) /\ func_size f <= t_nodes e * (10 * t_height e + 22).
Proof.
  intros rt ri ret gen RT RI fuel ts m H attrs bs (D & fg' & PA' & _ & _ & RA) n sg f I0.
  destruct (oak_inv H) as (fg & g & G' & PA & M & TY & C). assert (fg' = fg) as -> by congruence. pose proof (middle_settles M) as MA.
  destruct (content_recognizers C I0) as (rl & I1 & RN & GR). destruct (typed_shape PA MA TY) as (out & Q & LO). pose proof (source_stored PA MA RA) as SS.
  assert (I2 : In rl (rules (shape g))) by (rewrite Q in I1; exact I1).
  destruct (rule_source SS I2) as (e & Ie & S0). rewrite RN in Ie. exists e. split; [exact Ie|].
  assert (S1 : stored G' (block_rules bs) (rexpr rl) e).
  { refine (stored_ext _ S0). rewrite Q. unfold expr_of. cbn [exprs]. intros i e0 E0. rewrite nth_error_app1; [exact E0|apply nth_error_Some; congruence]. }
  assert (AO : arena_ok G').
  { rewrite Q. eapply Pipeline.tail_arena; try eassumption; try discriminate. intros j [<-|[]]. exact (some_expr (C38_well_built PA MA)). }
  pose proof (root_low (C38_well_built PA MA) I2) as L.
  destruct (@sizes_same G' (block_rules bs) (fun i e0 E0 => ar_children AO E0) e (rexpr rl) (gen_fuel G') S1) as [A B].
  { unfold gen_fuel. rewrite Q. cbn [exprs]. rewrite app_length. lia. }
  pose proof (C40_recognizer_size GR) as X. cbn zeta in X. rewrite A, B in X. exact X.
Qed.

Section Widths.
Variables (rust_type : list tok -> option (string * list tok)) (rust_item : list tok -> option (rust_item * list tok)).
Variables (ts : list tok) (fg : fgrammar) (g : agrammar) (E : tenv) (fuel : nat) (G' : grammar).
Hypothesis PA : parse_grammar rust_type rust_item ts = FOk fg.
Hypothesis MA : middle_answers fg (Some g).
Hypothesis TY : type_inference E fuel (shape g) = WOk (Some G').
Variable rs : list (string * tree).
Hypothesis RA : rules_at (f_exprs fg) (f_rules fg) rs.
Variable ret : string -> option (option string).
Hypothesis RE : forall f, ret_of E f = ret f.
Hypothesis ST : settled_types rs.
Variable vd : tree -> bool.
Hypothesis VD : forall t, vd t = true <-> void rs ret t.
Local Notation PG := (plug (shape g) G').
Local Notation N := (length (exprs (shape g))).
Hypothesis COH : coherent PG.
Variables (W : string -> nat) (w : nat).
Hypothesis WD : widths rs W w.

Lemma unit_card i : is_unit PG i = true -> card PG i = 0.
Proof. unfold is_unit, card. destruct (ty_of PG i) as [[]|]; try discriminate. reflexivity. Qed.
Lemma sum_width js l : Forall2 (fun j t => card PG j <= t_width rs W t) js l -> list_sum (map (card PG) js) <= list_sum (map (t_width rs W) l).
Proof. induction 1 as [|j t js l L _ IH]; [reflexivity|]. cbn [map]. change (list_sum (?a :: ?b)) with (a + list_sum b). lia. Qed.
Lemma rule_find id rl : find_rule PG id = Some rl -> In rl (rules (shape g)) /\ rname rl = id.
Proof. intros F. destruct (find_rule_in F) as [I0 Q]. split; [|exact Q]. change (rules PG) with (rules G') in I0. rewrite (typed_rules PA MA TY) in I0. exact I0. Qed.

(** The number of values of an expression. *)
Lemma card_width : forall t i, asked g G' i -> stored PG rs i t ->
  (forall id rl, needs rs t id -> find_rule PG id = Some rl -> card PG (rexpr rl) <= W id) -> card PG i <= t_width rs W t.
Proof.
  assert (DOWN := plug_child PA MA TY). pose proof (C38_well_built PA MA) as WB.
  assert (ALL : forall l, Forall (fun t => forall i, asked g G' i -> stored PG rs i t -> (forall id rl, needs rs t id -> find_rule PG id = Some rl -> card PG (rexpr rl) <= W id) -> card PG i <= t_width rs W t) l ->
     forall js, Forall2 (stored PG rs) js l -> Forall (asked g G') js -> (forall id rl t, In t l -> needs rs t id -> find_rule PG id = Some rl -> card PG (rexpr rl) <= W id) ->
     Forall2 (fun j t => card PG j <= t_width rs W t) js l).
  { induction 1 as [|t l Ht HF IH]; intros js F2 AS ND; inversion F2 as [|j ? js' ? S0 F2' ]; subst; [constructor|]. constructor.
    - apply Ht; [exact (Forall_inv AS)|exact S0|]. intros id rl N0 FR. eapply ND; [left; reflexivity|eassumption|eassumption].
    - apply IH; [exact F2'|exact (Forall_inv_tail AS)|]. intros id rl t0 I0 N0 FR. eapply ND; [right; exact I0|eassumption|eassumption]. }
  induction t as [s| |a b c|q|l IHl|l IHl|t IH|t IH|t IH|t IH|t IH|t b q IH|t ty IH|t IH|t IH] using tree_ind'; intros i A S0 ND;
    (destruct (is_unit PG i) eqn:U; [rewrite (unit_card U); lia|]); inversion S0; subst;
    match goal with Ee : expr_of PG i = Some _ |- _ => pose proof (COH Ee U) as CE; cbn [coh_expr] in CE; pose proof (DOWN _ _ A Ee U) as AC; cbn [children] in AC end;
    cbn [t_width]; try contradiction; try lia.
  - match goal with R : rule_called rs [id] = Some _ |- _ => rewrite R; rename R into RC end. destruct CE as (rl & FR & C1 & _). rewrite <- C1. eapply ND; [econstructor; exact RC|exact FR].
  - destruct q as [|? [|? ?]]; try match goal with R : rule_called rs _ = None |- _ => rewrite R end; lia.
  - rewrite CE. apply sum_width. eapply ALL; [exact IHl|eassumption|exact AC|]. intros id rl t0 I0 N0 FR. eapply ND; [econstructor; eassumption|exact FR].
  - match goal with F : Forall2 _ js l, Ee : expr_of PG i = Some _ |- _ => rename F into F2; rename Ee into Ei end.
    assert (F3 : Forall2 (fun j t => card PG j <= t_width rs W t) js l).
    { eapply ALL; [exact IHl|exact F2|exact AC|]. intros id rl t0 I0 N0 FR. eapply ND; [econstructor; eassumption|exact FR]. }
    destruct F3 as [|j t js' l' L _]; [exfalso; rewrite (plug_low G' (proj1 A)) in Ei; exact (wb_alt WB Ei)|].
    apply Forall_inv in CE. cbn [map]. rewrite list_max_cons. lia.
  - match goal with Ee : expr_of PG i = Some _ |- _ => rename Ee into Ei end. rewrite (plug_low G' (proj1 A)) in Ei. change (card PG i) with (card G' i). change (is_unit PG i) with (is_unit G' i) in U.
    unfold card, is_unit in *. destruct (ty_of G' i) as [u|] eqn:Eu; [|lia]. destruct (C48_constant_types WB TY Ei eq_refl Eu) as [H|[-> _]]; [|discriminate]. inversion H; subst; cbn; lia.
  - match goal with S1 : stored PG rs ?j t |- _ => pose proof (IH j (Forall_inv AC) S1) as X end. rewrite CE. apply le_n_S, X. intros id rl N0 FR. eapply ND; [constructor; exact N0|exact FR].
  - match goal with Ee : expr_of PG i = Some (ERange _) |- _ => pose proof (plug_range PA MA TY RA ST A U Ee) as Uu end. rewrite (unit_card Uu) in CE. lia.
Qed.
(** Of a rule. *)
Lemma rule_width rl : In rl (rules (shape g)) -> card PG (rexpr rl) <= W (rname rl).
Proof.
  assert (BARE : forall rl, In rl (rules (shape g)) -> bare rs (rname rl) -> card PG (rexpr rl) = 0).
  { intros r I0 B. destruct (rule_source (source_stored PA MA RA) I0) as (e & Ie & S0). apply unit_card.
    assert (AS : asked g G' (rexpr r)) by (apply (asked_root PA MA TY); rewrite (typed_rules PA MA TY); exact I0).
    assert (S1 : stored PG rs (rexpr r) e).
    { refine (stored_ext _ S0). unfold plug, expr_of. cbn [exprs]. intros i e0 E0. rewrite nth_error_app1; [exact E0|apply nth_error_Some; congruence]. }
    rewrite (plug_void PA MA TY RA RE ST VD AS S1). apply VD. exists KInv. split; [|reflexivity]. apply bare_kind. exact (bare_body Ie B). }
  pose proof ST as (rk & apart & HB & HR). remember (rk (rname rl)) as k eqn:Ek. assert (L : rk (rname rl) <= k) by lia. clear Ek. revert rl L.
  induction k as [k IH] using lt_wf_ind. intros rl L I0. destruct (apart (rname rl)) eqn:AP; [rewrite (BARE rl I0 (HB _ AP)); lia|].
  destruct (rule_source (source_stored PA MA RA) I0) as (e & Ie & S0).
  assert (AS : asked g G' (rexpr rl)) by (apply (asked_root PA MA TY); rewrite (typed_rules PA MA TY); exact I0).
  assert (S1 : stored PG rs (rexpr rl) e).
  { refine (stored_ext _ S0). unfold plug, expr_of. cbn [exprs]. intros i e0 E0. rewrite nth_error_app1; [exact E0|apply nth_error_Some; congruence]. }
  eapply Nat.le_trans; [|exact (proj1 WD _ _ Ie)]. apply (card_width AS S1). intros id r ND FR. destruct (rule_find FR) as [I1 <-].
  destruct (HR _ _ _ Ie AP ND) as [[LT _]|[_ B]]; [|rewrite (BARE r I1 B); lia]. eapply IH; [|apply Nat.le_refl|exact I1]. lia.
Qed.
Definition within_arena (i : nat) : Prop := asked g G' i /\ (is_unit PG i = true \/ exists t, part rs t /\ stored PG rs i t).
Lemma arena_down i e : within_arena i -> expr_of PG i = Some e -> is_unit PG i = false -> Forall within_arena (children e).
Proof.
  intros [A S0] Ee U. pose proof (plug_child PA MA TY A Ee U) as AC. destruct S0 as [S0|(t & (n & e0 & I0 & WI) & S0)]; [congruence|].
  assert (IN : forall u, In u (operands t) -> part rs u).
  { intros u Iu. exists n, e0. split; [exact I0|]. clear - WI Iu. induction WI as [t|t v x Iv WI IH]; [exact (wi_step Iu (wi_refl u))|exact (wi_step Iv (IH Iu))]. }
  rewrite Forall_forall in AC |- *. intros j Ij. split; [exact (AC j Ij)|].
  inversion S0; subst; match goal with Q : expr_of PG i = Some ?x |- _ => assert (e = x) as -> by congruence end; cbn [children operands] in *; try contradiction;
    try solve [destruct Ij as [<-|[]]; right; eexists; split; [apply IN; left; reflexivity|eassumption]];
    try solve [right; match goal with F : Forall2 _ _ _ |- _ => clear - F IN Ij; induction F as [|a b js l H F IHF]; [destruct Ij|]; destruct Ij as [<-|Ij]; [exists b; split; [apply IN; left; reflexivity|exact H]|apply IHF; [intros u Iu; apply IN; right; exact Iu|exact Ij]] end].
  destruct Ij as [<-|[]].
  left. eapply plug_range; eassumption.
Qed.
Lemma arena_card i : within_arena i -> card PG i <= w.
Proof.
  intros [A [U|(t & PT & S0)]]; [rewrite (unit_card U); lia|]. eapply Nat.le_trans; [|exact (proj2 WD t PT)]. apply (card_width A S0). intros id rl _ FR.
  destruct (rule_find FR) as [I1 <-]. exact (rule_width I1).
Qed.
Lemma size_source rl f : In rl (rules (shape g)) -> gen_parser PG rl = COk f ->
  exists e, In (rname rl, e) rs /\ (calm_rule vd e = true -> func_size f <= 1 + t_nodes e * (10 * S (t_height e) * S w + 12)).
Proof.
  intros I0 GP. destruct (rule_source (source_stored PA MA RA) I0) as (e & Ie & S0). exists e. split; [exact Ie|]. intros CM.
  assert (AS : asked g G' (rexpr rl)) by (apply (asked_root PA MA TY); rewrite (typed_rules PA MA TY); exact I0).
  assert (S1 : stored PG rs (rexpr rl) e).
  { refine (stored_ext _ S0). unfold plug, expr_of. cbn [exprs]. intros i e0 E0. rewrite nth_error_app1; [exact E0|apply nth_error_Some; congruence]. }
  assert (L : rexpr rl < gen_fuel PG) by (unfold gen_fuel, plug; cbn [exprs]; rewrite app_length; pose proof (proj1 AS); cbn [length]; lia).
  destruct (@sizes_same PG rs (plug_children PA MA) e (rexpr rl) (gen_fuel PG) S1 L) as [<- <-].
  assert (AR : within_arena (rexpr rl)) by (split; [exact AS|right; exists e; split; [exists (rname rl), e; split; [exact Ie|constructor]|exact S1]]).
  refine (parser_size_asked arena_down arena_card AR COH GP _).
  rewrite (@calm_same PG rs vd (asked g G') (plug_child PA MA TY) (plug_children PA MA) (plug_void PA MA TY RA RE ST VD) (plug_range PA MA TY RA ST) e (rexpr rl) (gen_fuel PG) Par Tail (fun _ => AS) S1 L). exact CM.
Qed.
End Widths.

(** Parsers.  Missing: rules with a value whose type depends on itself, choices that mix foreign values and tuples; a choice at
    the end of the operand of an action that other expressions follow makes the size exponential ([C40_macro_exponential]). *)
Theorem C40_macro_parsers_partial : forall rust_type rust_item return_type generics, reads rust_type -> reads rust_item ->
  forall fuel ts m, oak rust_type rust_item return_type generics fuel ts = WOk (Some m) ->
  forall attrs bs, read_as rust_type rust_item ts attrs bs -> settled_types (block_rules bs) ->
  forall ret, ret = returned return_type (functions (block_items bs)) -> plain_choices (block_rules bs) ret ->
  forall vd, (forall t, vd t = true <-> void (block_rules bs) ret t) ->
  forall W w, widths (block_rules bs) W w ->
  forall n sg f, In (MParser n sg f) m -> exists e, In (n, e) (block_rules bs) /\
    (calm_rule vd e = true -> func_size f <= 1 + t_nodes e * (10 * S (t_height e) * S w + 12)).
Proof.
  intros rt ri rty gen RT RI fuel ts m H attrs bs RD SE ret -> PC vd VD W w WD n sg f I0.
  destruct (source_env RT RI H RD) as (fg & g & G' & PA & MA & RA & TY & C & RE). pose proof (C38_well_built PA MA) as WB.
  destruct (kinds_plain PA MA TY RA SE) as (rk & bad & HL & HBA & _). pose proof (rules_ok PA MA TY RA SE HBA) as HU.
  destruct (typed_coherent WB TY HL HU (choices_typed PA MA TY RA RE SE PC)) as (_ & COH & AG & _).
  destruct (proj1 (content_parsers C) n sg f I0) as (rl & I1 & RN & GP & _). rewrite (typed_rules PA MA TY) in I1.
  pose proof (AG Par rl I1) as Q. cbn [gen_rule] in Q. rewrite Q in GP. destruct (size_source PA MA TY RA RE SE VD COH WD I1 GP) as (e & Ie & A). exists e. rewrite <- RN. auto.
Qed.

(** ---------------- exponential size ---------------- *)
(** [(. / .) > f] *)
Definition twice (f : list string) : tree := XAct (XAlt [XAny; XAny]) false f.
Lemma twice_doubles G rs fuel i f s x c y : stored G rs i (twice f) -> is_unit G i = false -> (forall j e, expr_of G i = Some e -> In j (children e) -> is_unit G j = false) ->
  compile G fuel Par i s x = COk (c, y) -> 2 * code_size s <= code_size c.
Proof.
  intros S0 U UJ H. unfold twice in S0.
  assert (K : exists j a b, expr_of G i = Some (EAct j false (ActPath f)) /\ expr_of G j = Some (EAlt [a; b]) /\ expr_of G a = Some EAny /\ expr_of G b = Some EAny).
  { inversion S0; subst. match goal with Q : stored G rs j _ |- _ => inversion Q; subst end.
    match goal with Q : Forall2 _ js _ |- _ => inversion Q as [|a ? js1 ? Sa Fl1]; subst; inversion Fl1 as [|b ? js2 ? Sb Fl2]; subst; inversion Fl2; subst end.
    inversion Sa; subst. inversion Sb; subst. exists j, a, b. auto. }
  destruct K as (j & a & b & Ei & Ej & Ea & Eb).
  specialize (UJ j _ Ei (or_introl eq_refl)).
  destruct fuel as [|fuel]; [discriminate|]. cbn [compile] in H. apply cbind_ok in H. destruct H as (m & Em & H). unfold eff_mode in Em. unfold is_unit in U. destruct (ty_of G i) as [u|]; [|discriminate]. rewrite U in Em. injection Em as <-.
  rewrite Ei in H. apply cbind_ok in H. destruct H as ([r x1] & E1 & H). destruct (open_scope _ x1) as [sc x2] eqn:E2.
  apply cbind_ok in H. destruct H as ([body x4] & E3 & H). apply cbind_ok in E3. destruct E3 as ([body' x4'] & E3 & E4). apply COk_inj, pair_inj in E4. destruct E4 as [<- <-].
  apply cbind_ok in H. destruct H as (x5 & E5 & H). apply COk_inj, pair_inj in H. destruct H as [<- <-].
  assert (N2 : ncomb x2 = 0) by (apply pair_inj in E2; destruct E2 as [_ <-]; reflexivity).
  remember (CLetAct _ _ _ _ _ s) as s' eqn:Es'. assert (Ls : code_size s <= code_size s') by (subst s'; cbn; lia). clear Es' E1 E2 E5.
  destruct fuel as [|fuel]; [discriminate|]. cbn [compile] in E3. apply cbind_ok in E3. destruct E3 as (m & Em & E3). unfold eff_mode in Em. unfold is_unit in UJ. destruct (ty_of G j) as [v|]; [|discriminate]. rewrite UJ in Em. injection Em as <-.
  rewrite Ej in E3. unfold success_as_closure in E3. rewrite N2 in E3. cbn [Nat.ltb Nat.leb next_mark next_branch compile_branches] in E3.
  apply cbind_ok in E3. destruct E3 as ([bs x6] & E & E3). apply cbind_ok in E. destruct E as ([b1 x7] & Eb1 & E).
  apply cbind_ok in E. destruct E as ([bs2 x8] & Eb2 & E). apply COk_inj, pair_inj in E. destruct E as [<- <-].
  apply cbind_ok in Eb2. destruct Eb2 as (x9 & _ & Eb2). apply cbind_ok in Eb2. destruct Eb2 as ([b2 x10] & Eb2 & E).
  apply COk_inj, pair_inj in E. destruct E as [<- <-]. apply COk_inj, pair_inj in E3. destruct E3 as [<- _].
  assert (A : forall i s x c y, expr_of G i = Some EAny -> compile G fuel Par i s x = COk (c, y) -> code_size s <= code_size c).
  { intros i0 s0 x0 c0 y0 Q0 Q. destruct fuel as [|n]; [discriminate|]. cbn [compile] in Q. apply cbind_ok in Q. destruct Q as (m & _ & Q). rewrite Q0 in Q.
    destruct m; [apply COk_inj, pair_inj in Q; destruct Q as [<- _]; cbn; lia|]. apply cbind_ok in Q; destruct Q as ([z1 z2] & _ & Q); apply COk_inj, pair_inj in Q; destruct Q as [<- _]; cbn; lia. }
  apply (A _ _ _ _ _ Ea) in Eb1. apply (A _ _ _ _ _ Eb) in Eb2. cbn [code_size choice_code] in *. lia.
Qed.
Lemma twices_double G rs f n : forall js l, Forall2 (stored G rs) js l -> (forall t, In t l -> t = twice f) -> 
  Forall (fun i => is_unit G i = false /\ forall j e, expr_of G i = Some e -> In j (children e) -> is_unit G j = false) js ->
  forall s x c y, compile_seq (compile G n Par) js s x = COk (c, y) -> 2 ^ length l * code_size s <= code_size c.
Proof.
  induction 1 as [|j t js l S0 F IH]; intros AT U s x c y H; cbn [compile_seq] in H.
  - apply COk_inj, pair_inj in H. destruct H as [<- _]. cbn. lia.
  - apply cbind_ok in H. destruct H as ([c1 x1] & E1 & H). apply cbind_ok in H. destruct H as ([c2 x2] & E2 & H).
    apply COk_inj, pair_inj in H. destruct H as [<- _]. apply IH in E1; [|intros; apply AT; right; assumption|exact (Forall_inv_tail U)].
    rewrite (AT t (or_introl eq_refl)) in S0. destruct (Forall_inv U) as [U1 U2]. pose proof (twice_doubles S0 U1 U2 E2). cbn [length Nat.pow]. lia.
Qed.

Lemma twice_sizes p k : t_nodes (XSeq (repeat (twice p) k)) = 4 * k + 1 /\ t_height (XSeq (repeat (twice p) k)) <= 4.
Proof.
  cbn [t_nodes t_height]. induction k as [|k [A B]]; [cbn; lia|]. cbn [repeat map]. change (list_sum (?a :: ?b)) with (a + list_sum b). rewrite list_max_cons. split; [cbn [t_nodes twice map list_sum fold_right]; lia|].
  change (t_height (twice p)) with 3. lia.
Qed.
Lemma not_void ret rs t k : tkind rs ret t k -> voidb k = false -> ~ void rs ret t.
Proof. intros T V (k' & T' & V'). rewrite (proj1 (tkind_det rs ret) _ _ T _ T') in V. congruence. Qed.
(** [r = ((. / .) > f) ... ((. / .) > f)], [k] times: of size [4 * k + 1], its parser of size [2 ^ k] at least. *)
Theorem C40_macro_exponential : forall rust_type rust_item return_type generics, reads rust_type -> reads rust_item ->
  forall fuel ts m, oak rust_type rust_item return_type generics fuel ts = WOk (Some m) ->
  forall attrs bs, read_as rust_type rust_item ts attrs bs -> settled_types (block_rules bs) ->
  forall ret, ret = returned return_type (functions (block_items bs)) -> plain_choices (block_rules bs) ret ->
  forall n p k, In (n, XSeq (repeat (twice p) k)) (block_rules bs) -> voidb (act_kind ret p) = false ->
  forall sg f, In (MParser n sg f) m -> 2 ^ k <= func_size f.
Proof.
  intros rt ri rty gen RT RI fuel ts m H attrs bs RD SE ret Qret PC n p k IR NV sg f I0.
  destruct (source_env RT RI H RD) as (fg & g & G' & PA & MA & RA & TY & C & RE). rewrite <- Qret in RE. pose proof (C38_well_built PA MA) as WB.
  destruct (C28_void_decided ret SE) as (vd & VD). subst ret.
  destruct (kinds_plain PA MA TY RA SE) as (rk & bad & HL & HBA & _). pose proof (rules_ok PA MA TY RA SE HBA) as HU.
  destruct (typed_coherent WB TY HL HU (choices_typed PA MA TY RA RE SE PC)) as (_ & COH & AG & _).
  destruct (proj1 (content_parsers C) n sg f I0) as (rl & I1 & RN & GP & _). rewrite (typed_rules PA MA TY) in I1.
  pose proof (AG Par rl I1) as Q. cbn [gen_rule] in Q. rewrite Q in GP. clear Q. set (PG := plug (shape g) G') in *.
  destruct (rule_source (source_stored PA MA RA) I1) as (e & Ie & S0). rewrite RN in Ie.
  assert (e = XSeq (repeat (twice p) k)) as ->.
  { pose proof (names_nodup PA MA RA) as ND. clear - ND IR Ie. induction (block_rules bs) as [|q l IH]; [destruct IR|]. cbn [map] in ND. inversion ND as [|? ? NI ND']; subst.
    destruct IR as [->|IR], Ie as [E|Ie]; [congruence| | |auto]; exfalso; apply NI; [apply (in_map fst) in Ie|subst q; apply (in_map fst) in IR]; assumption. }
  destruct k as [|k]; [exfalso; inversion S0; subst; match goal with F : Forall2 _ _ _ |- _ => inversion F; subst end; eapply (wb_seq WB); eassumption|].
  assert (AS : asked g G' (rexpr rl)) by (apply (asked_root PA MA TY); rewrite (typed_rules PA MA TY); exact I1).
  assert (S1 : stored PG (block_rules bs) (rexpr rl) (XSeq (repeat (twice p) (S k)))).
  { refine (stored_ext _ S0). unfold PG, plug, expr_of. cbn [exprs]. intros i e0 E0. rewrite nth_error_app1; [exact E0|apply nth_error_Some; congruence]. }
  assert (V0 : vd (XSeq (repeat (twice p) (S k))) = false).
  { destruct (vd _) eqn:V; [|reflexivity]. apply VD in V. exfalso. revert V. eapply not_void; [apply tk_seq with (ks := repeat (act_kind (returned rty (functions (block_items bs))) p) (S k))|].
    - generalize (S k). intros q. induction q as [|q IH]; [constructor|]. cbn [repeat]. constructor; [constructor|exact IH].
    - unfold seq_kind. cbn [repeat forallb filter]. rewrite NV. assert (invb (act_kind (returned rty (functions (block_items bs))) p) = false) as -> by (destruct (act_kind _ _); try discriminate NV; reflexivity).
      cbn [andb negb]. destruct (filter _ _); [exact NV|reflexivity]. }
  assert (V1 : vd (twice p) = false). { destruct (vd (twice p)) eqn:V; [|reflexivity]. apply VD in V. exfalso. revert V. eapply not_void; [constructor|exact NV]. }
  assert (V2 : vd (XAlt [XAny; XAny]) = false). { destruct (vd (XAlt [XAny; XAny])) eqn:V; [|reflexivity]. apply VD in V. exfalso. revert V. eapply not_void; [constructor; repeat constructor|reflexivity]. }
  pose proof (plug_void PA MA TY RA RE SE VD AS S1) as U0. fold PG in U0. rewrite V0 in U0.
  inversion S1 as [| | | | |i0 js l0 Ei F2| | | | | | | | | |]; subst. change (Forall2 (stored PG (block_rules bs)) js (repeat (twice p) (S k))) in F2. pose proof (plug_child PA MA TY AS Ei U0) as AC. cbn [children] in AC.
  assert (US : Forall (fun i => is_unit PG i = false /\ forall j e, expr_of PG i = Some e -> In j (children e) -> is_unit PG j = false) js).
  { assert (AT : forall t, In t (repeat (twice p) (S k)) -> t = twice p) by (intros t It; exact (repeat_spec _ _ _ It)). clear - PA MA TY RA RE SE VD V1 V2 AC F2 AT.
    revert AC AT F2. generalize (repeat (twice p) (S k)) as l9. intros l9 AC AT F2. induction F2 as [|i t js l St F2 IH]; [constructor|]. constructor; [|apply IH; [exact (Forall_inv_tail AC)|intros u Iu; apply AT; right; exact Iu]].
    rewrite (AT t (or_introl eq_refl)) in St. apply Forall_inv in AC. pose proof (plug_void PA MA TY RA RE SE VD AC St) as U. fold PG in U. rewrite V1 in U. split; [exact U|].
    intros j e Ee Ij. pose proof (plug_child PA MA TY AC Ee U) as AJ. rewrite Forall_forall in AJ. specialize (AJ j Ij). inversion St; subst.
    match goal with Q : expr_of PG i = Some ?x |- _ => assert (e = x) as -> by congruence end. destruct Ij as [<-|[]].
    match goal with Sj : stored PG _ _ (XAlt _) |- _ => pose proof (plug_void PA MA TY RA RE SE VD AJ Sj) as Uj end. fold PG in Uj. congruence. }
  unfold gen_parser in GP. unfold is_unit in U0. destruct (ty_of PG (rexpr rl)) as [t|] eqn:Et; [|discriminate]. rewrite U0 in GP.
  destruct (open_scope _ new_ctx) as [sc x1] eqn:Eo. apply cbind_ok in GP. destruct GP as ([c x] & E & GP). apply cbind_ok in GP.
  destruct GP as (x3 & E3 & GP). apply COk_inj in GP. subst f. unfold gen_fuel in E. cbn [compile] in E.
  unfold eff_mode in E. rewrite Et, U0 in E. cbn [cbind] in E. rewrite Ei in E.
  eapply twices_double in E; [|exact F2|intros u Iu; exact (repeat_spec _ _ _ Iu)|exact US]. rewrite repeat_length in E. unfold func_size. cbn [fbody fclosures].
  cbn [code_size] in E. nia.
Qed.

(** ---------------- concrete cases ---------------- *)
Local Notation toy_oak := (oak toy_type toy_item toy_return toy_generics 100).
(** [r = . (("x" / "y") > f)]: the hypotheses are met, with at most two values; its parser is within the bound. *)
Example C40_macro_case : exists m sg f, toy_oak (print_grammar toy_toks (one_rule gap_tree)) = WOk (Some m) /\ In (MParser "r" sg f) m /\
  widths (one_rules gap_tree) (fun _ => 2) 2 /\ calm_rule (fun u => voidb (one_kind KTuple gap_tree u)) gap_tree = true /\ func_size f <= 1 + 6 * (10 * 5 * 3 + 12).
Proof.
  destruct (@C28_exact_case gap_tree KTuple true) as (m & O & RD & SE & PL & VD & (sg & f & IM) & NF); [right; left; reflexivity|]. exists m, sg, f. split; [exact O|]. split; [exact IM|].
  assert (WD : widths (one_rules gap_tree) (fun _ => 2) 2).
  { split; [intros n e [E|[]]; injection E as <- <-; cbn; lia|]. intros t (n & e & Ie & WI). destruct Ie as [E|[]]. injection E as <- <-. unfold gap_tree, strs in WI. split_within WI; subst; cbn; lia. }
  split; [exact WD|]. split; [vm_compute; reflexivity|].
  destruct (C40_macro_parsers_partial (proj1 toy_reads) (proj2 toy_reads) O RD SE eq_refl PL VD WD IM) as (e & Ie & K). destruct Ie as [E|[]]. injection E as <-. exact (K eq_refl).
Qed.
(** [r = ((. / .) > f) ((. / .) > f) ((. / .) > f)]: the hypotheses of [C40_macro_exponential] are met, and the condition of the bound is not. *)
Definition blow_tree : tree := XSeq (repeat (twice ["f"]) 3).
Example C40_blow_case : exists m sg f, toy_oak (print_grammar toy_toks (one_rule blow_tree)) = WOk (Some m) /\ In (MParser "r" sg f) m /\
  read_as toy_type toy_item (print_grammar toy_toks (one_rule blow_tree)) [] (map (fun q => meaning (snd q)) (one_rule blow_tree)) /\
  settled_types (one_rules blow_tree) /\ plain_choices (one_rules blow_tree) one_ret /\ voidb (act_kind one_ret ["f"]) = false /\
  calm_rule (fun u => voidb (one_kind KTuple blow_tree u)) blow_tree = false /\ 8 <= func_size f.
Proof.
  assert (ND : forall id, ~ needs (one_rules blow_tree) blow_tree id) by (intros id H; unfold blow_tree in H; cbn [repeat twice] in H; unfold twice in H; no_needs).
  assert (CB : canon_block toy_type toy_item toy_toks ([], SRule "r" None blow_tree)) by (split; [constructor|cbn; repeat split; try discriminate; lia]).
  destruct (@one_kinds blow_tree KTuple eq_refl eq_refl ND) as [ST T].
  destruct (toy_oak (print_grammar toy_toks (one_rule blow_tree))) as [[m|]| |] eqn:O; try (vm_compute in O; discriminate O).
  assert (IM : exists sg f, In (MParser "r" sg f) m).
  { revert O. vm_compute. intros O. injection O as <-. eexists. eexists. right. right. left. reflexivity. }
  destruct IM as (sg & f & IM). exists m, sg, f.
  pose proof (C38_canonical_read (rust_type := toy_type) (rust_item := toy_item) (ty_toks := toy_toks) (fun r => eq_refl) (one_canon CB)) as RD.
  assert (PL : plain_choices (one_rules blow_tree) one_ret) by (apply (one_plain T); vm_compute; reflexivity).
  split; [reflexivity|]. split; [exact IM|]. split; [exact RD|]. split; [exact ST|]. split; [exact PL|]. split; [reflexivity|]. split; [vm_compute; reflexivity|].
  exact (@C40_macro_exponential _ _ _ _ (proj1 toy_reads) (proj2 toy_reads) _ _ _ O _ _ RD ST _ eq_refl PL "r" ["f"] 3 (or_introl eq_refl) eq_refl sg f IM).
Qed.

Print Assumptions C40_macro_recognizers.
Print Assumptions C40_macro_parsers_partial.
Print Assumptions C40_macro_exponential.
