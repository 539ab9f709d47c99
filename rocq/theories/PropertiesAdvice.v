(** Property theorems on the advice on useless operators, read on the source (C64).

    The specification: [always], [in_place] (the table), [heads], [elsewhere], [applies], [advised], [advice]. *)
From Coq Require Import Ascii.
From Verif Require Import Base Utf8 Stream ParseState RuntimeFacts Grammar PegSpec Target Compile TargetFacts ScopeFacts
  CompileShape EvalRules CompileCorrect ScopeGen GenTotal PegFacts Running WellFormed WfFacts WfSound WfSyntax WfTerm WfFuel PegRun Behave Values CharClass
  Analysis AnalysisFacts PropertiesWf PropertiesPeg PropertiesAnalysis Typing TypeRules SurfaceFacts RefFacts DepthFacts TypingSound TypingFit TypingAnswer GenAgree TypingFuel TypingTop TypingVerdict
  PropertiesTyping SumGrammar Front FrontFacts FrontSpec FrontSound FrontRound FrontGrammar PropertiesFront Agree TreeSpec TreeFacts Literals Pipeline MiddleFuel PropertiesMain RType Oak OakFacts PropertiesOak PropertiesRustc PropertiesModule
  TreeWf PropertiesVerdict TreeValues TreeEp PropertiesSource TreeKinds KindFacts KindTrees TreeNames FrontPrint PropertiesParsers PropertiesScope
  TypeSpec TypeDen TypeSurface TypeDepth TypeExact Warnings PropertiesTypes PropertiesWarnings ChainFacts.
Set Implicit Arguments. Unset Strict Implicit.
Open Scope string_scope. Open Scope nat_scope. Open Scope list_scope.

(** ---------------- specification ---------------- *)
(** The table of useless_chaining.rs:17-34: operator applied, operator of the operand, operator proposed. *)
Definition always : list (oper * oper * oper) :=
  [(PAnd, PAnd, PAnd); (PAnd, PNot, PNot); (POptional, POptional, POptional); (POptional, PZeroOrMore, PZeroOrMore);
   (POneOrMore, POneOrMore, POneOrMore); (PZeroOrMore, POneOrMore, POneOrMore); (PZeroOrMore, PZeroOrMore, PZeroOrMore)].
(** Proposed only when no other rule would have to be rewritten. *)
Definition in_place : list (oper * oper * oper) :=
  [(PNot, PNot, PAnd); (PNot, PAnd, PNot); (POptional, POneOrMore, PZeroOrMore)].

(** The expression [x] is the operator [o] applied to [t]. *)
Inductive applies : tree -> oper -> tree -> Prop :=
| ap_and t : applies (XAnd t) PAnd t
| ap_not t : applies (XNot t) PNot t
| ap_opt t : applies (XOpt t) POptional t
| ap_plus t : applies (XPlus t) POneOrMore t
| ap_star t : applies (XStar t) PZeroOrMore t.
(** What is between the two operators: actions, ascriptions, spans, ranges. *)
Inductive dressed : tree -> tree -> Prop :=
| dr_act t b p : dressed (XAct t b p) t
| dr_asc t ty : dressed (XAsc t ty) t
| dr_span t : dressed (XSpan t) t
| dr_range t : dressed (XRange t) t.

Section Advice.
Variable rs : list (string * tree).
(** The expression begins with the operator [o]: it applies it, or its first operand, the rule it calls or each of its
    branches begins with it. *)
Inductive heads (o : oper) : tree -> Prop :=
| hd_here x t : applies x o t -> heads o x
| hd_dressed x t : dressed x t -> heads o t -> heads o x
| hd_call p t : rule_called rs p = Some t -> heads o t -> heads o (XCall p)
| hd_seq t l : heads o t -> heads o (XSeq (t :: l))
| hd_alt l : l <> [] -> (forall t, In t l -> heads o t) -> heads o (XAlt l).
(** The beginning of the expression is in part in another rule. *)
Inductive elsewhere : tree -> Prop :=
| el_call p t : rule_called rs p = Some t -> elsewhere (XCall p)
| el_dressed x t : dressed x t -> elsewhere t -> elsewhere x
| el_seq t l : elsewhere t -> elsewhere (XSeq (t :: l))
| el_alt l t : In t l -> elsewhere t -> elsewhere (XAlt l).
(** The operator [a] on the expression [t], that begins with [b]: [n] alone would do. *)
Definition advised (a : oper) (t : tree) (b n : oper) : Prop :=
  heads b t /\ (In (a, b, n) always \/ (In (a, b, n) in_place /\ ~ elsewhere t)).

(** The advice on an expression, from left to right: the expressions to rewrite, with the operator found below and the one
    proposed.  Nothing is said below an expression to rewrite. *)
Inductive advice : tree -> list (tree * oper * oper) -> Prop :=
| ad_here x a t b n : applies x a t -> advised a t b n -> advice x [(x, b, n)]
| ad_below x a t l : applies x a t -> (forall b n, ~ advised a t b n) -> advice t l -> advice x l
| ad_dressed x t l : dressed x t -> advice t l -> advice x l
| ad_seq ts l : advices ts l -> advice (XSeq ts) l
| ad_alt ts l : advices ts l -> advice (XAlt ts) l
| ad_str s : advice (XStr s) []
| ad_any : advice XAny []
| ad_class a c b : advice (XClass a c b) []
| ad_call p : advice (XCall p) []
with advices : list tree -> list (tree * oper * oper) -> Prop :=
| ad_nil : advices [] []
| ad_cons t ts l l' : advice t l -> advices ts l' -> advices (t :: ts) (l ++ l').
End Advice.
Scheme advice_mut := Induction for advice Sort Prop with advices_mut := Induction for advices Sort Prop.
Combined Scheme advice_mutind from advice_mut, advices_mut.

(** ---------------- facts ---------------- *)
Lemma table_rows a b c n : check_chain a b c = Some n <-> In (a, b, n) always \/ (In (a, b, n) in_place /\ c = false).
Proof.
  split.
  - destruct a, b, c; cbn; intros H; try discriminate H; injection H as <-; auto 12.
  - intros [H|[H ->]]; repeat (destruct H as [E|H]; [injection E as <- <- <-; destruct c; reflexivity|]) || (repeat (destruct H as [E|H]; [injection E as <- <- <-; reflexivity|])); destruct H.
Qed.
Lemma heads_real rs o t : heads rs o t -> o <> PNone.
Proof.
  induction 1 as [x t A| | | |l N _ IH]; try assumption; [destruct A; discriminate|]. destruct l as [|t l]; [congruence|]. exact (IH t (or_introl eq_refl)).
Qed.
Lemma advised_same rs a t b n b' n' : (forall o o', heads rs o t -> heads rs o' t -> o = o') -> advised rs a t b n -> advised rs a t b' n' -> b = b' /\ n = n'.
Proof.
  intros U (H & T) (H' & T'). rewrite <- (U _ _ H H') in *. split; [reflexivity|].
  assert (K : forall m, In (a, b, m) always \/ In (a, b, m) in_place /\ ~ elsewhere rs t -> exists c, check_chain a b c = Some m).
  { intros m [Q|[Q _]]; exists false; apply table_rows; auto. }
  destruct (K _ T) as (c & C), (K _ T') as (c' & C'). destruct a, b, c, c'; cbn in C, C'; congruence.
Qed.
Lemma applies_one x a t a' t' : applies x a t -> applies x a' t' -> a = a' /\ t = t'.
Proof. intros A A'. inversion A; subst; inversion A'; subst; auto. Qed.
Lemma dressed_one x t t' : dressed x t -> dressed x t' -> t = t'.
Proof. intros A A'. inversion A; subst; inversion A'; subst; auto. Qed.
Lemma not_both x a t t' : applies x a t -> dressed x t' -> False.
Proof. intros A A'. inversion A; subst; inversion A'. Qed.
Lemma heads_one rs o t : heads rs o t -> forall o', heads rs o' t -> o = o'.
Proof.
  induction 1 as [x t A|x t D _ IH|p t C _ IH|t l _ IH|l N _ IH]; intros o' H'.
  - inversion H' as [x' t' A'|x' t' D' _|p t' _ _|t' l' _|l' _ _]; subst; try (inversion A; fail). { exact (proj1 (applies_one A A')). } exfalso. exact (not_both A D').
  - inversion H' as [x' t' A'|x' t' D' H1|p t' _ _|t' l' _|l' _ _]; subst; try (inversion D; fail). { exfalso. exact (not_both A' D). } rewrite (dressed_one D D') in *. auto.
  - inversion H' as [x' t' A'|x' t' D' H1|p' t' C' H1|t' l' _|l' _ _]; subst; [inversion A'|inversion D'|]. assert (t' = t) as -> by congruence. auto.
  - inversion H' as [x' t' A'|x' t' D' H1|p' t' C' H1|t' l' H1|l' _ _]; subst; [inversion A'|inversion D'|]. auto.
  - inversion H' as [x' t' A'|x' t' D' H1|p' t' C' H1|t' l' H1|l' _ H1]; subst; [inversion A'|inversion D'|]. destruct l as [|t l]; [congruence|]. exact (IH t (or_introl eq_refl) _ (H1 t (or_introl eq_refl))).
Qed.
(** There is one advice on a source. *)
Lemma advice_one rs : (forall t l, advice rs t l -> forall l', advice rs t l' -> l = l') /\ (forall ts l, advices rs ts l -> forall l', advices rs ts l' -> l = l').
Proof.
  apply advice_mutind.
  - intros x a t b n A V l' H. inversion H as [x' a' t' b' n' A' V'|x' a' t' l0 A' NV _|x' t' l0 D' _|ts l0 _|ts l0 _| | | |]; subst; try (inversion A; fail).
    + destruct (applies_one A A') as [-> ->]. destruct (advised_same (fun o o' h h' => heads_one h h') V V') as [-> ->]. reflexivity.
    + destruct (applies_one A A') as [-> ->]. exfalso. exact (NV _ _ V).
    + exfalso. exact (not_both A D').
  - intros x a t l A NV _ IH l' H. inversion H as [x' a' t' b' n' A' V'|x' a' t' l0 A' NV' H1|x' t' l0 D' _|ts l0 _|ts l0 _| | | |]; subst; try (inversion A; fail).
    + destruct (applies_one A A') as [-> ->]. exfalso. exact (NV _ _ V').
    + destruct (applies_one A A') as [-> ->]. auto.
    + exfalso. exact (not_both A D').
  - intros x t l D _ IH l' H. inversion H as [x' a' t' b' n' A' V'|x' a' t' l0 A' NV' H1|x' t' l0 D' H1|ts l0 _|ts l0 _| | | |]; subst; try (inversion D; fail).
    + exfalso. exact (not_both A' D).
    + exfalso. exact (not_both A' D).
    + rewrite (dressed_one D D') in *. auto.
  - intros ts l _ IH l' H. inversion H as [x' a' t' b' n' A' V'|x' a' t' l0 A' NV' H1|x' t' l0 D' H1|ts' l0 H1|ts' l0 H1| | | |]; subst; try (inversion A'; fail); try (inversion D'; fail). auto.
  - intros ts l _ IH l' H. inversion H as [x' a' t' b' n' A' V'|x' a' t' l0 A' NV' H1|x' t' l0 D' H1|ts' l0 H1|ts' l0 H1| | | |]; subst; try (inversion A'; fail); try (inversion D'; fail). auto.
  - intros s l' H. inversion H as [x' a' t' b' n' A' V'|x' a' t' l0 A' NV' H1|x' t' l0 D' H1| | | | | |]; subst; try (inversion A'; fail); try (inversion D'; fail). reflexivity.
  - intros l' H. inversion H as [x' a' t' b' n' A' V'|x' a' t' l0 A' NV' H1|x' t' l0 D' H1| | | | | |]; subst; try (inversion A'; fail); try (inversion D'; fail). reflexivity.
  - intros s c b l' H. inversion H as [x' a' t' b' n' A' V'|x' a' t' l0 A' NV' H1|x' t' l0 D' H1| | | | | |]; subst; try (inversion A'; fail); try (inversion D'; fail). reflexivity.
  - intros p l' H. inversion H as [x' a' t' b' n' A' V'|x' a' t' l0 A' NV' H1|x' t' l0 D' H1| | | | | |]; subst; try (inversion A'; fail); try (inversion D'; fail). reflexivity.
  - intros l' H. inversion H. reflexivity.
  - intros t ts l l1 _ IH _ IH' l' H. inversion H; subst. f_equal; auto.
Qed.

(** ---------------- the analysis computes it ---------------- *)
Section Computed.
Variable G : grammar.
Variable rs : list (string * tree).
Hypothesis RS : Forall2 (fun r q => rname r = fst q /\ stored G rs (rexpr r) (snd q)) (rules G) rs.

Lemma oper_eqb_is a b : oper_eqb a b = true <-> a = b.
Proof. destruct a, b; cbn; split; congruence. Qed.
Definition begins (t : tree) (q : oper * bool) : Prop :=
  (forall o, heads rs o t -> fst q = o) /\ (fst q <> PNone -> heads rs (fst q) t /\ (snd q = true <-> elsewhere rs t)).
Lemma same_begins fuel : (forall i t q, stored G rs i t -> inner G fuel i = WOk q -> begins t q) ->
  forall js l, Forall2 (stored G rs) js l -> forall p c q, same_oper (inner G fuel) js p c = WOk q ->
  (forall o, p = o -> (forall t, In t l -> heads rs o t) -> fst q = o) /\
  (fst q <> PNone -> fst q = p /\ (forall t, In t l -> heads rs p t) /\ (snd q = true <-> c = true \/ exists t, In t l /\ elsewhere rs t)).
Proof.
  intros IH js l F. induction F as [|j t js l S0 _ IHl]; intros p c q H; cbn [same_oper] in H.
  - apply WOk_inj in H. subst q. cbn [fst snd]. split; [intros; assumption|]. intros _. split; [reflexivity|]. split; [intros t []|]. split; [auto|intros [Q|(t & [] & _)]; exact Q].
  - apply wbind_ok in H. destruct H as (q1 & Q1 & H). destruct (IH _ _ _ S0 Q1) as [B1 B2]. destruct (oper_eqb p (fst q1)) eqn:E.
    + apply oper_eqb_is in E. destruct (IHl _ _ _ H) as [C1 C2]. split.
      * intros o -> A. apply C1; [reflexivity|]. intros t' I0. apply A. right. exact I0.
      * intros N. destruct (C2 N) as (P & A & L). assert (NP : fst q1 <> PNone) by congruence. destruct (B2 NP) as [H1 H2]. rewrite <- E in H1. split; [exact P|]. split.
        { intros t' [<-|I0]; [exact H1|exact (A _ I0)]. }
        rewrite L, Bool.orb_true_iff, H2. split; [intros [[Q|Q]|(t' & I0 & Q)]|intros [Q|(t' & [<-|I0] & Q)]]; eauto 6 using in_eq, in_cons.
    + apply WOk_inj in H. subst q. cbn [fst snd]. split; [|congruence]. intros o -> A. specialize (B1 _ (A t (or_introl eq_refl))). exfalso. rewrite B1 in E. destruct o; discriminate.
Qed.
Lemma kept_begins q p t : (forall o, heads rs o p <-> heads rs o t) -> (elsewhere rs p <-> elsewhere rs t) -> begins t q -> begins p q.
Proof.
  intros H E [B1 B2]. split; [intros o K; apply B1, H, K|]. intros N. destruct (B2 N) as [K1 K2]. split; [apply H, K1|]. rewrite K2. symmetry. exact E.
Qed.
Lemma dressed_heads x t o : dressed x t -> (heads rs o x <-> heads rs o t).
Proof.
  intros D. split; [|intros H; exact (hd_dressed D H)]. intros H. inversion H as [x' t' A|x' t' D' H1|p t' C|t' l H1|l N H1]; subst; try (inversion D; fail).
  - exfalso. exact (not_both A D).
  - rewrite (dressed_one D D'). exact H1.
Qed.
Lemma dressed_elsewhere x t : dressed x t -> (elsewhere rs x <-> elsewhere rs t).
Proof.
  intros D. split; [|intros H; exact (el_dressed D H)]. intros H. inversion H as [p t' C|x' t' D' H1|t' l H1|l t' I0 H1]; subst; try (inversion D; fail).
  rewrite (dressed_one D D'). exact H1.
Qed.
Lemma applies_begins x o t : applies x o t -> begins x (o, false).
Proof.
  intros A. split; cbn [fst snd].
  - intros o' H. inversion H as [x' t' A'|x' t' D' H1|p t' C|t' l H1|l N H1]; subst; try (inversion A; fail). { exact (proj1 (applies_one A A')). } exfalso. exact (not_both A D').
  - intros _. split; [exact (hd_here _ A)|]. split; [discriminate|]. intros H. inversion H as [p t' C|x' t' D' H1|t' l H1|l t' I0 H1]; subst; try (inversion A; fail). exfalso. exact (not_both A D').
Qed.
Lemma nothing_begins x c : (forall o, ~ heads rs o x) -> begins x (PNone, c).
Proof. intros N. split; cbn [fst snd]; [intros o H; destruct (N o H)|congruence]. Qed.
Ltac headless := apply nothing_begins; let o := fresh in let H := fresh in intros o H; inversion H as [? ? A|? ? D ?|? ? ?|? ? ?|? ? ?]; subst; try (inversion A; fail); try (inversion D; fail).
Lemma inner_begins fuel : forall i t q, stored G rs i t -> inner G fuel i = WOk q -> begins t q.
Proof.
  induction fuel as [|k IH]; intros i t q S0 H; [discriminate|]. cbn [inner] in H.
  inversion S0 as [i0 s E|i0 E|i0 a b c E|i0 id t0 E C|i0 p E C|i0 js l E F|i0 js l E F|i0 j t0 E S1|i0 j t0 E S1|i0 j t0 E S1|i0 j t0 E S1|i0 j t0 E S1|i0 j t0 b p E S1|i0 j t0 ty E S1|i0 j t0 E S1|i0 u j t0 E E1 S1]; subst; rewrite E in H.
  - apply WOk_inj in H. subst q. headless.
  - apply WOk_inj in H. subst q. headless.
  - apply WOk_inj in H. subst q. headless.
  - pose proof (found RS id) as F. destruct (find_rule G id) as [rl|]; [|discriminate]. destruct F as (t' & C' & S1). assert (t' = t0) as -> by congruence.
    apply wbind_ok in H. destruct H as (q1 & Q1 & H). apply WOk_inj in H. subst q. destruct (IH _ _ _ S1 Q1) as [B1 B2]. split; cbn [fst snd].
    + intros o H. inversion H as [x' t' A|x' t' D H1|p t' C2 H1|t' l H1|l N H1]; subst; try (inversion A; fail); try (inversion D; fail). assert (t' = t0) as -> by congruence. auto.
    + intros N. destruct (B2 N) as [H1 _]. split; [exact (hd_call C H1)|]. split; [intros _; exact (el_call C)|reflexivity].
  - apply WOk_inj in H. subst q. headless. congruence.
  - destruct F as [|j t0 js l S1 F]; [discriminate|]. apply (kept_begins (t := t0)); [| |exact (IH _ _ _ S1 H)].
    + intros o. split; [|apply hd_seq]. intros K. inversion K as [x' t' A|x' t' D H1|p t' C2 H1|t' l' H1|l' N H1]; subst; try (inversion A; fail); try (inversion D; fail). exact H1.
    + split; [|apply el_seq]. intros K. inversion K as [p t' C|x' t' D' H1|t' l' H1|l' t' I0 H1]; subst; try (inversion D'; fail). exact H1.
  - destruct js as [|j js]; [discriminate|]. apply wbind_ok in H. destruct H as (q1 & Q1 & H). destruct (same_begins IH F H) as [C1 C2].
    destruct l as [|t0 l]; [inversion F|]. assert (S1 : stored G rs j t0) by (inversion F; assumption). destruct (IH _ _ _ S1 Q1) as [B1 B2]. split.
    + intros o K. inversion K as [x' t' A|x' t' D H1|p t' C3 H1|t' l' H1|l' N H1]; subst; try (inversion A; fail); try (inversion D; fail).
      apply C1; [|exact H1]. apply B1, H1. left. reflexivity.
    + intros N. destruct (C2 N) as (P & A & L). assert (NP : fst q1 <> PNone) by congruence. destruct (B2 NP) as [H1 H2]. split; [rewrite P; apply hd_alt; [discriminate|exact A]|].
      rewrite L, H2. split.
      * intros [Q|(t' & I0 & Q)]; [exact (el_alt (l := t0 :: l) (t := t0) (or_introl eq_refl) Q)|exact (el_alt I0 Q)].
      * intros K. inversion K as [p t' C|x' t' D' K1|t' l' K1|l' t' I0 K1]; subst; try (inversion D'; fail). right. exists t'. auto.
  - apply WOk_inj in H. subst q. refine (applies_begins _). constructor.
  - apply WOk_inj in H. subst q. refine (applies_begins _). constructor.
  - apply WOk_inj in H. subst q. refine (applies_begins _). constructor.
  - apply WOk_inj in H. subst q. refine (applies_begins _). constructor.
  - apply WOk_inj in H. subst q. refine (applies_begins _). constructor.
  - apply (kept_begins (t := t0)); [intros o; apply dressed_heads; constructor|apply dressed_elsewhere; constructor|exact (IH _ _ _ S1 H)].
  - apply (kept_begins (t := t0)); [intros o; apply dressed_heads; constructor|apply dressed_elsewhere; constructor|exact (IH _ _ _ S1 H)].
  - apply (kept_begins (t := t0)); [intros o; apply dressed_heads; constructor|apply dressed_elsewhere; constructor|exact (IH _ _ _ S1 H)].
  - apply (kept_begins (t := t0)); [intros o; apply dressed_heads; constructor|apply dressed_elsewhere; constructor|].
    refine (kept_begins (t := XAsc t0 (IRegular TUnit)) _ _ (IH u _ q (st_asc E1 S1) H)); [intros o; symmetry; apply dressed_heads; constructor|symmetry; apply dressed_elsewhere; constructor].
Qed.
(** A warning of the analysis says what the advice says. *)
Definition says (w : warning) (a : tree * oper * oper) : Prop :=
  stored G rs (w_at w) (fst (fst a)) /\ (exists t, applies (fst (fst a)) (w_outer w) t) /\ w_inner w = snd (fst a) /\ w_new w = snd a.
Lemma undress x t l : dressed x t -> advice rs x l -> advice rs t l.
Proof.
  intros D H. inversion H as [x' a' t' b' n' A' V'|x' a' t' l0 A' NV' H1|x' t' l0 D' H1|ts' l0 H1|ts' l0 H1| | | |]; subst; try (inversion D; fail).
  - exfalso. exact (not_both A' D).
  - exfalso. exact (not_both A' D).
  - rewrite (dressed_one D D'). exact H1.
Qed.
Definition told (fuel g : nat) : Prop := forall i t ws, stored G rs i t -> outer G fuel g i = WOk ws -> exists l, advice rs t l /\ Forall2 says ws l.
Lemma told_all fuel g : told fuel g -> forall js ts, Forall2 (stored G rs) js ts -> forall ws, go_list (outer G fuel g) js = WOk ws -> exists l, advices rs ts l /\ Forall2 says ws l.
Proof.
  intros T js ts F. induction F as [|j t js ts S0 _ IH]; intros ws H.
  - apply WOk_inj in H. subst ws. exists []. split; constructor.
  - rewrite go_cons in H. apply wbind_ok in H. destruct H as (w1 & H1 & H). apply wbind_ok in H. destruct H as (w2 & H2 & H). apply WOk_inj in H. subst ws.
    destruct (T _ _ _ S0 H1) as (l1 & A1 & F1), (IH _ H2) as (l2 & A2 & F2). exists (l1 ++ l2). split; [constructor; assumption|apply Forall2_app; assumption].
Qed.
Lemma one_child k j ws : go_list k [j] = WOk ws -> k j = WOk ws.
Proof. cbn. intros H. apply wbind_ok in H. destruct H as (w & -> & H). apply WOk_inj in H. rewrite app_nil_r in H. congruence. Qed.
Lemma told_chain fuel g : told fuel g -> forall i j x a t ws, stored G rs i x -> stored G rs j t -> applies x a t ->
  wbind (inner G g j) (fun q => match check_chain a (fst q) (snd q) with Some new => WOk [mkW i a (fst q) new] | None => outer G fuel g j end) = WOk ws ->
  exists l, advice rs x l /\ Forall2 says ws l.
Proof.
  intros T i j x a t ws Si Sj A H. apply wbind_ok in H. destruct H as ([b c] & I0 & H). cbn [fst snd] in H. destruct (inner_begins Sj I0) as [B1 B2]. cbn [fst snd] in B1, B2.
  destruct (check_chain a b c) as [n|] eqn:C.
  - apply WOk_inj in H. subst ws. assert (N : b <> PNone) by (intros ->; destruct a; discriminate). destruct (B2 N) as [H1 H2]. exists [(x, b, n)]. split.
    + refine (ad_here A _). split; [exact H1|]. apply table_rows in C. destruct C as [C|[C ->]]; [left; exact C|right; split; [exact C|]]. intros E. apply H2 in E. discriminate.
    + constructor; [|constructor]. split; [exact Si|]. split; [exists t; exact A|]. split; reflexivity.
  - destruct (T _ _ _ Sj H) as (l & L & F). exists l. split; [|exact F]. refine (ad_below A _ L). intros b' n (H1 & V). pose proof (B1 _ H1) as ->.
    destruct (B2 (heads_real H1)) as [_ H2]. assert (K : check_chain a b' c = Some n) by (apply table_rows; destruct V as [V|[V NE]]; [left; exact V|right; split; [exact V|]]; destruct c; [exfalso; apply NE, H2|]; reflexivity). congruence.
Qed.
Lemma outer_told g : forall fuel, told fuel g.
Proof.
  induction fuel as [|k IH]; intros i t ws S0 H; [discriminate|]. cbn [outer] in H.
  inversion S0 as [i0 s E|i0 E|i0 a b c E|i0 id t0 E C|i0 p E C|i0 js l E F|i0 js l E F|i0 j t0 E S1|i0 j t0 E S1|i0 j t0 E S1|i0 j t0 E S1|i0 j t0 E S1|i0 j t0 b p E S1|i0 j t0 ty E S1|i0 j t0 E S1|i0 u j t0 E E1 S1]; subst; rewrite E in H; cbn [children] in H.
  - apply WOk_inj in H. subst ws. exists []. split; constructor.
  - apply WOk_inj in H. subst ws. exists []. split; constructor.
  - apply WOk_inj in H. subst ws. exists []. split; constructor.
  - apply WOk_inj in H. subst ws. exists []. split; constructor.
  - apply WOk_inj in H. subst ws. exists []. split; constructor.
  - destruct (told_all IH F H) as (l' & A & FF). exists l'. split; [constructor; exact A|exact FF].
  - destruct (told_all IH F H) as (l' & A & FF). exists l'. split; [constructor; exact A|exact FF].
  - exact (told_chain IH S0 S1 (ap_star t0) H).
  - exact (told_chain IH S0 S1 (ap_plus t0) H).
  - exact (told_chain IH S0 S1 (ap_opt t0) H).
  - exact (told_chain IH S0 S1 (ap_not t0) H).
  - exact (told_chain IH S0 S1 (ap_and t0) H).
  - apply one_child in H. destruct (IH _ _ _ S1 H) as (l & A & F). exists l. split; [exact (ad_dressed (dr_act t0 b p) A)|exact F].
  - apply one_child in H. destruct (IH _ _ _ S1 H) as (l & A & F). exists l. split; [exact (ad_dressed (dr_asc t0 ty) A)|exact F].
  - apply one_child in H. destruct (IH _ _ _ S1 H) as (l & A & F). exists l. split; [exact (ad_dressed (dr_span t0) A)|exact F].
  - apply one_child in H. destruct (IH _ _ _ (st_asc E1 S1) H) as (l & A & F). exists l. split; [|exact F]. refine (ad_dressed (dr_range t0) _). exact (undress (dr_asc t0 _) A).
Qed.
Lemma chaining_told f g ws : chaining G f g = WOk ws -> exists l, advices rs (map snd rs) l /\ Forall2 says ws l.
Proof.
  unfold chaining. assert (Q : forall rls qs, Forall2 (fun r q => rname r = fst q /\ stored G rs (rexpr r) (snd q)) rls qs -> forall ws, chaining_from G f g rls = WOk ws ->
    exists l, advices rs (map snd qs) l /\ Forall2 says ws l).
  { intros rls qs F. induction F as [|r q rls qs [_ S0] _ IH]; intros ws' H; cbn [chaining_from map] in *.
    - apply WOk_inj in H. subst ws'. exists []. split; constructor.
    - apply wbind_ok in H. destruct H as (w1 & H1 & H). apply wbind_ok in H. destruct H as (w2 & H2 & H). apply WOk_inj in H. subst ws'.
      destruct (outer_told S0 H1) as (l1 & A1 & F1), (IH _ H2) as (l2 & A2 & F2). exists (l1 ++ l2). split; [constructor; assumption|apply Forall2_app; assumption]. }
  exact (Q _ _ RS ws).
Qed.
End Computed.

(** ---------------- the theorems ---------------- *)
(** The warnings of an accepted source, in order, are the advice on its rules, in order. *)
Theorem C64_advice : forall rust_type rust_item, reads rust_type -> reads rust_item ->
  forall ts fg g, parse_grammar rust_type rust_item ts = FOk fg -> middle_answers fg (Some g) ->
  forall attrs bs, read_as rust_type rust_item ts attrs bs ->
  exists ws l, warns (shape g) ws /\ advices (block_rules bs) (map snd (block_rules bs)) l /\ Forall2 (says (shape g) (block_rules bs)) ws l.
Proof.
  intros rt ri RT RI ts fg g PA MA attrs bs (_ & fg' & PA' & _ & _ & RA). assert (fg' = fg) as -> by congruence.
  destruct MA as (N & M). destruct (middle_chaining (M N N (le_n N) (le_n N))) as (ws & CH).
  destruct (chaining_told (source_stored PA (ex_intro _ N M) RA) CH) as (l & A & F). exists ws, l. split; [|split; assumption].
  exists N. intros k k' L L'. rewrite <- CH. apply below_ok; [apply chaining_below; assumption|congruence].
Qed.
(** The same of a run of the macro that expands. *)
Theorem C64_macro : forall rust_type rust_item return_type generics, reads rust_type -> reads rust_item ->
  forall fuel ts m, oak rust_type rust_item return_type generics fuel ts = WOk (Some m) ->
  forall attrs bs, read_as rust_type rust_item ts attrs bs ->
  exists ns l, (exists N, forall fuel', N <= fuel' -> oak_warnings rust_type rust_item return_type generics fuel' ts = WOk ns) /\
    advices (block_rules bs) (map snd (block_rules bs)) l /\
    exists fg g, parse_grammar rust_type rust_item ts = FOk fg /\ middle_answers fg (Some g) /\ Forall2 (says (shape g) (block_rules bs)) (useless ns) l.
Proof.
  intros rt ri rty gen RT RI fuel ts m H attrs bs RD. destruct (C63_warnings RT RI H RD) as (ns & K & (fg & g & PA & MA & (N & W)) & _).
  destruct (C64_advice RT RI PA MA RD) as (ws & l & (N' & W') & A & F). exists ns, l. split; [exact K|]. split; [exact A|]. exists fg, g. split; [exact PA|]. split; [exact MA|].
  specialize (W (N + N') (N + N') ltac:(lia) ltac:(lia)). specialize (W' (N + N') (N + N') ltac:(lia) ltac:(lia)). assert (ws = useless ns) as <- by congruence. exact F.
Qed.
(** The advice is unique. *)
Theorem C64_one : forall rs ts l l', advices rs ts l -> advices rs ts l' -> l = l'.
Proof. intros rs ts l l' A A'. exact (proj2 (advice_one rs) ts l A l' A'). Qed.

(** The expression [y] is in [x], and not below an expression to rewrite. *)
Inductive sees (rs : list (string * tree)) : tree -> tree -> Prop :=
| se_here x : sees rs x x
| se_below x a t y : applies x a t -> (forall b n, ~ advised rs a t b n) -> sees rs t y -> sees rs x y
| se_dressed x t y : dressed x t -> sees rs t y -> sees rs x y
| se_seq l t y : In t l -> sees rs t y -> sees rs (XSeq l) y
| se_alt l t y : In t l -> sees rs t y -> sees rs (XAlt l) y.
Lemma where_both rs : (forall x l, advice rs x l -> forall y b n, In (y, b, n) l <-> exists a t, sees rs x y /\ applies y a t /\ advised rs a t b n) /\
  (forall xs l, advices rs xs l -> forall y b n, In (y, b, n) l <-> exists x a t, In x xs /\ sees rs x y /\ applies y a t /\ advised rs a t b n).
Proof.
  apply advice_mutind.
  - intros x a t b n A V y b' n'. split.
    + intros [Q|[]]. apply pair_inj in Q. destruct Q as [Q <-]. apply pair_inj in Q. destruct Q as [<- <-]. exists a, t. split; [constructor|]. split; assumption.
    + intros (a' & t' & SE & A' & V'). left. assert (y = x) as ->.
      { inversion SE as [|x0 a0 t0 y0 A0 NV|x0 t0 y0 D|l0 t0 y0 I0|l0 t0 y0 I0]; subst; try (inversion A; fail); [reflexivity| |exfalso; exact (not_both A D)].
        destruct (applies_one A A0) as [-> ->]. exfalso. exact (NV _ _ V). }
      destruct (applies_one A A') as [-> ->]. destruct (advised_same (fun o o' h h' => heads_one h h') V V') as [-> ->]. reflexivity.
  - intros x a t l A NV _ IH y b n. rewrite IH. split; intros (a' & t' & SE & A' & V').
    + exists a', t'. split; [exact (se_below A NV SE)|]. split; assumption.
    + exists a', t'. split; [|split; assumption]. inversion SE as [|x0 a0 t0 y0 A0 NV0 S0|x0 t0 y0 D|l0 t0 y0 I0|l0 t0 y0 I0]; subst; try (inversion A; fail); [| |exfalso; exact (not_both A D)].
      * destruct (applies_one A A') as [-> ->]. exfalso. exact (NV _ _ V').
      * destruct (applies_one A A0) as [-> ->]. exact S0.
  - intros x t l D _ IH y b n. rewrite IH. split; intros (a' & t' & SE & A' & V').
    + exists a', t'. split; [exact (se_dressed D SE)|]. split; assumption.
    + exists a', t'. split; [|split; assumption]. inversion SE as [|x0 a0 t0 y0 A0 NV0 S0|x0 t0 y0 D0 S0|l0 t0 y0 I0|l0 t0 y0 I0]; subst; try (inversion D; fail).
      * exfalso. exact (not_both A' D).
      * exfalso. exact (not_both A0 D).
      * rewrite (dressed_one D D0). exact S0.
  - intros ts l _ IH y b n. rewrite IH. split.
    + intros (x & a & t & I0 & SE & A & V). exists a, t. split; [exact (se_seq I0 SE)|]. split; assumption.
    + intros (a & t & SE & A & V). inversion SE as [|x0 a0 t0 y0 A0 NV0 S0|x0 t0 y0 D0 S0|l0 t0 y0 I0 S0|l0 t0 y0 I0 S0]; subst; try (inversion A; fail); try (inversion A0; fail); try (inversion D0; fail). exists t0, a, t. auto.
  - intros ts l _ IH y b n. rewrite IH. split.
    + intros (x & a & t & I0 & SE & A & V). exists a, t. split; [exact (se_alt I0 SE)|]. split; assumption.
    + intros (a & t & SE & A & V). inversion SE as [|x0 a0 t0 y0 A0 NV0 S0|x0 t0 y0 D0 S0|l0 t0 y0 I0 S0|l0 t0 y0 I0 S0]; subst; try (inversion A; fail); try (inversion A0; fail); try (inversion D0; fail). exists t0, a, t. auto.
  - intros s y b n. split; [intros []|]. intros (a & t & SE & A & V). inversion SE as [|x0 a0 t0 y0 A0|x0 t0 y0 D0| |]; subst; [inversion A|inversion A0|inversion D0].
  - intros y b n. split; [intros []|]. intros (a & t & SE & A & V). inversion SE as [|x0 a0 t0 y0 A0|x0 t0 y0 D0| |]; subst; [inversion A|inversion A0|inversion D0].
  - intros s1 s2 s3 y b n. split; [intros []|]. intros (a & t & SE & A & V). inversion SE as [|x0 a0 t0 y0 A0|x0 t0 y0 D0| |]; subst; [inversion A|inversion A0|inversion D0].
  - intros s y b n. split; [intros []|]. intros (a & t & SE & A & V). inversion SE as [|x0 a0 t0 y0 A0|x0 t0 y0 D0| |]; subst; [inversion A|inversion A0|inversion D0].
  - intros y b n. split; [intros []|]. intros (x & a & t & [] & _).
  - intros x xs l l' _ IH _ IH' y b n. rewrite in_app_iff, IH, IH'. split.
    + intros [(a & t & SE & A & V)|(x' & a & t & I0 & SE & A & V)]; [exists x, a, t|exists x', a, t]; cbn [In]; auto.
    + intros (x' & a & t & [<-|I0] & SE & A & V); [left; exists a, t|right; exists x', a, t]; auto.
Qed.
(** What is advised: every expression of the rules that the table shortens, unless it is below another one. *)
Theorem C64_where : forall rs xs l, advices rs xs l -> forall y b n,
  In (y, b, n) l <-> exists x a t, In x xs /\ sees rs x y /\ applies y a t /\ advised rs a t b n.
Proof. intros rs xs l A. exact (proj2 (where_both rs) xs l A). Qed.

(** ---------------- a concrete case ---------------- *)
Local Notation blocks l := (map (fun q => meaning (snd q)) l).
Definition px : tree := XStr [120%N].
Definition py : tree := XStr [121%N].
(** [a = !!"x" b? d;  b = "x"+;  c = &(e "x") / b*;  d = ("x"+ / b)? ("x"+ / "y")? ("x"+ / "y"+)?;
    e = !"x"]. *)
Definition advice_source : list (list (list string) * source) :=
  [plain_rule "a" (XSeq [XNot (XNot px); XOpt (XCall ["b"]); XCall ["d"]]);
   plain_rule "b" (XPlus px);
   plain_rule "c" (XAlt [XAnd (XSeq [XCall ["e"]; px]); XStar (XCall ["b"])]);
   plain_rule "d" (XSeq [XOpt (XAlt [XPlus px; XCall ["b"]]); XOpt (XAlt [XPlus px; py]); XOpt (XAlt [XPlus px; XPlus py])]);
   plain_rule "e" (XNot px)].
Local Notation toy_oak := (oak toy_type toy_item toy_return toy_generics 100).
(** What is said: nothing on [b?], since b+ is written in another rule, and nothing on the first two operands of [d]. *)
Definition advice_given : list (tree * oper * oper) :=
  [(XNot (XNot px), PNot, PAnd); (XAnd (XSeq [XCall ["e"]; px]), PNot, PNot); (XStar (XCall ["b"]), POneOrMore, POneOrMore);
   (XOpt (XAlt [XPlus px; XPlus py]), POneOrMore, PZeroOrMore)].
Example C64_case : (exists m, toy_oak (print_grammar toy_toks advice_source) = WOk (Some m)) /\
  read_as toy_type toy_item (print_grammar toy_toks advice_source) [] (blocks advice_source) /\
  (exists ws, oak_warnings toy_type toy_item toy_return toy_generics 100 (print_grammar toy_toks advice_source) = WOk (mkNotices ws [] []) /\
     map (fun w => (w_outer w, w_inner w, w_new w)) ws = [(PNot, PNot, PAnd); (PAnd, PNot, PNot); (PZeroOrMore, POneOrMore, POneOrMore); (POptional, POneOrMore, PZeroOrMore)]) /\
  advices (block_rules (blocks advice_source)) (map snd (block_rules (blocks advice_source))) advice_given.
Proof.
  split; [eexists; vm_compute; reflexivity|]. split; [|split; [eexists; split; [vm_compute; reflexivity|reflexivity]|]].
  - apply (@next_read advice_source). repeat (constructor; [split; [constructor|]; cbn; repeat split; try discriminate; try lia; repeat constructor; try discriminate|]). constructor.
  - set (rs := block_rules (blocks advice_source)).
    assert (Cb : rule_called rs ["b"] = Some (XPlus px)) by reflexivity. assert (Ce : rule_called rs ["e"] = Some (XNot px)) by reflexivity.
    assert (P : forall t, heads rs POneOrMore (XPlus t)) by (intros t; exact (hd_here rs (ap_plus t))).
    assert (Hb : heads rs POneOrMore (XCall ["b"])) by exact (hd_call Cb (P px)).
    assert (QB : forall t b n, elsewhere rs t -> heads rs POneOrMore t -> ~ advised rs POptional t b n).
    { intros t b n E H (H' & V). rewrite <- (heads_one H H') in V. destruct V as [V|[_ V]]; [|exact (V E)]. repeat (destruct V as [V|V]; [discriminate V|]). destruct V. }
    assert (NS : forall o s, ~ heads rs o (XStr s)).
    { intros o s H. inversion H as [x' t' A|x' t' D H1| | |]; subst; [inversion A|inversion D]. }
    assert (NP : forall t, ~ elsewhere rs (XPlus t)).
    { intros t H. inversion H as [|x' t' D H1| |]; subst. inversion D. }
    change (map snd rs) with [XSeq [XNot (XNot px); XOpt (XCall ["b"]); XCall ["d"]]; XPlus px; XAlt [XAnd (XSeq [XCall ["e"]; px]); XStar (XCall ["b"])];
      XSeq [XOpt (XAlt [XPlus px; XCall ["b"]]); XOpt (XAlt [XPlus px; py]); XOpt (XAlt [XPlus px; XPlus py])]; XNot px].
    assert (LP : advice rs (XPlus px) []). { refine (ad_below (ap_plus px) _ (ad_str _ _)). intros b n (H & _). exact (NS _ _ H). }
    assert (LPy : advice rs (XPlus py) []). { refine (ad_below (ap_plus py) _ (ad_str _ _)). intros b n (H & _). exact (NS _ _ H). }
    assert (LN : advice rs (XNot px) []). { refine (ad_below (ap_not px) _ (ad_str _ _)). intros b n (H & _). exact (NS _ _ H). }
    assert (two : forall t u l l', advice rs t l -> advice rs u l' -> advices rs [t; u] (l ++ l')).
    { intros t u l l' A A'. rewrite <- (app_nil_r l'). constructor; [exact A|]. constructor; [exact A'|constructor]. }
    assert (three : forall t u v l l' l2, advice rs t l -> advice rs u l' -> advice rs v l2 -> advices rs [t; u; v] (l ++ l' ++ l2)).
    { intros t u v l l' l2 A A' A2. constructor; [exact A|]. apply two; assumption. }
    refine (ad_cons (l := [(XNot (XNot px), PNot, PAnd)]) (l' := [(XAnd (XSeq [XCall ["e"]; px]), PNot, PNot); (XStar (XCall ["b"]), POneOrMore, POneOrMore); (XOpt (XAlt [XPlus px; XPlus py]), POneOrMore, PZeroOrMore)]) _ _).
    { apply ad_seq. refine (three _ _ _ [(XNot (XNot px), PNot, PAnd)] [] [] _ _ _).
      - refine (ad_here (ap_not _) _). split; [exact (hd_here rs (ap_not px))|]. right. split; [left; reflexivity|]. intros H. inversion H as [|x' t' D H1| |]; subst. inversion D.
      - refine (ad_below (ap_opt _) _ (ad_call _ _)). intros b n. exact (QB _ b n (el_call Cb) Hb).
      - constructor. }
    refine (ad_cons (l := []) LP _).
    refine (ad_cons (l := [(XAnd (XSeq [XCall ["e"]; px]), PNot, PNot); (XStar (XCall ["b"]), POneOrMore, POneOrMore)]) (l' := [(XOpt (XAlt [XPlus px; XPlus py]), POneOrMore, PZeroOrMore)]) _ _).
    { apply ad_alt. refine (two _ _ [(XAnd (XSeq [XCall ["e"]; px]), PNot, PNot)] [(XStar (XCall ["b"]), POneOrMore, POneOrMore)] _ _).
      - refine (ad_here (ap_and _) _). split; [exact (hd_seq _ (hd_call Ce (hd_here rs (ap_not px))))|]. left. right. left. reflexivity.
      - refine (ad_here (ap_star _) _). split; [exact Hb|]. left. cbn. auto 8. }
    refine (ad_cons (l := [(XOpt (XAlt [XPlus px; XPlus py]), POneOrMore, PZeroOrMore)]) (l' := []) _ _).
    { apply ad_seq. refine (three _ _ _ [] [] [(XOpt (XAlt [XPlus px; XPlus py]), POneOrMore, PZeroOrMore)] _ _ _).
      - refine (ad_below (ap_opt _) _ _).
        + intros b n. apply QB; [exact (el_alt (l := [XPlus px; XCall ["b"]]) (or_intror (or_introl eq_refl)) (el_call Cb))|]. apply hd_alt; [discriminate|]. intros t [<-|[<-|[]]]; [apply P|exact Hb].
        + apply ad_alt. exact (two _ _ [] [] LP (ad_call _ _)).
      - refine (ad_below (ap_opt _) _ _).
        + intros b n (H & _). inversion H as [x' t' A|x' t' D H1| | |l N H1]; subst; [inversion A|inversion D|]. exact (NS _ _ (H1 py (or_intror (or_introl eq_refl)))).
        + apply ad_alt. exact (two _ _ [] [] LP (ad_str _ _)).
      - refine (ad_here (ap_opt _) _). split.
        + apply hd_alt; [discriminate|]. intros t [<-|[<-|[]]]; apply P.
        + right. split; [right; right; left; reflexivity|]. intros H. inversion H as [|x' t' D H1| |l t' I0 H1]; subst; [inversion D|]. destruct I0 as [<-|[<-|[]]]; exact (NP _ H1). }
    exact (ad_cons LN (ad_nil rs)).
Qed.

Print Assumptions C64_advice.
Print Assumptions C64_macro.
Print Assumptions C64_one.
Print Assumptions C64_where.
Print Assumptions C64_case.
