(** What makes a grammar ill formed, in terms of its source. *)
From Verif Require Import Base Grammar PegSpec WellFormed WfFacts WfSound WfSyntax WfExact Analysis AnalysisFacts PropertiesAnalysis FrontSpec TreeSpec TreeFacts.
From Coq Require Import Relations.
Set Implicit Arguments. Unset Strict Implicit.
Open Scope nat_scope. Open Scope list_scope.

(** ---------------- specification ---------------- *)
Section Spec.
(** The rules of the source; a call that names none of them leaves the grammar: it is taken to consume, and may fail. *)
Variable rs : list (string * tree).

(** The operand of a construct that matches what its operand matches. *)
Definition transparent (t : tree) : option tree :=
  match t with XAct t _ _ | XAsc t _ | XSpan t | XRange t => Some t | _ => None end.
Definition operands (t : tree) : list tree :=
  match t with
  | XSeq l | XAlt l => l
  | XStar t | XPlus t | XOpt t | XNot t | XAnd t | XAct t _ _ | XAsc t _ | XSpan t | XRange t => [t]
  | _ => []
  end.
Inductive within : tree -> tree -> Prop :=
| wi_refl t : within t t
| wi_step t u v : In u (operands t) -> within u v -> within t v.

(** May succeed without consuming. *)
Inductive empties : tree -> Prop :=
| em_str : empties (XStr [])
| em_call p t : rule_called rs p = Some t -> empties t -> empties (XCall p)
| em_seq l : all_empty l -> empties (XSeq l)
| em_alt l t : In t l -> empties t -> empties (XAlt l)
| em_star t : empties (XStar t)
| em_opt t : empties (XOpt t)
| em_plus t : empties t -> empties (XPlus t)
| em_not t : empties (XNot t)
| em_and t : empties (XAnd t)
| em_same t u : transparent t = Some u -> empties u -> empties t
with all_empty : list tree -> Prop :=
| ae_nil : all_empty []
| ae_cons t l : empties t -> all_empty l -> all_empty (t :: l).

(** Never fails. *)
Inductive succeeds : tree -> Prop :=
| su_str : succeeds (XStr [])
| su_call p t : rule_called rs p = Some t -> succeeds t -> succeeds (XCall p)
| su_seq l : all_succeed l -> succeeds (XSeq l)
| su_alt l t : In t l -> succeeds t -> succeeds (XAlt l)
| su_star t : succeeds (XStar t)
| su_opt t : succeeds (XOpt t)
| su_plus t : succeeds t -> succeeds (XPlus t)
| su_and t : succeeds t -> succeeds (XAnd t)
| su_same t u : transparent t = Some u -> succeeds u -> succeeds t
with all_succeed : list tree -> Prop :=
| as_nil : all_succeed []
| as_cons t l : succeeds t -> all_succeed l -> all_succeed (t :: l).

(** Never consumes: made of predicates only. *)
Inductive idles : tree -> Prop :=
| id_not t : idles (XNot t)
| id_and t : idles (XAnd t)
| id_call p t : rule_called rs p = Some t -> idles t -> idles (XCall p)
| id_seq l : all_idle l -> idles (XSeq l)
| id_alt l : all_idle l -> idles (XAlt l)
| id_star t : idles t -> idles (XStar t)
| id_plus t : idles t -> idles (XPlus t)
| id_opt t : idles t -> idles (XOpt t)
| id_same t u : transparent t = Some u -> idles u -> idles t
with all_idle : list tree -> Prop :=
| ai_nil : all_idle []
| ai_cons t l : idles t -> all_idle l -> all_idle (t :: l).

(** May call the rule [id] before consuming anything. *)
Inductive calls_first : tree -> string -> Prop :=
| cf_call id t : rule_called rs [id] = Some t -> calls_first (XCall [id]) id
| cf_seq l1 t l2 id : all_empty l1 -> calls_first t id -> calls_first (XSeq (l1 ++ t :: l2)) id
| cf_alt l t id : In t l -> calls_first t id -> calls_first (XAlt l) id
| cf_un t u id : (forall l, t <> XSeq l) -> (forall l, t <> XAlt l) -> In u (operands t) -> calls_first u id -> calls_first t id.
Definition rule_calls_first (id id' : string) : Prop := exists t, rule_called rs [id] = Some t /\ calls_first t id'.

(** A part of a rule of the grammar. *)
Definition part (t : tree) : Prop := exists n e, In (n, e) rs /\ within e t.

(** A grammar is well formed unless: *)
Record well_formed : Prop := {
  (* a rule reaches itself without consuming: left recursion; *)
  wf_left : forall id, ~ clos_trans string rule_calls_first id id;
  (* a repeated expression may consume nothing: the loop never ends; *)
  wf_repeat : forall t, part (XStar t) \/ part (XPlus t) -> ~ empties t;
  (* a branch that cannot fail hides the next ones; *)
  wf_branch : forall l1 t l2, part (XAlt (l1 ++ t :: l2)) -> l2 <> [] -> ~ succeeds t;
  (* the negation of an expression that cannot fail always fails; *)
  wf_not : forall t, part (XNot t) -> ~ succeeds t;
  (* an expression neither fails nor consumes: it does nothing. *)
  wf_idle : forall t, part t -> succeeds t -> ~ idles t
}.
End Spec.

Scheme empties_mut := Induction for empties Sort Prop with all_empty_mut := Induction for all_empty Sort Prop.
Scheme succeeds_mut := Induction for succeeds Sort Prop with all_succeed_mut := Induction for all_succeed Sort Prop.
Scheme idles_mut := Induction for idles Sort Prop with all_idle_mut := Induction for all_idle Sort Prop.

(** ---------------- the source and the arena ---------------- *)
Section Same.
Variable G : grammar.
Variable rs : list (string * tree).
Hypothesis RS : Forall2 (fun r q => rname r = fst q /\ stored G rs (rexpr r) (snd q)) (rules G) rs.
Hypothesis ND : NoDup (map fst rs).
Notation stored := (stored G rs).
Ltac same_exprs := repeat match goal with E : expr_of G ?i = Some ?a, E' : expr_of G ?i = Some ?b |- _ =>
   first [constr_eq a b; clear E' | rewrite E in E'; first [discriminate E' | injection E' as ?; subst]] end.

Lemma called_found id t : rule_called rs [id] = Some t -> exists rl, find_rule G id = Some rl /\ stored (rexpr rl) t.
Proof. intros C. pose proof (found RS id) as K. destruct (find_rule G id) as [rl|]; [|congruence]. destruct K as (t' & C' & S0). exists rl. split; [reflexivity|]. congruence. Qed.
Lemma forall2_in (A B : Type) (P : A -> B -> Prop) l l' : Forall2 P l l' -> forall y, In y l' -> exists x, In x l /\ P x y.
Proof. induction 1 as [|a b l l' H _ IH]; intros y []; [subst; exists a; split; [left; reflexivity|exact H]|destruct (IH y H0) as (x & I & K); exists x; split; [right; exact I|exact K]]. Qed.
Lemma forall2_in_l (A B : Type) (P : A -> B -> Prop) l l' : Forall2 P l l' -> forall x, In x l -> exists y, In y l' /\ P x y.
Proof. induction 1 as [|a b l l' H _ IH]; intros y []; [subst; exists b; split; [left; reflexivity|exact H]|destruct (IH y H0) as (x & I & K); exists x; split; [right; exact I|exact K]]. Qed.

Ltac inv_same := match goal with T : transparent _ = Some _ |- _ => idtac end;
  match goal with T : transparent ?t = Some _ |- _ => destruct t; try discriminate T; injection T as -> end.
Lemma empties_arena t : empties rs t -> forall i, stored i t -> can_empty G i.
Proof.
  intros H. pattern t, H. apply empties_mut with (P0 := fun l _ => forall js, Forall2 stored js l -> can_empties G js).
  - intros i S. inversion S; subst. eapply ce_str; eassumption.
  - intros p u C _ IH i S. inversion S; subst; [|congruence]. destruct (called_found C) as (rl & F & S'). eapply ce_nt; eauto.
  - intros l _ IH i S. inversion S; subst. eapply ce_seq; eauto.
  - intros l u I _ IH i S. inversion S; subst. match goal with F : Forall2 _ _ l |- _ => destruct (forall2_in F I) as (j & Ij & Sj) end. eapply ce_alt; eauto.
  - intros u i S. inversion S; subst. eapply ce_star; eauto.
  - intros u i S. inversion S; subst. eapply ce_opt; eauto.
  - intros u _ IH i S. inversion S; subst. eapply ce_plus; eauto.
  - intros u i S. inversion S; subst. eapply ce_not; eauto.
  - intros u i S. inversion S; subst. eapply ce_and; eauto.
  - intros u v T _ IH i S. inv_same; inversion S; subst; [eapply ce_act|eapply ce_asc|eapply ce_span|eapply ce_range]; eauto. eapply ce_asc; eauto.
  - intros js F. inversion F. constructor.
  - intros u l _ IH _ IHl js F. inversion F; subst. constructor; auto.
Qed.
Lemma empties_tree i : can_empty G i -> forall t, stored i t -> empties rs t.
Proof.
  intros H. pattern i, H. apply can_empty_mut with (P0 := fun js _ => forall l, Forall2 stored js l -> all_empty rs l).
  - intros j E t S. inversion S; subst; same_exprs. constructor.
  - intros j id rl E F _ IH t S. inversion S; subst; same_exprs. match type of F with find_rule _ ?x = _ => pose proof (found RS x) as K end. rewrite F in K. destruct K as (t' & C' & S0).
    eapply em_call; [exact C'|auto].
  - intros j l E _ IH t S. inversion S; subst; same_exprs. constructor. auto.
  - intros j l k E I _ IH t S. inversion S; subst; same_exprs. match goal with F : Forall2 _ ?js _, I0 : In _ ?js |- _ => destruct (forall2_in_l F I0) as (u & Iu & Su) end. eapply em_alt; eauto.
  - intros j e E t S. inversion S; subst; same_exprs. constructor.
  - intros j e E _ IH t S. inversion S; subst; same_exprs. constructor; auto.
  - intros j e E t S. inversion S; subst; same_exprs. constructor.
  - intros j e E t S. inversion S; subst; same_exprs. constructor.
  - intros j e E t S. inversion S; subst; same_exprs. constructor.
  - intros j e b f E _ IH t S. inversion S; subst; same_exprs. eapply em_same; [reflexivity|auto].
  - intros j e ty E _ IH t S. inversion S; subst; same_exprs. eapply em_same; [reflexivity|auto].
  - intros j e E _ IH t S. inversion S; subst; same_exprs. eapply em_same; [reflexivity|auto].
  - intros j e E _ IH t S. inversion S as [| | | | | | | | | | | | | | |? u k t0 E1 E2 S0]; subst; same_exprs. eapply em_same; [reflexivity|].
    assert (K : empties rs (XAsc t0 (IRegular TUnit))) by (apply IH; econstructor; eassumption). inversion K as [| | | | | | | | |? ? T K']; subst. injection T as <-. exact K'.
  - intros l F. inversion F. constructor.
  - intros j l _ IH _ IHl l' F. inversion F; subst. constructor; auto.
Qed.
Lemma succeeds_arena t : succeeds rs t -> forall i, stored i t -> never_fails G i.
Proof.
  intros H. pattern t, H. apply succeeds_mut with (P0 := fun l _ => forall js, Forall2 stored js l -> never_fail G js).
  - intros i S. inversion S; subst. eapply nf_str; eassumption.
  - intros p u C _ IH i S. inversion S; subst; [|congruence]. destruct (called_found C) as (rl & F & S'). eapply nf_nt; eauto.
  - intros l _ IH i S. inversion S; subst. eapply nf_seq; eauto.
  - intros l u I _ IH i S. inversion S; subst. match goal with F : Forall2 _ _ l |- _ => destruct (forall2_in F I) as (j & Ij & Sj) end. eapply nf_alt; eauto.
  - intros u i S. inversion S; subst. eapply nf_star; eauto.
  - intros u i S. inversion S; subst. eapply nf_opt; eauto.
  - intros u _ IH i S. inversion S; subst. eapply nf_plus; eauto.
  - intros u _ IH i S. inversion S; subst. eapply nf_and; eauto.
  - intros u v T _ IH i S. inv_same; inversion S; subst; [eapply nf_act|eapply nf_asc|eapply nf_span|eapply nf_range]; eauto. eapply nf_asc; eauto.
  - intros js F. inversion F. constructor.
  - intros u l _ IH _ IHl js F. inversion F; subst. constructor; auto.
Qed.
Lemma succeeds_tree i : never_fails G i -> forall t, stored i t -> succeeds rs t.
Proof.
  intros H. pattern i, H. apply never_fails_mut with (P0 := fun js _ => forall l, Forall2 stored js l -> all_succeed rs l).
  - intros j E t S. inversion S; subst; same_exprs. constructor.
  - intros j e E t S. inversion S; subst; same_exprs. constructor.
  - intros j e E t S. inversion S; subst; same_exprs. constructor.
  - intros j id rl E F _ IH t S. inversion S; subst; same_exprs. match type of F with find_rule _ ?x = _ => pose proof (found RS x) as K end. rewrite F in K. destruct K as (t' & C' & S0).
    eapply su_call; [exact C'|auto].
  - intros j l E _ IH t S. inversion S; subst; same_exprs. constructor. auto.
  - intros j l k E I _ IH t S. inversion S; subst; same_exprs. match goal with F : Forall2 _ ?js _, I0 : In _ ?js |- _ => destruct (forall2_in_l F I0) as (u & Iu & Su) end. eapply su_alt; eauto.
  - intros j e E _ IH t S. inversion S; subst; same_exprs. constructor; auto.
  - intros j e E _ IH t S. inversion S; subst; same_exprs. constructor; auto.
  - intros j e b f E _ IH t S. inversion S; subst; same_exprs. eapply su_same; [reflexivity|auto].
  - intros j e ty E _ IH t S. inversion S; subst; same_exprs. eapply su_same; [reflexivity|auto].
  - intros j e E _ IH t S. inversion S; subst; same_exprs. eapply su_same; [reflexivity|auto].
  - intros j e E _ IH t S. inversion S as [| | | | | | | | | | | | | | |? u k t0 E1 E2 S0]; subst; same_exprs. eapply su_same; [reflexivity|].
    assert (K : succeeds rs (XAsc t0 (IRegular TUnit))) by (apply IH; econstructor; eassumption). inversion K as [| | | | | | | |? ? T K']; subst. injection T as <-. exact K'.
  - intros l F. inversion F. constructor.
  - intros j l _ IH _ IHl l' F. inversion F; subst. constructor; auto.
Qed.
Lemma idles_arena t : idles rs t -> forall i, stored i t -> never_consumes G i.
Proof.
  intros H. pattern t, H. apply idles_mut with (P0 := fun l _ => forall js, Forall2 stored js l -> none_consumes G js).
  - intros u i S. inversion S; subst. eapply nc_not; eassumption.
  - intros u i S. inversion S; subst. eapply nc_and; eassumption.
  - intros p u C _ IH i S. inversion S; subst; [|congruence]. destruct (called_found C) as (rl & F & S'). eapply nc_nt; eauto.
  - intros l _ IH i S. inversion S; subst. eapply nc_seq; eauto.
  - intros l _ IH i S. inversion S; subst. eapply nc_alt; eauto.
  - intros u _ IH i S. inversion S; subst. eapply nc_un; eauto.
  - intros u _ IH i S. inversion S; subst. eapply nc_un; eauto.
  - intros u _ IH i S. inversion S; subst. eapply nc_un; eauto 6.
  - intros u v T _ IH i S. inv_same; inversion S; subst; try solve [eapply nc_un; [eassumption|eauto 8|apply IH; assumption]].
    eapply nc_un; [eassumption|eauto 10|]. eapply nc_un; [eassumption|eauto 8|eauto].
  - intros js F. inversion F. constructor.
  - intros u l _ IH _ IHl js F. inversion F; subst. constructor; auto.
Qed.
Lemma idles_tree i : never_consumes G i -> forall t, stored i t -> idles rs t.
Proof.
  intros H. pattern i, H. apply never_consumes_mut with (P0 := fun js _ => forall l, Forall2 stored js l -> all_idle rs l).
  - intros j e E t S. inversion S; subst; same_exprs. constructor.
  - intros j e E t S. inversion S; subst; same_exprs. constructor.
  - intros j id rl E F _ IH t S. inversion S; subst; same_exprs. match type of F with find_rule _ ?x = _ => pose proof (found RS x) as K end. rewrite F in K. destruct K as (t' & C' & S0).
    eapply id_call; [exact C'|auto].
  - intros j l E _ IH t S. inversion S; subst; same_exprs. constructor. auto.
  - intros j l E _ IH t S. inversion S; subst; same_exprs. constructor. auto.
  - intros j e k E U _ IH t S.
    destruct U as [-> |[-> |[-> |[(b & f & ->)|[(ty & ->)|[-> | -> ]]]]]].
    all: inversion S as [| | | | | | | | | | | | | | |? u k' t0 E1 E2 S0]; subst; same_exprs.
    all: try solve [constructor; auto|eapply id_same; [reflexivity|auto]].
    eapply id_same; [reflexivity|].
    assert (K : idles rs (XAsc t0 (IRegular TUnit))) by (apply IH; econstructor; eassumption). inversion K as [| | | | | | | |? ? T K']; subst. injection T as <-. exact K'.
  - intros l F. inversion F. constructor.
  - intros j l _ IH _ IHl l' F. inversion F; subst. constructor; auto.
Qed.

Lemma forall2_split (A B : Type) (P : A -> B -> Prop) l1 : forall x l2 l', Forall2 P (l1 ++ x :: l2) l' -> exists l1' y l2', l' = l1' ++ y :: l2' /\ Forall2 P l1 l1' /\ P x y /\ Forall2 P l2 l2'.
Proof.
  intros x l2 l' H. apply Forall2_app_inv_l in H. destruct H as (l1' & l3 & H1 & H2 & ->). inversion H2; subst. eauto 10.
Qed.
Lemma forall2_split_r (A B : Type) (P : A -> B -> Prop) l1' : forall y l2' l, Forall2 P l (l1' ++ y :: l2') -> exists l1 x l2, l = l1 ++ x :: l2 /\ Forall2 P l1 l1' /\ P x y /\ Forall2 P l2 l2'.
Proof.
  intros x l2 l' H. apply Forall2_app_inv_r in H. destruct H as (l1 & l3 & H1 & H2 & ->). inversion H2; subst. eauto 10.
Qed.
Lemma all_empty_arena l : all_empty rs l -> forall js, Forall2 stored js l -> can_empties G js.
Proof. induction 1; intros js F; inversion F; subst; constructor; auto. eapply empties_arena; eassumption. Qed.
Lemma all_empty_tree js : can_empties G js -> forall l, Forall2 stored js l -> all_empty rs l.
Proof. induction 1; intros l' F; inversion F; subst; constructor; auto. eapply empties_tree; eassumption. Qed.
Lemma first_arena t id : calls_first rs t id -> forall i, stored i t -> left_calls G i id.
Proof.
  induction 1 as [id t C|l1 t l2 id A _ IH|l t id I _ IH|t u id N1 N2 I _ IH]; intros i S.
  - inversion S; subst; [|congruence]. eapply lc_nt; eassumption.
  - inversion S; subst. match goal with F : Forall2 _ _ _ |- _ => destruct (forall2_split_r F) as (js1 & j & js2 & -> & F1 & S1 & _) end.
    eapply lc_seq; [eassumption|reflexivity|eapply all_empty_arena; eassumption|auto].
  - inversion S; subst. match goal with F : Forall2 _ _ l |- _ => destruct (forall2_in F I) as (j & Ij & Sj) end. eapply lc_alt; eauto.
  - destruct t; cbn in I; try (destruct I; fail).
    1: destruct (N1 _ eq_refl). 1: destruct (N2 _ eq_refl).
    all: destruct I as [->|[]]; inversion S; subst; try (eapply lc_un; [eassumption|eauto 12|auto]; fail).
    eapply lc_un; [eassumption|eauto 12|]. eapply lc_un; [eassumption|eauto 12|auto].
Qed.
Lemma first_tree i id : left_calls G i id -> forall t, stored i t -> calls_first rs t id.
Proof.
  induction 1 as [i id E|i l l1 j l2 id E -> A _ IH|i l j id E I _ IH|i e j id E U L IH]; intros t S.
  - inversion S; subst; same_exprs. eapply cf_call; eassumption.
  - inversion S; subst; same_exprs. match goal with F : Forall2 _ _ _ |- _ => destruct (forall2_split F) as (k1 & u & k2 & -> & F1 & S1 & _) end.
    apply cf_seq; [eapply all_empty_tree; eassumption|auto].
  - inversion S; subst; same_exprs. match goal with F : Forall2 _ ?js _, I0 : In _ ?js |- _ => destruct (forall2_in_l F I0) as (u & Iu & Su) end. eapply cf_alt; eauto.
  - assert (K : forall u, stored j u -> In u (operands t) -> (forall l, t <> XSeq l) -> (forall l, t <> XAlt l) -> calls_first rs t id).
    { intros u S1 I1 N1 N2. eapply cf_un; eauto. }
    repeat match goal with H : _ \/ _ |- _ => destruct H | H : ex _ |- _ => destruct H end; subst;
      inversion S as [| | | | | | | | | | | | | | |? u k t0 E1 E2 S0]; subst; same_exprs.
    all: try solve [eapply K; [eassumption|left; reflexivity|discriminate|discriminate]].
    assert (Q : calls_first rs (XAsc t0 (IRegular TUnit)) id) by (apply IH; econstructor; eassumption).
    inversion Q as [| | |? u' ? _ _ I1 Q1]; subst. destruct I1 as [<-|[]]. eapply cf_un; [discriminate|discriminate|left; reflexivity|exact Q1].
Qed.

(** The parts of the rules, and the nodes of the arena: besides the parts, the operand of a range has an ascription. *)
Lemma sub_tree : forall t i k, sub G i k -> stored i t ->
  exists u, within t u /\ (stored k u \/ exists j, expr_of G k = Some (EAsc j (IRegular TUnit)) /\ stored j u).
Proof.
  assert (UN : forall t u, In u (operands t) -> (forall i k, sub G i k -> stored i u -> exists v, within u v /\ (stored k v \/ exists j, expr_of G k = Some (EAsc j (IRegular TUnit)) /\ stored j v)) ->
    forall j k, sub G j k -> stored j u -> exists v, within t v /\ (stored k v \/ exists j, expr_of G k = Some (EAsc j (IRegular TUnit)) /\ stored j v)).
  { intros t u I IH j k S S1. destruct (IH j k S S1) as (v & W & K). exists v. split; [eapply wi_step; eassumption|exact K]. }
  intros t. induction t using tree_ind'; intros i k S ST;
    (inversion S as [|? j ? e E I1 S1]; subst; [eexists; split; [apply wi_refl|left; exact ST]|]);
    inversion ST; subst; same_exprs; cbn in I1; try (destruct I1; fail).
  1, 2: match goal with F : Forall2 _ ?js _, I0 : In _ ?js |- _ => destruct (forall2_in_l F I0) as (u & Iu & Su) end;
    match goal with F : Forall _ _ |- _ => rewrite Forall_forall in F; eapply UN; [exact Iu|exact (F u Iu)|exact S1|exact Su] end.
  all: destruct I1 as [<-|[]]; try (eapply UN; [left; reflexivity|exact IHt|exact S1|assumption]; fail).
  inversion S1 as [|? j2 ? e2 E3 I2 S2]; subst.
  - eexists. split; [eapply wi_step; [left; reflexivity|apply wi_refl]|]. right. eauto.
  - same_exprs. destruct I2 as [<-|[]]. eapply UN; [left; reflexivity|exact IHt|exact S2|assumption].
Qed.
Lemma part_node t u : within t u -> forall i, stored i t -> exists k, sub G i k /\ stored k u.
Proof.
  induction 1 as [t|t u v I W IH]; intros i S; [exists i; split; [constructor|exact S]|].
  assert (K : forall j, sub G i j -> stored j u -> exists k, sub G i k /\ stored k v).
  { intros j S1 S2. destruct (IH j S2) as (k & S3 & S4). exists k. split; [eapply sub_trans; eassumption|exact S4]. }
  destruct t; cbn in I; try (destruct I; fail); inversion S; subst.
  1, 2: match goal with F : Forall2 _ _ ?ts, I0 : In _ ?ts |- _ => destruct (forall2_in F I0) as (j & Ij & Sj) end; apply (K j); [eapply sub_step; [eassumption|exact Ij|constructor]|exact Sj].
  all: destruct I as [->|[]]; eapply K; [|eassumption].
  all: try (eapply sub_step; [eassumption|left; reflexivity|constructor]; fail).
  eapply sub_step; [eassumption|left; reflexivity|]. eapply sub_step; [eassumption|left; reflexivity|constructor].
Qed.
Lemma called_in n e : In (n, e) rs <-> rule_called rs [n] = Some e.
Proof.
  clear RS. unfold rule_called. induction rs as [|q l IH]; [split; [intros []|discriminate]|]. cbn [find map] in *. inversion ND as [|? ? NI ND']; subst. specialize (IH ND').
  destruct (String.eqb (fst q) n) eqn:Q.
  - apply String.eqb_eq in Q. split.
    + intros [->|I]; [reflexivity|]. exfalso. apply NI. rewrite Q. exact (in_map fst _ _ I).
    + intros Z. injection Z as <-. left. destruct q. cbn in *. congruence.
  - rewrite <- IH. split; [|intros I; right; exact I]. intros [->|I]; [cbn in Q; rewrite String.eqb_refl in Q; discriminate|exact I].
Qed.
Lemma part_arena t : part rs t -> exists i, in_rules G i /\ stored i t.
Proof.
  intros (n & e & I & W). apply called_in in I. destruct (called_found I) as (rl & F & S). destruct (part_node W S) as (k & S1 & S2). exists k. split; [|exact S2]. exists n, rl. auto.
Qed.
Lemma arena_part i : in_rules G i -> exists u, part rs u /\ (stored i u \/ exists j, expr_of G i = Some (EAsc j (IRegular TUnit)) /\ stored j u).
Proof.
  intros (id & rl & F & S). pose proof (found RS id) as K. rewrite F in K. destruct K as (t & C & ST). destruct (sub_tree S ST) as (u & W & K).
  exists u. split; [|exact K]. exists id, t. split; [apply called_in; exact C|exact W].
Qed.
Lemma rule_first a b : rule_calls_first rs a b <-> rule_left_calls G a b.
Proof.
  split.
  - intros (t & C & L). destruct (called_found C) as (rl & F & S). exists rl. split; [exact F|]. eapply first_arena; eassumption.
  - intros (rl & F & L). pose proof (found RS a) as K. rewrite F in K. destruct K as (t & C & ST). exists t. split; [exact C|]. eapply first_tree; eassumption.
Qed.
Lemma clos_iff (A : Type) (P Q : A -> A -> Prop) : (forall a b, P a b -> Q a b) -> forall a b, clos_trans A P a b -> clos_trans A Q a b.
Proof. intros H a b C. induction C as [a b C|a b c _ IH1 _ IH2]; [apply t_step; auto|eapply t_trans; eassumption]. Qed.

Theorem sane_iff : sane G <-> well_formed rs.
Proof.
  split; intros [L R B N I].
  - split.
    + intros id C. apply (L id). eapply clos_iff; [|exact C]. intros a b. apply rule_first.
    + intros t P E. assert (K : exists i e, in_rules G i /\ (expr_of G i = Some (EStar e) \/ expr_of G i = Some (EPlus e)) /\ stored e t).
      { destruct P as [P|P]; destruct (part_arena P) as (i & Ii & S); inversion S; subst; eauto 8. }
      destruct K as (i & e & Ii & K & S). exact (R i e Ii K (empties_arena E S)).
    + intros l1 t l2 P NE S. destruct (part_arena P) as (i & Ii & ST). inversion ST; subst.
      match goal with F : Forall2 _ _ _ |- _ => destruct (forall2_split_r F) as (js1 & j & js2 & -> & F1 & S1 & F2) end.
      apply (B i js1 j js2 Ii); [assumption| |exact (succeeds_arena S S1)]. intros ->. inversion F2; subst. congruence.
    + intros t P S. destruct (part_arena P) as (i & Ii & ST). inversion ST; subst. eapply N; [exact Ii|eassumption|]. eapply succeeds_arena; eassumption.
    + intros t P S D. destruct (part_arena P) as (i & Ii & ST). exact (I i Ii (succeeds_arena S ST) (idles_arena D ST)).
  - split.
    + intros id C. apply (L id). eapply clos_iff; [|exact C]. intros a b. apply rule_first.
    + intros i e Ii E C. destruct (arena_part Ii) as (u & P & [S|(j & E' & S)]); [|destruct E; congruence].
      destruct E as [E|E]; inversion S; subst; same_exprs; eapply R; eauto; eapply empties_tree; eassumption.
    + intros i l1 j l2 Ii E NE C. destruct (arena_part Ii) as (u & P & [S|(k & E' & S)]); [|congruence].
      inversion S; subst; same_exprs. match goal with F : Forall2 _ _ _ |- _ => destruct (forall2_split F) as (k1 & u & k2 & -> & F1 & S1 & F2) end.
      eapply B; [exact P| |exact (succeeds_tree C S1)]. intros ->. inversion F2; subst. congruence.
    + intros i e Ii E C. destruct (arena_part Ii) as (u & P & [S|(k & E' & S)]); [|congruence].
      inversion S; subst; same_exprs. eapply N; [exact P|]. eapply succeeds_tree; eassumption.
    + intros i Ii C D. destruct (arena_part Ii) as (u & P & [S|(k & E' & S)]).
      * exact (I u P (succeeds_tree C S) (idles_tree D S)).
      * inversion C; subst; same_exprs. inversion D; subst; same_exprs.
        match goal with U : _ \/ _ |- _ => destruct U as [U|[U|[U|[(? & ? & U)|[(? & U)|[U|U]]]]]]; try discriminate U; injection U as ? end.
        subst. exact (I u P (succeeds_tree ltac:(eassumption) S) (idles_tree ltac:(eassumption) S)).
Qed.
End Same.
