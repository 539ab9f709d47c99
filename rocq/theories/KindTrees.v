(** The kinds of the arena are those of the syntax trees. *)
From Verif Require Import Base Grammar WellFormed WfFacts WfSound WfSyntax WfTerm Analysis AnalysisFacts Typing TypeRules SurfaceFacts RefFacts DepthFacts TypingSound TypingFit TypingTop FrontSpec TreeSpec TreeFacts TreeWf TreeKinds KindFacts.
Set Implicit Arguments. Unset Strict Implicit.
Open Scope string_scope. Open Scope nat_scope. Open Scope list_scope.

(** No choice mixes branches of foreign types with branches that have several values. *)
Definition plain_choices (rs : list (string * tree)) (ret : string -> option (option string)) : Prop :=
  forall l t t', part rs (XAlt l) -> In t l -> In t' l -> tkind rs ret t KForeign -> ~ tkind rs ret t' KTuple.
(** No choice mixes branches of foreign types with branches whose values Oak builds. *)
Definition clear_choices (rs : list (string * tree)) (ret : string -> option (option string)) : Prop :=
  forall l t t', part rs (XAlt l) -> In t l -> In t' l -> tkind rs ret t KForeign -> ~ tkind rs ret t' KTuple /\ ~ tkind rs ret t' KData.
Lemma clear_plain rs ret : clear_choices rs ret -> plain_choices rs ret.
Proof. intros H l t t' P I I' K. exact (proj1 (H l t t' P I I' K)). Qed.

Section Trees.
Variable G : grammar.
Variable rs : list (string * tree).
Variable ret : string -> option (option string).
Hypothesis RS : Forall2 (fun r q => rname r = fst q /\ stored G rs (rexpr r) (snd q)) (rules G) rs.
Ltac same_exprs := repeat match goal with E : expr_of G ?i = Some ?a, E' : expr_of G ?i = Some ?b |- _ =>
   first [constr_eq a b; clear E' | rewrite E in E'; first [discriminate E' | injection E' as ?; subst]] end.

Lemma akind_tkind_both : (forall i k, akind G ret (bare rs) i k -> forall t, stored G rs i t -> tkind rs ret t k) /\
  (forall js ks, akinds G ret (bare rs) js ks -> forall l, Forall2 (stored G rs) js l -> tkinds rs ret l ks).
Proof.
  apply akind_mutind.
  - intros i e k Ee C t S. inversion S; subst; same_exprs; cbn in C; try discriminate C; injection C as <-; try constructor; assumption.
  - intros i id rl k Ee F A IH t S. inversion S; subst; same_exprs. eapply tk_call; [eassumption|]. apply IH. eapply stored_found; eassumption.
  - intros i id rl Ee F BI t S. inversion S; subst; same_exprs. eapply tk_bare; eassumption.
  - intros i l ks Ee A IH t S. inversion S; subst; same_exprs. constructor. apply IH. assumption.
  - intros i l ks Ee A IH t S. inversion S; subst; same_exprs. constructor. apply IH. assumption.
  - intros i c k Ee A IH t S. inversion S; subst; same_exprs. constructor. apply IH. assumption.
  - intros i c k Ee A IH t S. inversion S; subst; same_exprs. constructor. apply IH. assumption.
  - intros i c k Ee A IH t S. inversion S; subst; same_exprs. constructor. apply IH. assumption.
  - intros i c k Ee A IH t S. inversion S; subst; same_exprs. constructor. apply IH. assumption.
  - intros l F. inversion F. constructor.
  - intros c l k ks A IHA B IHB l' F. inversion F; subst. constructor; auto.
Qed.
Lemma akind_tkind i k t : akind G ret (bare rs) i k -> stored G rs i t -> tkind rs ret t k.
Proof. intros A S. exact (proj1 akind_tkind_both i k A t S). Qed.

(** The rules on whose types a rule depends. *)
Lemma spos_needs x j id : spos G x j -> expr_of G j = Some (ENT id) -> forall t, stored G rs x t -> needs rs t id.
Proof.
  induction 1 as [x|x e c y Ex Ic R IH]; intros Ee t S.
  - inversion S; subst; same_exprs. econstructor. eassumption.
  - inversion S; subst; same_exprs; cbn in Ic; try (destruct Ic; fail).
    1, 2: match goal with F : Forall2 _ _ _ |- _ => pose proof F as F0 end;
      assert (K : forall js l, Forall2 (stored G rs) js l -> In c js -> exists t', In t' l /\ stored G rs c t') by
        (clear; intros js l F; induction F as [|j t js l Sj F IH]; [intros []|]; intros [<-|I]; [exists t; cbn; auto|destruct (IH I) as (t' & It & St); exists t'; cbn; auto]);
      destruct (K _ _ F0 Ic) as (t' & It & St); econstructor; [exact It|exact (IH Ee _ St)].
    all: destruct Ic as [<-|[]].
    1, 2, 3, 4: constructor; apply (IH Ee); assumption.
    exfalso. inversion R; subst; same_exprs. cbn in *. contradiction.
Qed.
(** The rules that only recognise do so in the arena. *)
Lemma bare_bnode (S0 : string -> Prop) t : (forall id, S0 id -> bare rs id) -> bare_tree rs S0 t -> forall i, stored G rs i t -> bnode G ret (bare rs) i.
Proof.
  intros HS. assert (K : forall js l, Forall2 (stored G rs) js l -> (forall t, In t l -> forall i, stored G rs i t -> bnode G ret (bare rs) i) -> forall c, In c js -> bnode G ret (bare rs) c).
  { intros js l F. induction F as [|j u js l Sj F IH]; [intros _ c []|]. intros H c [<-|I0]; [exact (H u (or_introl eq_refl) _ Sj)|]. apply IH; [|exact I0]. intros u' Iu. apply H. right. exact Iu. }
  induction 1 as [s|t|t|t|id t R B|l B IH|l NE B IH|t B IH|t B IH|t B IH]; intros i S; inversion S; subst.
  - eapply bn_const; [eassumption|reflexivity].
  - eapply bn_const; [eassumption|reflexivity].
  - eapply bn_const; [eassumption|reflexivity].
  - eapply bn_const; [eassumption|reflexivity].
  - pose proof (found RS id) as F. destruct (find_rule G id) as [rl|] eqn:Q; [|congruence]. eapply bn_call; [eassumption|exact Q|]. apply HS. exact B.
  - congruence.
  - eapply bn_seq; [eassumption|]. eapply K; [eassumption|exact IH].
  - eapply bn_alt; [eassumption| |eapply K; [eassumption|exact IH]]. intros ->. match goal with F : Forall2 _ [] _ |- _ => inversion F end. congruence.
  - eapply bn_star; [eassumption|]. apply IH. assumption.
  - eapply bn_plus; [eassumption|]. apply IH. assumption.
  - eapply bn_opt; [eassumption|]. apply IH. assumption.
Qed.
Lemma rule_stored rl : In rl (rules G) -> exists e, In (rname rl, e) rs /\ stored G rs (rexpr rl) e.
Proof.
  assert (GEN : forall (P : nat -> tree -> Prop) l l', Forall2 (fun r q => rname r = fst q /\ P (rexpr r) (snd q)) l l' -> In rl l -> exists e, In (rname rl, e) l' /\ P (rexpr rl) e).
  { clear. intros P l l' F. induction F as [|r q l l' [N S] _ IH]; [intros []|]. intros [<-|I]; [|destruct (IH I) as (e & I' & S'); exists e; cbn; auto].
    exists (snd q). split; [left; destruct q; cbn in *; congruence|exact S]. }
  exact (GEN _ _ _ RS).
Qed.
Lemma bare_rule rl : In rl (rules G) -> bare rs (rname rl) -> bnode G ret (bare rs) (rexpr rl).
Proof. intros Irl B. destruct (rule_stored Irl) as (e & Ie & S). exact (bare_bnode (fun id H => H) (bare_body Ie B) S). Qed.
Lemma settled_layered : settled_types rs -> exists rk bad, layered G rk (bare rs) bad /\ forall id, bad id = true -> bare rs id.
Proof.
  intros (rk & apart & HA & H). exists rk, apart. split; [|exact HA]. intros rl i id Irl NB R Ee. destruct (rule_stored Irl) as (e & Ie & S). exact (H _ _ _ Ie NB (spos_needs R Ee S)).
Qed.
Lemma alone_layered : settled_alone rs -> exists rk, layered G rk (bare rs) (fun _ => false).
Proof. intros (rk & H). exists rk. intros rl i id Irl _ R Ee. destruct (rule_stored Irl) as (e & Ie & S). destruct (H _ _ _ Ie (spos_needs R Ee S)); auto. Qed.
End Trees.

(** Every node is below a rule. *)
Lemma all_in_rules G : well_built G -> forall i, i < length (exprs G) -> in_rules G i.
Proof.
  intros WB. assert (K : forall n i, length (exprs G) - i <= n -> i < length (exprs G) -> in_rules G i).
  { induction n as [|n IH]; intros i Ln Li; [lia|]. destruct (fo_cover (ig_forest WB) (i := i)) as [(rl & Irl & Q)|(p & Lp & e & Ep & Ic)].
    - rewrite ig_last. exact Li.
    - cbn [igrammar rules] in Irl. exists (rname rl), rl. split; [pose proof (wb_names WB) as ND; clear - ND Irl; unfold find_rule; induction (rules G) as [|r l IHl]; [destruct Irl|]; cbn [find map] in *; inversion ND as [|? ? NI ND']; subst; destruct Irl as [->|Irl]; [rewrite String.eqb_refl; reflexivity|]; destruct (String.eqb (rname r) (rname rl)) eqn:Q; [exfalso; apply String.eqb_eq in Q; apply NI; rewrite Q; exact (in_map rname _ _ Irl)|exact (IHl Irl ND')]|]. rewrite Q. constructor.
    - rewrite ig_last in Lp. rewrite ig_low in Ep by exact Lp. pose proof (wb_children WB Ep) as F. rewrite Forall_forall in F. specialize (F i Ic).
      destruct (IH p ltac:(lia) Lp) as (id & rl & Fr & S). exists id, rl. split; [exact Fr|]. eapply sub_trans; [exact S|]. eapply sub_step; [exact Ep|exact Ic|constructor]. }
  intros i Li. exact (K _ i (le_n _) Li).
Qed.
