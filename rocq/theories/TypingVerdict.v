(** What the end of type inference checks: unknown types, recursive types. *)
From Verif Require Import Base Grammar WellFormed Analysis AnalysisFacts Typing TypeRules SurfaceFacts RefFacts DepthFacts TypingSound TypingTop
  PegSpec Target Compile CompileShape GenTotal.
Set Implicit Arguments. Unset Strict Implicit.
Open Scope string_scope. Open Scope nat_scope. Open Scope list_scope.

(** A type mentions the unknown type of an external parser or function. *)
Inductive mentions_external (T : list ity) : ity -> Prop :=
| me_here : mentions_external T IExternal
| me_optional i t : nth_error T i = Some t -> mentions_external T t -> mentions_external T (IRegular (TOptional i))
| me_list i t : nth_error T i = Some t -> mentions_external T t -> mentions_external T (IRegular (TList i))
| me_tuple l i t : In i l -> nth_error T i = Some t -> mentions_external T t -> mentions_external T (IRegular (TTuple l)).

Lemma tgets_at T l ts : tgets T l = WOk ts -> Forall2 (fun i t => nth_error T i = Some t) l ts.
Proof.
  revert ts. induction l as [|i l IH]; intros ts H; cbn [tgets] in H; [injection H as <-; constructor|].
  apply wbind_ok in H. destruct H as (t & Et & H). apply wbind_ok in H. destruct H as (ts' & Ets & H). apply WOk_inj' in H. subst ts.
  constructor; [exact (tget_ok Et)|exact (IH _ Ets)].
Qed.
Theorem contains_external_spec T : forall fuel t b, contains_external fuel T t = WOk b -> (b = true <-> mentions_external T t).
Proof.
  induction fuel as [|k IH]; intros t b H; [discriminate|]. cbn [contains_external] in H.
  assert (NO : forall u, (forall x, ~ mentions_external T x \/ x <> u) -> WOk false = WOk b -> (b = true <-> mentions_external T u)).
  { intros u N Q. injection Q as <-. split; [discriminate|]. intros M. destruct (N u) as [X|X]; [destruct (X M)|congruence]. }
  destruct t as [|r| | |t].
  - injection H as <-. split; [discriminate|]. intros M. inversion M.
  - injection H as <-. split; [discriminate|]. intros M. inversion M.
  - injection H as <-. split; [discriminate|]. intros M. inversion M.
  - injection H as <-. split; [constructor|reflexivity].
  - destruct t as [| |i|i|l|s].
    + injection H as <-. split; [discriminate|]. intros M. inversion M.
    + injection H as <-. split; [discriminate|]. intros M. inversion M.
    + apply wbind_ok in H. destruct H as (u & Eu & H). apply tget_ok in Eu. rewrite (IH _ _ H). split; [intros M; exact (me_optional Eu M)|].
      intros M. inversion M as [|i' u' Eu' M'| |]; subst. congruence.
    + apply wbind_ok in H. destruct H as (u & Eu & H). apply tget_ok in Eu. rewrite (IH _ _ H). split; [intros M; exact (me_list Eu M)|].
      intros M. inversion M as [| |i' u' Eu' M'|]; subst. congruence.
    + apply wbind_ok in H. destruct H as (ts & Ets & H). apply tgets_at in Ets.
      assert (X : b = true <-> exists i t, In i l /\ nth_error T i = Some t /\ mentions_external T t).
      { clear - IH Ets H. revert H. induction Ets as [|i t l ts Et F IHl]; intros H.
        - injection H as <-. split; [discriminate|]. intros (i & t & [] & _).
        - apply wbind_ok in H. destruct H as (b1 & H1 & H). apply IH in H1. destruct b1.
          + injection H as <-. split; [intros _|reflexivity]. exists i, t. split; [left; reflexivity|]. split; [exact Et|]. apply H1. reflexivity.
          + rewrite (IHl H). split; intros (j & u & Ij & Eu & M); [exists j, u; cbn; auto|]. destruct Ij as [->|Ij]; [|exists j, u; auto].
            exfalso. assert (u = t) by congruence. subst u. apply H1 in M. discriminate. }
      rewrite X. split; [intros (i & t & Ii & Et & M); exact (me_tuple Ii Et M)|]. intros M. inversion M as [| | |l' i u Ii Eu M']; subst. eauto.
    + injection H as <-. split; [discriminate|]. intros M. inversion M.
Qed.
Theorem rules_have_type_spec E T rs : rules_have_type E T rs = WOk true ->
  forall rl, In rl rs -> exists t, nth_error T (rexpr rl) = Some t /\ ~ mentions_external T t.
Proof.
  induction rs as [|r rs IH]; intros H rl I; [destruct I|]. cbn [rules_have_type] in H. apply wbind_ok in H. destruct H as (t & Et & H).
  apply wbind_ok in H. destruct H as (b & Hb & H). apply wbind_ok in H. destruct H as (ok & Hok & H). apply WOk_inj', andb_true_iff in H. destruct H as [B ->].
  destruct I as [<-|I]; [|exact (IH Hok rl I)]. exists t. split; [exact (tget_ok Et)|]. intros M. apply (contains_external_spec Hb) in M. subst b. discriminate.
Qed.

(** The replacement of recursive types never panics. *)
Section Rec.
Variable G : grammar.
Lemma first_non_rec_total path T ids : length T = length (exprs G) -> (forall rl, In rl (rules G) -> rexpr rl < length (exprs G)) ->
  Forall (known_rule G path T) ids -> exists t, first_non_rec G T ids = WOk t.
Proof.
  intros LEN RB. induction 1 as [|id ids (rl & F & _) Fs IH]; cbn [first_non_rec]; [eauto|]. rewrite F.
  unfold tget. destruct (nth_error T (rexpr rl)) as [t|] eqn:Et; [|apply nth_error_None in Et; pose proof (RB rl (proj2 (find_rule_name F))); lia].
  cbn [wbind]. destruct t; eauto.
Qed.
Lemma reduce_all_rec_total st : typable G -> Inv G [] (tys st) -> exists st', reduce_all_rec G st = WOk st'.
Proof.
  intros HG HI. unfold reduce_all_rec. assert (X : forall l, (forall t, In t l -> In t (tys st)) -> exists l', reduce_recs G (tys st) l = WOk l').
  { induction l as [|t l IH]; intros SUB; [exists []; reflexivity|]. cbn [reduce_recs].
    assert (R : exists t', reduce_rec G (tys st) t = WOk t').
    { destruct t as [|r| | |t]; try (eexists; reflexivity). cbn [reduce_rec]. destruct (is_poly r); [eauto|].
      assert (It : In (IRec r) (tys st)) by (apply SUB; left; reflexivity). apply In_nth_error in It. destruct It as (i & Ei).
      pose proof (iv_ty HI Ei ltac:(discriminate)) as [_ F]. apply (@first_non_rec_total [] (tys st)); [exact (iv_len HI)|exact (tg_rules HG)|].
      apply Forall_flat_map. eapply Forall_impl; [|exact F]. intros p [_ K]. exact K. }
    destruct R as (t' & ->). cbn [wbind]. destruct (IH (fun t Ht => SUB t (or_intror Ht))) as (l' & ->). cbn [wbind]. eauto. }
  destruct (X (tys st) (fun t H => H)) as (l' & ->). cbn [wbind]. eauto.
Qed.
End Rec.

(** ---------------- choices ---------------- *)
Lemma rec_union_in r2 : forall r1, (forall p, In p r2 -> In p r1) -> rec_union r1 r2 = r1.
Proof.
  induction r2 as [|p r2 IH]; intros r1 H; [reflexivity|]. cbn [rec_union].
  assert (X : existsb (path_eqb p) r1 = true). { apply existsb_exists. exists p. split; [apply H; left; reflexivity|apply path_eqb_eq; reflexivity]. }
  rewrite X. apply IH. intros q Iq. apply H. right. exact Iq.
Qed.
Lemma sum_scan_app T fuel ts1 : forall ts2 r l, sum_scan T fuel (ts1 ++ ts2) r l = wbind (sum_scan T fuel ts1 r l) (fun q => sum_scan T fuel ts2 (fst q) (snd q)).
Proof.
  induction ts1 as [|t ts1 IH]; intros ts2 r l; [reflexivity|]. cbn [sum_scan app]. destruct t as [|r'| | |t]; try apply IH;
    (match goal with |- context [contained ?T ?f ?t ?l] => destruct (contained T f t l) as [b| |]; cbn [wbind]; [apply IH|reflexivity|reflexivity] end).
Qed.
Lemma sum_scan_grows T fuel ts : forall r l r' l', sum_scan T fuel ts r l = WOk (r', l') ->
  (forall p, In p r -> In p r') /\ (forall t, In t l -> In t l') /\
  (forall t, In t ts -> match t with IRec q => forall p, In p q -> In p r' | _ => In t l' \/ Exists (same T t) l' end).
Proof.
  induction ts as [|t ts IH]; intros r l r' l' H; cbn [sum_scan] in H.
  - apply WOk_inj', pair_inj in H. destruct H as [<- <-]. split; [auto|]. split; [auto|]. intros t [].
  - assert (REST : forall b, is_rec_ty t = false -> contained T fuel t l = WOk b -> sum_scan T fuel ts r (if b then l else l ++ [t]) = WOk (r', l') ->
      (forall p, In p r -> In p r') /\ (forall t, In t l -> In t l') /\
      (forall u, In u (t :: ts) -> match u with IRec q => forall p, In p q -> In p r' | _ => In u l' \/ Exists (same T u) l' end)).
    { intros b NR Hb Hs. destruct (IH _ _ _ _ Hs) as (A & B & C). split; [exact A|]. split; [intros u Iu; apply B; destruct b; [exact Iu|apply in_or_app; auto]|].
      intros u [<-|Iu]; [|exact (C u Iu)]. assert (X : In t l' \/ Exists (same T t) l'); [|destruct t; try exact X; discriminate].
      destruct b; [|left; apply B, in_or_app; right; left; reflexivity]. right. pose proof (proj1 (contained_ok Hb) eq_refl) as X.
      apply Exists_exists in X. destruct X as (v & Iv & Sv). apply Exists_exists. exists v. auto. }
    destruct t as [|q| | |t]; try (apply wbind_ok in H; destruct H as (b & Hb & H); exact (REST b eq_refl Hb H)).
    destruct (IH _ _ _ _ H) as (A & B & C). split; [intros p Ip; apply A, in_rec_union; auto|]. split; [exact B|].
    intros u [<-|Iu]; [|exact (C u Iu)]. intros p Ip. apply A, in_rec_union. auto.
Qed.
Theorem reduce_sum_duplicate T fuel ts u r r' : same T u u -> In u ts -> reduce_sum T fuel ts = WOk r -> reduce_sum T fuel (ts ++ [u]) = WOk r' -> r' = r.
Proof.
  intros REFL Iu H H'. unfold reduce_sum in H. destruct ts as [|t0 ts0] eqn:ET; [discriminate|]. rewrite <- ET in *.
  assert (Q : reduce_sum T fuel (ts ++ [u]) = wbind (sum_scan T fuel (ts ++ [u]) [] []) (fun q => WOk (sum_verdict (fst q) (snd q)))) by (rewrite ET; reflexivity).
  rewrite Q in H'. clear Q. apply wbind_ok in H. destruct H as ((rr & ll) & Hs & H). apply WOk_inj' in H. subst r.
  rewrite sum_scan_app, Hs in H'. cbn [wbind fst snd] in H'. destruct (sum_scan_grows Hs) as (_ & _ & C). specialize (C u Iu).
  apply wbind_ok in H'. destruct H' as ((r2 & l2) & H2 & H'). apply WOk_inj' in H'. subst r'. cbn [sum_scan] in H2.
  assert (CONT : forall b, is_rec_ty u = false -> contained T fuel u ll = WOk b -> sum_scan T fuel [] rr (if b then ll else ll ++ [u]) = WOk (r2, l2) -> (r2, l2) = (rr, ll)).
  { intros b NR Hb Q. cbn [sum_scan] in Q. apply WOk_inj' in Q. assert (b = true); [|subst b; symmetry; exact Q]. apply (contained_ok Hb).
    assert (X : In u ll \/ Exists (same T u) ll) by (destruct u; try exact C; discriminate). destruct X as [X|X]; [|exact X].
    apply Exists_exists. exists u. split; [exact X|exact REFL]. }
  assert (Z : (r2, l2) = (rr, ll)).
  { destruct u as [|q| | |u]; try (apply wbind_ok in H2; destruct H2 as (b & Hb & H2); exact (CONT b eq_refl Hb H2)).
    rewrite (rec_union_in C) in H2. apply WOk_inj' in H2. congruence. }
  injection Z as -> ->. reflexivity.
Qed.

(** ---------------- source grammars ---------------- *)
Theorem recs_removed E fuel G st1 : well_built G -> surface (igrammar G) E fuel (mkT (itable G E) false) = WOk st1 ->
  exists st2, reduce_all_rec (igrammar G) st1 = WOk st2.
Proof.
  intros WB H1. apply (reduce_all_rec_total (ig_typable WB)). destruct (blank_inv E (ig_blank G E)) as [I0 _]. unfold surface in H1.
  exact (proj1 (@surface_ok (igrammar G) E (ig_typable WB) (own G) (ig_owned WB) fuel (rules (igrammar G)) (mkT (itable G E) false) st1 (incl_refl _) I0 H1)).
Qed.
Theorem inferred_settled E fuel G st1 st2 st3 : well_built G -> surface (igrammar G) E fuel (mkT (itable G E) false) = WOk st1 ->
  reduce_all_rec (igrammar G) st1 = WOk st2 -> depth (igrammar G) E fuel fuel st2 = WOk st3 -> terr st3 = false ->
  length (tys st3) = S (length (exprs G)) /\ forall i t, nth_error (tys st3) i = Some t -> settledb t = true.
Proof.
  intros WB H1 H2 H3 E3. destruct (inference_resolved (ig_typable WB) (ig_owned WB) (ig_forest WB) (ig_blank G E) H1 H2 H3 E3) as [L S1].
  rewrite ig_len in L. auto.
Qed.
Theorem typed_flat E fuel G G' : well_built G -> type_inference E fuel G = WOk (Some G') ->
  forall i js, ty_of G' i = Some (TTuple js) ->
    2 <= length js /\ Forall (fun j => exists u, ty_of G' j = Some u /\ u <> TUnit /\ forall ks, u <> TTuple ks) js.
Proof.
  intros WB H. destruct (infer_inv H) as (st1 & st2 & st3 & out & H1 & E1 & H2 & H3 & E3 & H4 & _ & ->). clear H.
  destruct (blank_inv E (ig_blank G E)) as [I0 S0]. unfold surface in H1.
  destruct (@surface_ok (igrammar G) E (ig_typable WB) (own G) (ig_owned WB) fuel (rules (igrammar G)) (mkT (itable G E) false) st1 (incl_refl _) I0 H1) as (I1 & X1 & _ & KN).
  pose proof (@surface_shape (igrammar G) E (ig_typable WB) (own G) (ig_owned WB) fuel (rules (igrammar G)) (mkT (itable G E) false) st1 (incl_refl _) I0 H1 S0) as S1.
  assert (KN' : forall rl, In rl (rules (igrammar G)) -> known_ty (tys st1) (rexpr rl)) by (intros rl Irl; exact (KN rl rl Irl (find_self (ig_forest WB) Irl))).
  destruct (@inference_end (igrammar G) E (ig_typable WB) (own G) (ig_owned WB) (ig_forest WB) (fun _ => False) fuel st1 st2 st3 I1 S1 KN' H2 ltac:(intros y e t _ _ _ _ _ []) H3 E3) as [D3 _].
  destruct (reduce_finals_at H4) as [LO FIN]. pose proof (di_inv D3) as HI. intros i js Ei. unfold ty_of in *. cbn [types] in *.
  assert (Li : i < length (tys st3)) by (rewrite <- LO; apply nth_error_Some; congruence).
  destruct (nth_error (tys st3) i) as [t|] eqn:Et; [|apply nth_error_None in Et; lia]. destruct (FIN i t Et) as (u & Eu & Q). assert (u = TTuple js) by congruence. subst u.
  destruct t as [| | | |t]; try discriminate. cbn in Q. injection Q as ->. pose proof (iv_ty HI Et ltac:(discriminate)) as [L F]. split; [exact L|].
  eapply Forall_impl; [|exact F]. intros j (v & Ev & Vv). destruct (FIN j v Ev) as (w & Ew & Q). exists w. split; [exact Ew|].
  destruct v as [| | | |[]]; try discriminate; cbn in Q; injection Q as <-; split; congruence.
Qed.
Theorem recognizers_generated E fuel G G' : well_built G -> type_inference E fuel G = WOk (Some G') ->
  forall rl, In rl (rules G') -> exists f, gen_rule G' Rec rl = COk f.
Proof.
  intros WB H. destruct (infer_inv H) as (st1 & st2 & st3 & out & H1 & E1 & H2 & H3 & E3 & H4 & _ & ->). destruct (inferred_settled WB H1 H2 H3 E3) as [L _].
  destruct (reduce_finals_at H4) as [LO _]. intros rl Irl. cbn [gen_rule]. apply recognizer_total; [|exact Irl]. split.
  - intros i e Ee. exact (tg_children (ig_typable WB) (i := i) (e := e) Ee).
  - cbn [types exprs]. rewrite LO, L, app_length. cbn. lia.
  - intros i Ee. exact (tg_alt (ig_typable WB) (i := i) Ee).
  - intros i Ee. destruct (@ig_cases G i (EClass []) Ee) as [[_ Q]|[_ Q]]; [exact (wb_class WB Q)|discriminate].
  - intros r Ir. cbn [exprs rules] in *. rewrite app_length. pose proof (root_low WB Ir). cbn. lia.
Qed.
