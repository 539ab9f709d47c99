(** Type inference gives an answer on the grammars of the front end. *)
From Verif Require Import Base Grammar WellFormed Analysis AnalysisFacts Typing TypeRules SurfaceFacts RefFacts DepthFacts TypingSound TypingFit TypingTop TypingVerdict TypingTotal.
Set Implicit Arguments. Unset Strict Implicit.
Open Scope string_scope. Open Scope nat_scope. Open Scope list_scope.

(** The blank table. *)
Lemma blank_W G T : 0 < length (exprs G) -> blank G T -> W G T /\ known_ty T (length (exprs G) - 1).
Proof.
  intros NZ B. pose proof B as (LEN & (s & SP) & _). rewrite LEN in SP. split; [|exists (IRegular (TRust s)); split; [exact SP|discriminate]]. split.
  - exact LEN.
  - intros x t Et. apply good_const. destruct (blank_at B Et) as [->|(_ & s' & ->)]; reflexivity.
  - exists (fun _ => 0). intros x t Et St. split.
    + destruct (settled_count T) eqn:C; [|lia]. exfalso. unfold settled_count in C. apply length_zero_iff_nil in C.
      assert (I1 : In t (filter settledb T)) by (apply filter_In; split; [exact (nth_error_In _ _ Et)|exact St]). rewrite C in I1. destruct I1.
    + destruct (blank_at B Et) as [->|(_ & s' & ->)]; [discriminate|constructor].
Qed.

Section Answer.
Variable G : grammar.
Variable E : tenv.
Hypothesis WB : well_built G.
Local Notation N := (length (exprs G)).
Local Notation IG := (igrammar G).
Hypothesis HC : S N < cmp_fuel E.

(** After the bottom-up pass everything answers. *)
Lemma after_surface fuel st1 : (length (rules G) + 1) * S N <= fuel -> surface IG E fuel (mkT (itable G E) false) = WOk st1 -> W IG (tys st1) -> known_ty (tys st1) (S N - 1) ->
  exists r, type_inference E fuel G = WOk r.
Proof.
  intros LF H1 W1 SP1. assert (LEN : length (exprs IG) = S N) by apply ig_len. unfold type_inference, infer_from. rewrite H1. cbn [wbind].
  destruct (terr st1) eqn:E1; [eexists; reflexivity|].
  destruct (blank_inv E (ig_blank G E)) as [I0 _]. pose proof H1 as H1'. unfold surface in H1'.
  destruct (@surface_ok IG E (ig_typable WB) (own G) (ig_owned WB) fuel (rules IG) (mkT (itable G E) false) st1 (incl_refl _) I0 H1') as (_ & _ & _ & KN).
  assert (RK : roots_known IG (tys st1)) by (intros rl Irl; exact (KN rl rl Irl (find_self (ig_forest WB) Irl))).
  destruct (@recs_total IG (ig_typable WB) st1 W1 RK ltac:(rewrite LEN; exact SP1)) as (st2 & H2 & D2). rewrite H2. cbn [wbind].
  destruct (@depth_total IG E (ig_typable WB) (own G) (ig_owned WB) ltac:(rewrite LEN; exact HC) fuel ltac:(rewrite LEN; exact LF) st2 D2) as (st3 & H3 & D3). rewrite H3. cbn [wbind].
  destruct (terr st3) eqn:E3; [eexists; reflexivity|]. destruct (inferred_settled WB H1 H2 H3 E3) as [_ ST].
  destruct (reduce_finals_ok ST) as (out & ->). cbn [wbind].
  destruct (@have_type_total IG E (ig_typable WB) ltac:(rewrite LEN; exact HC) (tys st3) (d_w D3) (rules IG) (incl_refl _)) as (b & ->). cbn [wbind]. destruct b; eexists; reflexivity.
Qed.

Lemma start : W IG (itable G E) /\ known_ty (itable G E) (S N - 1).
Proof. rewrite <- (ig_len G). apply blank_W; [rewrite ig_len; lia|apply ig_blank]. Qed.
Lemma rules_fuel fuel : (length (rules G) + 1) * S N <= fuel -> length (rules IG) * length (exprs IG) <= fuel.
Proof. rewrite ig_len. cbn [rules igrammar]. nia. Qed.

(** It never runs for ever: it answers or panics. *)
Theorem inference_stops fuel : (length (rules G) + 1) * S N <= fuel -> type_inference E fuel G <> WLoop.
Proof.
  intros LF. destruct start as [W0 SP0]. destruct (blank_inv E (ig_blank G E)) as [I0 _].
  destruct (@surface_total IG E (ig_typable WB) (own G) (ig_owned WB) ltac:(rewrite ig_len; exact HC) True (fun _ _ => True) (fun _ _ => True)
    ltac:(auto) ltac:(auto) ltac:(auto) ltac:(auto) ltac:(auto) ltac:(auto) fuel (rules_fuel LF) (rules IG) (mkT (itable G E) false) (incl_refl _) I0 W0
    ltac:(rewrite ig_len; exact SP0) I) as [(st1 & H1 & W1 & SP1)|[H1 _]].
  - rewrite ig_len in SP1. destruct (after_surface LF H1 W1 SP1) as (r & ->). discriminate.
  - unfold type_inference, infer_from, surface. rewrite H1. discriminate.
Qed.

(** It answers when no rule depends, for its type, on itself through another rule. *)
Theorem inference_answers fuel rk self : layered G rk self (fun _ => false) -> (length (rules G) + 1) * S N <= fuel -> exists r, type_inference E fuel G = WOk r.
Proof.
  intros HL LF. pose proof (ig_layered WB HL) as HL'. pose proof (ig_typable WB) as HG. pose proof (ig_owned WB) as HO. pose proof (ig_forest WB) as HF.
  destruct start as [W0 SP0]. destruct (blank_inv E (ig_blank G E)) as [I0 S0].
  set (LAY := Lay IG E (own G) self (fun _ => false)). set (AT := At IG (own G) rk (fun _ => false)).
  assert (HERE : forall path T i, AT path i -> here IG (own G) path T i) by (intros [|a rest] T i A; [destruct A|exact (proj1 A)]).
  assert (L0 : LAY [] (itable G E)).
  { destruct S0 as (_ & C0 & K0). pose proof (ig_blank G E) as B. split; auto.
    - intros y e t Ly Ey Et St. destruct (blank_at B Et) as [->|(Q & _)]; [discriminate|lia].
    - intros y t Et _ r ->. destruct (blank_at B Et) as [Q|(_ & s & Q)]; discriminate.
    - intros rl r Irl _ Et. destruct (blank_at B Et) as [Q|(_ & s & Q)]; discriminate.
    - intros y e r Ly Ey Et. destruct (blank_at B Et) as [Q|(_ & s & Q)]; discriminate.
    - intros y e t Ly Ey Et _ St. destruct (blank_at B Et) as [->|(Q & _)]; [discriminate|lia]. }
  assert (P1 : forall path T c t, LAY path T -> AT path c -> nth_error T c = Some t -> t <> IInfer -> own_rec IG (own G) self (fun _ => false) c t) by exact (@lay_rec IG E (own G) rk self (fun _ => false)).
  assert (P2 : forall path i e j, expr_of IG i = Some e -> In j (visits e) -> AT path i -> AT path j) by exact (@at_child IG (own G) HO rk (fun _ => false)).
  assert (P3 : forall path T i id rl, expr_of IG i = Some (ENT id) -> find_rule IG id = Some rl -> ~ In id path -> here IG (own G) path T i ->
    nth_error T (rexpr rl) = Some IInfer -> AT path i -> AT (id :: path) (rexpr rl)) by exact (@at_call IG (own G) HO rk self (fun _ => false) HL').
  assert (P4 : forall path i e T t, Inv IG path T -> here IG (own G) path T i -> AT path i -> expr_of IG i = Some e -> nth_error T i = Some IInfer ->
    tyok IG path T t -> local IG E (own_rec IG (own G) self (fun _ => false)) path T e t -> LAY path T -> LAY path (update T i t))
    by exact (@lay_set IG E HG (own G) HO HF rk self (fun _ => false) HL').
  assert (P5 : forall path id rl T, Inv IG path T -> find_rule IG id = Some rl -> ~ In id path -> nth_error T (rexpr rl) = Some IInfer -> AT (id :: path) (rexpr rl) -> LAY path T -> LAY (id :: path) T)
    by exact (@lay_enter IG E (own G) rk self (fun _ => false)).
  assert (P6 : forall path id rl T t1 t2, Inv IG path T -> find_rule IG id = Some rl -> ~ In id path -> nth_error T (rexpr rl) = Some t1 -> t1 <> IInfer ->
    AT (id :: path) (rexpr rl) -> reduce_rec_entry_point IG T id t1 = WOk t2 -> tyok IG path T t2 -> LAY (id :: path) T -> LAY path (update T (rexpr rl) t2))
    by exact (@lay_leave IG E HG (own G) HO HF rk self (fun _ => false)).
  assert (P7 : forall rl, In rl (rules IG) -> AT [rname rl] (rexpr rl)) by exact (@at_top IG (own G) HO rk (fun _ => false)).
  assert (J0 : Inv IG [] (itable G E) /\ LAY [] (itable G E)) by auto.
  assert (HC' : length (exprs IG) < cmp_fuel E) by (rewrite ig_len; exact HC).
  assert (SP0' : known_ty (itable G E) (length (exprs IG) - 1)) by (rewrite ig_len; exact SP0).
  assert (X : (exists st', surface_from IG E fuel (rules IG) (mkT (itable G E) false) = WOk st' /\ W IG (tys st') /\ known_ty (tys st') (length (exprs IG) - 1)) \/
              (surface_from IG E fuel (rules IG) (mkT (itable G E) false) = WPanic /\ False)).
  2: { destruct X as [(st1 & H1 & W1 & SP1)|[_ []]]. rewrite ig_len in SP1. exact (after_surface LF H1 W1 SP1). }
  refine (@surface_total IG E HG (own G) HO HC' False (fun path T => Inv IG path T /\ LAY path T) AT _ _ _ _ _ _ fuel (rules_fuel LF) (rules IG) (mkT (itable G E) false) (incl_refl _) I0 W0 SP0' J0).
  - intros k path i st t st' PO A [HI HL1] H. destruct (sexpr_ok HG HO PO (HERE _ _ _ A) HI H) as (HI' & _). split; [exact HI'|].
    exact (@sexpr_pres IG E HG (own G) HO LAY AT (fun _ => own_rec IG (own G) self (fun _ => false)) P1 P2 P3 P4 P5 P6 k path i st t st' PO (HERE _ _ _ A) HI A H HL1).
  - exact P2.
  - intros path T i id rl Ee F NP Er _ A [HI HL1]. pose proof (P3 path T i id rl Ee F NP (HERE _ _ _ A) Er A) as A'. split; [exact A'|]. split; [apply Inv_weaken; exact HI|].
    exact (P5 path id rl T HI F NP Er A' HL1).
  - intros path id rl T t F NP PN Et Nt A [HI HL1] H. destruct (find_rule_name F) as [RN RI]. destruct t as [|r| | |t]; try (cbn in H; congruence).
    destruct (la_rec HL1 Et eq_refl eq_refl) as (_ & FR & _). rewrite (ow_root HO RI), RN in FR. cbn [reduce_rec_entry_point] in H. apply wbind_ok in H. destruct H as (e & _ & H).
    destruct (e =? id)%string; [|discriminate]. cbn [reduce_rec] in H. destruct (is_poly r); [discriminate|].
    assert (X : IInfer = IInvisible); [|discriminate].
    refine (@first_non_rec_self IG T (rexpr rl) r id Et _ (flat_map snd r) IInfer _ H); [intros rl' F'; congruence|].
    apply Forall_flat_map. eapply Forall_impl; [|exact FR]. intros p Q. cbv beta in Q. rewrite Q. constructor; auto.
  - intros T id rl F Er [HI HL1]. destruct (find_rule_name F) as [RN RI]. pose proof (P7 rl RI) as A. rewrite RN in A. split; [exact A|]. split; [apply Inv_weaken; exact HI|].
    exact (P5 [] id rl T HI F (fun x => x) Er A HL1).
  - intros k id st t st' HI [_ HL1] H. destruct (srule_ok HO (@sexpr_ok IG E HG (own G) HO k) ltac:(constructor) HI H) as [NT K]. specialize (NT eq_refl). destruct (K NT) as (HI' & _).
    split; [exact HI'|].
    refine (@srule_pres IG (own G) HO LAY AT P5 P6 (sexpr IG E k) (@sexpr_ok IG E HG (own G) HO k) _ [] id st t st' ltac:(constructor) HI _ H NT HL1).
    + exact (@sexpr_pres IG E HG (own G) HO LAY AT (fun _ => own_rec IG (own G) self (fun _ => false)) P1 P2 P3 P4 P5 P6 k).
    + intros rl F _ Er. destruct (find_rule_name F) as [RN RI]. pose proof (P7 rl RI) as A. rewrite RN in A. exact A.
Qed.
End Answer.
