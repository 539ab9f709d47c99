(** The errors on semantic actions without a value: the two passes of type inference together. *)
From Verif Require Import Base Grammar WellFormed Analysis AnalysisFacts Typing TypeRules SurfaceFacts RefFacts DepthFacts TypingSound TypingTop TypingVerdict TypingFuel FrontSpec TreeSpec TreeFacts TreeKinds TypeSpec TypeDen TypeSurface TypeDepth TypeExact UnitActions UnitDepth.
Set Implicit Arguments. Unset Strict Implicit.
Open Scope string_scope. Open Scope nat_scope. Open Scope list_scope.

Section Top.
Variable G : grammar.
Variable E : tenv.
Variable own : nat -> string.
Hypothesis HG : typable G.
Hypothesis HO : owned G own.
Hypothesis HF : forest G.
Local Notation last := (length (exprs G) - 1).
Hypothesis ONCE : forall i e, i < last -> expr_of G i = Some e -> NoDup (children e).
Hypothesis ROOTND : NoDup (map rexpr (rules G)).
Local Notation sub := (reaches (exprs G)).
Local Notation unit_act := (unit_act G E).

Lemma root_lt rl : In rl (rules G) -> rexpr rl < last.
Proof. intros I0. apply (fo_bound HF). exists rl. auto. Qed.
Lemma apart r1 r2 x : In r1 (rules G) -> In r2 (rules G) -> sub (rexpr r1) x -> sub (rexpr r2) x -> rexpr r1 = rexpr r2.
Proof.
  intros I1 I2 S1 S2. assert (Q : forall a b, In a (rules G) -> In b (rules G) -> sub (rexpr a) (rexpr b) -> rexpr b = rexpr a).
  { intros a b Ia Ib S. destruct (reaches_parent HG (root_lt Ia) S) as [Q|(p & _ & KP)]; [exact Q|]. destruct (fo_root HF (ex_intro _ b (conj Ib eq_refl)) KP). }
  destruct (sub_line HG HF ONCE S1 (root_lt I1) (root_lt I2) S2) as [S|S]; [symmetry|]; eapply Q; eassumption.
Qed.

(** What is typed bottom-up has its visited operands typed. *)
Definition full (T : list ity) : Prop := forall i e c, i < last -> closed T i -> expr_of G i = Some e -> In c (visits e) -> closed T c.
Lemma tyok_known path T t : tyok G path T t -> t <> IInfer. Proof. intros H ->. exact H. Qed.
Lemma closed_set T i t x : t <> IInfer -> closed T x -> closed (update T i t) x.
Proof.
  intros N (u & Eu & Nu). destruct (Nat.lt_ge_cases i (length T)) as [L|L].
  - unfold closed. rewrite nth_update by exact L. destruct (x =? i); eauto.
  - exists u. split; [|exact Nu]. assert (x < length T) by (apply nth_error_Some; congruence). unfold update. rewrite firstn_all2 by lia. rewrite nth_error_app1 by assumption. exact Eu.
Qed.
Lemma closed_unset T i t x : x <> i -> i < length T -> closed (update T i t) x -> closed T x.
Proof. intros D L (u & Eu & Nu). rewrite nth_update in Eu by exact L. destruct (Nat.eqb_spec x i); [contradiction|]. exists u. auto. Qed.
Lemma surface_full fuel rs st st' : incl rs (rules G) -> SurfaceFacts.Inv G [] (tys st) -> surface_from G E fuel rs st = WOk st' -> full (tys st) -> full (tys st').
Proof.
  intros SUB HI H F. refine (@surface_pres G E HG own HO (fun _ T => full T) (fun _ _ => True) (fun _ _ _ => True) _ _ _ _ _ _ _ fuel rs st st' SUB HI H F); try (intros; exact Logic.I).
  - intros path i e T t IV _ _ Ee O TY LO FT j e' c Lj C Ej Ic. assert (L : i < length T) by (apply nth_error_Some; congruence).
    apply closed_set; [exact (tyok_known TY)|]. destruct (Nat.eq_dec j i) as [->|D]; [|exact (FT j e' c Lj (closed_unset D L C) Ej Ic)].
    assert (e' = e) by congruence. subst e'. destruct e; cbn [visits local] in *; try (destruct Ic as [<-|[]]; exact (proj1 LO)); try (pose proof (proj1 LO) as FA; rewrite Forall_forall in FA; exact (FA c Ic)); destruct Ic.
  - intros path id rl T _ _ _ _ _ FT. exact FT.
  - intros path id rl T t1 t2 _ _ _ E1 N1 _ _ TY FT j e' c Lj C Ej Ic. assert (L : rexpr rl < length T) by (apply nth_error_Some; congruence).
    apply closed_set; [exact (tyok_known TY)|]. refine (FT j e' c Lj _ Ej Ic). destruct (Nat.eq_dec j (rexpr rl)) as [->|D]; [exists t1; auto|exact (closed_unset D L C)].
Qed.
Lemma full_spos T i x : full T -> i < last -> closed T i -> spos G i x -> closed T x.
Proof.
  intros F Li C SP. revert Li C. induction SP as [i|i e c x Ei Ic SP IH]; intros Li C; [exact C|]. apply IH; [|exact (F i e c Li C Ei Ic)].
  pose proof (child_less HG Ei (visits_children Ic)). lia.
Qed.
Lemma surface_touch fuel : forall rs st st', incl rs (rules G) -> surface_from G E fuel rs st = WOk st' -> forall j, nth_error (tys st') j = nth_error (tys st) j \/ rooted G j.
Proof.
  induction rs as [|rl rs IH]; intros st st' INC H j; cbn [surface_from] in H; [injection H as <-; auto|]. apply wbind_ok in H. destruct H as ([t s] & Es & H). cbn [snd] in H.
  destruct (IH s st' (fun z Iz => INC z (or_intror Iz)) H j) as [Q|Q]; [rewrite Q|right; exact Q]. clear IH H Q. unfold srule in Es. destruct (find_rule G (rname rl)) as [r|] eqn:FN; [|discriminate].
  apply wbind_ok in Es. destruct Es as (v & Ev & Es). destruct (find_rule_name FN) as [_ RI]. cbn [existsb] in Es.
  destruct v as [|r0| | |v]; try (apply WOk_inj', pair_inj in Es; destruct Es as [_ <-]; left; reflexivity).
  apply wbind_ok in Es. destruct Es as ([a b] & Ka & Es). apply wbind_ok in Es. destruct Es as (x & _ & Es). cbn [fst snd] in *. apply WOk_inj', pair_inj in Es. destruct Es as [_ <-]. unfold tset. cbn [tys].
  destruct (sexpr_touch Ka) as [L1 A1]. apply tget_ok in Ev. assert (L : rexpr r < length (tys b)) by (rewrite L1; apply nth_error_Some; congruence). rewrite nth_update by exact L.
  destruct (Nat.eqb_spec j (rexpr r)) as [->|D]; [right; exists r; split; [exact RI|constructor]|]. destruct (A1 j) as [Q|[Q|Q]]; [auto|right; exists r; auto|auto].
Qed.

(** The rules one after another. *)
Lemma roots_heard fuel sf : forall l st st', incl l (rules G) -> NoDup (map rexpr l) -> ready G (tys st) -> dexprs (dexpr G E fuel sf false None) (map rexpr l) st = WOk st' ->
  exists ns, along (dexpr G E fuel sf false None) (dexpr_notes G E fuel sf false None) (map rexpr l) st = WOk ns /\
    ready G (tys st') /\ shrinks (tys st) (tys st') /\ NoDup ns /\ (forall x, In x ns -> unit_act x /\ open (tys st) x /\ closed (tys st') x) /\
    (forall x, In x ns -> exists rl, In rl l /\ from G (rexpr rl) x) /\
    ((forall rl, In rl l -> quiet G (rexpr rl) (tys st)) -> forall rl, In rl l -> operand_acts G E (rexpr rl) ns).
Proof.
  induction l as [|rl l IH]; intros st st' INC ND RD H; cbn [map dexprs along] in *.
  - apply WOk_inj' in H. subst st'. exists []. split; [reflexivity|]. split; [exact RD|]. split; [split; auto|]. split; [constructor|]. split; [intros x []|]. split; [intros x []|intros _ r []].
  - apply wbind_ok in H. destruct H as (s & Hs & H). inversion ND as [|? ? NI ND']; subst. pose proof (INC rl (or_introl eq_refl)) as Irl.
    destruct (@dexpr_heard G E HG HF ONCE sf fuel false None (rexpr rl) st s (root_lt Irl) RD ltac:(discriminate) Hs) as (l1 & E1 & [R1 S1 N1 I1 F1 G1 A1]).
    destruct (IH s st' (fun z Iz => INC z (or_intror Iz)) ND' R1 H) as (l2 & E2 & R2 & S2 & N2 & I2 & G2 & A2). exists (l1 ++ l2). rewrite E1. cbn [wbind]. rewrite Hs. cbn [wbind]. rewrite E2. cbn [wbind].
    split; [reflexivity|]. destruct (disjoint_notes S1 S2 N1 N2 I1 I2) as (B1 & B2 & B3). split; [exact R2|]. split; [exact B1|]. split; [exact B2|]. split; [exact B3|]. split.
    + intros x Ix. apply in_app_or in Ix. destruct Ix as [Ix|Ix]; [exists rl; split; [left; reflexivity|exact (G1 x Ix)]|]. destruct (G2 x Ix) as (r & Ir & Q). exists r. split; [right; exact Ir|exact Q].
    + intros QU r [<-|Ir] a j b f x SA Ea SP Ux; apply in_or_app; [left; exact (A1 (QU rl (or_introl eq_refl)) a j b f x SA Ea SP Ux)|right].
      refine (A2 _ r Ir a j b f x SA Ea SP Ux). intros r' Ir'. refine (quiet_same _ (QU r' (or_intror Ir'))). intros z SZ. destruct (F1 z) as [Q|Q]; [exact Q|]. exfalso.
      apply NI. rewrite (apart Irl (INC r' (or_intror Ir')) Q SZ). apply in_map, Ir'.
Qed.

(** The report of type inference.  [a]: seen from the definition of a rule; the others, from the operand of an action, or of a typed expression. *)
Theorem notes_exact fuel T0 s1 s2 s3 : TypingSound.blank G T0 -> surface G E fuel (mkT T0 false) = WOk s1 -> terr s1 = false -> reduce_all_rec G s1 = WOk s2 -> depth G E fuel fuel s2 = WOk s3 ->
  exists l, notes_from G E fuel (mkT T0 false) = WOk l /\ NoDup l /\
    (forall x, In x l -> unit_act x /\ (rooted G x \/ exists rl, In rl (rules G) /\ from G (rexpr rl) x)) /\
    (forall x, unit_act x -> (rooted G x \/ exists a j b f, a < last /\ expr_of G a = Some (EAct j b f) /\ spos G j x) -> In x l).
Proof.
  intros B0 H1 X1 H2 H3. destruct (blank_inv E B0) as [I0 S0]. unfold surface in H1.
  destruct (@surface_ok G E HG own HO fuel (rules G) (mkT T0 false) s1 (incl_refl _) I0 H1) as (I1 & _ & _ & KN).
  pose proof (@surface_shape G E HG own HO fuel (rules G) (mkT T0 false) s1 (incl_refl _) I0 H1 S0) as SH1.
  assert (KN1 : forall rl, In rl (rules G) -> closed (tys s1) (rexpr rl)) by (intros rl Irl; exact (KN rl rl Irl (find_self HF Irl))).
  destruct (all_rec_ok HG I1 SH1 H2) as (I2 & _ & _ & EX & _ & SAME).
  assert (OPEN0 : forall x, x < last -> open T0 x) by (intros x L; destruct B0 as (L0 & _ & B0); rewrite L0 in B0; apply B0; exact L).
  destruct (surface_told H1) as (a & Ea & [TF TN TI TA]).
  assert (C12 : forall x, closed (tys s1) x -> closed (tys s2) x) by (intros x; exact (ex_known EX (j := x))).
  assert (O12 : forall x, open (tys s1) x -> open (tys s2) x) by (intros x O; exact (SAME x IInfer O eq_refl)).
  assert (RD2 : ready G (tys s2)).
  { split.
    - intros y js Q. destruct (iv_ty I2 Q ltac:(discriminate)) as [_ F]. eapply Forall_impl; [|exact F]. intros c (u & Eu & V). exists u. split; [exact Eu|]. intros ->. discriminate.
    - intros rl Irl. exact (C12 _ (KN1 rl Irl)).
    - destruct (iv_span I2) as (s & Q). exists (IRegular (TRust s)). split; [exact Q|discriminate]. }
  unfold depth in H3. destruct (@roots_heard fuel fuel (rules G) s2 s3 (incl_refl _) ROOTND RD2 H3) as (b & Eb & _ & _ & NB & IB & FB & AB).
  assert (TOUCH := @surface_touch fuel (rules G) (mkT T0 false) s1 (incl_refl _) H1). cbn [tys] in *.
  exists (a ++ b). split; [unfold notes_from; rewrite Ea; cbn [wbind]; unfold surface; rewrite H1; cbn [wbind]; rewrite X1, H2; cbn [wbind]; unfold depth_notes; rewrite Eb; reflexivity|]. split; [|split].
  - apply nodup_app; try assumption. intros x P Q. destruct (TI x P) as (_ & _ & C), (IB x Q) as (_ & O & _). exact (open_not O (C12 x C)).
  - intros x P. apply in_app_or in P. destruct P as [P|P].
    + destruct (TI x P) as (U & O & C). split; [exact U|]. left. destruct (TOUCH x) as [Q|Q]; [|exact Q]. exfalso. destruct C as (u & Eu & Nu). unfold open in O. congruence.
    + destruct (IB x P) as (U & _). split; [exact U|]. right. exact (FB x P).
  - intros x U [(rl & Irl & SP)|(y & j & b0 & f & Ly & Ey & SP)]; apply in_or_app; [left|right].
    + pose proof (root_lt Irl) as LR. pose proof (sub_le HG (sub_spos SP)). apply (TA x U); [apply OPEN0; lia|]. refine (full_spos _ LR (KN1 rl Irl) SP).
      refine (@surface_full fuel (rules G) (mkT T0 false) s1 (incl_refl _) I0 H1 _). cbn [tys]. intros i e c Li C. destruct (open_not (OPEN0 i Li) C).
    + destruct (covered HG HF Ly) as (r & (rl & Irl & <-) & R). refine (AB _ rl Irl y j b0 f x R Ey SP U). clear - HG HF ONCE OPEN0 TOUCH O12. intros r Ir y e c z SY Ey Ic NV SZ. apply O12. pose proof (root_lt Ir) as LR.
      pose proof (sub_le HG SY). pose proof (child_less HG Ey Ic). pose proof (sub_le HG SZ). unfold open. destruct (TOUCH z) as [Q|(r2 & Ir2 & SP)]; [rewrite Q; apply OPEN0; lia|]. exfalso.
      pose proof (apart Ir Ir2 (x := z) (sub_trans SY (rc_child Ey Ic SZ)) (sub_spos SP)) as RQ. rewrite <- RQ in SP. exact (spos_hidden HG HF ONCE LR SP SY Ey Ic NV SZ).
Qed.
End Top.
