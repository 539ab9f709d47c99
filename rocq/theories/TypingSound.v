(** Type inference as a whole: the invariants at the end of the two passes. *)
From Verif Require Import Base Grammar WellFormed Analysis AnalysisFacts Typing TypeRules SurfaceFacts RefFacts DepthFacts.
Set Implicit Arguments. Unset Strict Implicit.
Open Scope string_scope. Open Scope nat_scope. Open Scope list_scope.

Section Sound.
Variable G : grammar.
Variable E : tenv.
Hypothesis HG : typable G.
Variable own : nat -> string.
Hypothesis HO : owned G own.
Hypothesis HF : forest G.
Local Notation last := (length (exprs G) - 1).

(** ---------------- recursive types are replaced ---------------- *)
Lemma reduce_recs_at T l l' : reduce_recs G T l = WOk l' -> length l' = length l /\
  forall i t, nth_error l i = Some t -> exists t', nth_error l' i = Some t' /\ reduce_rec G T t = WOk t'.
Proof.
  revert l'. induction l as [|a l IH]; intros l' H; cbn [reduce_recs] in H.
  - injection H as <-. split; [reflexivity|]. intros [|i] t Q; discriminate.
  - apply wbind_ok in H. destruct H as (a' & Ea & H). apply wbind_ok in H. destruct H as (r & Er & H). apply WOk_inj' in H. subst l'.
    destruct (IH r Er) as [L K]. split; [cbn; congruence|]. intros [|i] t Q; cbn in Q; [injection Q as <-; exists a'; auto|exact (K i t Q)].
Qed.
Lemma reduce_rec_settled T t : is_rec_ty t = false -> reduce_rec G T t = WOk t.
Proof. destruct t; try reflexivity. discriminate. Qed.

Lemma all_rec_ok st st' : Inv G [] (tys st) -> Shape G E (tys st) -> reduce_all_rec G st = WOk st' ->
  Inv G [] (tys st') /\ Shape G E (tys st') /\ no_rec (tys st') /\ ext (tys st) (tys st') /\ terr st' = terr st
  /\ (forall i t, nth_error (tys st) i = Some t -> is_rec_ty t = false -> nth_error (tys st') i = Some t).
Proof.
  intros HI (RF & CI & KI) H. unfold reduce_all_rec in H. apply wbind_ok in H. destruct H as (T' & HT & H). apply WOk_inj' in H. subst st'. cbn [tys terr].
  set (T := tys st) in *. destruct (reduce_recs_at HT) as [LEN AT].
  assert (SAME : forall i t, nth_error T i = Some t -> is_rec_ty t = false -> nth_error T' i = Some t).
  { intros i t Et Rt. destruct (AT i t Et) as (t' & Et' & Q). rewrite (reduce_rec_settled _ Rt) in Q. congruence. }
  assert (BACK : forall i t', nth_error T' i = Some t' -> exists t, nth_error T i = Some t /\ reduce_rec G T t = WOk t').
  { intros i t' Et'. assert (L : i < length T) by (rewrite <- LEN; apply nth_error_Some; congruence).
    destruct (nth_error T i) as [t|] eqn:Et; [|apply nth_error_None in Et; lia]. destruct (AT i t Et) as (t2 & E2 & Q). exists t. split; [reflexivity|congruence]. }
  assert (REC : forall i r t', nth_error T i = Some (IRec r) -> reduce_rec G T (IRec r) = WOk t' -> is_rec_ty t' = false /\ tyok G [] T t' /\ t' <> IInfer).
  { intros i r t' Et Q. destruct (reduce_rec_ok HI (iv_ty HI Et ltac:(discriminate)) Q) as (A & [->|B] & C); [specialize (C eq_refl); congruence|]. auto. }
  assert (X : ext T T').
  { split; [exact LEN| |].
    - intros j t Et St. apply (SAME j t Et). destruct t; try reflexivity. discriminate.
    - intros j (t & Et & Nt). destruct (AT j t Et) as (t' & Et' & Q). exists t'. split; [exact Et'|]. destruct t; try (cbn in Q; injection Q as <-; congruence).
      exact (proj2 (proj2 (REC j r t' Et Q))). }
  assert (NR : no_rec T').
  { intros i t' Et'. destruct (BACK i t' Et') as (t & Et & Q). destruct t; try (cbn in Q; injection Q as <-; reflexivity). exact (proj1 (REC i r t' Et Q)). }
  assert (ST : forall y, stable T y -> stable T' y).
  { intros y (v & Ev & Sv & Nv). exists v. split; [exact (ex_settled X Ev Sv)|auto]. }
  split; [|split; [|split; [exact NR|split; [exact X|split; [reflexivity|exact SAME]]]]].
  - split; [rewrite LEN; exact (iv_len HI)| |].
    + destruct (iv_span HI) as (s & ES). exists s. rewrite LEN. exact (SAME _ _ ES eq_refl).
    + intros i t' Et' Nt'. destruct (BACK i t' Et') as (t & Et & Q). apply (tyok_ext X). destruct t; try (cbn in Q; injection Q as <-; exact (iv_ty HI Et Nt')).
      exact (proj1 (proj2 (REC i r t' Et Q))).
  - split; [|split].
    + intros x t' j Et' Ij. destruct (BACK x t' Et') as (t & Et & Q). apply (justified_mono ST). destruct t; try (cbn in Q; injection Q as <-; exact (RF x _ j Et Ij)).
      cbn [reduce_rec] in Q. destruct (is_poly r); [injection Q as <-; destruct Ij|]. apply first_non_rec_ok in Q. destruct Q as [->|(id & rl & I1 & F & Eu & R)]; [destruct Ij|].
      assert (RT : root G (rexpr rl)) by (exists rl; split; [exact (proj2 (find_rule_name F))|reflexivity]).
      destruct (RF _ _ _ Eu Ij) as [->|(x' & [-> | R'] & V)]; [left; reflexivity|right; eexists; split; [right; exact RT|exact V]|right; eauto].
    + intros k e u t' Lk Ek C Et'. destruct (BACK k t' Et') as (t & Et & Q). pose proof (CI k e u t Lk Ek C Et) as D.
      destruct (const_not_rec HG Ek C) as [RU NU]. assert (UP : forall p, unit_at T p -> unit_at T' p) by (intros p (w & Ew & Uw); exists w; split; [apply (ex_settled X Ew); destruct w; try discriminate; reflexivity|exact Uw]).
      assert (D' : t = IInfer \/ t = u \/ (is_unit_kind t = true /\ exists p, kid G p k /\ unit_at T' p) \/ (u = IExternal /\ exists s, t = IRegular (TRust s) /\ ascribed G s k))
        by (destruct D as [D|[D|[(D & p & Kp & Up)|D]]]; eauto 8).
      destruct t; try (cbn in Q; injection Q as <-; exact D').
      exfalso. destruct D as [D|[D|[[D _]|(_ & s & D & _)]]]; try discriminate. subst u. discriminate.
    + intros k e t' Lk Ek Et' Nt' U'. destruct (BACK k t' Et') as (t & Et & Q). eapply Forall_impl; [intros c; exact (ex_known X (j := c))|].
      destruct t; try (cbn in Q; injection Q as <-; exact (KI k e _ Lk Ek Et Nt' U')). exact (KI k e _ Lk Ek Et ltac:(discriminate) eq_refl).
Qed.

(** The beginning: no type is known. *)
Definition blank (T : list ity) : Prop := length T = length (exprs G) /\ (exists s, nth_error T (length T - 1) = Some (IRegular (TRust s))) /\
  forall i, i < length T - 1 -> nth_error T i = Some IInfer.
Lemma blank_at T i t : blank T -> nth_error T i = Some t -> t = IInfer \/ (i = last /\ exists s, t = IRegular (TRust s)).
Proof.
  intros (L & (s & ES) & B) Et. assert (i < length T) by (apply nth_error_Some; congruence).
  destruct (Nat.eq_dec i (length T - 1)) as [->|D]; [right; split; [lia|exists s; congruence]|left; rewrite (B i) in Et by lia; congruence].
Qed.
Lemma blank_inv T : blank T -> Inv G [] T /\ Shape G E T.
Proof.
  intros B. pose proof B as (L & SP & _). split; [split; [exact L|exact SP|]|split; [|split]].
  - intros i t Et Nt. destruct (blank_at B Et) as [->|(_ & s & ->)]; [congruence|exact I].
  - intros x t j Et Ij. destruct (blank_at B Et) as [->|(_ & s & ->)]; destruct Ij.
  - intros i e u t Li Ei C Et. destruct (blank_at B Et) as [->|(Q & s & ->)]; [auto|lia].
  - intros i e t Li Ei Et Nt U. destruct (blank_at B Et) as [->|(Q & s & ->)]; [congruence|lia].
Qed.

Lemma find_self rl : In rl (rules G) -> find_rule G (rname rl) = Some rl.
Proof.
  intros Irl. pose proof (fo_names HF) as ND. unfold find_rule. revert Irl ND. generalize (rules G). induction l as [|r l IH]; intros Irl ND; [destruct Irl|].
  cbn [find map] in *. inversion ND as [|? ? NI ND']; subst. destruct Irl as [->|Irl]; [rewrite String.eqb_refl; reflexivity|].
  destruct (String.eqb_spec (rname r) (rname rl)) as [Q|Q]; [|auto]. exfalso. apply NI. rewrite Q. apply in_map. exact Irl.
Qed.
Lemma reaches_trans es i j k : reaches es i j -> reaches es j k -> reaches es i k.
Proof. induction 1; intros; [assumption|]. econstructor; eauto. Qed.
Lemma kid_reaches p c : kid G p c -> reaches (exprs G) p c.
Proof. intros (_ & e & Ee & Ic). exact (rc_child Ee Ic (rc_self _ _)). Qed.
Lemma covered i : i < last -> exists x, root G x /\ reaches (exprs G) x i.
Proof.
  remember (last - i) as n eqn:En. revert i En. induction n as [n IH] using lt_wf_ind. intros i En Li.
  destruct (fo_cover HF Li) as [R|(p & K)]; [exists i; split; [exact R|constructor]|].
  pose proof (kid_lt HG K) as L1. assert (L2 : p < last) by (destruct K; assumption).
  destruct (IH (last - p) ltac:(lia) p eq_refl L2) as (x & R & P). exists x. split; [exact R|]. exact (reaches_trans P (kid_reaches K)).
Qed.

(** The end, for any set of rules whose expressions fit after the first pass, and any property of the table kept by the second pass. *)
Theorem inference_keeps good (Kept : list ity -> Prop) fuel st1 st2 st3 :
  (forall fuel i st t st', DInv G E own good (tys st) -> Kept (tys st) -> sexpr G E fuel [] i st = WOk (t, st') -> terr st' = false -> Kept (tys st')) ->
  (forall T i p, DInv G E own good T -> Kept T -> kid G p i -> unit_at T p -> Kept (update T i (IRegular TUnit))) ->
  (forall T i s, DInv G E own good T -> Kept T -> ascribed G s i -> i < last -> nth_error T i = Some IExternal -> (exists p, kid G p i /\ known_ty T p) -> Kept (update T i (IRegular (TRust s)))) ->
  Inv G [] (tys st1) -> Shape G E (tys st1) -> (forall rl, In rl (rules G) -> known_ty (tys st1) (rexpr rl)) ->
  reduce_all_rec G st1 = WOk st2 -> FitInv G E own good (tys st2) -> Kept (tys st2) -> depth G E fuel fuel st2 = WOk st3 -> terr st3 = false ->
  DInv G E own good (tys st3) /\ Kept (tys st3) /\ forall y, y < last -> done G (tys st3) y.
Proof.
  intros K1 K2 K3 HI HS KN H2 FI HK H3 NE. destruct (all_rec_ok HI HS H2) as (I2 & S2 & N2 & X & _ & _).
  assert (D2 : DInv G E own good (tys st2)) by (split; auto; intros rl Irl; exact (ex_known X (KN rl Irl))).
  unfold depth in H3. destruct (@depth_ok G E HG own HO HF good Kept K1 K2 K3 fuel fuel (map rexpr (rules G)) st2 st3 (fun _ => False)) as ((D3 & HK3) & S3 & DN & _); auto.
  - apply Forall_forall. intros x Hx. apply in_map_iff in Hx. destruct Hx as (rl & <- & Irl). exists rl. auto.
  - intros y [].
  - split; [exact D3|]. split; [exact HK3|]. intros y Ly. destruct (covered Ly) as (x & (rl & Irl & <-) & R). exact (DN _ (in_map rexpr _ _ Irl) y R).
Qed.
Theorem inference_end good fuel st1 st2 st3 : Inv G [] (tys st1) -> Shape G E (tys st1) -> (forall rl, In rl (rules G) -> known_ty (tys st1) (rexpr rl)) ->
  reduce_all_rec G st1 = WOk st2 -> FitInv G E own good (tys st2) -> depth G E fuel fuel st2 = WOk st3 -> terr st3 = false ->
  DInv G E own good (tys st3) /\ forall y, y < last -> done G (tys st3) y.
Proof.
  intros HI HS KN H2 FI H3 NE.
  destruct (@inference_keeps good (fun _ => True) fuel st1 st2 st3) as (A & _ & B); auto.
Qed.

(** No type is left to infer when the second pass ends without error. *)
Theorem inference_resolved fuel T0 st1 st2 st3 : blank T0 -> surface G E fuel (mkT T0 false) = WOk st1 -> reduce_all_rec G st1 = WOk st2 ->
  depth G E fuel fuel st2 = WOk st3 -> terr st3 = false ->
  length (tys st3) = length (exprs G) /\ forall i t, nth_error (tys st3) i = Some t -> settledb t = true.
Proof.
  intros B H1 H2 H3 NE. destruct (blank_inv B) as [I0 S0]. unfold surface in H1.
  destruct (@surface_ok G E HG own HO fuel (rules G) (mkT T0 false) st1 (incl_refl _) I0 H1) as (I1 & X1 & _ & KN).
  pose proof (@surface_shape G E HG own HO fuel (rules G) (mkT T0 false) st1 (incl_refl _) I0 H1 S0) as S1.
  assert (KN' : forall rl, In rl (rules G) -> known_ty (tys st1) (rexpr rl)) by (intros rl Irl; exact (KN rl rl Irl (find_self Irl))).
  destruct (@inference_end (fun _ => False) fuel st1 st2 st3 I1 S1 KN' H2 ltac:(intros y e t _ _ _ _ _ []) H3 NE) as [D3 DN].
  split; [exact (iv_len (di_inv D3))|]. intros i t Et. pose proof (di_rec D3 Et) as RT.
  assert (t <> IInfer); [|destruct t; cbn in *; congruence].
  assert (L : i < length (tys st3)) by (apply nth_error_Some; congruence). rewrite (iv_len (di_inv D3)) in L.
  destruct (Nat.eq_dec i last) as [->|D].
  - destruct (iv_span (di_inv D3)) as (s & ES). rewrite (iv_len (di_inv D3)) in ES. congruence.
  - destruct (dn_known (DN i ltac:(lia))) as (v & Ev & Nv). congruence.
Qed.
Lemma reduce_finals_ok l : (forall i t, nth_error l i = Some t -> settledb t = true) -> exists out, reduce_finals l = WOk out.
Proof.
  induction l as [|t l IH]; intros H; [exists []; reflexivity|]. cbn [reduce_finals]. pose proof (H 0 t eq_refl) as S1.
  assert (X : exists u, reduce_final t = WOk u) by (destruct t; try discriminate; cbn; eauto). destruct X as (u & ->). cbn [wbind].
  destruct IH as (out & ->); [intros i v Q; exact (H (S i) v Q)|]. cbn. eauto.
Qed.
Lemma reduce_finals_at l out : reduce_finals l = WOk out -> length out = length l /\
  forall i t, nth_error l i = Some t -> exists u, nth_error out i = Some u /\ reduce_final t = WOk u.
Proof.
  revert out. induction l as [|t l IH]; intros out H; cbn [reduce_finals] in H; [injection H as <-; split; [reflexivity|intros [|] ? Q; discriminate]|].
  apply wbind_ok in H. destruct H as (u & Eu & H). apply wbind_ok in H. destruct H as (r & Er & H). apply WOk_inj' in H. subst out.
  destruct (IH r Er) as [L K]. split; [cbn; congruence|]. intros [|i] v Q; cbn in Q; [injection Q as <-; exists u; auto|exact (K i v Q)].
Qed.
End Sound.
