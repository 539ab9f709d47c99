(** The errors on semantic actions without a value: what the top-down pass reports. *)
From Verif Require Import Base Grammar WellFormed Analysis AnalysisFacts Typing TypeRules SurfaceFacts RefFacts DepthFacts TypingSound TypingTop TypingVerdict TypingFuel FrontSpec TreeSpec TreeFacts TreeKinds TypeSpec TypeDen TypeSurface TypeDepth TypeExact UnitActions.
Set Implicit Arguments. Unset Strict Implicit.
Open Scope string_scope. Open Scope nat_scope. Open Scope list_scope.

Section Depth.
Variable G : grammar.
Variable E : tenv.
Hypothesis HG : typable G.
Hypothesis HF : forest G.
Local Notation last := (length (exprs G) - 1).
Hypothesis ONCE : forall i e, i < last -> expr_of G i = Some e -> NoDup (children e).
Local Notation sub := (reaches (exprs G)).
Local Notation unit_act := (unit_act G E).

(** Tuples refer to typed expressions; rules and spans are typed. *)
Record ready (T : list ity) : Prop := {
  rd_tup : forall y js, nth_error T y = Some (IRegular (TTuple js)) -> Forall (closed T) js;
  rd_roots : forall rl, In rl (rules G) -> closed T (rexpr rl);
  rd_span : closed T (length T - 1)
}.
(** A type that may be stored. *)
Definition fit (T : list ity) (t : ity) : Prop := t <> IInfer /\ forall js, t = IRegular (TTuple js) -> Forall (closed T) js.
Lemma fit_stored T y t : ready T -> nth_error T y = Some t -> t <> IInfer -> fit T t.
Proof. intros R Q N. split; [exact N|]. intros js ->. exact (rd_tup R Q). Qed.
Lemma closed_grows T T' : (forall x, closed T x -> closed T' x) -> forall l, Forall (closed T) l -> Forall (closed T') l.
Proof. intros H l F. eapply Forall_impl; [|exact F]. exact H. Qed.
Lemma ready_set T i t : ready T -> i < length T -> fit T t -> ready (update T i t) /\ (forall x, closed T x -> closed (update T i t) x) /\ nth_error (update T i t) i = Some t.
Proof.
  intros [A B C] L [N F].
  assert (K : forall x, closed T x -> closed (update T i t) x).
  { intros x (v & Ev & Nv). unfold closed. rewrite nth_update by exact L. destruct (x =? i); eauto. }
  split; [|split; [exact K|rewrite nth_update, Nat.eqb_refl by exact L; reflexivity]]. split.
  - intros y js. rewrite nth_update by exact L. destruct (y =? i); intros Q; apply (closed_grows K); [apply F; congruence|exact (A y js Q)].
  - intros rl I0. apply K, B, I0.
  - rewrite length_update by exact L. apply K, C.
Qed.

Lemma inlining_closed T : ready T -> forall l m, Forall (closed T) l -> tuple_inlining T l = WOk m -> Forall (closed T) m.
Proof.
  intros R. induction l as [|i l IH]; intros m F H; cbn [tuple_inlining] in H; [apply WOk_inj' in H; subst m; constructor|]. inversion F as [|? ? Ci Fl]; subst.
  apply wbind_ok in H. destruct H as (t & Et & H). apply wbind_ok in H. destruct H as (r & Er & H). apply WOk_inj' in H. apply tget_ok in Et. specialize (IH r Fl Er). subst m.
  destruct t as [|?| | |[| | | |js|]]; try (constructor; assumption). apply Forall_app. split; [exact (rd_tup R Et)|exact IH].
Qed.
Lemma drop_closed T p : forall l m, Forall (closed T) l -> tuple_drop T p l = WOk m -> Forall (closed T) m.
Proof.
  induction l as [|i l IH]; intros m F H; cbn [tuple_drop] in H; [apply WOk_inj' in H; subst m; constructor|]. inversion F as [|? ? Ci Fl]; subst.
  apply wbind_ok in H. destruct H as (t & Et & H). apply wbind_ok in H. destruct H as (r & Er & H). apply WOk_inj' in H. specialize (IH r Fl Er). subst m. destruct (p t); auto.
Qed.
Lemma tuple_fit T l t : ready T -> Forall (closed T) l -> reduce_tuple T l = WOk t -> fit T t.
Proof.
  intros R F H. unfold reduce_tuple in H. destruct l as [|a l0]; [discriminate|]. set (l := a :: l0) in *. apply wbind_ok in H. destruct H as (m & Em & H). pose proof (inlining_closed R F Em) as Fm.
  apply wbind_ok in H. destruct H as (r & Er & H). unfold tuple_rec in Er. apply wbind_ok in Er. destruct Er as ([q b] & _ & Er). apply WOk_inj' in Er. cbn [fst snd] in Er. subst r.
  destruct q as [|p q]; [|apply WOk_inj' in H; subst t; split; [discriminate|intros js Q; discriminate]].
  apply wbind_ok in H. destruct H as (n & En & H). pose proof (drop_closed Fm En) as Fn. destruct n as [|n0 n]; [apply WOk_inj' in H; subst t; split; [discriminate|intros js Q; discriminate]|].
  apply wbind_ok in H. destruct H as (o & Eo & H). pose proof (drop_closed Fn Eo) as Fo. destruct o as [|o0 [|o1 o]].
  - apply WOk_inj' in H. subst t. split; [discriminate|intros js Q; discriminate].
  - apply tget_ok in H. inversion Fo as [|? ? (v & Ev & Nv) _]; subst. assert (t = v) as -> by congruence. exact (fit_stored R Ev Nv).
  - apply WOk_inj' in H. subst t. split; [discriminate|]. intros js Q. injection Q as <-. exact Fo.
Qed.
(** Before reduction. *)
Definition crude (T : list ity) (t : ity) : Prop := t <> IInfer /\ forall js, t = IRegular (TTuple js) -> Forall (closed T) js.
Lemma reduce_fit T t u : ready T -> crude T t -> reduce T t = WOk u -> fit T u.
Proof.
  intros R [N F] H. destruct t as [|r| | |[| |j|j|l|s]]; cbn [reduce] in H; try congruence; try (apply WOk_inj' in H; subst u; split; [discriminate|intros js Q; discriminate]).
  - unfold reduce_unary in H. apply wbind_ok in H. destruct H as (v & _ & H). apply WOk_inj' in H. subst u. destruct v; split; try discriminate; intros js Q; discriminate.
  - unfold reduce_unary in H. apply wbind_ok in H. destruct H as (v & _ & H). apply WOk_inj' in H. subst u. destruct v; split; try discriminate; intros js Q; discriminate.
  - exact (tuple_fit R (F l eq_refl) H).
Qed.
Lemma scan_in T k : forall ts r n r' n', sum_scan T k ts r n = WOk (r', n') -> forall t, In t n' -> In t n \/ In t ts.
Proof.
  induction ts as [|t ts IH]; intros r n r' n' H u Iu; cbn [sum_scan] in H; [apply WOk_inj', pair_inj in H; destruct H as [_ <-]; auto|].
  assert (ONE : forall b, sum_scan T k ts r (if b : bool then n else n ++ [t]) = WOk (r', n') -> In u n \/ In u (t :: ts)).
  { intros b K. destruct (IH _ _ _ _ K u Iu) as [I0|I0]; [|right; right; exact I0]. destruct b; [auto|]. apply in_app_or in I0. destruct I0 as [I0|[<-|[]]]; [auto|right; left; reflexivity]. }
  destruct t; try (apply wbind_ok in H; destruct H as (b & _ & H); exact (ONE b H)). destruct (IH _ _ _ _ H u Iu) as [I0|I0]; [auto|right; right; exact I0].
Qed.
Lemma sum_crude T k ts t : Forall (fit T) ts -> reduce_sum T k ts = WOk (Some t) -> crude T t.
Proof.
  intros F H. unfold reduce_sum in H. destruct ts as [|a ts0]; [discriminate|]. set (ts := a :: ts0) in *. apply wbind_ok in H. destruct H as ([r n] & Es & H). cbn [fst snd] in H. apply WOk_inj' in H.
  assert (IN : forall u, In u n -> crude T u). { intros u Iu. destruct (scan_in Es Iu) as [[]|I0]. rewrite Forall_forall in F. exact (F u I0). }
  unfold sum_verdict in H. destruct (is_poly r); [discriminate|].
  assert (REST : match n with [] => Some (IRec r) | _ => if forallb is_unit_kind n then Some IInvisible else None end = Some t -> crude T t).
  { destruct n; [intros Q; injection Q as <-; split; [discriminate|intros js Q; discriminate]|]. destruct (forallb is_unit_kind (i :: n)); [|discriminate]. intros Q; injection Q as <-; split; [discriminate|intros js Q; discriminate]. }
  destruct n as [|t0 [|t1 [|t2 n]]]; try (exact (REST H)).
  - injection H as <-. apply IN. left. reflexivity.
  - destruct (is_external t0); [injection H as <-; apply IN; right; left; reflexivity|]. destruct (is_external t1); [injection H as <-; apply IN; left; reflexivity|]. exact (REST H).
Qed.

(** What the bottom-up visitor does once the rules are typed. *)
Record near (i : nat) (T T' : list ity) : Prop := {
  ne_ready : ready T';
  ne_fills : fills T T';
  ne_frame : forall j, nth_error T' j = nth_error T j \/ spos G i j;
  ne_full : forall y e c, open T y -> closed T' y -> expr_of G y = Some e -> In c (visits e) -> closed T' c
}.
Lemma near_refl i T : ready T -> near i T T.
Proof. intros R. split; [exact R|apply fills_refl|auto|]. intros y e c O C. destruct (open_not O C). Qed.
Lemma near_trans i T1 T2 T3 : near i T1 T2 -> near i T2 T3 -> near i T1 T3.
Proof.
  intros [R1 F1 A1 B1] [R2 F2 A2 B2]. split; [exact R2|exact (fills_trans F1 F2)| |].
  - intros j. destruct (A2 j) as [Q|Q]; [|auto]. rewrite Q. exact (A1 j).
  - intros y e c O C Ey Ic. destruct (@open_closed T2 y) as [O2|C2]; [rewrite (proj1 F1); exact (open_lt O)|exact (B2 y e c O2 C Ey Ic)|]. exact (closed_fills F2 (B1 y e c O C2 Ey Ic)).
Qed.
Lemma near_up i e c T T' : expr_of G i = Some e -> In c (visits e) -> near c T T' -> near i T T'.
Proof. intros Ee Ic [R F A B]. split; try assumption. intros j. destruct (A j) as [Q|Q]; [auto|right; exact (sp_child Ee Ic Q)]. Qed.

Lemma sexpr_near : forall k i st t st', ready (tys st) -> sexpr G E k [] i st = WOk (t, st') -> near i (tys st) (tys st') /\ nth_error (tys st') i = Some t /\ t <> IInfer.
Proof.
  induction k as [|k IH]; intros i st t st' RD H; [discriminate|]. cbn [sexpr] in H. apply wbind_ok in H. destruct H as (u & Eu & H). apply tget_ok in Eu.
  assert (MEMO : u <> IInfer -> WOk (u, st) = WOk (t, st') -> near i (tys st) (tys st') /\ nth_error (tys st') i = Some t /\ t <> IInfer).
  { intros N K. apply WOk_inj', pair_inj in K. destruct K as [<- <-]. split; [apply near_refl, RD|auto]. }
  destruct u as [|r| | |u]; try (apply MEMO; [discriminate|exact H]). clear MEMO.
  destruct (expr_of G i) as [e|] eqn:Ee; [|discriminate]. apply wbind_ok in H. destruct H as ([t1 st1] & E1 & H). cbn [fst snd] in H.
  apply wbind_ok in H. destruct H as (t2 & E2 & H). apply WOk_inj', pair_inj in H. destruct H as [<- <-]. unfold tset. cbn [tys].
  assert (FIN : near i (tys st) (tys st1) -> crude (tys st1) t1 -> Forall (closed (tys st1)) (visits e) -> near i (tys st) (update (tys st1) i t2) /\ nth_error (update (tys st1) i t2) i = Some t2 /\ t2 <> IInfer).
  { intros [R1 F1 A1 B1] C1 V1. pose proof (reduce_fit R1 C1 E2) as FT. assert (L : i < length (tys st1)) by (rewrite (proj1 F1); exact (open_lt Eu)).
    destruct (ready_set R1 L FT) as (R2 & K2 & AT). split; [|split; [exact AT|exact (proj1 FT)]].
    assert (S1 : forall j, j <> i -> nth_error (update (tys st1) i t2) j = nth_error (tys st1) j). { intros j D. rewrite nth_update by exact L. destruct (Nat.eqb_spec j i); congruence. }
    split; [exact R2| | |].
    - split; [rewrite length_update by exact L; exact (proj1 F1)|]. intros j. destruct (Nat.eq_dec j i) as [->|D]; [right; exact Eu|]. rewrite (S1 j D). exact (proj2 F1 j).
    - intros j. destruct (Nat.eq_dec j i) as [->|D]; [right; constructor|]. rewrite (S1 j D). exact (A1 j).
    - intros y e' c O C Ey Ic. apply K2. destruct (Nat.eq_dec y i) as [->|D].
      + assert (e' = e) by congruence. subst e'. rewrite Forall_forall in V1. exact (V1 c Ic).
      + apply (B1 y e' c O); auto. unfold closed in *. rewrite (S1 y D) in C. exact C. }
  assert (LEAF : forall w, visits e = [] -> (w <> IInfer /\ forall js, w <> IRegular (TTuple js)) -> WOk (w, st) = WOk (t1, st1) -> near i (tys st) (update (tys st1) i t2) /\ nth_error (update (tys st1) i t2) i = Some t2 /\ t2 <> IInfer).
  { intros w V [N NT] K. apply WOk_inj', pair_inj in K. destruct K as [<- <-]. apply FIN; [apply near_refl, RD|split; [exact N|intros js Q; destruct (NT js Q)]|rewrite V; constructor]. }
  assert (CHILD : forall j v, visits e = [j] -> (forall T, ready T -> closed T j -> crude T (v (length T))) -> wbind (sexpr G E k [] j st) (fun q => WOk (v (length (tys (snd q))), snd q)) = WOk (t1, st1) ->
    near i (tys st) (update (tys st1) i t2) /\ nth_error (update (tys st1) i t2) i = Some t2 /\ t2 <> IInfer).
  { intros j v V CR K. apply wbind_ok in K. destruct K as ([a b] & Ka & K). cbn [snd] in K. apply WOk_inj', pair_inj in K. destruct K as [<- <-]. destruct (IH _ _ _ _ RD Ka) as (NR & AT & N).
    assert (Cj : closed (tys b) j) by (exists a; auto). apply FIN; [refine (near_up Ee _ NR); rewrite V; left; reflexivity|exact (CR _ (ne_ready NR) Cj)|rewrite V; constructor; [exact Cj|constructor]]. }
  assert (SEQ : forall l s ts s', ready (tys s) -> incl l (visits e) -> sexprs (sexpr G E k []) l s = WOk (ts, s') -> near i (tys s) (tys s') /\ Forall (closed (tys s')) l /\ Forall (fit (tys s')) ts).
  { induction l as [|c l IL]; intros s ts s' RS INC K; cbn [sexprs] in K; [apply WOk_inj', pair_inj in K; destruct K as [<- <-]; split; [apply near_refl, RS|split; constructor]|].
    apply wbind_ok in K. destruct K as ([a b] & Ka & K). apply wbind_ok in K. destruct K as ([x y] & Kx & K). cbn [fst snd] in *. apply WOk_inj', pair_inj in K. destruct K as [<- <-].
    destruct (IH _ _ _ _ RS Ka) as (NR & AT & N). destruct (IL _ _ _ (ne_ready NR) (fun z Iz => INC z (or_intror Iz)) Kx) as (NR2 & FC & FF). pose proof (near_up Ee (INC c (or_introl eq_refl)) NR) as NU.
    split; [exact (near_trans NU NR2)|]. assert (GR : forall z, closed (tys b) z -> closed (tys y) z) by (intros z; exact (closed_fills (ne_fills NR2))).
    split; constructor; try assumption; [apply GR; exists a; auto|]. pose proof (fit_stored (ne_ready NR) AT N) as [F1 F2]. split; [exact F1|]. intros js Q. exact (closed_grows GR (F2 js Q)). }
  destruct e as [lit| |cls|id|p|l|l|j|j|j|j|j|j b f|j u|j|j]; cbn [swalk] in E1; try (refine (LEAF _ eq_refl _ E1); split; [discriminate|intros js Q; discriminate]).
  - unfold srule in E1. destruct (find_rule G id) as [rl|] eqn:FN; [|discriminate]. apply wbind_ok in E1. destruct E1 as (v & Ev & E1). apply tget_ok in Ev. destruct (find_rule_name FN) as [_ RI].
    destruct (rd_roots RD RI) as (w & Ew & Nw). assert (w = v) by congruence. subst w. assert (K : WOk (v, st) = WOk (t1, st1)) by (destruct v; [congruence|exact E1..]).
    apply WOk_inj', pair_inj in K. destruct K as [<- <-]. apply FIN; [apply near_refl, RD|exact (fit_stored RD Ev Nw)|constructor].
  - apply wbind_ok in E1. destruct E1 as ([ts sc] & Es & E1). cbn [snd] in E1. apply WOk_inj', pair_inj in E1. destruct E1 as [<- <-]. destruct (SEQ _ _ _ _ RD (incl_refl _) Es) as (A & B & C).
    apply FIN; [exact A| |exact B]. split; [discriminate|]. intros js Q. injection Q as <-. exact B.
  - apply wbind_ok in E1. destruct E1 as ([ts sc] & Es & E1). cbn [fst snd] in E1. apply wbind_ok in E1. destruct E1 as (r & Er & E1). apply WOk_inj' in E1. destruct (SEQ _ _ _ _ RD (incl_refl _) Es) as (A & B & C).
    destruct r as [v|]; apply pair_inj in E1; destruct E1 as [<- <-]; apply FIN; try assumption; [exact (sum_crude C Er)|split; [discriminate|intros js Q; discriminate]].
  - refine (CHILD j (fun _ => IRegular (TList j)) eq_refl _ E1). intros T _ _. split; [discriminate|intros js Q; discriminate].
  - refine (CHILD j (fun _ => IRegular (TList j)) eq_refl _ E1). intros T _ _. split; [discriminate|intros js Q; discriminate].
  - refine (CHILD j (fun _ => IRegular (TOptional j)) eq_refl _ E1). intros T _ _. split; [discriminate|intros js Q; discriminate].
  - refine (LEAF _ eq_refl _ E1). unfold action_type. destruct f as [[|id [|? ?]]|]; try (split; [discriminate|intros js Q; discriminate]). destruct (ret_of E id) as [[?|]|]; split; try discriminate; intros js Q; discriminate.
  - refine (LEAF _ eq_refl _ E1). destruct (tg_asc HG Ee) as [-> | [-> | (s & ->)]]; split; try discriminate; intros js Q; discriminate.
  - refine (CHILD j (fun n => IRegular (TTuple [n - 1; j])) eq_refl _ E1). intros T RT Cj. split; [discriminate|]. intros js Q. injection Q as <-. constructor; [exact (rd_span RT)|constructor; [exact Cj|constructor]].
  - refine (CHILD j (fun _ => IRegular (TRust (range_ty E))) eq_refl _ E1). intros T _ _. split; [discriminate|intros js Q; discriminate].
Qed.
(** When nothing below is typed yet, everything needed becomes typed. *)
Lemma sexpr_fresh k i st t st' : ready (tys st) -> sexpr G E k [] i st = WOk (t, st') -> (forall x, spos G i x -> open (tys st) x) -> forall x, spos G i x -> closed (tys st') x.
Proof.
  intros RD H OP. destruct (sexpr_near RD H) as (NR & AT & N).
  assert (W : forall y x, spos G y x -> spos G i y -> closed (tys st') y -> closed (tys st') x).
  { intros y x SP. induction SP as [y|y e c x Ey Ic SP IH]; intros SI C; [exact C|]. apply IH; [exact (spos_more SI Ey Ic)|]. exact (ne_full NR (OP y SI) C Ey Ic). }
  intros x SP. apply (W i x SP (sp_self _ _)). exists t. auto.
Qed.

(** ---------------- the top-down pass ---------------- *)
Definition shrinks (T T' : list ity) : Prop := length T' = length T /\ forall x, open T' x -> open T x.
Lemma shrinks_closed T T' x : shrinks T T' -> closed T x -> closed T' x.
Proof.
  intros [L S1] C. assert (LX : x < length T') by (rewrite L; destruct C as (u & Q & _); apply nth_error_Some; congruence).
  destruct (open_closed LX) as [O|C']; [|exact C']. destruct (open_not (S1 x O) C).
Qed.
Lemma fills_shrinks T T' : fills T T' -> shrinks T T'. Proof. intros F. split; [exact (proj1 F)|]. intros x. exact (fills_open F). Qed.
(** Hidden operands below [i] are not typed. *)
Definition quiet (i : nat) (T : list ity) : Prop := forall y e c z, sub i y -> expr_of G y = Some e -> In c (children e) -> ~ In c (visits e) -> sub c z -> open T z.
Definition operand_acts (i : nat) (l : list nat) : Prop := forall a j b f x, sub i a -> expr_of G a = Some (EAct j b f) -> spos G j x -> unit_act x -> In x l.
(** [x] is part of the operand of an action or of a typed expression of [i]. *)
Definition from (i x : nat) : Prop := exists a e j, sub i a /\ expr_of G a = Some e /\ ((exists b f, e = EAct j b f) \/ (exists t, e = EAsc j t)) /\ spos G j x.
Lemma from_kid i e c x : expr_of G i = Some e -> In c (children e) -> from c x -> from i x.
Proof. intros Ee Ic (a & e' & j & SA & R). exists a, e', j. split; [exact (rc_child Ee Ic SA)|exact R]. Qed.
Record heard (i : nat) (T T' : list ity) (l : list nat) : Prop := {
  he_ready : ready T';
  he_shrinks : shrinks T T';
  he_once : NoDup l;
  he_in : forall x, In x l -> unit_act x /\ open T x /\ closed T' x;
  he_frame : forall j, nth_error T' j = nth_error T j \/ sub i j;
  he_from : forall x, In x l -> from i x;
  he_all : quiet i T -> operand_acts i l
}.
(** The same for operands of [i]. *)
Record part_heard (i : nat) (cs : list nat) (T T' : list ity) (l : list nat) : Prop := {
  pa_ready : ready T';
  pa_shrinks : shrinks T T';
  pa_once : NoDup l;
  pa_in : forall x, In x l -> unit_act x /\ open T x /\ closed T' x;
  pa_frame : forall j, nth_error T' j = nth_error T j \/ exists c, In c cs /\ sub c j;
  pa_from : forall x, In x l -> from i x;
  pa_all : (forall c, In c cs -> quiet c T) -> forall c, In c cs -> operand_acts c l
}.
Lemma quiet_kid i e c T : expr_of G i = Some e -> In c (children e) -> quiet i T -> quiet c T.
Proof. intros Ee Ic Q y e' d z SY Ey Id NV SZ. exact (Q y e' d z (rc_child Ee Ic SY) Ey Id NV SZ). Qed.
Lemma quiet_same i T T' : (forall j, sub i j -> nth_error T' j = nth_error T j) -> quiet i T -> quiet i T'.
Proof.
  intros S1 Q y e d z SY Ey Id NV SZ. unfold open. rewrite S1; [exact (Q y e d z SY Ey Id NV SZ)|]. exact (sub_trans SY (rc_child Ey Id SZ)).
Qed.
Lemma disjoint_notes T1 T2 T3 l1 l2 : shrinks T1 T2 -> shrinks T2 T3 -> NoDup l1 -> NoDup l2 -> (forall x, In x l1 -> unit_act x /\ open T1 x /\ closed T2 x) -> (forall x, In x l2 -> unit_act x /\ open T2 x /\ closed T3 x) ->
  shrinks T1 T3 /\ NoDup (l1 ++ l2) /\ forall x, In x (l1 ++ l2) -> unit_act x /\ open T1 x /\ closed T3 x.
Proof.
  intros S1 S2 N1 N2 I1 I2. split; [split; [rewrite (proj1 S2); exact (proj1 S1)|intros x O; apply (proj2 S1), (proj2 S2), O]|]. split.
  - apply nodup_app; try assumption. intros x A B. destruct (I1 x A) as (_ & _ & C), (I2 x B) as (_ & O & _). exact (open_not O C).
  - intros x I0. apply in_app_or in I0. destruct I0 as [I0|I0]; [destruct (I1 x I0) as (A & B & C)|destruct (I2 x I0) as (A & B & C)]; (split; [exact A|]); split; auto.
    + exact (shrinks_closed S2 C).
    + exact (proj2 S1 x B).
Qed.

Definition hears (vd : bool -> option ity -> nat -> tst -> wres tst) (vn : bool -> option ity -> nat -> tst -> wres (list nat)) : Prop := forall uu asc i st st', i < last -> ready (tys st) ->
  (forall t, asc = Some t -> t <> IInfer /\ forall js, t <> IRegular (TTuple js)) -> vd uu asc i st = WOk st' -> exists l, vn uu asc i st = WOk l /\ heard i (tys st) (tys st') l.

Lemma along_heard (step : nat -> tst -> wres tst) (vn : nat -> tst -> wres (list nat)) i e : i < last -> expr_of G i = Some e ->
  (forall c st st', In c (children e) -> ready (tys st) -> step c st = WOk st' -> exists l, vn c st = WOk l /\ heard c (tys st) (tys st') l) ->
  forall cs st st', NoDup cs -> incl cs (children e) -> ready (tys st) -> dexprs step cs st = WOk st' -> exists l, along step vn cs st = WOk l /\ part_heard i cs (tys st) (tys st') l.
Proof.
  intros Li Ee V. induction cs as [|c cs IH]; intros st st' ND INC RD H; cbn [dexprs along] in *.
  - injection H as <-. exists []. split; [reflexivity|]. split; [exact RD|split; auto|constructor|intros x []|auto|intros x []|intros _ c []].
  - apply wbind_ok in H. destruct H as (s & Hs & H). inversion ND as [|? ? NI ND']; subst. pose proof (INC c (or_introl eq_refl)) as Ic.
    destruct (V c st s Ic RD Hs) as (l1 & E1 & [R1 S1 N1 I1 F1 G1 A1]). destruct (IH s st' ND' (fun z Iz => INC z (or_intror Iz)) R1 H) as (l2 & E2 & [R2 S2 N2 I2 F2 G2 A2]).
    exists (l1 ++ l2). rewrite E1. cbn [wbind]. rewrite Hs. cbn [wbind]. rewrite E2. cbn [wbind]. split; [reflexivity|]. destruct (disjoint_notes S1 S2 N1 N2 I1 I2) as (B1 & B2 & B3).
    split; try assumption.
    + intros j. destruct (F2 j) as [Q|(d & Id & Q)]; [|right; exists d; split; [right; exact Id|exact Q]]. rewrite Q. destruct (F1 j) as [Q1|Q1]; [auto|right; exists c; split; [left; reflexivity|exact Q1]].
    + intros x Ix. apply in_app_or in Ix. destruct Ix as [Ix|Ix]; [exact (from_kid Ee Ic (G1 x Ix))|exact (G2 x Ix)].
    + intros QU d [<-|Id] a j b f x SA Ea SP Ux; apply in_or_app; [left; exact (A1 (QU c (or_introl eq_refl)) a j b f x SA Ea SP Ux)|right].
      refine (A2 _ d Id a j b f x SA Ea SP Ux). intros d' Id'. refine (quiet_same _ (QU d' (or_intror Id'))). intros z SZ. destruct (F1 z) as [Q|Q]; [exact Q|]. exfalso.
      exact (sub_sib HG HF ONCE Li Ee Ic (INC d' (or_intror Id')) ltac:(intros ->; contradiction) Q SZ).
Qed.
(** One step: the type of [i] is set, then the operands are visited. *)
Lemma lift_heard i e cs T T1 T' l : expr_of G i = Some e -> incl cs (children e) -> incl (children e) cs -> length T1 = length T ->
  (forall j, j <> i -> nth_error T1 j = nth_error T j) -> (nth_error T1 i = nth_error T i \/ closed T1 i) -> part_heard i cs T1 T' l ->
  (quiet i T1 -> forall j b f x, e = EAct j b f -> spos G j x -> unit_act x -> In x l) -> heard i T T' l.
Proof.
  intros Ee I1 I2 LT SM AI [R S N P F FR A] OWN.
  assert (OP : forall x, open T1 x -> open T x). { intros x O. destruct (Nat.eq_dec x i) as [->|D]; [|unfold open in *; rewrite <- (SM x D); exact O]. destruct AI as [Q|C]; [unfold open in *; congruence|destruct (open_not O C)]. }
  split; try assumption.
  - split; [rewrite (proj1 S); exact LT|]. intros x O. exact (OP x (proj2 S x O)).
  - intros x Ix. destruct (P x Ix) as (U & O & C). auto.
  - intros j. destruct (Nat.eq_dec j i) as [->|D]; [right; constructor|]. destruct (F j) as [Q|(c & Ic & SC)]; [left; rewrite Q; exact (SM j D)|right; exact (rc_child Ee (I1 c Ic) SC)].
  - intros Q. assert (Q1 : quiet i T1).
    { intros y e' c z SY Ey Ic NV SZ. unfold open. rewrite SM; [exact (Q y e' c z SY Ey Ic NV SZ)|]. intros ->. pose proof (child_less HG Ey Ic). pose proof (sub_le HG SY). pose proof (sub_le HG SZ). lia. }
    intros a j b f x SA Ea SP Ux. inversion SA as [|i1 e1 c k1 Ec Ic SC]; subst.
    + apply (OWN Q1 j b f x); try assumption. unfold expr_of in *. congruence.
    + assert (e1 = e) by (unfold expr_of in *; congruence). subst e1. refine (A _ c (I2 c Ic) a j b f x SC Ea SP Ux). intros d Id. exact (quiet_kid Ee (I1 d Id) Q1).
Qed.
Lemma part_one i e c T T' l : expr_of G i = Some e -> In c (children e) -> heard c T T' l -> part_heard i [c] T T' l.
Proof.
  intros Ee Ic [R S N P F FR A]. split; try assumption.
  - intros j. destruct (F j) as [Q|Q]; [auto|right; exists c; split; [left; reflexivity|exact Q]].
  - intros x Ix. exact (from_kid Ee Ic (FR x Ix)).
  - intros Q d [<-|[]]. exact (A (Q c (or_introl eq_refl))).
Qed.
Lemma part_none i T : ready T -> part_heard i [] T T [].
Proof. intros R. split; [exact R|split; auto|constructor|intros x []|auto|intros x []|intros _ c []]. Qed.
(** The operand [j] is typed bottom-up, then visited. *)
Lemma part_surfaced i e j T T1 T' a b : j < last -> expr_of G i = Some e -> ((exists b f, e = EAct j b f) \/ (exists t, e = EAsc j t)) -> traced unit_act T T1 a -> near j T T1 -> heard j T1 T' b -> part_heard i [j] T T' (a ++ b).
Proof.
  intros Lj Ee KE [TF TN TI TA] [NR NF NA _] [R S N P F FR A]. assert (Ic : In j (children e)) by (destruct KE as [(? & ? & ->)|(? & ->)]; left; reflexivity). destruct (disjoint_notes (fills_shrinks TF) S TN N TI P) as (B1 & B2 & B3). split; try assumption.
  - intros z. destruct (F z) as [Q|Q]; [|right; exists j; split; [left; reflexivity|exact Q]]. rewrite Q. destruct (NA z) as [Q1|Q1]; [auto|right; exists j; split; [left; reflexivity|exact (sub_spos Q1)]].
  - intros x Ix. apply in_app_or in Ix. destruct Ix as [Ix|Ix]; [|exact (from_kid Ee Ic (FR x Ix))]. destruct (TI x Ix) as (_ & O & C). exists i, e, j. split; [constructor|]. split; [exact Ee|]. split; [exact KE|].
    destruct (NA x) as [Q|Q]; [|exact Q]. exfalso. destruct C as (v & Ev & Nv). unfold open in O. congruence.
  - intros Q c [<-|[]] x y f0 f z SA Ea SP Ux. apply in_or_app. right. refine (A _ x y f0 f z SA Ea SP Ux). intros y' e' d w SY Ey Id NV SW. unfold open.
    destruct (NA w) as [Q1|Q1]; [rewrite Q1; exact (Q j (or_introl eq_refl) y' e' d w SY Ey Id NV SW)|]. exfalso. exact (spos_hidden HG HF ONCE Lj Q1 SY Ey Id NV SW).
Qed.
Lemma check_tys t u st st' : check_ascription E t u st = WOk st' -> tys st' = tys st.
Proof. unfold check_ascription. intros H. apply wbind_ok in H. destruct H as (b & _ & H). apply WOk_inj' in H. subst st'. destruct b; reflexivity. Qed.

Definition mild (t : ity) : Prop := t <> IInfer /\ forall js, t <> IRegular (TTuple js).
Lemma mild_fit T t : mild t -> fit T t. Proof. intros [N F]. split; [exact N|]. intros js Q. destruct (F js Q). Qed.
Lemma act_sub i T j b f x : quiet i T -> expr_of G i = Some (EAct j b f) -> spos G j x -> open T x.
Proof. intros Q Ee SP. refine (Q i _ j x (rc_self _ i) Ee _ _ (sub_spos SP)); [left; reflexivity|intros []]. Qed.

Lemma dexpr_heard sf : forall k, hears (dexpr G E k sf) (dexpr_notes G E k sf).
Proof.
  induction k as [|k IH]; intros uu asc i st st' Li RD AS H; [discriminate|]. cbn [dexpr dexpr_notes] in *. apply wbind_ok in H. destruct H as (t & Et & H). rewrite Et. cbn [wbind]. apply tget_ok in Et.
  destruct (expr_of G i) as [e|] eqn:Ee; [|discriminate]. cbv zeta in *. assert (LI : i < length (tys st)) by (apply nth_error_Some; congruence).
  assert (KID : forall c, In c (children e) -> c < last) by (intros c Ic; pose proof (child_less HG Ee Ic); lia).
  (* the operands *)
  assert (WALK : forall uu st1 st', ready (tys st1) -> dwalk E (sexpr G E sf []) (dexpr G E k sf) uu asc e st1 = WOk st' ->
    exists l, dwalk_notes E (sexpr G E sf []) (sexpr_notes G E sf []) (dexpr G E k sf) (dexpr_notes G E k sf) uu asc e st1 = WOk l /\ part_heard i (children e) (tys st1) (tys st') l /\
      (quiet i (tys st1) -> forall j b f x, e = EAct j b f -> spos G j x -> unit_act x -> In x l)).
  { clear uu st st' t Et H RD LI. intros uu st st' RD H.
    assert (LEAF : children e = [] -> (forall j b f, e <> EAct j b f) -> WOk st = WOk st' -> exists l, WOk [] = WOk l /\ part_heard i (children e) (tys st) (tys st') l /\
      (quiet i (tys st) -> forall j b f x, e = EAct j b f -> spos G j x -> unit_act x -> In x l)).
    { intros C N K. apply WOk_inj' in K. subst st'. exists []. split; [reflexivity|]. rewrite C. split; [exact (part_none i RD)|]. intros _ j b f x Q. destruct (N j b f Q). }
    assert (MANY : forall step vn, (forall j b f, e <> EAct j b f) -> (forall c st st', In c (children e) -> ready (tys st) -> step c st = WOk st' -> exists l, vn c st = WOk l /\ heard c (tys st) (tys st') l) ->
      dexprs step (children e) st = WOk st' -> exists l, along step vn (children e) st = WOk l /\ part_heard i (children e) (tys st) (tys st') l /\
      (quiet i (tys st) -> forall j b f x, e = EAct j b f -> spos G j x -> unit_act x -> In x l)).
    { intros step vn N V K. destruct (along_heard Li Ee V (ONCE Li Ee) (incl_refl _) RD K) as (l & El & PH). exists l. split; [exact El|]. split; [exact PH|]. intros _ j b f x Q. destruct (N j b f Q). }
    assert (ONE : forall j, children e = [j] -> (forall j b f, e <> EAct j b f) -> dexpr G E k sf uu asc j st = WOk st' -> exists l, dexpr_notes G E k sf uu asc j st = WOk l /\ part_heard i (children e) (tys st) (tys st') l /\
      (quiet i (tys st) -> forall j b f x, e = EAct j b f -> spos G j x -> unit_act x -> In x l)).
    { intros j C N K. destruct (IH uu asc j st st' (KID j ltac:(rewrite C; left; reflexivity)) RD AS K) as (l & El & PH). exists l. split; [exact El|]. rewrite C. split; [exact (@part_one i _ _ _ _ _ Ee ltac:(rewrite C; left; reflexivity) PH)|].
      intros _ j0 b f x Q. destruct (N j0 b f Q). }
    destruct e as [lit| |cls|id|p|l|l|j|j|j|j|j|j b f|j u|j|j]; cbn [dwalk dwalk_notes] in *; try (apply LEAF; [reflexivity|discriminate|exact H]); try (apply ONE; [reflexivity|discriminate|exact H]).
    - destruct asc as [aty|].
      + refine (MANY _ _ _ _ H); [discriminate|]. intros c s s' Ic RS K. apply wbind_ok in K. destruct K as (t & Et & K). rewrite Et. cbn [wbind].
        refine (IH uu _ c s s' (KID c Ic) RS _ K). destruct (is_unit_kind t); [discriminate|exact AS].
      + refine (MANY _ _ _ _ H); [discriminate|]. intros c s s' Ic RS K. refine (IH uu None c s s' (KID c Ic) RS _ K). discriminate.
    - refine (MANY _ _ _ _ H); [discriminate|]. intros c s s' Ic RS K. exact (IH uu asc c s s' (KID c Ic) RS AS K).
    - pose proof (KID j (or_introl eq_refl)) as Lj. apply wbind_ok in H. destruct H as ([t s1] & E1 & H). cbn [snd] in H. destruct (sexpr_told E1) as (a & Ea & TR & _). destruct (sexpr_near RD E1) as (NR & _).
      destruct (IH uu None j s1 st' Lj (ne_ready NR) ltac:(discriminate) H) as (b0 & Eb & HE). rewrite Ea. cbn [wbind]. rewrite E1. cbn [wbind snd]. rewrite Eb. cbn [wbind]. exists (a ++ b0). split; [reflexivity|].
      split; [exact (part_surfaced Lj Ee (or_introl (ex_intro _ b (ex_intro _ f eq_refl))) TR NR HE)|]. intros Q j' b' f' x QE SP Ux. injection QE as <- <- <-. apply in_or_app. left. pose proof (fun y (SY : spos G j y) => act_sub Q Ee SY) as OP.
      exact (tr_all TR Ux (OP x SP) (sexpr_fresh RD E1 OP SP)).
    - pose proof (KID j (or_introl eq_refl)) as Lj. apply wbind_ok in H. destruct H as (s0 & H0 & H). rewrite H0. cbn [wbind].
      assert (SM : tys s0 = tys st). { destruct asc as [aty|]; [exact (check_tys H0)|apply WOk_inj' in H0; congruence]. } rewrite <- SM in *. clear H0 SM.
      assert (AU : forall t, Some u = Some t -> t <> IInfer /\ forall js, t <> IRegular (TTuple js)). { intros t Q. injection Q as <-. destruct (tg_asc HG Ee) as [-> | [-> | (s & ->)]]; split; intros; discriminate. }
      destruct uu.
      + cbn [wbind] in *. destruct (IH true (Some u) j s0 st' Lj RD AU H) as (l & El & HE). rewrite El. exists l. split; [reflexivity|]. split; [exact (@part_one i _ _ _ _ _ Ee (or_introl eq_refl) HE)|]. intros _ j' b' f' x QE. discriminate.
      + apply wbind_ok in H. destruct H as (s2 & H2 & H). apply wbind_ok in H2. destruct H2 as ([t s1] & E1 & H2). cbn [snd] in H2. apply WOk_inj' in H2. subst s2.
        destruct (sexpr_told E1) as (a & Ea & TR & _). destruct (sexpr_near RD E1) as (NR & _). destruct (IH false (Some u) j s1 st' Lj (ne_ready NR) AU H) as (b0 & Eb & HE).
        rewrite Ea. cbn [wbind]. rewrite E1. cbn [wbind snd]. rewrite Eb. cbn [wbind]. exists (a ++ b0). split; [reflexivity|]. split; [exact (part_surfaced Lj Ee (or_intror (ex_intro _ u eq_refl)) TR NR HE)|]. intros _ j' b' f' x QE. discriminate. }
  assert (SET : forall w, mild w -> ready (tys (tset i w st)) /\ length (tys (tset i w st)) = length (tys st) /\ (forall j, j <> i -> nth_error (tys (tset i w st)) j = nth_error (tys st) j) /\ closed (tys (tset i w st)) i).
  { intros w M. unfold tset. cbn [tys]. destruct (ready_set RD LI (mild_fit (tys st) M)) as (A & _ & B). split; [exact A|]. split; [apply length_update, LI|]. split.
    - intros j D. rewrite nth_update by exact LI. destruct (Nat.eqb_spec j i); congruence.
    - exists w. split; [exact B|exact (proj1 M)]. }
  assert (GO : forall uu s1, ready (tys s1) -> length (tys s1) = length (tys st) -> (forall j, j <> i -> nth_error (tys s1) j = nth_error (tys st) j) -> nth_error (tys s1) i = nth_error (tys st) i \/ closed (tys s1) i ->
    dwalk E (sexpr G E sf []) (dexpr G E k sf) uu asc e s1 = WOk st' ->
    exists l, dwalk_notes E (sexpr G E sf []) (sexpr_notes G E sf []) (dexpr G E k sf) (dexpr_notes G E k sf) uu asc e s1 = WOk l /\ heard i (tys st) (tys st') l).
  { intros u1 s1 R1 L1 S1 C1 K. destruct (WALK u1 s1 st' R1 K) as (l & El & PH & OWN). exists l. split; [exact El|]. exact (lift_heard Ee (incl_refl _) (incl_refl _) L1 S1 C1 PH OWN). }
  destruct uu.
  - destruct (SET (IRegular TUnit)) as (A & B & C & D); [split; [discriminate|intros js Q; discriminate]|]. exact (GO true _ A B C (or_intror D) H).
  - destruct asc as [aty|]; [|exact (GO _ st RD eq_refl (fun _ _ => eq_refl) (or_introl eq_refl) H)]. destruct (is_external t).
    + destruct (SET aty (AS aty eq_refl)) as (A & B & C & D). exact (GO false _ A B C (or_intror D) H).
    + apply wbind_ok in H. destruct H as (s1 & H1 & H). rewrite H1. cbn [wbind]. pose proof (check_tys H1) as SM. apply GO; rewrite ?SM; auto.
Qed.
End Depth.
