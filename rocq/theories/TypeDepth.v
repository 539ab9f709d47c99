(** Type inference, exactly: the top-down pass. *)
From Verif Require Import Base Grammar WellFormed Analysis AnalysisFacts Typing TypeRules SurfaceFacts RefFacts DepthFacts TypingSound TypingTop TypingVerdict FrontSpec TreeSpec TreeFacts TreeKinds TypeSpec TypeDen TypeSurface.
Set Implicit Arguments. Unset Strict Implicit.
Open Scope string_scope. Open Scope nat_scope. Open Scope list_scope.

Section Depth.
Variable G : grammar.
Variable E : tenv.
Variable rs : list (string * tree).
Variable own : nat -> string.
Variable rk : string -> nat.
Hypothesis HG : typable G.
Hypothesis HO : owned G own.
Hypothesis HF : forest G.
Hypothesis RS : Forall2 (fun r q => rname r = fst q /\ stored G rs (rexpr r) (snd q)) (rules G) rs.
Hypothesis HRK : forall n e id, In (n, e) rs -> needs rs e id -> rk id < rk n.
Local Notation last := (length (exprs G) - 1).
Hypothesis ROOTS : forall rl, In rl (rules G) -> rexpr rl < last.
Hypothesis ONCE : forall i e, i < last -> expr_of G i = Some e -> NoDup (children e).
Local Notation has := (has rs (facts_of E)).
Local Notation have := (have rs (facts_of E)).
Local Notation stored := (stored G rs).
Local Notation fine := (fine rs (facts_of E)).
Local Notation typable_tree := (typable_tree rs (facts_of E)).
Local Notation valueless := (valueless rs (facts_of E)).
Local Notation valued := (valued rs (facts_of E)).
Local Notation claimable := (claimable rs (facts_of E)).
Local Notation sub := (reaches (exprs G)).
Local Notation nonvoid := (nonvoid G E rs).
Local Notation keptfrom := (keptfrom G E rs).
Local Notation ref_ok := (ref_ok G E rs).
Local Notation Inv := (Inv G E rs).

Lemma sub_spos x y : spos G x y -> sub x y.
Proof. induction 1 as [x|x e c y Ex Ic R IH]; [constructor|]. exact (rc_child Ex (visits_children Ic) IH). Qed.
Lemma sub_trans x y z : sub x y -> sub y z -> sub x z.
Proof. induction 1 as [x|x e c y Ex Ic R IH]; intros H; [exact H|]. exact (rc_child Ex Ic (IH H)). Qed.
Lemma sub_kid i e c x : expr_of G i = Some e -> In c (children e) -> sub c x -> sub i x. Proof. intros A B C. exact (rc_child A B C). Qed.
Lemma child_less i e c : expr_of G i = Some e -> In c (children e) -> c < i.
Proof. intros A B. pose proof (tg_children HG A) as F. rewrite Forall_forall in F. exact (F c B). Qed.
Lemma sub_le x y : sub x y -> y <= x. Proof. exact (reaches_le HG (i := x) (j := y)). Qed.
Lemma a_kid i e c : i < last -> expr_of G i = Some e -> In c (children e) -> kid G i c. Proof. intros L A B. split; [exact L|exists e; auto]. Qed.
(** Two expressions around a third one are around each other. *)
Lemma sub_line a x : sub a x -> a < last -> forall b, b < last -> sub b x -> sub a b \/ sub b a.
Proof.
  induction 1 as [a|a e c x Ea Ic R IH]; intros La b Lb SB; [right; exact SB|]. pose proof (child_less Ea Ic). pose proof (a_kid La Ea Ic) as KC.
  destruct (IH ltac:(lia) b Lb SB) as [S1|S1]; [left; exact (rc_child Ea Ic S1)|].
  destruct (reaches_parent HG Lb S1) as [->|(p & S2 & KP)]; [left; exact (rc_child Ea Ic (rc_self _ _))|]. rewrite (fo_parent HF KC KP). right. exact S2.
Qed.
Lemma sub_sib i e a b x : i < last -> expr_of G i = Some e -> In a (children e) -> In b (children e) -> a <> b -> sub a x -> sub b x -> False.
Proof.
  intros L Ee Ia Ib N SA SB. pose proof (child_less Ee Ia). pose proof (child_less Ee Ib).
  destruct (sub_line SA ltac:(lia) (b := b) ltac:(lia) SB) as [S1|S1].
  - pose proof (reaches_kid HG HF (x := a) ltac:(lia) S1 (a_kid L Ee Ib) ltac:(congruence)) as Q. apply sub_le in Q. lia.
  - pose proof (reaches_kid HG HF (x := b) ltac:(lia) S1 (a_kid L Ee Ia) N) as Q. apply sub_le in Q. lia.
Qed.
(** What is below a hidden operand is not needed for the type. *)
Lemma spos_hidden j y x e c : j < last -> spos G j y -> sub j x -> expr_of G x = Some e -> In c (children e) -> ~ In c (visits e) -> sub c y -> False.
Proof.
  intros Lj SP. revert x e c Lj. induction SP as [j|j e' d y Ej Id R IH]; intros x e c Lj SX Ex Ic NV SC.
  - pose proof (child_less Ex Ic). apply sub_le in SX. apply sub_le in SC. lia.
  - pose proof (visits_children Id) as Id'. pose proof (child_less Ej Id') as Ld. assert (Lx : x < last) by (apply sub_le in SX; lia). pose proof (child_less Ex Ic).
    destruct (sub_line SC ltac:(lia) (b := d) ltac:(lia) (sub_spos R)) as [S1|S1].
    + (* d below c *) destruct (Nat.eq_dec d c) as [->|N].
      * assert (x = j) by exact (fo_parent HF (a_kid Lx Ex Ic) (a_kid Lj Ej Id')). subst x. assert (e' = e) by congruence. subst e'. contradiction.
      * pose proof (reaches_kid HG HF (x := c) ltac:(lia) S1 (a_kid Lj Ej Id') N) as Q. apply sub_le in Q. apply sub_le in SX. lia.
    + destruct (reaches_parent HG (x := d) ltac:(lia) S1) as [->|(p & S2 & KP)].
      * assert (x = j) by exact (fo_parent HF (a_kid Lx Ex Ic) (a_kid Lj Ej Id')). subst x. assert (e' = e) by congruence. subst e'. contradiction.
      * rewrite <- (fo_parent HF (a_kid Lx Ex Ic) KP) in S2. exact (IH x e c ltac:(lia) S2 Ex Ic NV SC).
Qed.

(** The expressions the type of which the types of the rules refer to. *)
Definition K (j : nat) : Prop := exists rl, In rl (rules G) /\ keptfrom (rexpr rl) j.
Lemma keptfrom_last x j : keptfrom x j -> j = x \/ exists p e, keptfrom x p /\ expr_of G p = Some e /\ In j (visits e) /\ nonvoid p.
Proof.
  induction 1 as [x|x e c j Ex Ic N R IH]; [auto|]. right. destruct IH as [->|(p & e' & A & B & C & D)].
  - exists x, e. split; [constructor|auto].
  - exists p, e'. split; [eapply kf_step; eassumption|auto].
Qed.
Lemma keptfrom_le x j : keptfrom x j -> j <= x.
Proof. induction 1 as [x|x e c j Ex Ic N R IH]; [lia|]. pose proof (child_less Ex (visits_children Ic)). lia. Qed.
Lemma K_low j : K j -> j < last.
Proof. intros (rl & I & KF). apply keptfrom_le in KF. pose proof (ROOTS I). lia. Qed.
Lemma K_kid p c : K c -> kid G p c -> K p /\ nonvoid p /\ exists e, expr_of G p = Some e /\ In c (visits e).
Proof.
  intros (rl & I & KF) KP. destruct (keptfrom_last KF) as [->|(q & e & A & B & C & D)].
  - exfalso. exact (fo_root HF (ex_intro _ rl (conj I eq_refl)) KP).
  - assert (Lq : q < last) by (apply K_low; exists rl; auto). assert (q = p) by exact (fo_parent HF (a_kid Lq B (visits_children C)) KP). subst q.
    split; [exists rl; auto|]. split; [exact D|exists e; auto].
Qed.
Lemma K_sub c x : c < last -> sub c x -> K x -> K c.
Proof.
  intros L SC. induction SC as [c|c e d x Ec Id R IH]; intros H; [exact H|]. pose proof (child_less Ec Id). exact (proj1 (K_kid (IH ltac:(lia) H) (a_kid L Ec Id))).
Qed.
Lemma K_root rl : In rl (rules G) -> K (rexpr rl). Proof. intros I. exists rl. split; [exact I|constructor]. Qed.

Definition DInv (T : list ity) : Prop := Inv K T /\ roots_filled G T.
Lemma den_K i T u y T' : K i -> nonvoid i \/ nothing y = true -> (forall j, K j \/ j = last -> forall v, nth_error T j = Some v -> v <> IInfer -> nth_error T' j = Some v) -> den (ref_ok i) T u y -> den (ref_ok i) T' u y.
Proof.
  intros Ki NV KE D. destruct NV as [NV|NV]; [|exact (den_void _ _ NV D)]. eapply den_keep; [|exact D]. intros j v Rj Ej Nj. split; [exact Rj|]. apply KE; try assumption.
  destruct Rj as [KF|[KF| ->]]; [left|left; exact KF|right; reflexivity]. destruct Ki as (rl & I & KF0). exists rl. split; [exact I|]. clear - KF0 KF.
  induction KF0 as [x|x e c j' Ex Ic N R IH]; [exact KF|]. eapply kf_step; eauto.
Qed.
Lemma nonvoid_dec i t y : stored i t -> has t y -> nonvoid i \/ nothing y = true.
Proof. intros S0 H. destruct (nothing y) eqn:N; [auto|]. left. exists t, y. auto. Qed.
Lemma DInv_set T i u : DInv T -> i < last -> ~ K i -> u <> IInfer -> DInv (update T i u).
Proof.
  intros [[IL IS IG] RF] Li NK NU. assert (L : i < length T) by lia. split; [split|].
  - rewrite length_update; assumption.
  - rewrite nth_update by exact L. destruct (Nat.eqb_spec last i); [lia|assumption].
  - intros j v Kj Lj Ej Nv. rewrite nth_update in Ej by exact L. destruct (Nat.eqb_spec j i) as [->|NE]; [contradiction|].
    destruct (IG j v Kj Lj Ej Nv) as ((t & y & A & B & C) & F). split.
    + exists t, y. split; [exact A|]. split; [exact B|]. eapply den_K; [exact Kj|exact (nonvoid_dec A B)| |exact C]. intros k Hk w Ew _. rewrite nth_update by exact L.
      destruct (Nat.eqb_spec k i) as [->|]; [exfalso; destruct Hk; [contradiction|lia]|exact Ew].
    + intros k Sk. destruct (F k Sk) as (w & Ew & Nw). unfold filled. rewrite nth_update by exact L. destruct (Nat.eqb_spec k i); [exists u; auto|exists w; auto].
  - intros rl I. destruct (RF rl I) as (w & Ew & Nw). unfold filled. rewrite nth_update by exact L. destruct (Nat.eqb_spec (rexpr rl) i); [exists u; auto|exists w; auto].
Qed.

(** The state below an expression. *)
Definition headed (u : ity) (y : vtype) : Prop := exists R T, den R T u y.
Definition local (T : list ity) (i : nat) : Prop := forall x, spos G i x -> exists u t y, nth_error T x = Some u /\ stored x t /\ has t y /\ headed u y.
Definition quiet (T : list ity) (i : nat) : Prop := forall x e c j, sub i x -> expr_of G x = Some e -> In c (children e) -> ~ In c (visits e) -> sub c j -> nth_error T j = Some IInfer.
Definition blank (T : list ity) (i : nat) : Prop := forall j, sub i j -> nth_error T j = Some IInfer.
Lemma blank_quiet T i : blank T i -> quiet T i.
Proof. intros B x e c j SX Ex Ic _ SC. apply B. exact (sub_trans SX (rc_child Ex Ic SC)). Qed.
Definition pre (m : place) (i : nat) (T : list ity) : Prop :=
  match m with
  | Open => local T i /\ quiet T i
  | Claimed => local T i /\ quiet T i /\ ~ K i
  | Hidden None => quiet T i /\ ~ K i
  | Hidden (Some _) => blank T i /\ ~ K i
  end.
Definition alike_below (i : nat) (T T' : list ity) : Prop := forall x, sub i x -> nth_error T' x = nth_error T x.
Lemma local_ext i T T' : alike_below i T T' -> local T i -> local T' i.
Proof. intros A L x SX. destruct (L x SX) as (u & t & y & Q & H). exists u, t, y. rewrite (A x (sub_spos SX)). auto. Qed.
Lemma blank_ext i T T' : alike_below i T T' -> blank T i -> blank T' i. Proof. intros A B j SJ. rewrite (A j SJ). auto. Qed.
Lemma quiet_ext i T T' : alike_below i T T' -> quiet T i -> quiet T' i.
Proof. intros A B x e c j SX Ex Ic NV SC. rewrite (A j (sub_trans SX (rc_child Ex Ic SC))). eapply B; eassumption. Qed.
Lemma pre_ext m i T T' : alike_below i T T' -> pre m i T -> pre m i T'.
Proof. intros A. destruct m as [|[y|]|]; cbn [pre]; intuition eauto using local_ext, blank_ext, quiet_ext. Qed.
Lemma quiet_kid T i e c : expr_of G i = Some e -> In c (children e) -> quiet T i -> quiet T c.
Proof. intros Ee Ic Q x e' d j SX Ex Id NV SD. eapply Q; try eassumption. exact (sub_kid Ee Ic SX). Qed.
Lemma quiet_hidden T i e c : expr_of G i = Some e -> In c (children e) -> ~ In c (visits e) -> quiet T i -> blank T c.
Proof. intros Ee Ic NV Q j SJ. eapply Q; try eassumption. constructor. Qed.
Lemma blank_kid T i e c : expr_of G i = Some e -> In c (children e) -> blank T i -> blank T c.
Proof. intros Ee Ic B j SJ. apply B. exact (sub_kid Ee Ic SJ). Qed.
Lemma local_kid T i e c : expr_of G i = Some e -> In c (visits e) -> local T i -> local T c.
Proof. intros Ee Ic L x SX. apply L. exact (sp_child Ee Ic SX). Qed.
Lemma set_kid T i e c u : i < length T -> expr_of G i = Some e -> In c (children e) -> alike_below c T (update T i u).
Proof.
  intros L Ee Ic x SX. rewrite nth_update by exact L. destruct (Nat.eqb_spec x i) as [->|]; [|reflexivity]. pose proof (child_less Ee Ic). apply sub_le in SX. lia.
Qed.
(** Not kept: below a hidden operand, and below what has no value. *)
Lemma unkept_hidden i e c : i < last -> expr_of G i = Some e -> In c (children e) -> ~ In c (visits e) -> ~ K c.
Proof. intros L Ee Ic NV Kc. destruct (K_kid Kc (a_kid L Ee Ic)) as (_ & _ & e' & A & B). assert (e' = e) by congruence. subst e'. contradiction. Qed.
Lemma unkept_void i e c t y : i < last -> expr_of G i = Some e -> In c (children e) -> stored i t -> has t y -> nothing y = true -> ~ K c.
Proof.
  intros L Ee Ic S0 H N Kc. destruct (K_kid Kc (a_kid L Ee Ic)) as (_ & (t' & y' & A & B & C) & _).
  pose proof (stored_has B A S0) as H'. rewrite (has_det H H') in N. congruence.
Qed.
Lemma unkept_kid i e c : i < last -> expr_of G i = Some e -> In c (children e) -> ~ K i -> ~ K c.
Proof. intros L Ee Ic N Kc. exact (N (proj1 (K_kid Kc (a_kid L Ee Ic)))). Qed.

(** What a run changes. *)
Definition frame (i : nat) (T T' : list ity) : Prop := forall j, ~ sub i j -> nth_error T' j = nth_error T j.
Definition Out (good : Prop) (i : nat) (st st' : tst) : Prop :=
  (terr st' = true /\ ~ good) \/ (terr st' = false /\ good /\ DInv (tys st') /\ frame i (tys st) (tys st')).
Lemma frame_sib i e a b T T' : i < last -> expr_of G i = Some e -> In a (children e) -> In b (children e) -> a <> b -> frame a T T' -> alike_below b T T'.
Proof. intros L Ee Ia Ib N F x SX. apply F. intros SA. exact (sub_sib L Ee Ia Ib N SA SX). Qed.

(** The surface of a hidden operand. *)
Lemma surf_hidden sf j t st u st' : stored j t -> j < last -> blank (tys st) j -> DInv (tys st) -> terr st = false -> sexpr G E sf [] j st = WOk (u, st') ->
  Out (typable_tree t) j st st' /\ (terr st' = false -> local (tys st') j /\ quiet (tys st') j).
Proof.
  intros S0 L B [HI RF] HT H. set (P := fun x => K x \/ spos G j x).
  assert (IP : Inv P (tys st)).
  { destruct HI as [IL IS IG]. split; try assumption. intros i v Pi Li Ei Nv. destruct Pi as [Pi|Pi]; [exact (IG i v Pi Li Ei Nv)|]. rewrite (B i (sub_spos Pi)) in Ei. congruence. }
  destruct (surf HG HO RS HRK ROOTS (P := P) ltac:(intros rl I; left; exact (K_root I)) (path := []) S0 L ltac:(intros k SK; right; exact SK) ltac:(left; exact RF) ltac:(intros id _ p []) IP HT H)
    as [[X N]|(X & I1 & X1 & U1 & (y & HY & DY) & [C1 _])].
  { split; [left; split; [exact X|intros (y & HY); exact (N y HY)]|congruence]. }
  specialize (C1 RF). assert (FR : frame j (tys st) (tys st')) by (intros k NS; apply C1; intros c [<-|[]] SP; exact (NS (sub_spos SP))). split.
  - right. split; [exact X|]. split; [exists y; exact HY|]. split; [|exact FR]. split; [|exact (roots_ext X1 RF)].
    destruct I1 as [IL IS IG]. split; try assumption. intros i v Ki. exact (IG i v (or_introl Ki)).
  - intros _. assert (NU : u <> IInfer) by (intros ->; exact (den_infer DY)). split.
    + intros x SX. pose proof (proj2 (in_good I1 (or_intror (sp_self G j)) L U1 NU) x SX) as (v & Ev & Nv).
      destruct (in_good I1 (i := x) (or_intror SX) ltac:(pose proof (sub_le (sub_spos SX)); lia) Ev Nv) as ((t' & y' & A1 & A2 & A3) & _). exists v, t', y'. split; [exact Ev|]. split; [exact A1|]. split; [exact A2|]. eexists _, _. exact A3.
    + intros x e c k SX Ex Ic NV SC. rewrite C1; [apply B; exact (sub_trans SX (rc_child Ex Ic SC))|]. intros d [<-|[]] SP. exact (spos_hidden L SP SX Ex Ic NV SC).
Qed.

(** Several operands. *)
Lemma dlist (i : nat) (e : expr) step (Q : nat -> list ity -> Prop) (good : tree -> Prop) : i < last -> expr_of G i = Some e ->
  (forall j st st', step j st = WOk st' -> keeps_err st st') ->
  (forall j t st st', In j (children e) -> stored j t -> Q j (tys st) -> DInv (tys st) -> terr st = false -> step j st = WOk st' -> Out (good t) j st st') ->
  (forall j T T', alike_below j T T' -> Q j T -> Q j T') ->
  forall js l, Forall2 stored js l -> NoDup js -> incl js (children e) -> forall st st', (forall j, In j js -> Q j (tys st)) -> DInv (tys st) -> terr st = false -> dexprs step js st = WOk st' ->
  (terr st' = true /\ exists t, In t l /\ ~ good t) \/
  (terr st' = false /\ (forall t, In t l -> good t) /\ DInv (tys st') /\ forall j, (forall c, In c js -> ~ sub c j) -> nth_error (tys st') j = nth_error (tys st) j).
Proof.
  intros Li Ee KE ST QE. induction js as [|a js IH]; intros l F2 ND INC st st' HQ HI HT H; inversion F2 as [|? t ? l' Sa F2']; subst; cbn [dexprs] in H.
  { apply WOk_inj' in H. subst st'. right. split; [exact HT|]. split; [intros t []|]. split; [exact HI|reflexivity]. }
  inversion ND as [|? ? NI ND']; subst. apply wbind_ok in H. destruct H as (s & Hs & H).
  assert (Ia : In a (children e)) by (apply INC; left; reflexivity).
  destruct (ST a t st s Ia Sa (HQ a (or_introl eq_refl)) HI HT Hs) as [[X N]|(X & GT & I1 & F1)].
  { left. split; [exact (dexprs_err KE H X)|]. exists t. split; [left; reflexivity|exact N]. }
  assert (HQ1 : forall j, In j js -> Q j (tys s)).
  { intros j Ij. refine (QE j _ _ _ (HQ j (or_intror Ij))). refine (frame_sib Li Ee Ia _ _ F1); [apply INC; right; exact Ij|intros ->; contradiction]. }
  destruct (IH l' F2' ND' ltac:(intros x Ix; apply INC; right; exact Ix) s st' HQ1 I1 X H) as [(X' & t' & It & N)|(X' & GL & I2 & F)].
  { left. split; [exact X'|]. exists t'. split; [right; exact It|exact N]. }
  right. split; [exact X'|]. split; [intros u [<-|Iu]; auto|]. split; [exact I2|]. intros j N. rewrite F by (intros c Ic; apply N; right; exact Ic). apply F1. apply N. left. reflexivity.
Qed.

(** ---- the rules of [fine], read backwards ---- *)
Lemma void_valued t : valueless t -> valued t -> False.
Proof. intros (y & H & N) (z & H' & N'). rewrite (has_det H H') in N. congruence. Qed.
Lemma hidden_bare a t : bare_node t = true -> (fine (Hidden a) t <-> forall c, In c (below t) -> fine (Hidden a) c).
Proof. intros B. split; [intros H; inversion H; subst; try discriminate B; assumption|intros H; exact (fi_hidden B H)]. Qed.
Lemma hidden_act a t b p : fine (Hidden a) (XAct t b p) <-> typable_tree t /\ fine (Hidden None) t.
Proof. split; [intros H; inversion H; subst; [discriminate|auto]|intros [A B]; exact (fi_hidden_act a b p A B)]. Qed.
Lemma hidden_asc a t ty : fine (Hidden a) (XAsc t ty) <-> (forall y, a = Some y -> akin y (asc_type ty)) /\ fine (Hidden (Some (asc_type ty))) t.
Proof. split; [intros H; inversion H; subst; [discriminate|auto]|intros [A B]; exact (fi_hidden_asc A B)]. Qed.
Lemma akin_unit y : akin y YUnit <-> y = YUnit.
Proof. unfold akin. destruct y; cbn; split; congruence. Qed.
Lemma hidden_range a t : fine (Hidden a) (XRange t) <-> (forall y, a = Some y -> y = YUnit) /\ fine (Hidden (Some YUnit)) t.
Proof. split; [intros H; inversion H; subst; [discriminate|auto]|intros [A B]; exact (fi_hidden_range A B)]. Qed.
Lemma open_void t : valueless t -> (fine Open t <-> fine (Hidden None) t).
Proof.
  intros V. split; [|exact (fi_nothing V)]. intros H. inversion H; subst; try assumption; try (exfalso; eapply void_valued; eassumption).
  destruct V as (y & Q & N). inversion Q; subst. discriminate N.
Qed.
Lemma open_bare t : valued t -> bare_node t = true -> (fine Open t <-> forall c, In c (below t) -> fine Open c).
Proof. intros V B. split; [|intros H; exact (fi_open V B H)]. intros H. inversion H; subst; try discriminate B; try assumption. exfalso. eapply void_valued; eassumption. Qed.
Lemma open_act t b p : valued (XAct t b p) -> (fine Open (XAct t b p) <-> typable_tree t /\ fine Open t).
Proof. intros V. split; [|intros [A B]; exact (fi_open_act V A B)]. intros H. inversion H; subst; try discriminate; auto. exfalso. eapply void_valued; eassumption. Qed.
Lemma open_asc t ty : valued (XAsc t ty) -> (fine Open (XAsc t ty) <-> typable_tree t /\ fine Claimed t).
Proof. intros V. split; [|intros [A B]; exact (fi_open_asc V A B)]. intros H. inversion H; subst; try discriminate; auto. exfalso. eapply void_valued; eassumption. Qed.
Lemma unit_valueless t : valueless (XAsc t (IRegular TUnit)). Proof. exists YUnit. split; [exact (ha_asc _ _ t (IRegular TUnit))|reflexivity]. Qed.
Lemma unit_open t : fine Open (XAsc t (IRegular TUnit)) <-> fine (Hidden (Some YUnit)) t.
Proof. rewrite (open_void (unit_valueless t)), hidden_asc. cbn [asc_type]. split; [tauto|]. intros H. split; [discriminate|exact H]. Qed.
Lemma open_range t : fine Open (XRange t) <-> fine Open (XAsc t (IRegular TUnit)).
Proof.
  rewrite unit_open. split; [|intros H; exact (fi_open_range H)]. intros H. inversion H; subst; try discriminate; try assumption. destruct H0 as (y & Q & N). inversion Q; subst. discriminate N.
Qed.
Lemma hidden_range' a t : fine (Hidden a) (XRange t) <-> fine (Hidden a) (XAsc t (IRegular TUnit)).
Proof. rewrite hidden_range, hidden_asc. cbn [asc_type]. split; intros [A B]; (split; [|exact B]); intros y Q; apply akin_unit; apply A; exact Q. Qed.
Lemma claimed_claimable t : fine Claimed t -> claimable t. Proof. intros H. inversion H; subst; assumption. Qed.
Lemma claimed_seq l : claimable (XSeq l) -> (fine Claimed (XSeq l) <-> forall c, In c l -> (valueless c -> fine Open c) /\ (valued c -> fine Claimed c)).
Proof. intros C. split; [intros H; inversion H; subst; auto|]. intros H. apply fi_claimed_seq; [exact C| |]; intros c Ic; apply (H c Ic). Qed.
Lemma claimed_alt l : claimable (XAlt l) -> (fine Claimed (XAlt l) <-> forall c, In c l -> fine Claimed c).
Proof. intros C. split; [intros H; inversion H; subst; auto|]. intros H. exact (fi_claimed_alt C H). Qed.
Lemma claimed_act t b p : claimable (XAct t b p) -> (fine Claimed (XAct t b p) <-> typable_tree t /\ fine Open t).
Proof. intros C. split; [intros H; inversion H; subst; auto|]. intros [A B]. exact (fi_claimed_act C A B). Qed.
Lemma claimed_asc t ty : claimable (XAsc t ty) -> (fine Claimed (XAsc t ty) <-> typable_tree t /\ fine Claimed t).
Proof. intros C. split; [intros H; inversion H; subst; auto|]. intros [A B]. exact (fi_claimed_asc C A B). Qed.
Definition rusty (z : vtype) : Prop := (exists s, z = YRust s) \/ z = YForeign.
Lemma seq_rust n y z : norm y -> rusty z -> seq_type [YRust n; y] = z -> nothing y = true.
Proof.
  intros N Z Q. destruct (nothing y) eqn:NY; [reflexivity|]. exfalso. inversion N as [| | | | |y' U N'|y' U N'|l L F]; subst y; cbn in Q; try discriminate NY; try (destruct Z as [(? & Z)|Z]; subst z; discriminate).
  destruct l as [|p [|q l]]; cbn in L; [lia|lia|]. inversion F as [|? ? (Np & _ & _) F']; subst. inversion F' as [|? ? (Nq & _ & _) F'']; subst. clear - Z Np Nq.
  unfold seq_type in Z. cbn [flat_map spread app forallb unseen andb filter nothing negb] in Z. rewrite Np, Nq in Z. cbn [negb] in Z. destruct Z as [(? & Z)|Z]; discriminate.
Qed.

(** ---- ascriptions ---- *)
Definition ascribed (t : ity) : Prop := t = IInvisible \/ t = IRegular TUnit \/ exists s, t = IRegular (TRust s).
Lemma check_rust u s st st' : check_ascription E u (IRegular (TRust s)) st = WOk st' -> ((exists s', u = IRegular (TRust s')) /\ st' = st) \/ ((forall s', u <> IRegular (TRust s')) /\ st' = tfail st).
Proof.
  unfold check_ascription. intros H. apply wbind_ok in H. destruct H as (b & Hb & H). apply WOk_inj' in H. subst st'. destruct (cmp_fuel E) as [|f]; [discriminate|]. cbn [syn_eq] in Hb.
  destruct u as [| | | |[]]; apply WOk_inj' in Hb; subst b; try (left; split; [eexists; reflexivity|reflexivity]); right; (split; [intros s'; discriminate|reflexivity]).
Qed.
Lemma check_asc t u st st' : ascribed t -> ascribed u -> check_ascription E t u st = WOk st' -> (akin (asc_type t) (asc_type u) /\ st' = st) \/ (~ akin (asc_type t) (asc_type u) /\ st' = tfail st).
Proof.
  unfold check_ascription. intros At Au H. apply wbind_ok in H. destruct H as (b & Hb & H). apply WOk_inj' in H. subst st'. destruct (cmp_fuel E) as [|f]; [discriminate|].
  destruct At as [-> |[-> |(s & ->)]], Au as [-> |[-> |(s' & ->)]]; cbn [syn_eq asc_type] in *; apply WOk_inj' in Hb; subst b; try (left; split; reflexivity); right; (split; [unfold akin; discriminate|reflexivity]).
Qed.
Lemma headed_unit u y : headed u y -> is_unit_kind u = nothing y. Proof. intros (R & T & D). exact (den_unit D). Qed.
Lemma headed_ext u y : headed u y -> (is_external u = true <-> y = YForeign). Proof. intros (R & T & D). inversion D; subst; cbn; split; intros Q; try discriminate Q; reflexivity. Qed.
Lemma headed_rust u y : headed u y -> ((exists s, u = IRegular (TRust s)) <-> exists s, y = YRust s).
Proof. intros (R & T & D). inversion D; subst; split; intros Q; try (destruct Q as (s' & Q); discriminate Q); eauto. Qed.

(** ---- results ---- *)
Lemma Out_iff A B i st st' : (A <-> B) -> Out A i st st' -> Out B i st st'.
Proof. intros Q [[X N]|(X & Y & Z)]; [left; tauto|right; tauto]. Qed.
Lemma frame_kid i e c T T' : expr_of G i = Some e -> In c (children e) -> frame c T T' -> frame i T T'.
Proof. intros Ee Ic F j N. apply F. intros SC. exact (N (sub_kid Ee Ic SC)). Qed.
Lemma Out_kid A i e c st st' : expr_of G i = Some e -> In c (children e) -> Out A c st st' -> Out A i st st'.
Proof. intros Ee Ic [H|(X & Y & Z & F)]; [left; exact H|right]. split; [exact X|]. split; [exact Y|]. split; [exact Z|]. exact (frame_kid Ee Ic F). Qed.
Lemma frame_trans i T1 T2 T3 : frame i T1 T2 -> frame i T2 T3 -> frame i T1 T3. Proof. intros A B j N. rewrite (B j N). exact (A j N). Qed.
Lemma Out_after A B i s1 s2 s3 : Out A i s1 s2 -> (terr s2 = true -> terr s3 = true) -> (terr s2 = false -> DInv (tys s2) -> Out B i s2 s3) -> Out (A /\ B) i s1 s3.
Proof.
  intros [[X N]|(X & Y & Z & F)] KE H; [left; split; [exact (KE X)|tauto]|]. destruct (H X Z) as [[X' N]|(X' & Y' & Z' & F')]; [left; tauto|right].
  split; [exact X'|]. split; [tauto|]. split; [exact Z'|exact (frame_trans F F')].
Qed.
Lemma Out_here (A : Prop) i st : A -> terr st = false -> DInv (tys st) -> Out A i st st.
Proof. intros a X Z. right. split; [exact X|]. split; [exact a|]. split; [exact Z|]. intros j _. reflexivity. Qed.
Lemma Out_set A i u st s' : i < length (tys st) -> Out A i (tset i u st) s' -> Out A i st s'.
Proof.
  intros L [H|(X & Y & Z & F)]; [left; exact H|right]. split; [exact X|]. split; [exact Y|]. split; [exact Z|]. intros j N. rewrite (F j N). cbn [tset tys]. rewrite nth_update by exact L.
  destruct (Nat.eqb_spec j i) as [->|]; [exfalso; apply N; constructor|reflexivity].
Qed.
Lemma Out_list i e js (good : tree -> Prop) l A st st' : expr_of G i = Some e -> incl js (children e) -> (A <-> forall t, In t l -> good t) ->
  ((terr st' = true /\ exists t, In t l /\ ~ good t) \/
   (terr st' = false /\ (forall t, In t l -> good t) /\ DInv (tys st') /\ forall j, (forall c, In c js -> ~ sub c j) -> nth_error (tys st') j = nth_error (tys st) j)) -> Out A i st st'.
Proof.
  intros Ee INC Q [(X & t & It & N)|(X & Y & Z & F)]; [left; split; [exact X|]; intros a; apply N; apply Q; assumption|right].
  split; [exact X|]. split; [tauto|]. split; [exact Z|]. intros j N. apply F. intros c Ic SC. exact (N (sub_kid Ee (INC c Ic) SC)).
Qed.

Lemma dwalk_err k sf uu asc e st st' : dwalk E (sexpr G E sf []) (dexpr G E k sf) uu asc e st = WOk st' -> terr st = true -> terr st' = true.
Proof.
  intros H. destruct e as [lit| |cls|id|p|l|l|j|j|j|j|j|j b f|j v|j|j]; cbn [dwalk] in H; try (injection H as <-; intros X; exact X); try (exact (dexpr_err H)).
  - destruct asc; refine (dexprs_err _ H); intros c x x' Q; [|exact (dexpr_err Q)]. apply wbind_ok in Q. destruct Q as (y & _ & Q). exact (dexpr_err Q).
  - refine (dexprs_err _ H). intros c x x'. apply dexpr_err.
  - apply wbind_ok in H. destruct H as ([tc sc] & Ec & H). intros X. exact (dexpr_err H (sexpr_err Ec X)).
  - apply wbind_ok in H. destruct H as (s1 & H1 & H). apply wbind_ok in H. destruct H as (s2 & H2 & H). intros X. apply (dexpr_err H).
    assert (X1 : terr s1 = true) by (destruct asc; [exact (check_err H1 X)|congruence]).
    destruct uu; [congruence|]. apply wbind_ok in H2. destruct H2 as ([tc sc] & Ec & H2). apply WOk_inj' in H2. subst s2. exact (sexpr_err Ec X1).
Qed.

Variable sf : nat.
Definition stands (uu : bool) (asc : option ity) (m : place) : Prop :=
  match m with
  | Open => uu = false /\ asc = None
  | Hidden None => uu = true /\ asc = None
  | Hidden (Some y) => uu = true /\ exists ty, asc = Some ty /\ asc_type ty = y /\ ascribed ty
  | Claimed => uu = false /\ exists s, asc = Some (IRegular (TRust s))
  end.
Definition good_d (k : nat) : Prop := forall m uu asc i t st st', stands uu asc m -> stored i t -> i < last -> pre m i (tys st) -> DInv (tys st) -> terr st = false ->
  dexpr G E k sf uu asc i st = WOk st' -> Out (fine m t) i st st'.

Section Step.
Variable k : nat.
Hypothesis IH : good_d k.
Ltac same_exprs := repeat match goal with E : expr_of G ?i = Some ?a, E' : expr_of G ?i = Some ?b |- _ =>
   first [constr_eq a b; clear E' | rewrite E in E'; first [discriminate E' | injection E' as ?; subst]] end.

(** One operand, surfaced and then walked. *)
Lemma surf_then m uu asc j t st u s1 st' : stands uu asc m -> (forall T, local T j -> quiet T j -> pre m j T) -> stored j t -> j < last -> blank (tys st) j -> DInv (tys st) -> terr st = false ->
  sexpr G E sf [] j st = WOk (u, s1) -> dexpr G E k sf uu asc j s1 = WOk st' -> Out (typable_tree t /\ fine m t) j st st'.
Proof.
  intros ST PM Sj Lj B HI HT E1 E2. destruct (surf_hidden Sj Lj B HI HT E1) as [O1 LQ]. refine (Out_after O1 (dexpr_err E2) _). intros X Z. destruct (LQ X) as [L1 Q1].
  eapply IH; eauto.
Qed.

(** Without a value. *)
Definition under (a : option vtype) (T : list ity) (e : expr) : Prop := forall c, In c (children e) ->
  ~ K c /\ match a with None => quiet T c /\ (~ In c (visits e) -> blank T c) | Some _ => blank T c end.
Lemma under_pre a T e c : under a T e -> In c (children e) -> pre (Hidden a) c T.
Proof. intros U Ic. destruct (U c Ic) as [NK H]. destruct a; cbn [pre]; [auto|]. destruct H. auto. Qed.
Lemma under_blank a T e c : under a T e -> In c (children e) -> ~ In c (visits e) -> blank T c.
Proof. intros U Ic NV. destruct (U c Ic) as [NK H]. destruct a; [exact H|]. apply H. exact NV. Qed.
Lemma hidden_list a asc i e js l st st' : stands true asc (Hidden a) -> i < last -> expr_of G i = Some e -> children e = js -> Forall2 stored js l -> under a (tys st) e -> DInv (tys st) -> terr st = false ->
  forall step, (forall j s, In j js -> pre (Hidden a) j (tys s) -> step j s = dexpr G E k sf true asc j s) -> (forall j st st', step j st = WOk st' -> keeps_err st st') -> dexprs step js st = WOk st' ->
  Out (forall c, In c l -> fine (Hidden a) c) i st st'.
Proof.
  intros ST Li Ee EJ F2 U HI HT step SE KE H. eapply (Out_list (js := js) (l := l) (good := fine (Hidden a)) Ee); [rewrite EJ; apply incl_refl|reflexivity|].
  eapply (dlist (step := step) (Q := fun j T => pre (Hidden a) j T) (good := fine (Hidden a)) Li Ee); try eassumption.
  - intros j t s s' Ij Sj PJ I1 T1 Es. rewrite SE in Es; [|rewrite <- EJ; exact Ij|exact PJ]. eapply IH; try eassumption. pose proof (child_less Ee Ij). lia.
  - intros j T T' A. apply pre_ext. exact A.
  - rewrite <- EJ. exact (ONCE Li Ee).
  - rewrite EJ. apply incl_refl.
  - intros j Ij. apply (under_pre U). rewrite EJ. exact Ij.
Qed.
Lemma walk_hidden a asc i t e st st' : stands true asc (Hidden a) -> stored i t -> i < last -> expr_of G i = Some e -> under a (tys st) e -> DInv (tys st) -> terr st = false ->
  dwalk E (sexpr G E sf []) (dexpr G E k sf) true asc e st = WOk st' -> Out (fine (Hidden a) t) i st st'.
Proof.
  intros ST S0 Li Ee U HI HT H.
  assert (LEAF : bare_node t = true -> below t = [] -> WOk st = WOk st' -> Out (fine (Hidden a) t) i st st').
  { intros B L Q. apply WOk_inj' in Q. subst st'. apply Out_here; try assumption. apply hidden_bare; [exact B|]. rewrite L. intros c []. }
  assert (ONE : forall c t', In c (children e) -> stored c t' -> (fine (Hidden a) t <-> fine (Hidden a) t') -> dexpr G E k sf true asc c st = WOk st' -> Out (fine (Hidden a) t) i st st').
  { intros c t' Ic Sc Q Hd. eapply Out_iff; [symmetry; exact Q|]. eapply Out_kid; [exact Ee|exact Ic|]. pose proof (child_less Ee Ic). eapply IH; try eassumption; [lia|]. exact (under_pre U Ic). }
  assert (SOLE : forall t', below t = [t'] -> bare_node t = true -> (fine (Hidden a) t <-> fine (Hidden a) t')).
  { intros t' BL BN. rewrite (hidden_bare a BN), BL. split; [intros X; apply X; left; reflexivity|]. intros X c [<-|[]]. exact X. }
  destruct e as [s| |iv|id|p|l|l|c|c|c|c|c|c b f|c ty|c|c]; cbn [dwalk] in H.
  - inversion S0; subst; same_exprs. apply LEAF; auto.
  - inversion S0; subst; same_exprs. apply LEAF; auto.
  - inversion S0; subst; same_exprs. apply LEAF; auto.
  - inversion S0; subst; same_exprs. apply LEAF; auto.
  - inversion S0; subst; same_exprs. apply LEAF; auto.
  - inversion S0 as [| | | | |? js l0 E0 F2| | | | | | | | | |]; subst; same_exprs. eapply Out_iff; [symmetry; apply (hidden_bare a); reflexivity|]. cbn [below].
    destruct a as [y|]; destruct ST as [_ ST]; [destruct ST as (ty & -> & Ty & At)|subst asc].
    + eapply hidden_list; try eassumption; [split; [reflexivity|exists ty; auto]|reflexivity| |].
      * intros j s _ [B _]. cbn beta. unfold tget. rewrite (B j (rc_self _ _)). reflexivity.
      * intros j s s' Q. apply wbind_ok in Q. destruct Q as (z & _ & Q). exact (dexpr_err Q).
    + eapply hidden_list; try eassumption; [split; reflexivity|reflexivity|reflexivity|]. intros j s s' Q. exact (dexpr_err Q).
  - inversion S0 as [| | | | | |? js l0 E0 F2| | | | | | | | |]; subst; same_exprs. eapply Out_iff; [symmetry; apply (hidden_bare a); reflexivity|]. cbn [below].
    eapply hidden_list; try eassumption; [reflexivity|reflexivity|]. intros j s s' Q. exact (dexpr_err Q).
  - inversion S0 as [| | | | | | |? j t' E0 S1| | | | | | | |]; subst; same_exprs. eapply ONE; try eassumption; [left; reflexivity|apply SOLE; reflexivity].
  - inversion S0 as [| | | | | | | |? j t' E0 S1| | | | | | |]; subst; same_exprs. eapply ONE; try eassumption; [left; reflexivity|apply SOLE; reflexivity].
  - inversion S0 as [| | | | | | | | |? j t' E0 S1| | | | | |]; subst; same_exprs. eapply ONE; try eassumption; [left; reflexivity|apply SOLE; reflexivity].
  - inversion S0 as [| | | | | | | | | |? j t' E0 S1| | | | |]; subst; same_exprs. eapply ONE; try eassumption; [left; reflexivity|apply SOLE; reflexivity].
  - inversion S0 as [| | | | | | | | | | |? j t' E0 S1| | | |]; subst; same_exprs. eapply ONE; try eassumption; [left; reflexivity|apply SOLE; reflexivity].
  - (* action *) inversion S0 as [| | | | | | | | | | | |? j t' b' p E0 S1| | |]; subst; same_exprs. apply wbind_ok in H. destruct H as ([u s1] & E1 & H). cbn [snd] in H.
    eapply Out_iff; [symmetry; apply hidden_act|]. assert (Ic : In j (children (EAct j b' (ActPath p)))) by (left; reflexivity). pose proof (child_less Ee Ic). eapply (Out_kid (c := j) Ee); [left; reflexivity|].
    eapply (surf_then (m := Hidden None)); try eassumption; [split; reflexivity| |lia|].
    + intros T _ Q1. split; [exact Q1|]. exact (proj1 (U j Ic)).
    + apply (under_blank U Ic). intros [].
  - (* ascription *) inversion S0 as [| | | | | | | | | | | | |? j t' ty' E0 S1| |]; subst; same_exprs. apply wbind_ok in H. destruct H as (s1 & E1 & H). cbn [wbind] in H.
    assert (Ic : In j (children (EAsc j ty'))) by (left; reflexivity). pose proof (child_less Ee Ic). pose proof (tg_asc HG Ee) as At'.
    assert (BL : blank (tys st) j) by (apply (under_blank U Ic); intros []).
    eapply Out_iff; [symmetry; apply hidden_asc|]. eapply (Out_kid (c := j) Ee); [left; reflexivity|].
    assert (C : ((forall y, a = Some y -> akin y (asc_type ty')) /\ s1 = st) \/ (~ (forall y, a = Some y -> akin y (asc_type ty')) /\ s1 = tfail st)).
    { destruct a as [y|]; destruct ST as [_ ST]; [destruct ST as (ty & -> & Ty & At)|subst asc].
      - destruct (check_asc At' At E1) as [[Q ->]|[Q ->]]; [left|right]; (split; [|reflexivity]); [intros z [= <-]; subst y; apply akin_sym; exact Q|]. intros X. specialize (X y eq_refl). subst y. exact (Q (akin_sym X)).
      - apply WOk_inj' in E1. subst s1. left. split; [discriminate|reflexivity]. }
    destruct C as [[C ->]|[C ->]]; [|left; split; [exact (dexpr_err H eq_refl)|tauto]].
    eapply (Out_iff (A := fine (Hidden (Some (asc_type ty'))) t')); [tauto|]. eapply IH; try eassumption; [split; [reflexivity|exists ty'; auto]|lia|split; [exact BL|exact (proj1 (U j Ic))]].
  - inversion S0 as [| | | | | | | | | | | | | |? j t' E0 S1|]; subst; same_exprs. eapply ONE; try eassumption; [left; reflexivity|apply SOLE; reflexivity].
  - inversion S0 as [| | | | | | | | | | | | | | |? n j t' E0 E1 S1]; subst; same_exprs. eapply (ONE n (XAsc t' (IRegular TUnit))); try eassumption; [left; reflexivity|econstructor; eassumption|apply hidden_range'].
Qed.

(** With a value. *)
Definition over (T : list ity) (e : expr) : Prop := forall c, In c (children e) -> (In c (visits e) -> local T c) /\ quiet T c /\ (~ In c (visits e) -> blank T c).
Lemma over_at T i e : expr_of G i = Some e -> local T i -> quiet T i -> over T e.
Proof. intros Ee L Q c Ic. split; [intros V; exact (local_kid Ee V L)|]. split; [exact (quiet_kid Ee Ic Q)|]. intros NV. exact (quiet_hidden Ee Ic NV Q). Qed.
Lemma over_set T i e u : i < length T -> expr_of G i = Some e -> over T e -> over (update T i u) e.
Proof.
  intros L Ee O c Ic. destruct (O c Ic) as (A & B & C). pose proof (set_kid u L Ee Ic) as AB. split; [intros V; exact (local_ext AB (A V))|]. split; [exact (quiet_ext AB B)|]. intros NV. exact (blank_ext AB (C NV)).
Qed.
Lemma walk_open i t e y st st' : stored i t -> i < last -> expr_of G i = Some e -> has t y -> nothing y = false -> over (tys st) e -> DInv (tys st) -> terr st = false ->
  dwalk E (sexpr G E sf []) (dexpr G E k sf) false None e st = WOk st' -> Out (fine Open t) i st st'.
Proof.
  intros S0 Li Ee HY NY O HI HT H. assert (VT : valued t) by (exists y; auto).
  assert (LEAF : bare_node t = true -> below t = [] -> WOk st = WOk st' -> Out (fine Open t) i st st').
  { intros B L Q. apply WOk_inj' in Q. subst st'. apply Out_here; try assumption. apply open_bare; [exact VT|exact B|]. rewrite L. intros c []. }
  assert (ONE : forall c t', In c (visits e) -> stored c t' -> (fine Open t <-> fine Open t') -> dexpr G E k sf false None c st = WOk st' -> Out (fine Open t) i st st').
  { intros c t' Vc Sc Q Hd. pose proof (visits_children Vc) as Ic. eapply Out_iff; [symmetry; exact Q|]. eapply Out_kid; [exact Ee|exact Ic|]. pose proof (child_less Ee Ic). destruct (O c Ic) as (A & B & _).
    eapply IH; try eassumption; [split; reflexivity|lia|split; auto]. }
  assert (SOLE : forall t', below t = [t'] -> bare_node t = true -> (fine Open t <-> fine Open t')).
  { intros t' BL BN. rewrite (open_bare VT BN), BL. split; [intros X; apply X; left; reflexivity|]. intros X c [<-|[]]. exact X. }
  assert (LIST : forall js l, children e = js -> visits e = js -> Forall2 stored js l -> bare_node t = true -> below t = l -> dexprs (dexpr G E k sf false None) js st = WOk st' -> Out (fine Open t) i st st').
  { intros js l EJ VJ F2 BN BL Hd. eapply (Out_list (js := js) (l := l) (good := fine Open) Ee); [rewrite EJ; apply incl_refl|rewrite (open_bare VT BN), BL; reflexivity|].
    eapply (dlist (step := dexpr G E k sf false None) (Q := fun j T => pre Open j T) (good := fine Open) Li Ee); try eassumption.
    - intros j s s' Q. exact (dexpr_err Q).
    - intros j t' s s' Ij Sj PJ I1 T1 Es. eapply IH; try eassumption; [split; reflexivity|]. pose proof (child_less Ee Ij). lia.
    - intros j T T' A. apply pre_ext. exact A.
    - rewrite <- EJ. exact (ONCE Li Ee).
    - rewrite EJ. apply incl_refl.
    - intros j Ij. rewrite <- EJ in Ij. destruct (O j Ij) as (A & B & _). split; [|exact B]. apply A. rewrite VJ, <- EJ. exact Ij. }
  destruct e as [s| |iv|id|p|l|l|c|c|c|c|c|c b f|c ty|c|c]; cbn [dwalk] in H.
  - inversion S0; subst; same_exprs. apply LEAF; auto.
  - inversion S0; subst; same_exprs. apply LEAF; auto.
  - inversion S0; subst; same_exprs. apply LEAF; auto.
  - inversion S0; subst; same_exprs. apply LEAF; auto.
  - inversion S0; subst; same_exprs. apply LEAF; auto.
  - inversion S0 as [| | | | |? js l0 E0 F2| | | | | | | | | |]; subst; same_exprs. eapply LIST; try eassumption; reflexivity.
  - inversion S0 as [| | | | | |? js l0 E0 F2| | | | | | | | |]; subst; same_exprs. eapply LIST; try eassumption; reflexivity.
  - inversion S0 as [| | | | | | |? j t' E0 S1| | | | | | | |]; subst; same_exprs. eapply ONE; try eassumption; [left; reflexivity|apply SOLE; reflexivity].
  - inversion S0 as [| | | | | | | |? j t' E0 S1| | | | | | |]; subst; same_exprs. eapply ONE; try eassumption; [left; reflexivity|apply SOLE; reflexivity].
  - inversion S0 as [| | | | | | | | |? j t' E0 S1| | | | | |]; subst; same_exprs. eapply ONE; try eassumption; [left; reflexivity|apply SOLE; reflexivity].
  - inversion S0 as [| | | | | | | | | |? j t' E0 S1| | | | |]; subst; same_exprs. exfalso. inversion HY; subst. discriminate NY.
  - inversion S0 as [| | | | | | | | | | |? j t' E0 S1| | | |]; subst; same_exprs. exfalso. inversion HY; subst. discriminate NY.
  - (* action *) inversion S0 as [| | | | | | | | | | | |? j t' b' p E0 S1| | |]; subst; same_exprs. apply wbind_ok in H. destruct H as ([u s1] & E1 & H). cbn [snd] in H.
    eapply Out_iff; [symmetry; apply (open_act VT)|]. assert (Ic : In j (children (EAct j b' (ActPath p)))) by (left; reflexivity). pose proof (child_less Ee Ic). eapply (Out_kid (c := j) Ee); [left; reflexivity|].
    destruct (O j Ic) as (_ & _ & BL). eapply (surf_then (m := Open)); try eassumption; [split; reflexivity|intros T L1 Q1; split; assumption|lia|apply BL; intros []].
  - (* ascription *) inversion S0 as [| | | | | | | | | | | | |? j t' ty' E0 S1| |]; subst; same_exprs. cbn [wbind] in H. apply wbind_ok in H. destruct H as (s1 & E1 & H).
    apply wbind_ok in E1. destruct E1 as ([u s2] & E1 & Q). cbn [snd] in Q. apply WOk_inj' in Q. subst s2.
    eapply Out_iff; [symmetry; apply (open_asc VT)|]. assert (Ic : In j (children (EAsc j ty'))) by (left; reflexivity). pose proof (child_less Ee Ic). eapply (Out_kid (c := j) Ee); [left; reflexivity|].
    destruct (O j Ic) as (_ & _ & BL). destruct (tg_asc HG Ee) as [-> |[-> |(s & ->)]]; [exfalso; inversion HY; subst; discriminate NY|exfalso; inversion HY; subst; discriminate NY|].
    eapply (surf_then (m := Claimed)); try eassumption; [split; [reflexivity|exists s; reflexivity]| |lia|apply BL; intros []].
    intros T L1 Q1. split; [exact L1|]. split; [exact Q1|]. exact (unkept_hidden Li Ee Ic (fun x => x)).
  - inversion S0 as [| | | | | | | | | | | | | |? j t' E0 S1|]; subst; same_exprs. eapply ONE; try eassumption; [left; reflexivity|apply SOLE; reflexivity].
  - inversion S0 as [| | | | | | | | | | | | | | |? n j t' E0 E1 S1]; subst; same_exprs. eapply (ONE n (XAsc t' (IRegular TUnit))); try eassumption; [left; reflexivity|econstructor; eassumption|apply open_range].
Qed.

(** Below an ascription. *)
Lemma rep_claim w y z : (forall x, ~ rusty (w x)) -> rep_type w y = z -> rusty z -> False.
Proof. unfold rep_type. intros W Q Z. subst z. destruct (unseen y); [destruct Z as [(s & Z)|Z]; discriminate|]. exact (W y Z). Qed.
Lemma claim_type t : claimable t -> exists z, has t z /\ rusty z. Proof. intros [(s & H)|H]; eexists; (split; [exact H|]); [left; exists s; reflexivity|right; reflexivity]. Qed.
Lemma void_unclaimed t y : has t y -> nothing y = true -> ~ fine Claimed t.
Proof. intros H N F. destruct (claim_type (claimed_claimable F)) as (z & Hz & Z). rewrite (has_det H Hz) in N. destruct Z as [(s & Z)|Z]; subst; discriminate N. Qed.
Lemma walk_claimed s0 i t e st st' : stored i t -> i < last -> expr_of G i = Some e -> claimable t -> (forall c, In c (children e) -> ~ K c) -> over (tys st) e -> DInv (tys st) -> terr st = false ->
  dwalk E (sexpr G E sf []) (dexpr G E k sf) false (Some (IRegular (TRust s0))) e st = WOk st' -> Out (fine Claimed t) i st st'.
Proof.
  intros S0 Li Ee CL NK O HI HT H. destruct (claim_type CL) as (z & HZ & Z).
  assert (PC : forall c, In c (visits e) -> pre Claimed c (tys st)).
  { intros c Vc. pose proof (visits_children Vc) as Ic. destruct (O c Ic) as (A & B & _). split; [exact (A Vc)|]. split; [exact B|exact (NK c Ic)]. }
  assert (ONE : forall c t', In c (visits e) -> stored c t' -> (fine Claimed t <-> fine Claimed t') -> dexpr G E k sf false (Some (IRegular (TRust s0))) c st = WOk st' -> Out (fine Claimed t) i st st').
  { intros c t' Vc Sc Q Hd. pose proof (visits_children Vc) as Ic. eapply Out_iff; [symmetry; exact Q|]. eapply Out_kid; [exact Ee|exact Ic|]. pose proof (child_less Ee Ic).
    eapply IH; try eassumption; [split; [reflexivity|exists s0; reflexivity]|lia|exact (PC c Vc)]. }
  destruct e as [s| |iv|id|p|l|l|c|c|c|c|c|c b f|c ty|c|c]; cbn [dwalk] in H.
  - inversion S0; subst; same_exprs. exfalso. inversion HZ; subst. destruct Z as [(? & Z)|Z]; discriminate.
  - inversion S0; subst; same_exprs. exfalso. inversion HZ; subst. destruct Z as [(? & Z)|Z]; discriminate.
  - inversion S0; subst; same_exprs. exfalso. inversion HZ; subst. destruct Z as [(? & Z)|Z]; discriminate.
  - inversion S0; subst; same_exprs. apply WOk_inj' in H. subst st'. apply Out_here; try assumption. apply fi_claimed_call. exact CL.
  - inversion S0; subst; same_exprs. apply WOk_inj' in H. subst st'. apply Out_here; try assumption. apply fi_claimed_call. exact CL.
  - (* sequence *) inversion S0 as [| | | | |? js l0 E0 F2| | | | | | | | | |]; subst; same_exprs.
    set (good := fun c : tree => (valueless c -> fine Open c) /\ (valued c -> fine Claimed c)).
    eapply (Out_list (js := js) (l := l0) (good := good) Ee); [apply incl_refl|exact (claimed_seq CL)|].
    eapply (dlist (Q := fun j T => pre Claimed j T) (good := good) Li Ee); [| | |exact F2|exact (ONCE Li Ee)|apply incl_refl|exact PC|exact HI|exact HT|exact H].
    + intros j s s' Q. apply wbind_ok in Q. destruct Q as (v & _ & Q). exact (dexpr_err Q).
    + intros j t' s s' Ij Sj PJ I1 T1 Es. pose proof (child_less Ee Ij). apply wbind_ok in Es. destruct Es as (v & Ev & Es). apply tget_ok in Ev. destruct PJ as (L1 & Q1 & N1).
      destruct (L1 j (sp_self G j)) as (v' & t2 & y2 & Ev' & S2 & H2 & D2). assert (v' = v) by congruence. subst v'. pose proof (stored_has H2 S2 Sj) as H3. rewrite (headed_unit D2) in Es.
      destruct (nothing y2) eqn:NO.
      * assert (VL : valueless t') by (exists y2; auto). eapply (Out_iff (A := fine Open t')); [unfold good; split; [intros X; split; [auto|intros VD; destruct (void_valued VL VD)]|intros [X _]; auto]|].
        eapply IH; try eassumption; [split; reflexivity|lia|split; assumption].
      * assert (VD : valued t') by (exists y2; auto). eapply (Out_iff (A := fine Claimed t')); [unfold good; split; [intros X; split; [intros VL; destruct (void_valued VL VD)|auto]|intros [_ X]; auto]|].
        eapply IH; try eassumption; [split; [reflexivity|exists s0; reflexivity]|lia|]. split; [exact L1|]. split; assumption.
    + intros j T T' A. apply pre_ext. exact A.
  - (* choice *) inversion S0 as [| | | | | |? js l0 E0 F2| | | | | | | | |]; subst; same_exprs.
    eapply (Out_list (js := js) (l := l0) (good := fine Claimed) Ee); [apply incl_refl|exact (claimed_alt CL)|].
    eapply (dlist (Q := fun j T => pre Claimed j T) (good := fine Claimed) Li Ee); [| | |exact F2|exact (ONCE Li Ee)|apply incl_refl|exact PC|exact HI|exact HT|exact H].
    + intros j s s' Q. exact (dexpr_err Q).
    + intros j t' s s' Ij Sj PJ I1 T1 Es. pose proof (child_less Ee Ij). eapply IH; try eassumption; [split; [reflexivity|exists s0; reflexivity]|lia].
    + intros j T T' A. apply pre_ext. exact A.
  - inversion S0; subst; same_exprs. exfalso. inversion HZ; subst. eapply (rep_claim (w := YList)); [intros x [(s1 & X)|X]; discriminate|reflexivity|exact Z].
  - inversion S0; subst; same_exprs. exfalso. inversion HZ; subst. eapply (rep_claim (w := YList)); [intros x [(s1 & X)|X]; discriminate|reflexivity|exact Z].
  - inversion S0; subst; same_exprs. exfalso. inversion HZ; subst. eapply (rep_claim (w := YOpt)); [intros x [(s1 & X)|X]; discriminate|reflexivity|exact Z].
  - inversion S0; subst; same_exprs. exfalso. inversion HZ; subst. destruct Z as [(? & Z)|Z]; discriminate.
  - inversion S0; subst; same_exprs. exfalso. inversion HZ; subst. destruct Z as [(? & Z)|Z]; discriminate.
  - (* action *) inversion S0 as [| | | | | | | | | | | |? j t' b' p E0 S1| | |]; subst; same_exprs. apply wbind_ok in H. destruct H as ([u s1] & E1 & H). cbn [snd] in H.
    eapply Out_iff; [symmetry; apply (claimed_act CL)|]. assert (Ic : In j (children (EAct j b' (ActPath p)))) by (left; reflexivity). pose proof (child_less Ee Ic). eapply (Out_kid (c := j) Ee); [left; reflexivity|].
    destruct (O j Ic) as (_ & _ & BL). eapply (surf_then (m := Open)); try eassumption; [split; reflexivity|intros T L1 Q1; split; assumption|lia|apply BL; intros []].
  - (* ascription *) inversion S0 as [| | | | | | | | | | | | |? j t' ty' E0 S1| |]; subst; same_exprs. apply wbind_ok in H. destruct H as (s2 & E2 & H). apply wbind_ok in H. destruct H as (s1 & E1 & H).
    apply wbind_ok in E1. destruct E1 as ([u s3] & E1 & Q). cbn [snd] in Q. apply WOk_inj' in Q. subst s3.
    eapply Out_iff; [symmetry; apply (claimed_asc CL)|]. assert (Ic : In j (children (EAsc j ty'))) by (left; reflexivity). pose proof (child_less Ee Ic). eapply (Out_kid (c := j) Ee); [left; reflexivity|].
    destruct (O j Ic) as (_ & _ & BL). destruct (tg_asc HG Ee) as [-> |[-> |(s & ->)]]; [exfalso; inversion HZ; subst; destruct Z as [(? & Z)|Z]; discriminate|exfalso; inversion HZ; subst; destruct Z as [(? & Z)|Z]; discriminate|].
    destruct (check_rust E2) as [(_ & ->)|[X _]]; [|exfalso; exact (X s eq_refl)].
    eapply (surf_then (m := Claimed)); try eassumption; [split; [reflexivity|exists s; reflexivity]| |lia|apply BL; intros []].
    intros T L1 Q1. split; [exact L1|]. split; [exact Q1|exact (NK j Ic)].
  - (* span *) inversion S0 as [| | | | | | | | | | | | | |? j t' E0 S1|]; subst; same_exprs. eapply (ONE j t'); try eassumption; [left; reflexivity|].
    inversion HZ as [| | | | | | | | | | | | | |? y HY Q|]; subst. pose proof (seq_rust (has_norm HY) Z eq_refl) as NO. split; intros F; exfalso; [inversion F; subst; discriminate|exact (void_unclaimed HY NO F)].
  - (* range *) inversion S0 as [| | | | | | | | | | | | | | |? n j t' E0 E1 S1]; subst; same_exprs. eapply (ONE n (XAsc t' (IRegular TUnit))); try eassumption; [left; reflexivity|econstructor; eassumption|].
    split; intros F; exfalso; [inversion F; subst; discriminate|]. exact (void_unclaimed (ha_asc _ _ t' (IRegular TUnit)) eq_refl F).
Qed.
End Step.

Lemma depths : forall k, good_d k.
Proof.
  induction k as [|k IH]; intros m uu asc i t st st' ST S0 Li PR HI HT H; [discriminate|]. cbn [dexpr] in H. apply wbind_ok in H. destruct H as (u & Eu & H). apply tget_ok in Eu.
  destruct (expr_of G i) as [e|] eqn:Ee; [|discriminate]. cbv zeta in H. assert (L : i < length (tys st)) by (apply nth_error_Some; congruence).
  destruct m as [|a|].
  - (* open *) destruct ST as [-> ->]. destruct PR as [L1 Q1]. destruct (L1 i (sp_self G i)) as (u' & t' & y & Eu' & S1 & H1 & D1). assert (u' = u) by congruence. subst u'. pose proof (stored_has H1 S1 S0) as HY.
    rewrite (headed_unit D1) in H. destruct (nothing y) eqn:NO.
    + eapply Out_iff; [symmetry; apply open_void; exists y; auto|]. eapply (walk_hidden IH (a := None)); try eassumption; [split; reflexivity|]. intros c Ic. split; [exact (unkept_void Li Ee Ic S0 HY NO)|].
      split; [exact (quiet_kid Ee Ic Q1)|]. intros NV. exact (quiet_hidden Ee Ic NV Q1).
    + eapply (walk_open IH); try eassumption. exact (over_at Ee L1 Q1).
  - (* hidden *) assert (UU : uu = true) by (destruct a; exact (proj1 ST)). subst uu. apply (Out_set (u := IRegular TUnit) L). assert (NKi : ~ K i) by (destruct a; exact (proj2 PR)).
    eapply (walk_hidden IH); try eassumption; [|cbn [tset tys]; apply DInv_set; [exact HI|exact Li|exact NKi|discriminate]].
    intros c Ic. split; [exact (unkept_kid Li Ee Ic NKi)|]. cbn [tset tys]. pose proof (set_kid (IRegular TUnit) L Ee Ic) as AB. destruct a as [z|]; cbn [pre] in PR; destruct PR as [P1 _].
    + exact (blank_ext AB (blank_kid Ee Ic P1)).
    + split; [exact (quiet_ext AB (quiet_kid Ee Ic P1))|]. intros NV. exact (blank_ext AB (quiet_hidden Ee Ic NV P1)).
  - (* claimed *) destruct ST as [-> (s0 & ->)]. destruct PR as (L1 & Q1 & NKi). destruct (L1 i (sp_self G i)) as (u' & t' & y & Eu' & S1 & H1 & D1). assert (u' = u) by congruence. subst u'. pose proof (stored_has H1 S1 S0) as HY.
    assert (NKC : forall c, In c (children e) -> ~ K c) by (intros c Ic; exact (unkept_kid Li Ee Ic NKi)).
    destruct (is_external u) eqn:EX.
    + apply (headed_ext D1) in EX. subst y. apply (Out_set (u := IRegular (TRust s0)) L). eapply (walk_claimed IH); try eassumption; [right; exact HY| |cbn [tset tys]; apply DInv_set; [exact HI|exact Li|exact NKi|discriminate]].
      cbn [tset tys]. apply (over_set _ L Ee). exact (over_at Ee L1 Q1).
    + apply wbind_ok in H. destruct H as (s1 & Hc & H). destruct (check_rust Hc) as [(RU & ->)|[NR ->]].
      * apply (headed_rust D1) in RU. destruct RU as (s1 & ->). eapply (walk_claimed IH); try eassumption; [left; exists s1; exact HY|]. exact (over_at Ee L1 Q1).
      * left. assert (T2 : terr st' = true).
        { exact (dwalk_err H eq_refl). }
        split; [exact T2|]. intros F. destruct (claimed_claimable F) as [(s1 & C)|C]; rewrite (has_det HY C) in D1.
        -- destruct (proj2 (headed_rust D1) (ex_intro _ s1 eq_refl)) as (s' & Q). exact (NR s' Q).
        -- rewrite (proj2 (headed_ext D1) eq_refl) in EX. discriminate EX.
Qed.
End Depth.
