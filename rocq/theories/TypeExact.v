(** Type inference, exactly: its answer. *)
From Verif Require Import Base Grammar WellFormed Analysis AnalysisFacts Typing TypeRules SurfaceFacts RefFacts DepthFacts TypingSound TypingTop TypingVerdict FrontSpec TreeSpec TreeFacts TreeKinds TypeSpec TypeDen TypeSurface TypeDepth.
Set Implicit Arguments. Unset Strict Implicit.
Open Scope string_scope. Open Scope nat_scope. Open Scope list_scope.

(** The first pass only changes what some type needs. *)
Section Touch.
Variable G : grammar.
Variable E : tenv.
Definition rooted (j : nat) : Prop := exists rl, In rl (rules G) /\ spos G (rexpr rl) j.
Definition touched (i : nat) (T T' : list ity) : Prop := length T' = length T /\ forall j, nth_error T' j = nth_error T j \/ spos G i j \/ rooted j.
Lemma touched_refl i T : touched i T T. Proof. split; [reflexivity|]. intros j. left. reflexivity. Qed.
Lemma touched_trans i T1 T2 T3 : touched i T1 T2 -> touched i T2 T3 -> touched i T1 T3.
Proof. intros [L1 A] [L2 B]. split; [congruence|]. intros j. destruct (B j) as [Q|Q]; [|right; exact Q]. rewrite Q. exact (A j). Qed.
Lemma touched_up i e c T T' : expr_of G i = Some e -> In c (visits e) -> touched c T T' -> touched i T T'.
Proof. intros Ee Ic [L A]. split; [exact L|]. intros j. destruct (A j) as [Q|[Q|Q]]; auto. right. left. exact (sp_child Ee Ic Q). Qed.
Lemma touched_set i T u : i < length T -> touched i T (update T i u).
Proof.
  intros L. split; [rewrite length_update; auto|]. intros j. rewrite nth_update by exact L. destruct (Nat.eqb_spec j i) as [->|N]; [right; left; constructor|auto].
Qed.

Lemma sexpr_touch fuel : forall path i st t st', sexpr G E fuel path i st = WOk (t, st') -> touched i (tys st) (tys st').
Proof.
  induction fuel as [|k IH]; intros path i st t st' H; [discriminate|]. cbn [sexpr] in H. apply wbind_ok in H. destruct H as (u & Eu & H).
  destruct u as [|r| | |u]; try (apply WOk_inj', pair_inj in H; destruct H as [_ <-]; apply touched_refl).
  destruct (expr_of G i) as [e|] eqn:Ee; [|discriminate]. apply wbind_ok in H. destruct H as ([t1 st1] & E1 & H). cbn [fst snd] in H.
  apply wbind_ok in H. destruct H as (t2 & E2 & H). apply WOk_inj', pair_inj in H. destruct H as [_ <-]. unfold tset. cbn [tys]. apply tget_ok in Eu.
  cut (touched i (tys st) (tys st1)); [intros X; eapply touched_trans; [exact X|apply touched_set]; rewrite (proj1 X); apply nth_error_Some; congruence|].
  assert (LEAF : forall u, WOk (u, st) = WOk (t1, st1) -> touched i (tys st) (tys st1)).
  { intros v K. apply WOk_inj', pair_inj in K. destruct K as [_ <-]. apply touched_refl. }
  assert (CHILD : forall j v, In j (visits e) -> wbind (sexpr G E k path j st) (fun q => WOk (v q, snd q)) = WOk (t1, st1) -> touched i (tys st) (tys st1)).
  { intros j v Ij K. apply wbind_ok in K. destruct K as ([a b] & Ka & K). cbn [snd] in K. apply WOk_inj', pair_inj in K. destruct K as [_ <-]. exact (touched_up Ee Ij (IH _ _ _ _ _ Ka)). }
  assert (SEQ : forall l s ts s', incl l (visits e) -> sexprs (sexpr G E k path) l s = WOk (ts, s') -> touched i (tys s) (tys s')).
  { induction l as [|c l IL]; intros s ts s' INC K; cbn [sexprs] in K; [apply WOk_inj', pair_inj in K; destruct K as [_ <-]; apply touched_refl|].
    apply wbind_ok in K. destruct K as ([a b] & Ka & K). apply wbind_ok in K. destruct K as ([x y] & Kx & K). cbn [fst snd] in *.
    apply WOk_inj', pair_inj in K. destruct K as [_ <-]. eapply touched_trans; [exact (touched_up Ee (INC c (or_introl eq_refl)) (IH _ _ _ _ _ Ka))|].
    exact (IL _ _ _ (fun z Iz => INC z (or_intror Iz)) Kx). }
  destruct e as [lit| |cls|id|p|l|l|j|j|j|j|j|j b f|j u|j|j]; cbn [swalk] in E1; try (exact (LEAF _ E1)).
  - unfold srule in E1. destruct (find_rule G id) as [rl|] eqn:FN; [|discriminate]. apply wbind_ok in E1. destruct E1 as (v & Ev & E1).
    destruct v as [|r| | |v]; try (exact (LEAF _ E1)). destruct (existsb (String.eqb id) path); [exact (LEAF _ E1)|].
    apply wbind_ok in E1. destruct E1 as ([a b] & Ka & K). apply wbind_ok in K. destruct K as (x & Kx & K). cbn [fst snd] in *.
    apply WOk_inj', pair_inj in K. destruct K as [_ <-]. cbn [tset tys]. destruct (find_rule_name FN) as [_ RI].
    apply tget_ok in Ev. destruct (IH _ _ _ _ _ Ka) as [L1 A1]. destruct (@touched_set (rexpr rl) (tys b) x ltac:(rewrite L1; apply nth_error_Some; congruence)) as [L2 A2]. split; [congruence|]. intros q.
    destruct (A2 q) as [Q|[Q|Q]]; [|right; right; exists rl; auto|auto]. rewrite Q. destruct (A1 q) as [Q'|[Q'|Q']]; [auto|right; right; exists rl; auto|auto].
  - apply wbind_ok in E1. destruct E1 as ([ts sc] & Es & E1). cbn [snd] in E1. apply WOk_inj', pair_inj in E1. destruct E1 as [_ <-]. exact (SEQ _ _ _ _ (incl_refl _) Es).
  - apply wbind_ok in E1. destruct E1 as ([ts sc] & Es & E1). cbn [fst snd] in E1. apply wbind_ok in E1. destruct E1 as (r & Er & E1). apply WOk_inj' in E1.
    destruct r as [v|]; apply pair_inj in E1; destruct E1 as [_ <-]; exact (SEQ _ _ _ _ (incl_refl _) Es).
  - refine (CHILD _ _ _ E1). left. reflexivity.
  - refine (CHILD _ _ _ E1). left. reflexivity.
  - refine (CHILD _ _ _ E1). left. reflexivity.
  - refine (CHILD _ (fun q => IRegular (TTuple [length (tys (snd q)) - 1; j])) _ E1). left. reflexivity.
  - refine (CHILD _ _ _ E1). left. reflexivity.
Qed.
End Touch.

Section Exact.
Variable G : grammar.
Variable E : tenv.
Variable rs : list (string * tree).
Variable own : nat -> string.
Variable rk : string -> nat.
Hypothesis HG : typable G.
Hypothesis HO : owned G own.
Hypothesis HF : forest G.
Hypothesis RS : Forall2 (fun r q => rname r = fst q /\ stored G rs (rexpr r) (snd q)) (rules G) rs.
Hypothesis HRK : forall n e id, In (n, e) rs -> needs rs e id -> rk id < rk n.
Local Notation last := (length (exprs G) - 1).
Hypothesis ROOTS : forall rl, In rl (rules G) -> rexpr rl < last.
Hypothesis ONCE : forall i e, i < last -> expr_of G i = Some e -> NoDup (children e).
Hypothesis ROOTND : NoDup (map rexpr (rules G)).
Local Notation has := (has rs (facts_of E)).
Local Notation stored := (stored G rs).
Local Notation fine := (fine rs (facts_of E)).
Local Notation sub := (reaches (exprs G)).
Local Notation Inv := (Inv G E rs).
Local Notation ALL := (fun _ : nat => True).

Lemma pairs_fst (St : nat -> tree -> Prop) (l : list rule) (l' : list (string * tree)) : Forall2 (fun r q => rname r = fst q /\ St (rexpr r) (snd q)) l l' ->
  (forall rl, In rl l -> exists e, In (rname rl, e) l' /\ St (rexpr rl) e) /\ (forall n e, In (n, e) l' -> exists rl, In rl l /\ rname rl = n /\ St (rexpr rl) e).
Proof.
  induction 1 as [|r [n' e'] l l' [N S0] F [IH1 IH2]]; [split; [intros rl []|intros n e []]|]. cbn in N, S0. subst n'. split.
  - intros rl [<-|I]; [exists e'; split; [left; reflexivity|exact S0]|]. destruct (IH1 rl I) as (e & A & B). exists e. split; [right; exact A|exact B].
  - intros n e [[= <- <-]|I]; [exists r; split; [left; reflexivity|split; [reflexivity|exact S0]]|]. destruct (IH2 n e I) as (rl & A & B). exists rl. split; [right; exact A|exact B].
Qed.
Lemma rule_tree_of rl : In rl (rules G) -> exists e, In (rname rl, e) rs /\ stored (rexpr rl) e. Proof. apply (pairs_fst RS). Qed.

(** Phase one. *)
Definition touches (T T' : list ity) : Prop := length T' = length T /\ forall j, nth_error T' j = nth_error T j \/ rooted G j.
Lemma surface_run fuel : forall l st st', incl l (rules G) -> Inv ALL (tys st) -> terr st = false -> surface_from G E fuel l st = WOk st' ->
  (terr st' = true /\ exists n e, In (n, e) rs /\ forall y, ~ has e y) \/
  (terr st' = false /\ Inv ALL (tys st') /\ ext (tys st) (tys st') /\ (forall rl, In rl l -> filled (tys st') (rexpr rl)) /\ touches (tys st) (tys st')).
Proof.
  induction l as [|rl l IH]; intros st st' INC HI HT H; cbn [surface_from] in H.
  { apply WOk_inj' in H. subst st'. right. split; [exact HT|]. split; [exact HI|]. split; [apply ext_refl|]. split; [intros r []|]. split; [reflexivity|]. intros j. left. reflexivity. }
  apply wbind_ok in H. destruct H as ([u s1] & E1 & H). cbn [snd] in H. assert (I : In rl (rules G)) by (apply INC; left; reflexivity). destruct (rule_tree_of I) as (b & Ib & Sb).
  assert (KE : forall s s', surface_from G E fuel l s = WOk s' -> terr s = true -> terr s' = true).
  { clear. induction l as [|r l IH]; intros s s' H X; cbn [surface_from] in H; [apply WOk_inj' in H; congruence|]. apply wbind_ok in H. destruct H as ([u s1] & E1 & H). cbn [snd] in H. apply (IH _ _ H).
    unfold srule in E1. destruct (find_rule G (rname r)) as [r'|]; [|discriminate]. apply wbind_ok in E1. destruct E1 as (v & Ev & E1). destruct v; try (apply WOk_inj', pair_inj in E1; destruct E1 as [_ <-]; exact X).
    cbn [existsb] in E1. apply wbind_ok in E1. destruct E1 as ([a b] & Ka & E1). apply wbind_ok in E1. destruct E1 as (z & _ & E1). apply WOk_inj', pair_inj in E1. destruct E1 as [_ <-]. cbn [tset terr snd]. exact (sexpr_err Ka X). }
  assert (STEP : (terr s1 = true /\ forall y, ~ has b y) \/ (terr s1 = false /\ Inv ALL (tys s1) /\ ext (tys st) (tys s1) /\ filled (tys s1) (rexpr rl) /\ touches (tys st) (tys s1))).
  { unfold srule in E1. rewrite (find_self HF I) in E1. apply wbind_ok in E1. destruct E1 as (v & Ev & E1). apply tget_ok in Ev.
    assert (OLD : v <> IInfer -> WOk (v, st) = WOk (u, s1) -> (terr s1 = true /\ forall y, ~ has b y) \/ (terr s1 = false /\ Inv ALL (tys s1) /\ ext (tys st) (tys s1) /\ filled (tys s1) (rexpr rl) /\ touches (tys st) (tys s1))).
    { intros NV Q. apply WOk_inj', pair_inj in Q. destruct Q as [_ <-]. right. split; [exact HT|]. split; [exact HI|]. split; [apply ext_refl|]. split; [exists v; auto|]. split; [reflexivity|]. intros j. left. reflexivity. }
    destruct v; try (apply OLD; [discriminate|exact E1]). clear OLD. cbn [existsb] in E1.
    apply wbind_ok in E1. destruct E1 as ([w s2] & E2 & E1). cbn [fst snd] in E1.
    destruct (@surf G E rs own rk HG HO RS HRK ROOTS ALL (fun _ _ => Logic.I) fuel [rname rl] (rexpr rl) b st w s2 Sb (ROOTS I) (fun _ _ => Logic.I)) as [[X N]|(X & I2 & X2 & V2 & (y & HY & DY) & U2)]; try assumption.
    - right. split; [auto|]. left. symmetry. exact (ow_root HO I).
    - intros id ND p [<-|[]]. exact (HRK Ib ND).
    - left. apply wbind_ok in E1. destruct E1 as (z & _ & E1). apply WOk_inj', pair_inj in E1. destruct E1 as [_ <-]. split; [exact X|exact N].
    - assert (Q : reduce_rec_entry_point G (tys s2) (rname rl) w = WOk w) by (inversion DY; subst; reflexivity). rewrite Q in E1. cbn [wbind] in E1. apply WOk_inj', pair_inj in E1. destruct E1 as [<- <-].
      assert (SAME : tset (rexpr rl) w s2 = s2) by (destruct s2 as [T2 e2]; unfold tset; cbn [tys terr] in *; rewrite (update_same V2); reflexivity). rewrite SAME.
      right. split; [exact X|]. split; [exact I2|]. split; [exact X2|]. split; [exists w; split; [exact V2|intros ->; exact (den_infer DY)]|].
      destruct (sexpr_touch E2) as [L A]. split; [exact L|]. intros j. destruct (A j) as [R|[R|R]]; [auto|right; exists rl; auto|auto]. }
  destruct STEP as [[X N]|(X & I1 & X1 & F1 & [L1 A1])].
  { left. split; [exact (KE _ _ H X)|]. exists (rname rl), b. split; [exact Ib|exact N]. }
  destruct (IH s1 st' ltac:(intros r Ir; apply INC; right; exact Ir) I1 X H) as [Q|(X' & I2 & X2 & F2 & [L2 A2])]; [left; exact Q|right].
  split; [exact X'|]. split; [exact I2|]. split; [exact (ext_trans X1 X2)|]. split; [intros r [<-|Ir]; [exact (filled_ext X2 F1)|exact (F2 r Ir)]|].
  split; [congruence|]. intros j. destruct (A2 j) as [Q|Q]; [|auto]. rewrite Q. exact (A1 j).
Qed.

(** Nothing to rewrite in between. *)
Lemma no_recs T : Inv ALL T -> forall l, incl l T -> reduce_recs G T l = WOk l.
Proof.
  intros HI. induction l as [|u l IH]; intros INC; [reflexivity|]. cbn [reduce_recs].
  assert (Q : reduce_rec G T u = WOk u).
  { assert (I : In u T) by (apply INC; left; reflexivity). apply In_nth_error in I. destruct I as (i & Ei). assert (L : i < length T) by (apply nth_error_Some; congruence). rewrite (in_len HI) in L.
    destruct u as [|r| | |u]; try reflexivity. exfalso. destruct (Nat.eq_dec i last) as [->|N].
    - pose proof (in_span HI) as Q. congruence.
    - destruct (in_good HI (i := i) (u := IRec r) Logic.I ltac:(lia) Ei ltac:(discriminate)) as ((t & y & _ & _ & D) & _). exact (den_rec D). }
  rewrite Q. cbn [wbind]. rewrite IH by (intros x Ix; apply INC; right; exact Ix). reflexivity.
Qed.

(** The definitions are apart. *)
Lemma roots_apart r1 r2 x : In r1 (rules G) -> In r2 (rules G) -> sub (rexpr r1) x -> sub (rexpr r2) x -> rexpr r1 = rexpr r2.
Proof.
  intros I1 I2 S1 S2. assert (Q : forall a b, In a (rules G) -> In b (rules G) -> sub (rexpr a) (rexpr b) -> rexpr b = rexpr a).
  { intros a b Ia Ib S. destruct (reaches_parent HG (ROOTS Ia) S) as [Q|(p & _ & KP)]; [exact Q|]. destruct (fo_root HF (ex_intro _ b (conj Ib eq_refl)) KP). }
  destruct (sub_line HG HF ONCE S1 (ROOTS I1) (ROOTS I2) S2) as [S|S]; [symmetry|]; eapply Q; eassumption.
Qed.

Lemma start_inv T : TypingSound.blank G T -> nth_error T last = Some (IRegular (TRust (span_ty E))) -> Inv ALL T.
Proof.
  intros (L & SP & B) SN. rewrite L in SP, B. split; [exact L|exact SN|]. intros i u _ Li Ei N. rewrite (B i Li) in Ei. congruence.
Qed.

Lemma droots fuel sf : forall l st st', incl l (rules G) -> NoDup (map rexpr l) -> (forall rl, In rl l -> pre G E rs Open (rexpr rl) (tys st)) -> DInv G E rs (tys st) -> terr st = false ->
  dexprs (dexpr G E fuel sf false None) (map rexpr l) st = WOk st' ->
  (terr st' = true /\ exists n e, In (n, e) rs /\ ~ fine Open e) \/ (terr st' = false /\ DInv G E rs (tys st') /\ forall rl e, In rl l -> stored (rexpr rl) e -> fine Open e).
Proof.
  induction l as [|rl l IH]; intros st st' INC ND PR HI HT H; cbn [map dexprs] in H.
  { apply WOk_inj' in H. subst st'. right. split; [exact HT|]. split; [exact HI|]. intros r e []. }
  apply wbind_ok in H. destruct H as (s & Hs & H). assert (I : In rl (rules G)) by (apply INC; left; reflexivity). destruct (rule_tree_of I) as (b & Ib & Sb).
  cbn [map] in ND. inversion ND as [|? ? NI ND']; subst.
  destruct (@depths G E rs own rk HG HO HF RS HRK ROOTS ONCE sf fuel Open false None (rexpr rl) b st s (conj eq_refl eq_refl) Sb (ROOTS I) (PR rl (or_introl eq_refl)) HI HT Hs) as [[X N]|(X & F & I1 & FR)].
  { left. split; [refine (dexprs_err _ H X); intros i x x'; apply dexpr_err|]. exists (rname rl), b. split; assumption. }
  assert (PR1 : forall r, In r l -> pre G E rs Open (rexpr r) (tys s)).
  { intros r Ir. refine (pre_ext _ (PR r (or_intror Ir))). intros x SX. apply FR. intros SY. apply NI. rewrite (roots_apart I (INC r (or_intror Ir)) SY SX). apply in_map. exact Ir. }
  destruct (IH s st' ltac:(intros r Ir; apply INC; right; exact Ir) ND' PR1 I1 X H) as [Q|(X' & I2 & FL)]; [left; exact Q|right].
  split; [exact X'|]. split; [exact I2|]. intros r e [<-|Ir] Se; [|exact (FL r e Ir Se)].
  (* the tree of a definition is fine whichever way it is read *)
  pose proof (@depths G E rs own rk HG HO HF RS HRK ROOTS ONCE sf fuel Open false None (rexpr rl) e st s (conj eq_refl eq_refl) Se (ROOTS I) (PR rl (or_introl eq_refl)) HI HT Hs) as [[Y _]|(_ & F' & _)]; [congruence|exact F'].
Qed.

Lemma have_type_exact T l b : rules_have_type E T l = WOk b -> (b = true <-> forall rl, In rl l -> exists u, nth_error T (rexpr rl) = Some u /\ ~ mentions_external T u).
Proof.
  revert b. induction l as [|r l IH]; intros b H; cbn [rules_have_type] in H; [apply WOk_inj' in H; subst b; split; [intros _ rl []|reflexivity]|].
  apply wbind_ok in H. destruct H as (t & Et & H). apply tget_ok in Et. apply wbind_ok in H. destruct H as (c & Hc & H). apply wbind_ok in H. destruct H as (ok & Hok & H). apply WOk_inj' in H. subst b.
  apply contains_external_spec in Hc. apply IH in Hok. rewrite andb_true_iff. split.
  - intros [A B] rl [<-|I]; [exists t; split; [exact Et|]|exact (proj1 Hok B rl I)]. intros M. apply Hc in M. subst c. discriminate.
  - intros A. split; [|apply Hok; intros rl I; apply A; right; exact I]. destruct (A r (or_introl eq_refl)) as (u & Eu & N). assert (u = t) by congruence. subst u.
    destruct c; [|reflexivity]. exfalso. apply N, Hc. reflexivity.
Qed.

(** The table at the end: the types of the rules, as they are read. *)
Definition tells (T : list ity) : Prop := forall rl e, In rl (rules G) -> stored (rexpr rl) e -> exists u y R, nth_error T (rexpr rl) = Some u /\ has e y /\ den R T u y.
Theorem infer_exact fuel T0 r : TypingSound.blank G T0 -> nth_error T0 last = Some (IRegular (TRust (span_ty E))) -> infer_from G E fuel (mkT T0 false) = WOk r ->
  (r = None /\ ~ well_typed rs (facts_of E)) \/ ((exists out T, r = Some out /\ reduce_finals T = WOk out /\ tells T) /\ well_typed rs (facts_of E)).
Proof.
  intros B0 SN H. unfold infer_from in H. apply wbind_ok in H. destruct H as (s1 & H1 & H). unfold surface in H1.
  destruct (@surface_run fuel (rules G) (mkT T0 false) s1 (incl_refl _) (start_inv B0 SN) eq_refl H1) as [(X & n & e & I & N)|(X & I1 & X1 & F1 & [L1 A1])]; rewrite X in H.
  { apply WOk_inj' in H. subst r. left. split; [reflexivity|]. intros W. destruct (W n e I) as [(y & HY & _) _]. exact (N y HY). }
  apply wbind_ok in H. destruct H as (s2 & H2 & H). unfold reduce_all_rec in H2. rewrite (no_recs I1 (incl_refl _)) in H2. cbn [wbind] in H2. apply WOk_inj' in H2.
  assert (s2 = s1) as -> by (subst s2; destruct s1; cbn in *; congruence). clear H2.
  apply wbind_ok in H. destruct H as (s3 & H3 & H). unfold depth in H3.
  assert (DI : DInv G E rs (tys s1)).
  { split; [|exact F1]. destruct I1 as [IL IS IG]. split; try assumption. intros i u _. exact (IG i u Logic.I). }
  assert (PR : forall rl, In rl (rules G) -> pre G E rs Open (rexpr rl) (tys s1)).
  { intros rl I. destruct (F1 rl I) as (u & Eu & Nu). split.
    - intros x SX. destruct (proj2 (in_good I1 Logic.I (ROOTS I) Eu Nu) x SX) as (v & Ev & Nv). pose proof (sub_spos SX) as SB. pose proof (sub_le HG SB). pose proof (ROOTS I).
      destruct (in_good I1 (i := x) Logic.I ltac:(lia) Ev Nv) as ((t & y & P1 & P2 & P3) & _). exists v, t, y. repeat (split; [assumption|]). eexists _, _. exact P3.
    - intros x e c j SX Ex Ic NV SC. pose proof (ROOTS I) as LR. pose proof (sub_le HG SX). pose proof (child_less HG Ex Ic). pose proof (sub_le HG SC).
      assert (Z : nth_error T0 j = Some IInfer). { destruct B0 as (L0 & _ & B0). rewrite L0 in B0. apply B0. lia. }
      destruct (A1 j) as [Q|(r2 & Ir & SP)]; [rewrite Q; exact Z|]. exfalso.
      pose proof (roots_apart I Ir (x := j) (sub_trans SX (rc_child Ex Ic SC)) (sub_spos SP)) as RQ. rewrite <- RQ in SP. exact (spos_hidden HG HF ONCE LR SP SX Ex Ic NV SC). }
  destruct (droots (incl_refl _) ROOTND PR DI X H3) as [(X3 & n & e & I & N)|(X3 & I3 & FL)]; rewrite X3 in H.
  { apply WOk_inj' in H. subst r. left. split; [reflexivity|]. intros W. exact (N (proj2 (W n e I))). }
  apply wbind_ok in H. destruct H as (out & Hout & H). apply wbind_ok in H. destruct H as (ok & Hok & H). apply WOk_inj' in H. apply have_type_exact in Hok.
  assert (TYPE : forall rl e, In rl (rules G) -> stored (rexpr rl) e -> exists u y, nth_error (tys s3) (rexpr rl) = Some u /\ has e y /\ (mentions_external (tys s3) u <-> foreign_in y) /\ exists R, den R (tys s3) u y).
  { intros rl e I Se. destruct I3 as [I3 RF]. destruct (RF rl I) as (u & Eu & Nu). destruct (in_good I3 (i := rexpr rl) (K_root _ _ I) (ROOTS I) Eu Nu) as ((t & y & S1 & HY & D) & _).
    exists u, y. split; [exact Eu|]. split; [exact (stored_has HY S1 Se)|]. split; [split; [intros M; exact (foreign_den M D)|intros M; exact (den_foreign M D)]|eexists; exact D]. }
  assert (BACK : forall n e, In (n, e) rs -> exists rl, In rl (rules G) /\ rname rl = n /\ stored (rexpr rl) e).
  { apply (pairs_fst RS). }
  destruct ok; subst r.
  - right. split; [exists out, (tys s3); split; [reflexivity|]; split; [exact Hout|]; intros rl e I Se; destruct (TYPE rl e I Se) as (u & y & Eu & HY & _ & R & D); exists u, y, R; auto|]. intros n e I. destruct (BACK n e I) as (rl & Irl & RN & Se). split; [|exact (FL rl e Irl Se)].
    destruct (TYPE rl e Irl Se) as (u & y & Eu & HY & M & _). exists y. split; [exact HY|]. rewrite <- M. destruct (proj1 Hok eq_refl rl Irl) as (u' & Eu' & N). congruence.
  - left. split; [reflexivity|]. intros W. assert (Q : false = true); [|discriminate]. apply Hok. intros rl Irl. destruct (rule_tree_of Irl) as (e & Ie & Se).
    destruct (TYPE rl e Irl Se) as (u & y & Eu & HY & M & _). exists u. split; [exact Eu|]. rewrite M. destruct (W _ e Ie) as [(y' & HY' & N) _]. rewrite (has_det HY HY'). exact N.
Qed.
End Exact.
