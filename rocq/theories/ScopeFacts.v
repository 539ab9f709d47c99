(** Static scoping of emitted code and the coincidence lemma: running well-scoped code in two
    environments that agree on the variables it mentions gives the same result. *)
From Verif Require Import Base Utf8 Stream ParseState Grammar PegSpec Target TargetFacts.
Set Implicit Arguments.

Definition mem (x : name) (l : list name) : bool := existsb (name_eqb x) l.
Definition subl (a b : list name) : bool := forallb (fun x => mem x b) a.

Lemma mem_In x l : mem x l = true <-> In x l.
Proof.
  unfold mem. rewrite existsb_exists. split.
  - intros (y & H & E). apply name_eqb_eq in E. congruence.
  - intros H. exists x. split; [exact H|apply name_eqb_refl].
Qed.
Lemma subl_incl a b : subl a b = true <-> incl a b.
Proof.
  unfold subl, incl. rewrite forallb_forall. split; intros H x Hx; [apply mem_In|apply mem_In]; auto.
Qed.

(** [scoped V A c]: every variable [c] reads is in [V] or bound in [c]; every variable it assigns
    is in [A] (a mutable variable) or bound in [c]. *)
Fixpoint scoped (V A : list name) (c : code) : bool :=
  match c with
  | CState | CFailure | CTail _ => true
  | CSuccess vars => subl vars V
  | CCall _ muts frees marks => subl muts V && subl frees V && subl marks V && subl muts A
  | CLetMark x c | CLetBool x _ c | CLetCounter x c | CLetNone x c | CLetVec x c => scoped (x :: V) (x :: A) c
  | CLetAct x _ _ _ args c => subl args V && scoped (x :: V) (x :: A) c
  | CLetSpan x _ lo c => mem lo V && scoped (x :: V) (x :: A) c
  | CSetBool b _ c => mem b V && mem b A && scoped V A c
  | CSetSome x vars c | CPush x vars c => mem x V && mem x A && subl vars V && scoped V A c
  | CMatchNext x s f =>
    match x with
    | Some x => scoped (x :: V) (x :: A) s && scoped V A f
    | None => scoped V A s && scoped V A f
    end
  | CMatchClass x _ s f => scoped (x :: V) (x :: A) s && scoped V A f
  | CPrefix _ s f | CCallRec _ s f => scoped V A s && scoped V A f
  | CError _ c => scoped V A c
  | CRestore m c | CRestoreFF m c | CIfFailedRestore m c => mem m V && scoped V A c
  | CAssign b c => scoped V A b && scoped V A c
  | CIfTrue x c1 c2 | CTestRestore x c1 c2 | CIfLess x _ c1 c2 => mem x V && scoped V A c1 && scoped V A c2
  | CCallPar _ vars s f => scoped (vars ++ V) (vars ++ A) s && scoped V A f
  | CLoop body counter mk c =>
    match counter with Some k => mem k V && mem k A | None => true end
    && mem mk V && mem mk A && scoped V A body && scoped V A c
  end.

Definition closure_scoped (k : closure) : bool :=
  scoped (kmuts k ++ kfrees k ++ kmarks k) (kmuts k) (kbody k).
Definition table_scoped (cl : ctable) : bool := forallb (fun k => closure_scoped (snd k)) cl.

(** ---------------- changes limited to a set of names ---------------- *)
Fixpoint chg (P : name -> Prop) (e e' : env) : Prop :=
  match e, e' with
  | [], [] => True
  | (x, v) :: t, (y, w) :: t' => x = y /\ (P x \/ v = w) /\ chg (fun z => P z /\ z <> x) t t'
  | _, _ => False
  end.

Lemma chg_mono (P Q : name -> Prop) : (forall x, P x -> Q x) -> forall e e', chg P e e' -> chg Q e e'.
Proof.
  intros H e. revert P Q H. induction e as [|[x v] e IH]; intros P Q H [|[y w] e']; simpl; try tauto.
  intros (-> & [Hp|Hv] & Hc); (split; [reflexivity|]); (split; [auto|]).
  - eapply IH; [|exact Hc]. simpl. intros z [Hz Hn]. split; auto.
  - eapply IH; [|exact Hc]. simpl. intros z [Hz Hn]. split; auto.
Qed.
Lemma chg_refl e : forall P, chg P e e.
Proof. induction e as [|[x v] e IH]; intros P; simpl; auto. Qed.
Lemma chg_trans a : forall P b c, chg P a b -> chg P b c -> chg P a c.
Proof.
  induction a as [|[x v] a IH]; intros P [|[y w] b] [|[z u] c]; simpl; try tauto.
  intros (-> & H1 & C1) (-> & H2 & C2). split; [reflexivity|]. split; [destruct H1, H2; auto; right; congruence|].
  eapply IH; eassumption.
Qed.
Lemma chg_lookup a : forall (P : name -> Prop) b x, chg P a b -> ~ P x -> lookup x a = lookup x b.
Proof.
  induction a as [|[y v] a IH]; intros P [|[z w] b] x; simpl; try tauto.
  intros (-> & H & C) Hn. destruct (name_eqb x z) eqn:E.
  - apply name_eqb_eq in E. subst z. destruct H as [H| ->]; [contradiction|reflexivity].
  - eapply IH; [exact C|]. simpl. tauto.
Qed.
Lemma chg_dom a : forall P b, chg P a b -> dom a = dom b.
Proof.
  induction a as [|[y v] a IH]; intros P [|[z w] b]; simpl; try tauto.
  intros (-> & _ & C). f_equal. eapply IH, C.
Qed.
Lemma chg_update e : forall (P : name -> Prop) x v, P x -> chg P e (update x v e).
Proof.
  induction e as [|[y w] e IH]; intros P x v H; simpl; [exact I|].
  destruct (name_eqb x y) eqn:E; simpl.
  - apply name_eqb_eq in E. subst. split; [reflexivity|]. split; [auto|]. apply chg_refl.
  - apply name_eqb_neq in E. split; [reflexivity|]. split; [auto|]. apply IH. auto.
Qed.
(** Equal on the changed names implies equal. *)
Lemma chg_eq a : forall (P : name -> Prop) b c, chg P a b -> chg P a c ->
  (forall x, P x -> lookup x b = lookup x c) -> b = c.
Proof.
  induction a as [|[x v] a IH]; intros P [|[y w] b] [|[z u] c]; simpl; try tauto.
  intros (<- & H1 & C1) (<- & H2 & C2) H. f_equal.
  - destruct H1 as [H1|H1].
    + specialize (H x H1). rewrite name_eqb_refl in H. congruence.
    + destruct H2 as [H2|H2]; [|congruence]. specialize (H x H2). rewrite name_eqb_refl in H. congruence.
  - eapply IH; [exact C1|exact C2|]. intros y [Hy Hn]. specialize (H y Hy).
    apply name_eqb_neq in Hn. rewrite Hn in H. exact H.
Qed.
(** Leaving the scope of a variable. *)
Lemma chg_pop x v e f (P : name -> Prop) : chg (fun z => z = x \/ P z) ((x, v) :: e) f ->
  exists w f', f = (x, w) :: f' /\ chg P e f' /\ lookup x f' = lookup x e.
Proof.
  destruct f as [|[y w] f]; simpl; [tauto|]. intros (<- & _ & C). exists w, f. split; [reflexivity|]. split.
  - eapply chg_mono; [|exact C]. simpl. intuition congruence.
  - symmetry. eapply chg_lookup; [exact C|]. simpl. tauto.
Qed.

Definition agree (V : list name) (e1 e2 : env) : Prop := forall x, In x V -> lookup x e1 = lookup x e2.

Lemma agree_cons x v V e1 e2 : agree V e1 e2 -> agree (x :: V) ((x, v) :: e1) ((x, v) :: e2).
Proof.
  intros H y Hy. simpl. destruct (name_eqb y x) eqn:E; [reflexivity|].
  apply name_eqb_neq in E. destruct Hy as [->|Hy]; [congruence|auto].
Qed.
Lemma agree_update x v V e1 e2 : agree V e1 e2 -> agree V (update x v e1) (update x v e2).
Proof. intros H y Hy. rewrite !lookup_update, (H y Hy). reflexivity. Qed.

Lemma agree_get_val V e1 e2 x : agree V e1 e2 -> In x V -> get_val e1 x = get_val e2 x.
Proof. intros H Hx. unfold get_val. rewrite (H x Hx). reflexivity. Qed.
Arguments agree_get_val {V e1 e2 x}.
Lemma agree_get_stream V e1 e2 x : agree V e1 e2 -> In x V -> get_stream e1 x = get_stream e2 x.
Proof. intros H Hx. unfold get_stream. rewrite (H x Hx). reflexivity. Qed.
Arguments agree_get_stream {V e1 e2 x}.
Lemma agree_get_bool V e1 e2 x : agree V e1 e2 -> In x V -> get_bool e1 x = get_bool e2 x.
Proof. intros H Hx. unfold get_bool. rewrite (H x Hx). reflexivity. Qed.
Arguments agree_get_bool {V e1 e2 x}.
Lemma agree_get_nat V e1 e2 x : agree V e1 e2 -> In x V -> get_nat e1 x = get_nat e2 x.
Proof. intros H Hx. unfold get_nat. rewrite (H x Hx). reflexivity. Qed.
Arguments agree_get_nat {V e1 e2 x}.
Lemma agree_get_vals V e1 e2 xs : agree V e1 e2 -> incl xs V -> get_vals e1 xs = get_vals e2 xs.
Proof.
  intros H. induction xs as [|x xs IH]; intros Hi; [reflexivity|]. simpl.
  rewrite (agree_get_val H (Hi x (or_introl eq_refl))), IH by (intros y Hy; apply Hi; right; exact Hy). reflexivity.
Qed.
Arguments agree_get_vals {V e1 e2 xs}.
Lemma agree_get_slots V e1 e2 xs : agree V e1 e2 -> incl xs V -> get_slots e1 xs = get_slots e2 xs.
Proof.
  intros H. induction xs as [|x xs IH]; intros Hi; [reflexivity|]. simpl.
  rewrite (H x (Hi x (or_introl eq_refl))), IH by (intros y Hy; apply Hi; right; exact Hy). reflexivity.
Qed.
Arguments agree_get_slots {V e1 e2 xs}.

Lemma write_back_agree V inner : forall args params e1 e2 f1, agree V e1 e2 ->
  write_back args params inner e1 = Done f1 ->
  exists f2, write_back args params inner e2 = Done f2 /\ agree V f1 f2
    /\ chg (fun z => In z args) e1 f1 /\ chg (fun z => In z args) e2 f2.
Proof.
  induction args as [|a args IH]; intros [|p params] e1 e2 f1 Hag H; simpl in *; try discriminate.
  - injection H; intros <-. exists e2. split; [reflexivity|]. split; [exact Hag|]. split; apply chg_refl.
  - destruct (lookup p inner) as [v|]; simpl in *; [|discriminate].
    destruct (IH params (update a v e1) (update a v e2) f1 (agree_update _ _ Hag) H) as (f2 & E & A2 & C1 & C2).
    exists f2. split; [exact E|]. split; [exact A2|].
    split; (eapply chg_trans; [apply chg_update; left; reflexivity|]);
      (eapply chg_mono; [|eassumption]); simpl; auto.
Qed.

Section Coin.
Variable prog : mode -> string -> option func.
Variable xf : mode -> list string -> pst -> outcome (pst * alog).

(** Outcome of running the same code in the two environments. *)
Definition coin (V A : list name) (e1 e2 : env) (r1 r2 : out) : Prop :=
  forall st' f1 l, r1 = Done (st', f1, l) ->
  exists f2, r2 = Done (st', f2, l) /\ agree V f1 f2
    /\ chg (fun z => In z A) e1 f1 /\ chg (fun z => In z A) e2 f2.

Lemma coin_pop V A x v e1 e2 r1 r2 : agree V e1 e2 ->
  coin (x :: V) (x :: A) ((x, v) :: e1) ((x, v) :: e2) r1 r2 -> coin V A e1 e2 (popped r1) (popped r2).
Proof.
  intros Hag H st' f1 l E. unfold popped in E. destruct r1 as [[[st e] l0]| | |]; simpl in E; try discriminate.
  destruct e as [|b e]; [discriminate|]. injection E; intros; subst st f1 l0. clear E.
  destruct (H _ _ _ eq_refl) as (f2 & -> & A2 & C1 & C2).
  destruct (@chg_pop x v e1 (b :: e) (fun z => In z A)) as (w1 & g1 & E1 & D1 & L1).
  { eapply chg_mono; [|exact C1]. simpl. intuition. }
  destruct (@chg_pop x v e2 f2 (fun z => In z A)) as (w2 & g2 & E2 & D2 & L2).
  { eapply chg_mono; [|exact C2]. simpl. intuition. }
  injection E1; intros; subst b g1. subst f2. exists g2. simpl. split; [reflexivity|]. split; [|auto].
  intros y Hy. destruct (name_dec y x) as [->|Hn].
  - rewrite L1, L2. apply Hag, Hy.
  - specialize (A2 y (or_intror Hy)). simpl in A2. apply name_eqb_neq in Hn. rewrite Hn in A2. exact A2.
Qed.

Lemma coin_pop_n vs : forall V A fr e1 e2 r1 r2, agree V e1 e2 -> map fst fr = rev vs ->
  coin (vs ++ V) (vs ++ A) (rev fr ++ e1) (rev fr ++ e2) r1 r2 ->
  coin V A e1 e2 (popped_n (length vs) r1) (popped_n (length vs) r2).
Proof.
  intros V A fr. revert vs V A.
  assert (X : forall fr0 vs V A e1 e2 r1 r2, agree V e1 e2 -> map fst fr0 = vs ->
    coin (vs ++ V) (vs ++ A) (fr0 ++ e1) (fr0 ++ e2) r1 r2 ->
    coin V A e1 e2 (popped_n (length vs) r1) (popped_n (length vs) r2)).
  { induction fr0 as [|[x v] fr0 IH]; intros vs V A e1 e2 r1 r2 Hag Hm H; simpl in Hm; subst vs; [exact H|].
    simpl. simpl in H. apply (IH _ V A e1 e2); [exact Hag|reflexivity|].
    eapply coin_pop; [|exact H].
    clear - Hag. intros y Hy. rewrite !lookup_app. destruct (lookup y fr0) eqn:E; [reflexivity|].
    apply Hag. apply in_app_or in Hy. destruct Hy as [Hy|Hy]; [|exact Hy].
    exfalso. apply lookup_None in E. contradiction. }
  intros vs V A e1 e2 r1 r2 Hag Hm H. apply (X (rev fr) vs V A e1 e2); [exact Hag| |exact H].
  rewrite map_rev, Hm, rev_involutive. reflexivity.
Qed.

Lemma coin_after V A e1 e2 r1 r2 k1 k2 : coin V A e1 e2 r1 r2 ->
  (forall st f1 f2, agree V f1 f2 -> coin V A f1 f2 (k1 st f1) (k2 st f2)) ->
  coin V A e1 e2 (after r1 k1) (after r2 k2).
Proof.
  intros H K st' g1 l E. unfold after in E. destruct r1 as [[[st f1] l1]| | |]; simpl in E; try discriminate.
  destruct (k1 st f1) as [[[st2 f12] l2]| | |] eqn:E1; simpl in E; try discriminate.
  injection E; intros; subst. destruct (H _ _ _ eq_refl) as (f2 & -> & A2 & C1 & C2).
  destruct (K st f1 f2 A2 _ _ _ E1) as (g2 & E2 & A3 & D1 & D2).
  exists g2. unfold after. simpl. rewrite E2. simpl. split; [reflexivity|]. split; [exact A3|].
  split; eapply chg_trans; eassumption.
Qed.

Lemma coin_bind B V A e1 e2 (o : outcome B) (k1 k2 : B -> out) :
  (forall b, o = Done b -> coin V A e1 e2 (k1 b) (k2 b)) -> coin V A e1 e2 (obind o k1) (obind o k2).
Proof. intros H. destruct o; simpl; try (intros ? ? ? E; discriminate). apply H. reflexivity. Qed.

Lemma coin_same V A e1 e2 st l : agree V e1 e2 -> coin V A e1 e2 (Done (st, e1, l)) (Done (st, e2, l)).
Proof.
  intros H st' f1 l0 E. injection E; intros; subst. exists e2. split; [reflexivity|]. split; [exact H|].
  split; apply chg_refl.
Qed.

Lemma coin_update V A x v e1 e2 r1 r2 : In x A -> coin V A (update x v e1) (update x v e2) r1 r2 ->
  coin V A e1 e2 r1 r2.
Proof.
  intros Hx H st' f1 l E. destruct (H _ _ _ E) as (f2 & E2 & A2 & C1 & C2). exists f2.
  split; [exact E2|]. split; [exact A2|].
  split; (eapply chg_trans; [apply chg_update with (x := x) (v := v); exact Hx|eassumption]).
Qed.

Ltac split_scoped :=
  repeat match goal with
  | H : _ && _ = true |- _ => apply andb_true_iff in H; destruct H
  | H : mem _ _ = true |- _ => apply mem_In in H
  | H : subl _ _ = true |- _ => apply subl_incl in H
  end.

Lemma coincidence n : forall cl c V A st e1 e2, scoped V A c = true -> agree V e1 e2 ->
  coin V A e1 e2 (eval prog xf n cl c st e1) (eval prog xf n cl c st e2).
Proof.
  induction n as [|n IH]; intros cl c V A st e1 e2 Hs Hag; [intros ? ? ? E; discriminate|].
  destruct c; cbn [eval]; cbn [scoped] in Hs; split_scoped.
  - apply coin_same, Hag.
  - rewrite (agree_get_vals Hag Hs). apply coin_bind. intros vs _. apply coin_same, Hag.
  - apply coin_same, Hag.
  - apply coin_bind. intros [st' l] _. apply coin_same, Hag.
  - destruct (find _ cl) as [[k' clo]|]; [|intros ? ? ? E; discriminate].
    destruct (_ =? _); [|intros ? ? ? E; discriminate].
    rewrite (@agree_get_slots V e1 e2 (muts ++ frees ++ marks) Hag) by (repeat apply incl_app; assumption).
    apply coin_bind. intros vs _. apply coin_bind. intros [[st' e'] l] _.
    intros st2 f1 l2 E. destruct (write_back muts (kmuts clo) e' e1) as [g1| | |] eqn:W; simpl in E; try discriminate.
    injection E; intros; subst. destruct (write_back_agree _ _ _ Hag W) as (f2 & W2 & A2 & C1 & C2).
    rewrite W2. simpl. exists f2. split; [reflexivity|]. split; [exact A2|].
    split; (eapply chg_mono; [|eassumption]); simpl; auto.
  - apply coin_bind. intros s _. apply (@coin_pop V A m (SStream s)); [exact Hag|].
    apply IH; [exact Hs|]. apply agree_cons, Hag.
  - apply (@coin_pop V A b (SBool v)); [exact Hag|]. apply IH; [exact Hs|]. apply agree_cons, Hag.
  - apply (@coin_pop V A x (SNat 0)); [exact Hag|]. apply IH; [exact Hs|]. apply agree_cons, Hag.
  - apply (@coin_pop V A x (SVal VNone)); [exact Hag|]. apply IH; [exact Hs|]. apply agree_cons, Hag.
  - apply (@coin_pop V A x (SVal (VVec []))); [exact Hag|]. apply IH; [exact Hs|]. apply agree_cons, Hag.
  - rewrite (agree_get_vals Hag H). apply coin_bind. intros vs _. cbv zeta.
    apply coin_after; [apply coin_same, Hag|]. intros st2 f1 f2 Hag2.
    set (v := if boxed then _ else _). apply (@coin_pop V A x (SVal v)); [exact Hag2|].
    apply IH; [assumption|]. apply agree_cons, Hag2.
  - rewrite (agree_get_stream Hag H). apply coin_bind. intros l _. apply coin_bind. intros h _. cbv zeta.
    set (v := if ranged then _ else _). apply (@coin_pop V A x (SVal v)); [exact Hag|].
    apply IH; [assumption|]. apply agree_cons, Hag.
  - rewrite (agree_get_bool Hag H). apply coin_bind. intros _ _. eapply coin_update; [eassumption|].
    apply IH; [assumption|]. apply agree_update, Hag.
  - rewrite (agree_get_val Hag H), (agree_get_vals Hag H1). apply coin_bind. intros _ _.
    apply coin_bind. intros vs _. eapply coin_update; [eassumption|]. apply IH; [assumption|]. apply agree_update, Hag.
  - rewrite (agree_get_val Hag H), (agree_get_vals Hag H1). apply coin_bind. intros v _.
    destruct v; try (intros ? ? ? E; discriminate).
    apply coin_bind. intros vs _. eapply coin_update; [eassumption|]. apply IH; [assumption|]. apply agree_update, Hag.
  - apply coin_bind. intros [o st'] _. destruct x as [x|]; split_scoped; destruct o as [ch|].
    + apply (@coin_pop V A x (SVal (VChar ch))); [exact Hag|]. apply IH; [assumption|]. apply agree_cons, Hag.
    + apply IH; assumption.
    + apply IH; assumption.
    + apply IH; assumption.
  - apply coin_bind. intros [o st'] _. destruct o as [ch|].
    + destruct (eval_cond k ch).
      * apply (@coin_pop V A x (SVal (VChar ch))); [exact Hag|]. apply IH; [assumption|]. apply agree_cons, Hag.
      * apply IH; assumption.
    + apply IH; assumption.
  - destruct (ps_consume_prefix st (enc lit)) as [b st']. destruct b; apply IH; assumption.
  - apply IH; assumption.
  - rewrite (agree_get_stream Hag H). apply coin_bind. intros s _. apply coin_bind. intros st' _. apply IH; assumption.
  - rewrite (agree_get_stream Hag H). apply coin_bind. intros s _. apply coin_bind. intros st' _. apply IH; assumption.
  - apply coin_after; [apply IH; assumption|]. intros st2 f1 f2 Hag2. apply IH; assumption.
  - destruct (is_failed st); [|apply IH; assumption].
    rewrite (agree_get_stream Hag H). apply coin_bind. intros s _. apply coin_bind. intros st' _. apply IH; assumption.
  - rewrite (agree_get_bool Hag H). apply coin_bind. intros b0 _. destruct b0; apply IH; assumption.
  - rewrite (agree_get_stream Hag H). apply coin_bind. intros s _. apply coin_bind. intros st' _.
    destruct (is_successful st); apply IH; assumption.
  - apply coin_bind. intros [st' l] _. apply coin_after; [apply coin_same, Hag|]. intros st2 f1 f2 Hag2.
    destruct (is_successful st2); apply IH; assumption.
  - apply coin_bind. intros [st' l] _. apply coin_after; [apply coin_same, Hag|]. intros st2 f1 f2 Hag2.
    destruct (is_successful st2); [|apply IH; assumption].
    apply coin_bind. intros [st3 v] _. apply coin_bind. intros vs Hvs.
    assert (L : length vars = length vs).
    { unfold untup in Hvs. destruct (length vars) as [|[|k]] eqn:El.
      - destruct v; try discriminate. injection Hvs; intros <-. reflexivity.
      - injection Hvs; intros <-. reflexivity.
      - destruct v; try discriminate. destruct (length l0 =? _) eqn:El2; [|discriminate].
        apply Nat.eqb_eq in El2. injection Hvs; intros <-. auto. }
    assert (D : map fst (combine vars (map SVal vs)) = vars).
    { clear - L. revert vs L. induction vars as [|x vars IHv]; intros [|v vs] L; simpl in *; try discriminate; [reflexivity|].
      f_equal. apply IHv. lia. }
    eapply (@coin_pop_n vars V A (rev (combine vars (map SVal vs)))); [exact Hag2|rewrite map_rev; f_equal; exact D|].
    rewrite rev_involutive. apply IH; [assumption|].
    intros y Hy. rewrite !lookup_app. destruct (lookup y (combine vars (map SVal vs))) eqn:El; [reflexivity|].
    apply Hag2. apply in_app_or in Hy. destruct Hy as [Hy|Hy]; [|exact Hy].
    exfalso. apply lookup_None in El. unfold dom in El. rewrite D in El. contradiction.
  - apply coin_after; [apply IH; assumption|]. intros st2 f1 f2 Hag2.
    destruct (is_successful st2); [|apply IH; assumption].
    assert (LP : scoped V A (CLoop c1 counter mark c2) = true).
    { cbn [scoped]. repeat (apply andb_true_iff; split); try assumption; apply mem_In; assumption. }
    destruct counter as [k|]; split_scoped.
    + rewrite (agree_get_nat Hag2 H). cbv zeta. destruct (get_nat f2 k) as [kk| | |]; simpl; try (intros ? ? ? E; discriminate).
      apply coin_bind. intros s _.
      rewrite (@agree_get_stream V (update k (SNat (kk + 1)) f1) (update k (SNat (kk + 1)) f2) mark) by (try assumption; apply agree_update, Hag2).
      apply coin_bind. intros _ _.
      apply (@coin_update V A k (SNat (kk + 1))); [assumption|].
      eapply coin_update; [eassumption|]. apply IH; [exact LP|]. apply agree_update, agree_update, Hag2.
    + simpl. apply coin_bind. intros s _. rewrite (agree_get_stream Hag2) by assumption.
      apply coin_bind. intros _ _. eapply coin_update; [eassumption|]. apply IH; [exact LP|]. apply agree_update, Hag2.
  - rewrite (agree_get_nat Hag H). apply coin_bind. intros v _. destruct (v <? n0); apply IH; assumption.
Qed.

(** ---------------- calling a closure ---------------- *)
Lemma get_slots_bound e xs : (forall x, In x xs -> lookup x e <> None) ->
  exists vs, get_slots e xs = Done vs /\ length vs = length xs
    /\ agree xs (combine xs vs) e.
Proof.
  induction xs as [|x xs IH]; intros H.
  - exists []. split; [reflexivity|]. split; [reflexivity|]. intros y [].
  - destruct IH as (vs & E & L & A); [intros y Hy; apply H; right; exact Hy|].
    destruct (lookup x e) as [v|] eqn:Ex; [|exfalso; apply (H x (or_introl eq_refl)); exact Ex].
    exists (v :: vs). simpl. rewrite Ex, E. simpl. split; [reflexivity|]. split; [congruence|].
    intros y Hy. simpl. destruct (name_eqb y x) eqn:En.
    + apply name_eqb_eq in En. congruence.
    + apply name_eqb_neq in En. destruct Hy as [Hy|Hy]; [congruence|]. apply A, Hy.
Qed.

Lemma write_back_ok inner : forall xs e, (forall x, In x xs -> lookup x inner <> None) ->
  exists f, write_back xs xs inner e = Done f /\ chg (fun z => In z xs) e f
    /\ (forall x, In x xs -> lookup x e <> None -> lookup x f = lookup x inner).
Proof.
  induction xs as [|x xs IH]; intros e H; simpl.
  - exists e. split; [reflexivity|]. split; [apply chg_refl|]. easy.
  - destruct (lookup x inner) as [v|] eqn:Ex; [|exfalso; apply (H x (or_introl eq_refl)); exact Ex]. simpl.
    destruct (IH (update x v e)) as (f & E & C & L); [intros y Hy; apply H; right; exact Hy|].
    exists f. split; [exact E|]. split.
    + eapply chg_trans; [apply chg_update; left; reflexivity|]. eapply chg_mono; [|exact C]. simpl. auto.
    + intros y [<-|Hy] Hb.
      * destruct (in_dec name_dec x xs) as [Hin|Hnin].
        -- apply L; [exact Hin|]. rewrite lookup_update, name_eqb_refl. destruct (lookup x e); congruence.
        -- rewrite <- (@chg_lookup _ _ _ x C Hnin). rewrite lookup_update, name_eqb_refl.
           destruct (lookup x e); congruence.
      * apply L; [exact Hy|]. rewrite lookup_update. destruct (name_eqb y x); destruct (lookup y e); congruence.
Qed.

(** If the code of a closure, run in place, would give a result, so does the call. *)
Lemma call_closure cl k ms fs ks body st e r :
  find (fun x => fst x =? k) cl = Some (k, mkClosure ms fs ks body) ->
  closure_scoped (mkClosure ms fs ks body) = true ->
  (forall x, In x (ms ++ fs ++ ks) -> lookup x e <> None) ->
  evals prog xf cl body st e r ->
  evals prog xf cl (CCall k ms fs ks) st e r.
Proof.
  intros F S B [n H]. destruct r as [[st' e'] l]. unfold closure_scoped in S. simpl in S.
  destruct (@get_slots_bound e (ms ++ fs ++ ks) B) as (vs & Ev & L & Ag).
  assert (Ag' : agree (ms ++ fs ++ ks) e (combine (ms ++ fs ++ ks) vs)) by (intros y Hy; symmetry; apply Ag, Hy).
  destruct (@coincidence n cl _ _ _ st _ _ S Ag' _ _ _ H) as (f2 & E2 & A2 & C1 & C2).
  destruct (@write_back_ok f2 ms e) as (g & W & Cg & Lg).
  { intros x Hx. rewrite <- (A2 x) by (apply in_or_app; auto).
    assert (In x (dom e)) as Hd.
    { destruct (in_dec name_dec x (dom e)) as [Hi|Hi]; [exact Hi|]. exfalso.
      apply lookup_None in Hi. apply (B x); [apply in_or_app; auto|exact Hi]. }
    rewrite (@chg_dom _ _ _ C1) in Hd. intros K. apply lookup_None in K. contradiction. }
  assert (g = e') as ->.
  { eapply (@chg_eq e (fun z => In z ms)); [exact Cg|exact C1|].
    intros x Hx. rewrite Lg; [|exact Hx|apply B; apply in_or_app; auto]. symmetry. apply A2. apply in_or_app. auto. }
  exists (Datatypes.S n). cbn [eval]. rewrite F. cbn [kmuts kfrees kmarks kbody].
  rewrite Nat.eqb_refl, Ev. cbn [obind]. rewrite E2. cbn [obind]. rewrite W. reflexivity.
Qed.
End Coin.
