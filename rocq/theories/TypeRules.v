(** Facts about the rewriting of types: comparison, sums, tuples. *)
From Verif Require Import Base Grammar WellFormed Analysis AnalysisFacts Typing.
Set Implicit Arguments. Unset Strict Implicit.
Open Scope string_scope. Open Scope nat_scope. Open Scope list_scope.

(** ---------------- specification: two types are the same ---------------- *)
(** Structural equality through the table, all Rust types being taken equal. *)
Inductive same (T : list ity) : ity -> ity -> Prop :=
| same_rec r : same T (IRec r) (IRec r)
| same_invisible : same T IInvisible IInvisible
| same_external : same T IExternal IExternal
| same_unit : same T (IRegular TUnit) (IRegular TUnit)
| same_atom : same T (IRegular TAtom) (IRegular TAtom)
| same_rust a b : same T (IRegular (TRust a)) (IRegular (TRust b))
| same_optional i j a b : nth_error T i = Some a -> nth_error T j = Some b -> same T a b ->
    same T (IRegular (TOptional i)) (IRegular (TOptional j))
| same_list i j a b : nth_error T i = Some a -> nth_error T j = Some b -> same T a b ->
    same T (IRegular (TList i)) (IRegular (TList j))
| same_tuple l1 l2 : same_all T l1 l2 -> same T (IRegular (TTuple l1)) (IRegular (TTuple l2))
with same_all (T : list ity) : list nat -> list nat -> Prop :=
| same_nil : same_all T [] []
| same_cons i j a b l1 l2 : nth_error T i = Some a -> nth_error T j = Some b -> same T a b -> same_all T l1 l2 ->
    same_all T (i :: l1) (j :: l2).
Scheme same_mind := Minimality for same Sort Prop
with same_all_mind := Minimality for same_all Sort Prop.
Combined Scheme same_mutind from same_mind, same_all_mind.

Lemma same_sym_both T : (forall a b, same T a b -> same T b a) /\ (forall l1 l2, same_all T l1 l2 -> same_all T l2 l1).
Proof. apply same_mutind; intros; econstructor; eauto. Qed.
Lemma same_sym T a b : same T a b -> same T b a.
Proof. apply same_sym_both. Qed.
Lemma same_trans_both T : (forall a b, same T a b -> forall c, same T b c -> same T a c) /\
  (forall l1 l2, same_all T l1 l2 -> forall l3, same_all T l2 l3 -> same_all T l1 l3).
Proof.
  apply same_mutind.
  1-6: intros; match goal with H : same _ _ _ |- _ => inversion H; subst; constructor end.
  - intros i j a b Ei Ej S1 IH c H. inversion H; subst. assert (b = a0) by congruence. subst a0. econstructor; eauto.
  - intros i j a b Ei Ej S1 IH c H. inversion H; subst. assert (b = a0) by congruence. subst a0. econstructor; eauto.
  - intros l1 l2 S1 IH c H. inversion H; subst. constructor. auto.
  - intros l3 H. exact H.
  - intros i j a b l1 l2 Ei Ej S1 IH SA IHA l3 H. inversion H; subst. assert (b = a0) by congruence. subst a0. econstructor; eauto.
Qed.
Lemma same_trans T a b c : same T a b -> same T b c -> same T a c.
Proof. intros H1 H2. destruct (same_trans_both T) as [H _]. exact (H _ _ H1 _ H2). Qed.

Lemma kind_eqb_eq a b : kind_eqb a b = true <-> a = b.
Proof. destruct a, b; cbn; split; congruence. Qed.
Lemma path_eqb_eq p q : path_eqb p q = true <-> p = q.
Proof.
  unfold path_eqb. destruct p as [k1 p1], q as [k2 p2]. cbn [fst snd]. rewrite andb_true_iff, kind_eqb_eq, (list_eqb_eq _ String.eqb_eq).
  split; [intros [-> ->]; reflexivity|intros H; split; congruence].
Qed.

(** ---------------- [syn_eq] decides [same] ---------------- *)
Definition all_eq (k : nat) (T : list ity) : list nat -> list nat -> wres bool :=
  fix all (l1 l2 : list nat) : wres bool :=
    match l1, l2 with
    | i :: l1', j :: l2' =>
      wbind (wbind (tget T i) (fun a => wbind (tget T j) (fun b => syn_eq k T a b))) (fun b => if b then all l1' l2' else WOk false)
    | _, _ => WOk true
    end.
Lemma syn_eq_tuple k T l1 l2 : syn_eq (S k) T (IRegular (TTuple l1)) (IRegular (TTuple l2)) =
  if length l1 =? length l2 then all_eq k T l1 l2 else WOk false.
Proof. reflexivity. Qed.
Lemma pair_inj A B (a c : A) (b d : B) : (a, b) = (c, d) -> a = c /\ b = d. Proof. split; congruence. Qed.
Lemma WOk_inj' A (a b : A) : WOk a = WOk b -> a = b. Proof. congruence. Qed.
Lemma wbind_ok A B (r : wres A) (k : A -> wres B) b : wbind r k = WOk b -> exists a, r = WOk a /\ k a = WOk b.
Proof. destruct r; cbn; intros H; try discriminate. eauto. Qed.
Lemma tget_ok T i t : tget T i = WOk t -> nth_error T i = Some t.
Proof. unfold tget. destruct (nth_error T i); congruence. Qed.

Lemma syn_eq_same k : forall T t1 t2 b, syn_eq k T t1 t2 = WOk b -> (b = true <-> same T t1 t2).
Proof.
  induction k as [|k IH]; intros T t1 t2 b H; [discriminate|].
  assert (EQ : forall i j b, wbind (tget T i) (fun a => wbind (tget T j) (fun b => syn_eq k T a b)) = WOk b ->
    exists x y, nth_error T i = Some x /\ nth_error T j = Some y /\ (b = true <-> same T x y)).
  { intros i j c K. apply wbind_ok in K. destruct K as (x & Ex & K). apply wbind_ok in K. destruct K as (y & Ey & K).
    apply tget_ok in Ex, Ey. exists x, y. split; [exact Ex|]. split; [exact Ey|]. exact (IH _ _ _ _ K). }
  assert (AL : forall l1 l2 b, length l1 = length l2 -> all_eq k T l1 l2 = WOk b -> (b = true <-> same_all T l1 l2)).
  { induction l1 as [|i l1 IHl]; intros [|j l2] c L K; cbn in L; try discriminate.
    - cbn in K. injection K as <-. split; [constructor|reflexivity].
    - cbn [all_eq] in K. apply wbind_ok in K. destruct K as (d & Kd & K). apply EQ in Kd. destruct Kd as (x & y & Ex & Ey & Kd).
      destruct d.
      + apply IHl in K; [|lia]. rewrite K. split; [intros A; econstructor; eauto; apply Kd; reflexivity|].
        intros A. inversion A; subst. assumption.
      + injection K as <-. split; [discriminate|]. intros A. inversion A; subst. apply Kd. congruence. }
  assert (F : forall t1 t2, ~ same T t1 t2 -> forall c, WOk false = WOk c -> (c = true <-> same T t1 t2)).
  { intros a1 a2 N c E. injection E as <-. split; [discriminate|tauto]. }
  assert (Y : forall t1 t2, same T t1 t2 -> forall c, WOk true = WOk c -> (c = true <-> same T t1 t2)).
  { intros a1 a2 N c E. injection E as <-. split; tauto. }
  destruct t1 as [|r1| | |a], t2 as [|r2| | |c]; try (refine (F _ _ _ _ H); intros Q; inversion Q; fail).
  - cbn [syn_eq] in H. apply WOk_inj' in H. subst b. rewrite (list_eqb_eq _ path_eqb_eq). split; [intros ->; constructor|]. intros Q. inversion Q. reflexivity.
  - refine (Y _ _ _ _ H); constructor.
  - refine (Y _ _ _ _ H); constructor.
  - destruct a as [| |i|i|l1|s], c as [| |j|j|l2|s']; try (refine (F _ _ _ _ H); intros Q; inversion Q; fail);
      try (refine (Y _ _ _ _ H); constructor; fail).
    + cbn [syn_eq] in H. apply EQ in H. destruct H as (x & y & Ex & Ey & H). rewrite H.
      split; [intros Q; econstructor; eauto|]. intros Q. inversion Q; subst. congruence.
    + cbn [syn_eq] in H. apply EQ in H. destruct H as (x & y & Ex & Ey & H). rewrite H.
      split; [intros Q; econstructor; eauto|]. intros Q. inversion Q; subst. congruence.
    + rewrite syn_eq_tuple in H. destruct (Nat.eqb_spec (length l1) (length l2)) as [L|L].
      * apply AL in H; [|exact L]. rewrite H. split; [constructor; assumption|]. intros Q. inversion Q. assumption.
      * apply F; [|exact H]. intros Q. inversion Q; subst. apply L. clear - H2.
        induction H2; cbn; congruence.
Qed.

(** Same types give the same number of values. *)
Definition icard (t : ity) : nat := match t with IRegular t => ty_card t | IExternal => 1 | _ => 0 end.
Lemma same_card T a b : same T a b -> icard a = icard b.
Proof. intros H. inversion H; subst; try reflexivity. cbn. clear H. induction H0; cbn; congruence. Qed.
Lemma same_unit_kind T a b : same T a b -> is_unit_kind a = is_unit_kind b.
Proof. intros H. inversion H; reflexivity. Qed.
Lemma same_not_infer T a b : same T a b -> a <> IInfer /\ b <> IInfer.
Proof. intros H. inversion H; subst; split; discriminate. Qed.

(** ---------------- sums ---------------- *)
Definition is_rec_ty (t : ity) : bool := match t with IRec _ => true | _ => false end.
Definition non_rec (ts : list ity) : list ity := filter (fun t => negb (is_rec_ty t)) ts.
(** The recursion paths of all the branches, in order. *)
Definition all_paths (ts : list ity) : list (rec_kind * list string) := flat_map (fun t => match t with IRec r => r | _ => [] end) ts.

Lemma in_rec_union r2 : forall r1 p, In p (rec_union r1 r2) <-> In p r1 \/ In p r2.
Proof.
  induction r2 as [|q r2 IH]; intros r1 p; cbn [rec_union In]; [tauto|]. rewrite IH. cbn [In].
  destruct (existsb (path_eqb q) r1) eqn:E.
  - apply existsb_exists in E. destruct E as (q' & I & E). apply path_eqb_eq in E. subst q'.
    split; [tauto|]. intros [H|[H|H]]; [tauto| |tauto]. subst q. tauto.
  - rewrite in_app_iff. cbn. tauto.
Qed.
Lemma is_poly_true r : is_poly r = true <-> exists p, In (RPoly, p) r.
Proof.
  unfold is_poly. rewrite existsb_exists. split.
  - intros ([k p] & I & E). cbn in E. apply kind_eqb_eq in E. subst k. eauto.
  - intros (p & I). exists (RPoly, p). auto.
Qed.

Section Sum.
Variable T : list ity.
Variable fuel : nat.

Lemma contained_ok t : forall l b, contained T fuel t l = WOk b -> (b = true <-> Exists (same T t) l).
Proof.
  induction l as [|a l IH]; intros b H; cbn [contained] in H.
  - injection H as <-. split; [discriminate|]. intros K. inversion K.
  - apply wbind_ok in H. destruct H as (c & Hc & H). apply syn_eq_same in Hc. destruct c.
    + injection H as <-. split; [|reflexivity]. intros _. left. apply Hc. reflexivity.
    + apply IH in H. rewrite H. split; [intros K; right; exact K|]. intros K. inversion K; subst; [|assumption].
      apply Hc in H1. discriminate.
Qed.

(** [reps] are the first representatives of the classes of [l]. *)
Inductive classes : list ity -> list ity -> Prop :=
| classes_nil : classes [] []
| classes_old l reps t : classes l reps -> Exists (same T t) reps -> classes (l ++ [t]) reps
| classes_new l reps t : classes l reps -> ~ Exists (same T t) reps -> classes (l ++ [t]) (reps ++ [t]).

Lemma sum_scan_ok : forall ts done r reps r' reps',
  classes (non_rec done) reps -> (forall p, In p r <-> In p (all_paths done)) ->
  sum_scan T fuel ts r reps = WOk (r', reps') ->
  classes (non_rec (done ++ ts)) reps' /\ (forall p, In p r' <-> In p (all_paths (done ++ ts))).
Proof.
  induction ts as [|t ts IH]; intros done r reps r' reps' C P H.
  - cbn in H. apply WOk_inj', pair_inj in H. destruct H as [<- <-]. rewrite app_nil_r. auto.
  - assert (N : is_rec_ty t = false -> wbind (contained T fuel t reps) (fun b => sum_scan T fuel ts r (if b then reps else reps ++ [t])) = WOk (r', reps') ->
      classes (non_rec (done ++ t :: ts)) reps' /\ (forall p, In p r' <-> In p (all_paths (done ++ t :: ts)))).
    { intros NR K. apply wbind_ok in K. destruct K as (b & Kb & K). apply contained_ok in Kb.
      replace (done ++ t :: ts) with ((done ++ [t]) ++ ts) by (rewrite <- app_assoc; reflexivity). eapply IH; [| |exact K].
      - unfold non_rec. rewrite filter_app. cbn [filter]. rewrite NR. cbn [negb]. destruct b.
        + apply classes_old; [exact C|]. apply Kb. reflexivity.
        + apply classes_new; [exact C|]. intros Q. apply Kb in Q. discriminate.
      - intros p. rewrite P. unfold all_paths. rewrite flat_map_app, in_app_iff. cbn [flat_map].
        destruct t; cbn in NR |- *; try discriminate; rewrite ?app_nil_r; cbn; tauto. }
    destruct t as [|q| | |u]; try (apply N; [reflexivity|exact H]).
    clear N. cbn [sum_scan] in H. replace (done ++ IRec q :: ts) with ((done ++ [IRec q]) ++ ts) by (rewrite <- app_assoc; reflexivity). eapply IH; [| |exact H].
    + unfold non_rec. rewrite filter_app. cbn. rewrite app_nil_r. exact C.
    + intros p. rewrite in_rec_union, P. unfold all_paths. rewrite flat_map_app, in_app_iff. cbn [flat_map]. rewrite app_nil_r. tauto.
Qed.
End Sum.

(** ---------------- specification of the type of a choice ---------------- *)
Definition no_poly (ts : list ity) : Prop := forall p, ~ In (RPoly, p) (all_paths ts).
Inductive choice_type (T : list ity) (ts : list ity) : ity -> Prop :=
| ct_same t l : non_rec ts = t :: l -> Forall (same T t) l -> choice_type T ts t
| ct_external t l1 l2 : In IExternal ts -> non_rec ts = l1 ++ t :: l2 -> Forall (eq IExternal) l1 -> t <> IExternal ->
    Forall (fun u => u = IExternal \/ same T t u) l2 -> choice_type T ts t
| ct_unit : In IInvisible ts -> In (IRegular TUnit) ts -> Forall (fun u => u = IInvisible \/ u = IRegular TUnit) (non_rec ts) ->
    choice_type T ts IInvisible
| ct_rec r : non_rec ts = [] -> (forall p, In p r <-> In p (all_paths ts)) -> choice_type T ts (IRec r).

Lemma unit_kind_cases t : is_unit_kind t = true <-> t = IInvisible \/ t = IRegular TUnit.
Proof. destruct t as [| | | |[]]; cbn; split; intros H; try discriminate; auto; destruct H; discriminate. Qed.
Lemma external_cases t : is_external t = true <-> t = IExternal.
Proof. destruct t; cbn; split; congruence. Qed.
Lemma in_non_rec t ts : is_rec_ty t = false -> (In t (non_rec ts) <-> In t ts).
Proof. intros H. unfold non_rec. rewrite filter_In, H. cbn. tauto. Qed.

Lemma app_snoc_inv A (l : list A) a l1 b l2 : l ++ [a] = l1 ++ b :: l2 ->
  (l2 = [] /\ l1 = l /\ a = b) \/ (exists l2', l2 = l2' ++ [a] /\ l = l1 ++ b :: l2').
Proof.
  destruct l2 as [|c l2'] using rev_ind; intros H.
  - apply app_inj_tail in H. destruct H as [-> ->]. auto.
  - right. rewrite app_comm_cons, app_assoc in H. apply app_inj_tail in H. destruct H as [-> ->]. eauto.
Qed.

Section Classes.
Variable T : list ity.
Lemma classes_incl l reps : classes T l reps -> incl reps l.
Proof.
  induction 1 as [|l reps t C IH E|l reps t C IH E]; intros x I; [exact I| |].
  - apply in_or_app. left. auto.
  - apply in_app_iff in I. apply in_or_app. destruct I; auto.
Qed.
Lemma classes_cover l reps : classes T l reps -> forall x, In x l -> In x reps \/ Exists (same T x) reps.
Proof.
  induction 1 as [|l reps t C IH E|l reps t C IH E]; intros x I; [destruct I| |].
  - apply in_app_iff in I. destruct I as [I|[<-|[]]]; auto.
  - apply in_app_iff in I. destruct I as [I|[<-|[]]].
    + destruct (IH _ I) as [J|J]; [left; apply in_or_app; auto|]. right. apply Exists_exists in J. destruct J as (y & J & S1).
      apply Exists_exists. exists y. split; [apply in_or_app; auto|exact S1].
    + left. apply in_or_app. right. left. reflexivity.
Qed.
Lemma classes_apart l reps : classes T l reps -> forall l1 x l2, reps = l1 ++ x :: l2 -> ~ Exists (same T x) l1.
Proof.
  induction 1 as [|l reps t C IH E|l reps t C IH E]; intros l1 x l2 EQ; [destruct l1; discriminate|eauto|].
  apply app_snoc_inv in EQ. destruct EQ as [(-> & -> & ->)|(l2' & -> & ->)]; [exact E|]. exact (IH _ _ _ eq_refl).
Qed.
Lemma classes_nil_inv l reps : classes T l reps -> reps = [] -> l = [].
Proof.
  induction 1 as [|l reps t C IH E|l reps t C IH E]; intros EQ; [reflexivity| |].
  - subst reps. inversion E.
  - destruct reps; discriminate.
Qed.
Lemma classes_one l reps : classes T l reps -> forall t, reps = [t] -> exists l', l = t :: l' /\ Forall (same T t) l'.
Proof.
  induction 1 as [|l reps t C IH E|l reps t C IH E]; intros u EQ; [discriminate| |].
  - destruct (IH _ EQ) as (l' & -> & F). exists (l' ++ [t]). split; [reflexivity|]. apply Forall_app. split; [exact F|].
    subst reps. inversion E as [? ? S1|? ? S1]; subst; [|inversion S1]. constructor; [apply same_sym, S1|constructor].
  - destruct reps as [|a reps]; [|destruct reps; discriminate]. cbn in EQ. injection EQ as ->.
    apply classes_nil_inv in C; [|reflexivity]. subst l. exists []. auto.
Qed.
Lemma classes_two l reps : classes T l reps -> forall a b, reps = [a; b] ->
  exists l1 l2, l = a :: l1 ++ b :: l2 /\ Forall (same T a) l1 /\ Forall (fun u => same T a u \/ same T b u) l2 /\ ~ same T b a.
Proof.
  induction 1 as [|l reps t C IH E|l reps t C IH E]; intros a b EQ; [discriminate| |].
  - destruct (IH _ _ EQ) as (l1 & l2 & -> & F1 & F2 & N). exists l1, (l2 ++ [t]). split; [rewrite <- app_comm_cons, <- app_assoc; reflexivity|].
    split; [exact F1|]. split; [|exact N]. apply Forall_app. split; [exact F2|]. constructor; [|constructor]. subst reps.
    inversion E as [? ? S1|? ? S1]; subst; [left; apply same_sym, S1|].
    inversion S1 as [? ? S2|? ? S2]; subst; [right; apply same_sym, S2|inversion S2].
  - change [a; b] with ([a] ++ [b]) in EQ. apply app_inj_tail in EQ. destruct EQ as [-> ->].
    destruct (classes_one C eq_refl) as (l' & -> & F). exists l', []. split; [reflexivity|]. split; [exact F|]. split; [constructor|].
    intros K. apply E. left. exact K.
Qed.
Lemma classes_det l reps : classes T l reps -> forall reps', classes T l reps' -> reps = reps'.
Proof.
  induction 1 as [|l reps t C IH E|l reps t C IH E]; intros reps' C'; inversion C' as [Q|l0 r0 t0 C0 E0 Q|l0 r0 t0 C0 E0 Q]; subst;
    try (destruct l0; discriminate); try (destruct l; discriminate); try reflexivity.
  - apply app_inj_tail in Q. destruct Q as [-> ->]. auto.
  - apply app_inj_tail in Q. destruct Q as [-> ->]. apply IH in C0. subst r0. contradiction.
  - apply app_inj_tail in Q. destruct Q as [-> ->]. apply IH in C0. subst reps'. contradiction.
  - apply app_inj_tail in Q. destruct Q as [-> ->]. apply IH in C0. subst r0. reflexivity.
Qed.
Lemma classes_more l reps : classes T l reps -> forall l2, Forall (fun u => Exists (same T u) reps) l2 -> classes T (l ++ l2) reps.
Proof.
  intros C l2. induction l2 as [|u l2 IH] using rev_ind; intros F; [rewrite app_nil_r; exact C|].
  apply Forall_app in F. destruct F as [F1 F2]. inversion F2; subst. rewrite app_assoc. apply classes_old; auto.
Qed.
Lemma classes_first t : classes T [t] [t].
Proof. apply (classes_new (l := []) (reps := [])); [constructor|]. intros H. inversion H. Qed.
End Classes.

Theorem reduce_sum_spec T fuel ts r : reduce_sum T fuel ts = WOk r ->
  match r with
  | Some t => no_poly ts /\ choice_type T ts t
  | None => ~ (no_poly ts /\ exists t, choice_type T ts t)
  end.
Proof.
  intros H. assert (NE : ts <> []) by (intros ->; discriminate).
  assert (K : wbind (sum_scan T fuel ts [] []) (fun q => WOk (sum_verdict (fst q) (snd q))) = WOk r) by (destruct ts; [congruence|exact H]).
  clear H. apply wbind_ok in K. destruct K as ([r' reps] & K & V). cbn [fst snd] in V. apply WOk_inj' in V.
  pose proof (@sum_scan_ok T fuel ts [] [] [] r' reps (classes_nil T) ltac:(intros; cbn; tauto) K) as [C P]. cbn [app] in C, P. clear K.
  assert (NP : is_poly r' = false <-> no_poly ts).
  { rewrite <- not_true_iff_false, is_poly_true. unfold no_poly. split.
    - intros N p I. apply N. exists p. apply P, I.
    - intros N (p & I). apply (N p), P, I. }
  assert (REST : forall t, match reps with [] => Some (IRec r') | _ => if forallb is_unit_kind reps then Some IInvisible else None end = Some t ->
    (forall u, reps <> [u]) -> choice_type T ts t).
  { intros t E L. destruct reps as [|a reps'] eqn:ER.
    - injection E as <-. apply ct_rec; [exact (classes_nil_inv C eq_refl)|exact P].
    - destruct (forallb is_unit_kind (a :: reps')) eqn:FU; [|discriminate]. injection E as <-. rewrite forallb_forall in FU.
      assert (U : Forall (fun u => u = IInvisible \/ u = IRegular TUnit) (non_rec ts)).
      { apply Forall_forall. intros x Ix. apply unit_kind_cases. destruct (classes_cover C Ix) as [J|J]; [auto|].
        apply Exists_exists in J. destruct J as (y & Jy & S1). rewrite (same_unit_kind S1). auto. }
      destruct reps' as [|b reps'']; [exfalso; exact (L a eq_refl)|].
      pose proof (classes_apart C (l1 := [a]) (x := b) (l2 := reps'') eq_refl) as AP.
      assert (Ua : is_unit_kind a = true) by (apply FU; cbn; auto). assert (Ub : is_unit_kind b = true) by (apply FU; cbn; auto).
      apply unit_kind_cases in Ua, Ub. pose proof (classes_incl C) as INC.
      assert (Ia : In a ts). { apply (in_non_rec (t := a)); [destruct Ua; subst a; reflexivity|]. apply INC. cbn. auto. }
      assert (Ib : In b ts). { apply (in_non_rec (t := b)); [destruct Ub; subst b; reflexivity|]. apply INC. cbn. auto. }
      destruct Ua as [-> | ->], Ub as [-> | ->]; try (exfalso; apply AP; left; constructor); apply ct_unit; assumption. }
  assert (EXT : forall a b t, reps = [a; b] -> (a = IExternal /\ t = b) \/ (a <> IExternal /\ b = IExternal /\ t = a) -> choice_type T ts t).
  { intros a b t ER Q. destruct (classes_two C ER) as (l1 & l2 & EQ & F1 & F2 & NS).
    assert (F2' : forall c : ity, c = IExternal -> Forall (fun u => same T a u \/ same T b u) l2 -> True) by auto. clear F2'.
    destruct Q as [[-> ->]|(NA & -> & ->)].
    - apply (@ct_external T ts b (IExternal :: l1) l2).
      + apply in_non_rec; [reflexivity|]. rewrite EQ. left. reflexivity.
      + rewrite EQ. reflexivity.
      + constructor; [reflexivity|]. eapply Forall_impl; [|exact F1]. intros u S1. inversion S1. reflexivity.
      + intros ->. apply NS. constructor.
      + eapply Forall_impl; [|exact F2]. intros u [S1|S1]; [left; inversion S1; reflexivity|right; exact S1].
    - apply (@ct_external T ts a [] (l1 ++ IExternal :: l2)).
      + apply in_non_rec; [reflexivity|]. rewrite EQ. right. apply in_or_app. right. left. reflexivity.
      + rewrite EQ. reflexivity.
      + constructor.
      + exact NA.
      + apply Forall_app. split; [eapply Forall_impl; [|exact F1]; cbn; auto|]. constructor; [auto|].
        eapply Forall_impl; [|exact F2]. intros u [S1|S1]; [right; exact S1|left; inversion S1; reflexivity]. }
  unfold sum_verdict in V. destruct (is_poly r') eqn:EP.
  - subst r. intros [N _]. apply NP in N. discriminate.
  - assert (N : no_poly ts) by (apply NP; reflexivity).
    (* completeness: an admissible type leaves no choice on the representatives *)
    assert (CMP : forall t, choice_type T ts t ->
      (exists u, reps = [u]) \/ (exists u v, reps = [u; v] /\ (u = IExternal \/ v = IExternal)) \/ reps = [] \/ forallb is_unit_kind reps = true).
    { intros t CT. destruct CT as [t l EQ F|t l1 l2 IE EQ F1 NX F2|I1 I2 F|q EQ Q].
      - left. exists t. apply (classes_det C). rewrite EQ. apply (classes_more (classes_first T t)).
        eapply Forall_impl; [|exact F]. intros u S1. left. apply same_sym, S1.
      - right. left. destruct l1 as [|e l1].
        + cbn [app] in EQ.
          assert (SP : exists l3 l4, l2 = l3 ++ IExternal :: l4 /\ Forall (same T t) l3 /\ Forall (fun u => u = IExternal \/ same T t u) l4).
          { assert (I2 : In IExternal l2). { apply in_non_rec in IE; [|reflexivity]. rewrite EQ in IE. destruct IE as [E|E]; [congruence|exact E]. }
            clear - F2 I2. induction F2 as [|u l2 Hu F2 IH]; [destruct I2|]. destruct u as [|q| | |u]; try
              (destruct Hu as [Hu|Hu]; [discriminate|]; destruct I2 as [I2|I2]; [discriminate|]; destruct (IH I2) as (l3 & l4 & -> & A & B);
               eexists (_ :: l3), l4; split; [reflexivity|]; split; [constructor; assumption|exact B]).
            exists [], l2. split; [reflexivity|]. split; [constructor|exact F2]. }
          destruct SP as (l3 & l4 & -> & A & B). exists t, IExternal. split; [|auto]. apply (classes_det C). rewrite EQ.
          change (t :: l3 ++ IExternal :: l4) with ([t] ++ l3 ++ [IExternal] ++ l4). rewrite !app_assoc.
          apply classes_more.
          * change [t; IExternal] with ([t] ++ [IExternal]). apply classes_new.
            -- apply (classes_more (classes_first T t)). eapply Forall_impl; [|exact A]. intros u S1. left. apply same_sym, S1.
            -- intros X. inversion X as [? ? S1|? ? S1]; subst; [inversion S1; congruence|inversion S1].
          * eapply Forall_impl; [|exact B]. intros u [-> |S1]; [right; left; constructor|left; apply same_sym, S1].
        + inversion F1; subst. exists IExternal, t. split; [|auto]. apply (classes_det C). rewrite EQ.
          change ((IExternal :: l1) ++ t :: l2) with ([IExternal] ++ l1 ++ [t] ++ l2). rewrite !app_assoc.
          apply classes_more.
          * change [IExternal; t] with ([IExternal] ++ [t]). apply classes_new.
            -- apply (classes_more (classes_first T IExternal)). eapply Forall_impl; [|exact H2]. intros u <-. left. constructor.
            -- intros X. inversion X as [? ? S1|? ? S1]; subst; [inversion S1; congruence|inversion S1].
          * eapply Forall_impl; [|exact F2]. intros u [-> |S1]; [left; constructor|right; left; apply same_sym, S1].
      - right. right. right. apply forallb_forall. intros x Ix. apply unit_kind_cases. rewrite Forall_forall in F. apply F, (classes_incl C), Ix.
      - right. right. left. rewrite EQ in C. destruct reps as [|x reps]; [reflexivity|]. exfalso. apply (classes_incl C (a := x)). left. reflexivity. }
    destruct reps as [|a [|b [|c reps]]].
    + subst r. split; [exact N|]. apply REST; [reflexivity|discriminate].
    + subst r. split; [exact N|]. destruct (classes_one C eq_refl) as (l' & EQ & F). exact (ct_same EQ F).
    + destruct (is_external a) eqn:Ea.
      { subst r. split; [exact N|]. apply external_cases in Ea. apply (EXT a b b eq_refl). auto. }
      destruct (is_external b) eqn:Eb.
      { subst r. split; [exact N|]. apply external_cases in Eb. apply (EXT a b a eq_refl). right. split; [|auto].
        intros ->. discriminate. }
      destruct (forallb is_unit_kind [a; b]) eqn:FU.
      * subst r. split; [exact N|]. apply REST; [reflexivity|discriminate].
      * subst r. intros [_ [t CT]]. destruct (CMP t CT) as [(u & K)|[(u & v & K & [-> | ->])|[K|K]]]; try discriminate.
        -- injection K as -> _. discriminate.
        -- injection K as _ ->. discriminate.
    + destruct (forallb is_unit_kind (a :: b :: c :: reps)) eqn:FU.
      * subst r. split; [exact N|]. apply REST; [reflexivity|discriminate].
      * subst r. intros [_ [t CT]]. destruct (CMP t CT) as [(u & K)|[(u & v & K & _)|[K|K]]]; discriminate.
Qed.

(** ---------------- tuples ---------------- *)
Definition is_value_type (t : ity) : bool :=
  match t with
  | IExternal | IRegular TAtom | IRegular (TOptional _) | IRegular (TList _) | IRegular (TRust _) => true
  | _ => false
  end.
(** Every tuple type of the table has at least two components, none of them unit, invisible, a
    tuple, recursive or unknown. *)
Definition flat (T : list ity) : Prop := forall i l, nth_error T i = Some (IRegular (TTuple l)) ->
  2 <= length l /\ Forall (fun j => exists t, nth_error T j = Some t /\ is_value_type t = true) l.
(** The values contributed by the expression [i]. *)
Definition contrib (T : list ity) (i : nat) : list nat :=
  match nth_error T i with
  | Some IInvisible | Some (IRegular TUnit) => []
  | Some (IRegular (TTuple l)) => l
  | _ => [i]
  end.
Definition typed (T : list ity) (i : nat) : Prop := exists t, nth_error T i = Some t /\ t <> IInfer /\ is_rec_ty t = false.
Definition invisible_at (T : list ity) (i : nat) : bool := match nth_error T i with Some IInvisible => true | _ => false end.

Lemma tget_some T i t : nth_error T i = Some t -> tget T i = WOk t.
Proof. unfold tget. intros ->. reflexivity. Qed.

Section Tuples.
Variable T : list ity.
Hypothesis HF : flat T.

(** One level of unpacking. *)
Definition unpack (i : nat) : list nat := match nth_error T i with Some (IRegular (TTuple l)) => l | _ => [i] end.
Lemma inlining_ok l : Forall (fun i => i < length T) l -> tuple_inlining T l = WOk (flat_map unpack l).
Proof.
  induction 1 as [|i l Hi F IH]; [reflexivity|]. cbn [tuple_inlining flat_map]. destruct (nth_error T i) as [t|] eqn:E.
  2: { apply nth_error_None in E. lia. }
  rewrite (tget_some E). cbn [wbind]. rewrite IH. cbn [wbind]. assert (U : unpack i = match t with IRegular (TTuple l) => l | _ => [i] end) by (unfold unpack; rewrite E; reflexivity).
  rewrite U. clear U.
  destruct t as [| | | |[]]; reflexivity.
Qed.
Lemma inlining_inv l l' : tuple_inlining T l = WOk l' -> Forall (fun i => i < length T) l.
Proof.
  revert l'. induction l as [|i l IH]; intros l' H; [constructor|]. cbn [tuple_inlining] in H.
  apply wbind_ok in H. destruct H as (t & Et & H). apply wbind_ok in H. destruct H as (r & Er & _). apply tget_ok in Et.
  constructor; [apply nth_error_Some; congruence|eauto].
Qed.
Lemma drop_ok p l : Forall (fun i => i < length T) l ->
  tuple_drop T p l = WOk (filter (fun i => match nth_error T i with Some t => negb (p t) | None => true end) l).
Proof.
  induction 1 as [|i l Hi F IH]; [reflexivity|]. cbn [tuple_drop filter]. destruct (nth_error T i) as [t|] eqn:E.
  2: { apply nth_error_None in E. lia. }
  rewrite (tget_some E). cbn [wbind]. rewrite IH. cbn [wbind]. destruct (p t); reflexivity.
Qed.

Lemma scan_ok l : Forall (fun i => i < length T) l -> forall r b, exists r' b', tuple_scan T l r b = WOk (r', b')
  /\ (forall p, In p r' <-> In p r \/ In p (all_paths (flat_map (fun i => match nth_error T i with Some t => [t] | None => [] end) l)))
  /\ (b' = true <-> b = true \/ exists i t, In i l /\ nth_error T i = Some t /\ (is_value_type t = true \/ exists q, t = IRegular (TTuple q))).
Proof.
  induction 1 as [|i l Hi F IH]; intros r b.
  - exists r, b. split; [reflexivity|]. split; [cbn; tauto|]. split; [auto|]. intros [H|(i & t & [] & _)]. exact H.
  - cbn [tuple_scan flat_map]. destruct (nth_error T i) as [t|] eqn:E. 2: { apply nth_error_None in E. lia. }
    rewrite (tget_some E). cbn [wbind].
    assert (STEP : forall r1 b1, (forall p, In p r1 <-> In p r \/ In p (all_paths [t])) ->
      (b1 = true <-> b = true \/ is_value_type t = true \/ exists q, t = IRegular (TTuple q)) ->
      exists r' b', tuple_scan T l r1 b1 = WOk (r', b')
      /\ (forall p, In p r' <-> In p r \/ In p (all_paths ([t] ++ flat_map (fun i => match nth_error T i with Some t => [t] | None => [] end) l)))
      /\ (b' = true <-> b = true \/ exists i0 t0, In i0 (i :: l) /\ nth_error T i0 = Some t0 /\ (is_value_type t0 = true \/ exists q, t0 = IRegular (TTuple q)))).
    { intros r1 b1 P1 B1. destruct (IH r1 b1) as (r' & b' & E' & P' & B'). exists r', b'. split; [exact E'|]. split.
      - intros p. rewrite P', P1. unfold all_paths. rewrite flat_map_app, in_app_iff. tauto.
      - rewrite B', B1. split.
        + intros [[H|H]|(i0 & t0 & I & H)]; [auto|right; exists i, t; cbn; auto|right; exists i0, t0; cbn; tauto].
        + intros [H|(i0 & t0 & [<-|I] & E0 & H)]; [auto| |right; eauto]. assert (t0 = t) by congruence. subst t0. auto. }
    destruct t as [|r1| | |[]]; apply STEP; intros; cbn; rewrite ?app_nil_r; try tauto;
      try (rewrite in_rec_union; tauto);
      try (split; [auto|]; intros [H|[H|(q & H)]]; [exact H|discriminate|discriminate]);
      try (split; intros; eauto; fail).
Qed.

Lemma in_bounds l : Forall (typed T) l -> Forall (fun i => i < length T) l.
Proof. apply Forall_impl. intros i (t & E & _). apply nth_error_Some. congruence. Qed.
Lemma value_typed t : is_value_type t = true -> t <> IInfer /\ is_rec_ty t = false /\ is_unit_kind t = false.
Proof. destruct t as [| | | |[]]; cbn; intros H; try discriminate; repeat split; congruence. Qed.
Lemma unpack_typed i : typed T i -> Forall (typed T) (unpack i).
Proof.
  intros (t & E & N & R). unfold unpack. rewrite E.
  assert (X : Forall (typed T) [i]) by (constructor; [exists t; auto|constructor]).
  destruct t as [| | | |[]]; try exact X. destruct (HF E) as [_ F]. eapply Forall_impl; [|exact F].
  intros j (u & Ej & Vj). apply value_typed in Vj. exists u. tauto.
Qed.
Lemma unpack_contrib i : typed T i ->
  filter (fun j => match nth_error T j with Some t => negb (is_regular_unit t) | None => true end)
    (filter (fun j => match nth_error T j with Some t => negb (is_invisible t) | None => true end) (unpack i)) = contrib T i.
Proof.
  intros (t & E & N & R). unfold unpack, contrib. rewrite E. destruct t as [| | | |[| |k|k|l|s]]; cbn [filter]; try discriminate; try congruence;
    rewrite ?E; cbn; rewrite ?E; try reflexivity.
  destruct (HF E) as [_ F]. clear E R N. induction F as [|j l (u & Ej & Vj) F IH]; [reflexivity|]. cbn [filter]. rewrite Ej.
  destruct u as [| | | |[]]; cbn in Vj |- *; try discriminate; rewrite Ej; cbn; rewrite IH; reflexivity.
Qed.
Lemma filter_flat_map A B (p : B -> bool) (f : A -> list B) l : filter p (flat_map f l) = flat_map (fun a => filter p (f a)) l.
Proof. induction l as [|a l IH]; [reflexivity|]. cbn [flat_map]. rewrite filter_app, IH. reflexivity. Qed.
Lemma flat_map_ext_in A B (f g : A -> list B) l : (forall a, In a l -> f a = g a) -> flat_map f l = flat_map g l.
Proof. induction l as [|a l IH]; intros H; [reflexivity|]. cbn [flat_map]. rewrite (H a (or_introl eq_refl)), IH; [reflexivity|]. intros b I. apply H. right. exact I. Qed.

Theorem reduce_tuple_spec l : l <> [] -> Forall (typed T) l ->
  reduce_tuple T l =
    match flat_map (contrib T) l with
    | [] => WOk (if forallb (invisible_at T) l then IInvisible else IRegular TUnit)
    | [j] => tget T j
    | js => WOk (IRegular (TTuple js))
    end.
Proof.
  intros NE F. unfold reduce_tuple. destruct l as [|i0 l0] eqn:EL; [congruence|]. rewrite <- EL in *. clear NE EL i0 l0.
  rewrite (inlining_ok (in_bounds F)). cbn [wbind].
  assert (F' : Forall (typed T) (flat_map unpack l)).
  { apply Forall_flat_map. eapply Forall_impl; [|exact F]. exact unpack_typed. }
  destruct (scan_ok (in_bounds F') [] false) as (r & b & E & P & _). unfold tuple_rec. rewrite E. cbn [wbind fst snd].
  assert (r = []) as ->.
  { destruct r as [|p r]; [reflexivity|]. exfalso. assert (I : In p (p :: r)) by (left; reflexivity). apply P in I. destruct I as [[]|I].
    unfold all_paths in I. apply in_flat_map in I. destruct I as (t & It & Ip). apply in_flat_map in It. destruct It as (j & Ij & It).
    rewrite Forall_forall in F'. destruct (F' j Ij) as (u & Eu & _ & Ru). rewrite Eu in It. destruct It as [<-|[]]. destruct u; cbn in *; try discriminate; contradiction. }
  cbn [wbind]. rewrite (drop_ok is_invisible (in_bounds F')). cbn [wbind].
  set (L1 := filter (fun j => match nth_error T j with Some t => negb (is_invisible t) | None => true end) (flat_map unpack l)).
  set (L2 := filter (fun j => match nth_error T j with Some t => negb (is_regular_unit t) | None => true end) L1).
  assert (E2 : L2 = flat_map (contrib T) l).
  { unfold L2, L1. rewrite !filter_flat_map. apply flat_map_ext_in. intros j Ij. apply unpack_contrib.
    rewrite Forall_forall in F. auto. }
  assert (B1 : Forall (fun i => i < length T) L1).
  { pose proof (in_bounds F') as B. rewrite Forall_forall in B |- *. intros j Ij. apply filter_In in Ij. apply B, Ij. }
  assert (INV : L1 = [] <-> forallb (invisible_at T) l = true).
  { unfold L1. rewrite filter_flat_map. rewrite forallb_forall. split.
    - intros H i Ii. assert (Hi : filter (fun j => match nth_error T j with Some t => negb (is_invisible t) | None => true end) (unpack i) = []).
      { clear -H Ii. induction l as [|a l IH]; [destruct Ii|]. cbn in H. apply app_eq_nil in H. destruct H as [H1 H2].
        destruct Ii as [<-|Ii]; [exact H1|auto]. }
      rewrite Forall_forall in F. destruct (F i Ii) as (t & Et & Nt & Rt). unfold unpack, invisible_at in *. rewrite Et in Hi |- *.
      destruct t as [| | | |[| |k|k|q|s]]; try reflexivity; try congruence; cbn [filter] in Hi; rewrite ?Et in Hi; cbn in Hi; try discriminate.
      destruct (HF Et) as [L2' FT]. destruct q as [|j q]; [cbn in L2'; lia|]. inversion FT as [|? ? (u & Eu & Vu) ?]; subst. cbn in Hi.
      rewrite Eu in Hi. destruct u; cbn in Vu, Hi; discriminate.
    - intros H. rewrite (flat_map_ext_in (g := fun _ => [])); [clear; induction l; auto|]. intros i Ii. specialize (H i Ii). unfold invisible_at in H. unfold unpack.
      destruct (nth_error T i) as [[]|] eqn:Et; try discriminate. cbn. rewrite Et. reflexivity. }
  assert (E3 : tuple_drop T is_regular_unit L1 = WOk (flat_map (contrib T) l)) by (rewrite (drop_ok is_regular_unit B1); f_equal; exact E2).
  destruct (forallb (invisible_at T) l) eqn:EI.
  - assert (EN : L1 = []) by (apply INV; reflexivity). unfold L2 in E2. rewrite EN in E2. cbn in E2. rewrite <- E2, EN. reflexivity.
  - destruct L1 as [|x L1'] eqn:EL1; [assert (false = true) by (apply INV; reflexivity); discriminate|].
    rewrite E3. cbn [wbind]. destruct (flat_map (contrib T) l) as [|j [|k js]]; reflexivity.
Qed.

(** With a recursive component the result is recursive; polymorphic when a value is built beside it. *)
Theorem reduce_tuple_rec l t : Forall (fun i => exists t, nth_error T i = Some t /\ t <> IInfer) l -> reduce_tuple T l = WOk t ->
  (exists i r, In i l /\ nth_error T i = Some (IRec r) /\ r <> []) ->
  exists r, t = IRec r /\ r <> []
    /\ (forall p, In p (map snd r) <-> exists i q, In i l /\ nth_error T i = Some (IRec q) /\ In p (map snd q))
    /\ ((exists i, In i l /\ contrib T i <> [] /\ forall q, nth_error T i <> Some (IRec q)) -> forall k p, In (k, p) r -> k = RPoly)
    /\ (is_poly r = false -> forall i q, In i l -> nth_error T i = Some (IRec q) -> is_poly q = false).
Proof.
  intros F H (i0 & q0 & I0 & E0 & N0).
  assert (B : Forall (fun i => i < length T) l).
  { eapply Forall_impl; [|exact F]. intros i (u & E & _). apply nth_error_Some. congruence. }
  unfold reduce_tuple in H. destruct l as [|a l'] eqn:EL; [destruct I0|]. rewrite <- EL in *. clear a l' EL. rewrite (inlining_ok B) in H. cbn [wbind] in H.
  assert (B' : Forall (fun i => i < length T) (flat_map unpack l)).
  { apply Forall_flat_map. eapply Forall_impl; [|exact F]. intros i (u & E & _). unfold unpack. rewrite E.
    assert (X : Forall (fun i => i < length T) [i]) by (constructor; [apply nth_error_Some; congruence|constructor]).
    destruct u as [| | | |[]]; try exact X. destruct (HF E) as [_ G]. eapply Forall_impl; [|exact G].
    intros j (v & Ej & _). apply nth_error_Some. congruence. }
  assert (RIN : forall i q, In i l /\ nth_error T i = Some (IRec q) <-> In i (flat_map unpack l) /\ nth_error T i = Some (IRec q)).
  { intros i q. split; intros [I E].
    - split; [|exact E]. apply in_flat_map. exists i. split; [exact I|]. unfold unpack. rewrite E. left. reflexivity.
    - split; [|exact E]. apply in_flat_map in I. destruct I as (j & Ij & Iu). unfold unpack in Iu.
      destruct (nth_error T j) as [[| | | |[]]|] eqn:Ej; try (destruct Iu as [<-|[]]; exact Ij).
      destruct (HF Ej) as [_ G]. rewrite Forall_forall in G. destruct (G _ Iu) as (v & Ev & Vv). rewrite E in Ev. injection Ev as <-. discriminate. }
  destruct (scan_ok B' [] false) as (r & b & E & P & Q). unfold tuple_rec in H. rewrite E in H. cbn [wbind fst snd] in H.
  assert (P' : forall p, In p r <-> exists i q, In i l /\ nth_error T i = Some (IRec q) /\ In p q).
  { intros p. rewrite P. cbn [In]. split.
    - intros [[]|I]. apply in_flat_map in I. destruct I as (u & Iu & Ip). apply in_flat_map in Iu. destruct Iu as (j & Ij & Iu).
      destruct (nth_error T j) as [v|] eqn:Ej; [|destruct Iu]. destruct Iu as [<-|[]]. destruct v; try destruct Ip. exists j, r0.
      destruct (proj2 (RIN j r0) (conj Ij Ej)). auto.
    - intros (i & q & I & Ei & Ip). right. apply in_flat_map. exists (IRec q). split; [|exact Ip]. apply in_flat_map. exists i.
      destruct (proj1 (RIN i q) (conj I Ei)) as [J _]. split; [exact J|]. rewrite Ei. left. reflexivity. }
  destruct q0 as [|p0 q0]; [congruence|].
  assert (R0 : In p0 r) by (apply P'; exists i0, (p0 :: q0); cbn; auto).
  assert (NR0 : r <> []) by (intros ->; destruct R0).
  assert (H' : t = IRec (if b then to_poly r else r)) by (destruct r; [congruence|injection H as <-; reflexivity]). clear H.
  exists (if b then to_poly r else r). split; [exact H'|]. split; [destruct r; [congruence|]; destruct b; discriminate|]. split.
  - intros p. assert (M : map snd (if b then to_poly r else r) = map snd r).
    { destruct b; [|reflexivity]. unfold to_poly. rewrite map_map. reflexivity. }
    rewrite M, in_map_iff. split.
    + intros ([k p'] & <- & I). apply P' in I. destruct I as (i & q & A & A' & A''). exists i, q. split; [exact A|]. split; [exact A'|].
      apply in_map_iff. exists (k, p'). auto.
    + intros (i & q & A & A' & A''). apply in_map_iff in A''. destruct A'' as (x & <- & I). exists x. split; [reflexivity|]. apply P'. eauto.
  - split.
    2: { intros NP i q Ii Ei. destruct (is_poly q) eqn:PQ; [|reflexivity]. exfalso. apply is_poly_true in PQ. destruct PQ as (p & Ip).
         assert (IR : In (RPoly, p) r) by (apply P'; eauto). assert (X : is_poly (if b then to_poly r else r) = true); [|congruence].
         apply is_poly_true. exists p. destruct b; [|exact IR]. unfold to_poly. apply in_map_iff. exists (RPoly, p). auto. }
    intros (i & Ii & C & NR) k p Ip.
    assert (b = true) as ->.
    { apply Q. right. unfold contrib in C. rewrite Forall_forall in F. destruct (F i Ii) as (u & Eu & Nu).
      assert (X : is_value_type u = true -> exists i t, In i (flat_map unpack l) /\ nth_error T i = Some t /\ (is_value_type t = true \/ exists q, t = IRegular (TTuple q))).
      { intros V. exists i, u. split; [|auto]. apply in_flat_map. exists i. split; [exact Ii|]. unfold unpack. rewrite Eu.
        destruct u as [| | | |[]]; cbn in V; try discriminate; left; reflexivity. }
      rewrite Eu in C. destruct u as [| r' | | |[| |j|j|js|s]]; try congruence; try (apply X; reflexivity).
      - destruct (HF Eu) as [L G]. destruct js as [|j js]; [cbn in L; lia|]. inversion G as [|? ? (v & Ev & Vv) ?]; subst.
        exists j, v. split; [|auto]. apply in_flat_map. exists i. split; [exact Ii|]. unfold unpack. rewrite Eu. left. reflexivity. }
    unfold to_poly in Ip. apply in_map_iff in Ip. destruct Ip as (x & E1 & _). congruence.
Qed.
End Tuples.
