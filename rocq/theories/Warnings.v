(** The warnings of the middle phase: attribute.rs, useless_chaining.rs (Analysis.v) and typing/depth.rs. *)
From Verif Require Import Base Grammar WellFormed Analysis AnalysisFacts Typing TypeRules SurfaceFacts RefFacts DepthFacts TypingSound.
Set Implicit Arguments. Unset Strict Implicit.
Open Scope string_scope. Open Scope nat_scope. Open Scope list_scope.

(** attribute.rs:31-52: the attributes for which [warn_ignore_attr] is called, in order. *)
Definition attr_known (attr : list string) : bool :=
  match attr with [id] => String.eqb id "debug_typing" || String.eqb id "show_typing" | _ => false end.
Definition attr_warnings (attrs : list (list string)) : list (list string) := filter (fun a => negb (attr_known a)) attrs.

(** depth.rs:109-114: the union of the recursive types of the rules. *)
Fixpoint rule_recs (T : list ity) (rs : list rule) (r : rec_set) : wres rec_set :=
  match rs with
  | [] => WOk r
  | rl :: rs' => wbind (tget T (rexpr rl)) (fun t => rule_recs T rs' (match t with IRec r' => rec_union r r' | _ => r end))
  end.
(** typing/ast.rs:260-266. *)
Definition only_poly (r : rec_set) : rec_set := filter (fun p => kind_eqb (fst p) RPoly) r.
(** depth.rs:117-123: the rule the warning points to must exist ([find_rule_by_ident]); the paths displayed. *)
Fixpoint located_paths (G : grammar) (r : rec_set) : wres (list (list string)) :=
  match r with
  | [] => WOk []
  | (_, []) :: _ => WPanic
  | (_, id :: p) :: r' =>
    match find_rule G id with
    | None => WPanic
    | Some _ => wbind (located_paths G r') (fun l => WOk ((id :: p) :: l))
    end
  end.
(** depth.rs:107-125 from the types after the bottom-up pass. *)
Definition recursive_warnings (G : grammar) (T : list ity) : wres (list (list string)) :=
  wbind (rule_recs T (rules G) []) (fun r => located_paths G (only_poly r)).
(** ast.rs:244-251. *)
Definition display_cycle (p : list string) : string :=
  match p with [] => "" | a :: _ => fold_right (fun r s => r ++ " -> " ++ s) a p end%string.
(** depth.rs:32-36: none when the bottom-up pass reported an error. *)
Definition typing_warnings (E : tenv) (fuel : nat) (G : grammar) : wres (list (list string)) :=
  wbind (surface (igrammar G) E fuel (mkT (itable G E) false)) (fun st =>
    if terr st then WOk [] else recursive_warnings (igrammar G) (tys st)).

(** ---------------- the paths are cycles ---------------- *)
(** Each name is in relation with the next. *)
Fixpoint linked (R : string -> string -> Prop) (l : list string) : Prop :=
  match l with a :: (b :: _) as l' => R a b /\ linked R l' | _ => True end.
(** [p], read from right to left, is a cycle: the last name is in relation with the one before it, and so on; the first one
    with the last. *)
Definition cycle_of (R : string -> string -> Prop) (p : list string) : Prop :=
  NoDup p /\ exists id q, p = id :: q /\ linked R (id :: rev q ++ [id]).
Lemma linked_app (R : string -> string -> Prop) l a b : linked R (l ++ [a]) -> R a b -> linked R ((l ++ [a]) ++ [b]).
Proof.
  induction l as [|x l IH]; cbn; intros L H; [auto|]. destruct (l ++ [a]) as [|y l'] eqn:Q; [destruct l; discriminate Q|].
  cbn in *. destruct L as [L1 L2]. split; [exact L1|]. apply (IH L2 H).
Qed.
Lemma linked_right (R : string -> string -> Prop) l1 l2 : linked R (l1 ++ l2) -> linked R l2.
Proof.
  induction l1 as [|x l1 IH]; intros L; [exact L|]. apply IH. cbn [app linked] in L. destruct (l1 ++ l2) as [|y l]; [exact Logic.I|]. exact (proj2 L).
Qed.
Lemma linked_mono (R R' : string -> string -> Prop) l : (forall a b, R a b -> R' a b) -> linked R l -> linked R' l.
Proof. intros M. induction l as [|a [|b l] IH]; cbn; auto. intros [A B]. split; [exact (M _ _ A)|exact (IH B)]. Qed.
Lemma linked_down (R : string -> string -> Prop) (rk : string -> nat) : (forall a b, R a b -> rk b < rk a) -> forall l a b, linked R (a :: l ++ [b]) -> rk b < rk a.
Proof.
  intros D. induction l as [|c l IH]; intros a b L; cbn [app linked] in L; [exact (D _ _ (proj1 L))|]. destruct L as [A L]. specialize (IH c b L). specialize (D _ _ A). lia.
Qed.
Lemma cycle_down (R : string -> string -> Prop) p (rk : string -> nat) : (forall a b, R a b -> rk b < rk a) -> cycle_of R p -> False.
Proof. intros D (_ & id & q & _ & L). pose proof (linked_down D L). lia. Qed.

Section Cycles.
Variable G : grammar.
Variable E : tenv.
(** The type of the rule [a] needs that of [b]. *)
Definition type_needs (a b : string) : Prop := exists rl j, find_rule G a = Some rl /\ spos G (rexpr rl) j /\ expr_of G j = Some (ENT b).
Definition cyclic (t : ity) : Prop := match t with IRec r => Forall (fun p => cycle_of type_needs (snd p)) r | _ => True end.
Definition cyclics (T : list ity) : Prop := Forall cyclic T.

Lemma cyclic_get T i t : cyclics T -> tget T i = WOk t -> cyclic t.
Proof. unfold tget. intros C H. destruct (nth_error T i) as [u|] eqn:Q; [|discriminate]. apply WOk_inj' in H. subst. unfold cyclics in C. rewrite Forall_forall in C. exact (C _ (nth_error_In _ _ Q)). Qed.
Lemma union_cyclic (P : rec_path -> Prop) r' : forall r, Forall P r -> Forall P r' -> Forall P (rec_union r r').
Proof.
  induction r' as [|p r' IH]; intros r A B; cbn; [exact A|]. apply IH; [|exact (Forall_inv_tail B)]. destruct (existsb (path_eqb p) r); [exact A|]. apply Forall_app. split; [exact A|]. constructor; [exact (Forall_inv B)|constructor].
Qed.
Lemma to_poly_cyclic r : cyclic (IRec r) -> cyclic (IRec (to_poly r)).
Proof. cbn. intros F. apply Forall_map. cbn. exact F. Qed.
Lemma first_non_rec_cyclic T ids u : cyclics T -> first_non_rec G T ids = WOk u -> cyclic u.
Proof.
  intros C. induction ids as [|id ids IH]; cbn; intros H; [apply WOk_inj' in H; subst; exact Logic.I|]. destruct (find_rule G id) as [rl|]; [|discriminate].
  apply wbind_ok in H. destruct H as (t & Et & H). destruct t; try (apply WOk_inj' in H; subst; exact Logic.I); auto.
Qed.
Lemma entry_cyclic T id t u : cyclics T -> cyclic t -> reduce_rec_entry_point G T id t = WOk u -> cyclic u.
Proof.
  intros C Ct H. destruct t as [|r| | |t]; cbn in H; try (apply WOk_inj' in H; subst; exact Ct). apply wbind_ok in H. destruct H as (e & _ & H).
  destruct (String.eqb e id); [|apply WOk_inj' in H; subst; exact Ct]. cbn in H. destruct (is_poly r); [apply WOk_inj' in H; subst; exact Logic.I|]. exact (first_non_rec_cyclic C H).
Qed.
Lemma unary_cyclic T i t u : cyclics T -> cyclic t -> reduce_unary T i t = WOk u -> cyclic u.
Proof. intros C Ct H. apply wbind_ok in H. destruct H as (v & Ev & H). apply WOk_inj' in H. subst u. pose proof (cyclic_get C Ev) as Cv. destruct v; try exact Ct; try exact Logic.I. exact (to_poly_cyclic Cv). Qed.
Lemma scan_cyclic T : cyclics T -> forall l r b q, cyclic (IRec r) -> tuple_scan T l r b = WOk q -> cyclic (IRec (fst q)).
Proof.
  intros C. induction l as [|i l IH]; cbn; intros r b q Cr H; [apply WOk_inj' in H; subst; exact Cr|]. apply wbind_ok in H. destruct H as (t & Et & H). pose proof (cyclic_get C Et) as Ct.
  destruct t as [|r'| | |[]]; try exact (IH _ _ _ Cr H). exact (IH _ _ _ (union_cyclic Cr Ct) H).
Qed.
Lemma tuple_cyclic T l u : cyclics T -> reduce_tuple T l = WOk u -> cyclic u.
Proof.
  intros C H. destruct l as [|i0 l0]; [discriminate|]. unfold reduce_tuple in H. apply wbind_ok in H. destruct H as (l & _ & H). apply wbind_ok in H. destruct H as (o & Eo & H).
  unfold tuple_rec in Eo. apply wbind_ok in Eo. destruct Eo as (q & Eq & Eo). apply WOk_inj' in Eo. pose proof (@scan_cyclic T C l [] false q ltac:(constructor) Eq) as Cq.
  destruct o as [t|].
  { apply WOk_inj' in H. subst t. destruct (fst q) as [|p r] eqn:Qr; [discriminate|]. injection Eo as <-. destruct (snd q); [exact (to_poly_cyclic Cq)|exact Cq]. }
  apply wbind_ok in H. destruct H as (l1 & _ & H). destruct l1 as [|i1 l1]; [apply WOk_inj' in H; subst; exact Logic.I|]. apply wbind_ok in H. destruct H as (l2 & _ & H).
  destruct l2 as [|i2 [|i3 l2]]; try (apply WOk_inj' in H; subst; exact Logic.I). exact (cyclic_get C H).
Qed.
Lemma reduce_cyclic T t u : cyclics T -> cyclic t -> reduce T t = WOk u -> cyclic u.
Proof.
  intros C Ct H. destruct t as [|r| | |[| |i|i|l|s]]; cbn [reduce] in H; try discriminate; try (apply WOk_inj' in H; subst; exact Ct); try exact (unary_cyclic C Ct H). exact (tuple_cyclic C H).
Qed.
Lemma sum_scan_cyclic T fuel : forall ts r nr q, Forall cyclic ts -> cyclic (IRec r) -> Forall cyclic nr -> sum_scan T fuel ts r nr = WOk q -> cyclic (IRec (fst q)) /\ Forall cyclic (snd q).
Proof.
  assert (ADD : forall t (b : bool) nr, cyclic t -> Forall cyclic nr -> Forall cyclic (if b then nr else nr ++ [t])).
  { intros t b nr Ct Cn. destruct b; [exact Cn|]. apply Forall_app. auto. }
  induction ts as [|t ts IH]; intros r nr q F Cr Cn H; [apply WOk_inj' in H; subst; auto|]. pose proof (Forall_inv F) as Ct. apply Forall_inv_tail in F.
  destruct t as [|r'| | |t]; cbn [sum_scan] in H; try (apply wbind_ok in H; destruct H as (b & _ & H); refine (IH _ _ _ F Cr _ H); apply ADD; assumption).
  exact (IH _ _ _ F (union_cyclic Cr Ct) Cn H).
Qed.
Lemma sum_cyclic T fuel ts o u : Forall cyclic ts -> reduce_sum T fuel ts = WOk o -> o = Some u -> cyclic u.
Proof.
  intros F H ->. destruct ts as [|t0 ts0]; [discriminate|]. unfold reduce_sum in H. apply wbind_ok in H. destruct H as (q & Eq & H). apply WOk_inj' in H.
  destruct (@sum_scan_cyclic T fuel _ [] [] q F ltac:(constructor) ltac:(constructor) Eq) as [Cr Cn]. unfold sum_verdict in H.
  destruct (is_poly (fst q)); [discriminate|].
  assert (REST : match snd q with [] => Some (IRec (fst q)) | _ => if forallb is_unit_kind (snd q) then Some IInvisible else None end = Some u -> cyclic u).
  { destruct (snd q); [intros Q; injection Q as <-; exact Cr|]. destruct (forallb _ _); [intros Q; injection Q as <-; exact Logic.I|discriminate]. }
  destruct (snd q) as [|a [|b [|c l]]] eqn:Qn; auto.
  - injection H as <-. exact (Forall_inv Cn).
  - destruct (is_external a); [injection H as <-; exact (Forall_inv (Forall_inv_tail Cn))|]. destruct (is_external b); [injection H as <-; exact (Forall_inv Cn)|]. auto.
Qed.
Lemma set_cyclic T i t : cyclics T -> cyclic t -> cyclics (update T i t).
Proof.
  unfold cyclics. intros C Ct. pose proof (proj1 (Forall_forall _ _) C) as F. apply Forall_forall. intros u I0. unfold update in I0. apply in_app_or in I0. destruct I0 as [I0|[<-|I0]]; [|exact Ct|].
  - apply F. rewrite <- (firstn_skipn i T). apply in_or_app. auto.
  - apply F. rewrite <- (firstn_skipn (S i) T). apply in_or_app. auto.
Qed.

(** The rules under visit: each needs the one visited next. *)
Definition trail (path : list string) : Prop := NoDup path /\ linked type_needs (rev path).
Definition below (path : list string) (i : nat) : Prop := match path with [] => True | a :: _ => exists rl, find_rule G a = Some rl /\ spos G (rexpr rl) i end.
Definition keeps_cycles (ve : list string -> nat -> tst -> wres (ity * tst)) : Prop := forall path i st t st', trail path -> below path i -> cyclics (tys st) ->
  ve path i st = WOk (t, st') -> cyclic t /\ cyclics (tys st').

Lemma take_split id path : In id path -> exists q, path = take_while (fun r => negb (String.eqb r id)) path ++ id :: q.
Proof.
  induction path as [|a l IH]; intros I0; [destruct I0|]. cbn [take_while]. destruct (String.eqb_spec a id) as [->|N]; cbn [negb]; [exists l; reflexivity|].
  destruct I0 as [->|I0]; [congruence|]. destruct (IH I0) as (q & Q). exists q. cbn [app]. congruence.
Qed.
Lemma rec_type_cyclic path id : trail path -> In id path -> (forall a, hd_error path = Some a -> type_needs a id) -> cyclic (rec_type path id).
Proof.
  intros [ND L] I0 H. destruct (take_split I0) as (q & Q). cbn. constructor; [|constructor]. cbn [snd]. set (tw := take_while _ path) in *. split.
  - rewrite Q in ND. apply NoDup_remove in ND. destruct ND as [N1 N2]. constructor; [intros X; apply N2, in_or_app; auto|]. clear - N1. induction tw as [|a l IH]; [constructor|]. cbn in N1. inversion N1; subst. constructor; [intros X; apply H1, in_or_app; auto|auto].
  - exists id, tw. split; [reflexivity|]. rewrite Q, rev_app_distr in L. cbn [rev] in L. rewrite <- app_assoc in L. apply linked_right in L. cbn [app] in L.
    destruct tw as [|a l] eqn:Qt.
    + cbn. split; [|exact Logic.I]. apply H. rewrite Q. reflexivity.
    + cbn [rev] in *. change (linked type_needs (((id :: rev l) ++ [a]) ++ [id])). apply linked_app; [exact L|]. apply H. rewrite Q. reflexivity.
Qed.
Lemma srule_cycles ve : keeps_cycles ve -> forall path id st t st', trail path -> (forall a, hd_error path = Some a -> type_needs a id) -> cyclics (tys st) ->
  srule G ve path id st = WOk (t, st') -> cyclic t /\ cyclics (tys st').
Proof.
  intros K path id st t st' TR H C Q. unfold srule in Q. destruct (find_rule G id) as [rl|] eqn:F; [|discriminate]. apply wbind_ok in Q. destruct Q as (t0 & E0 & Q). pose proof (cyclic_get C E0) as C0.
  destruct t0; try (apply WOk_inj', pair_inj in Q; destruct Q as [<- <-]; auto; fail).
  destruct (existsb (String.eqb id) path) eqn:X.
  { apply WOk_inj', pair_inj in Q. destruct Q as [<- <-]. split; [|exact C]. apply existsb_exists in X. destruct X as (x & Ix & Qx). apply String.eqb_eq in Qx. subst x. exact (rec_type_cyclic TR Ix H). }
  apply wbind_ok in Q. destruct Q as ([t1 s1] & E1 & Q). apply wbind_ok in Q. destruct Q as (t2 & E2 & Q). apply WOk_inj', pair_inj in Q. destruct Q as [<- <-]. cbn [fst snd tys tset] in *.
  assert (TR' : trail (id :: path)).
  { destruct TR as [ND L]. split.
    - constructor; [|exact ND]. intros I0. assert (existsb (String.eqb id) path = true) by (apply existsb_exists; exists id; split; [exact I0|apply String.eqb_refl]). congruence.
    - cbn [rev]. destruct path as [|a l]; [exact Logic.I|]. cbn [rev] in *. apply linked_app; [exact L|]. exact (H a eq_refl). }
  destruct (K _ _ _ _ _ TR' ltac:(exists rl; split; [exact F|constructor]) C E1) as [C1 C2]. pose proof (entry_cyclic C2 C1 E2) as C3. split; [exact C3|]. exact (set_cyclic _ C2 C3).
Qed.
Lemma sexprs_cycles ve : keeps_cycles ve -> forall path l st ts st', trail path -> (forall i, In i l -> below path i) -> cyclics (tys st) ->
  sexprs (ve path) l st = WOk (ts, st') -> Forall cyclic ts /\ cyclics (tys st').
Proof.
  intros K path. induction l as [|i l IH]; intros st ts st' TR B C Q; cbn in Q; [apply WOk_inj', pair_inj in Q; destruct Q as [<- <-]; auto|].
  apply wbind_ok in Q. destruct Q as ([t s1] & E1 & Q). apply wbind_ok in Q. destruct Q as ([ts' s2] & E2 & Q). apply WOk_inj', pair_inj in Q. destruct Q as [<- <-]. cbn [fst snd] in *.
  destruct (K _ _ _ _ _ TR (B i (or_introl eq_refl)) C E1) as [C1 C2]. destruct (IH _ _ _ TR (fun j Ij => B j (or_intror Ij)) C2 E2) as [C3 C4]. auto.
Qed.
Lemma below_child path i e c : below path i -> expr_of G i = Some e -> In c (visits e) -> below path c.
Proof. destruct path as [|a l]; [auto|]. intros (rl & F & S0) Ee Ic. exists rl. split; [exact F|]. exact (spos_more S0 Ee Ic). Qed.
Lemma action_cyclic b f : cyclic (action_type E b f).
Proof. destruct f as [[|id [|? ?]]|]; try exact Logic.I. cbn. destruct (ret_of E id) as [[t|]|]; exact Logic.I. Qed.
Hypothesis ASC : forall i j t, expr_of G i = Some (EAsc j t) -> cyclic t.
Theorem sexpr_cycles fuel : keeps_cycles (sexpr G E fuel).
Proof.
  induction fuel as [|k IH]; intros path i st t st' TR B C Q; [discriminate|]. cbn [sexpr] in Q. apply wbind_ok in Q. destruct Q as (t0 & E0 & Q). pose proof (cyclic_get C E0) as C0.
  destruct t0; try (apply WOk_inj', pair_inj in Q; destruct Q as [<- <-]; auto; fail).
  destruct (expr_of G i) as [e|] eqn:Ee; [|discriminate]. apply wbind_ok in Q. destruct Q as ([t1 s1] & E1 & Q). apply wbind_ok in Q. destruct Q as (t2 & E2 & Q). apply WOk_inj', pair_inj in Q. destruct Q as [<- <-]. cbn [fst snd tset tys] in *.
  assert (W : cyclic t1 /\ cyclics (tys s1)).
  { assert (ONE : forall c u v s2, In c (visits e) -> cyclic u -> wbind (sexpr G E k path c st) (fun q => WOk (u, snd q)) = WOk (v, s2) -> cyclic v /\ cyclics (tys s2)).
    { intros c u v s2 Ic Cu X. apply wbind_ok in X. destruct X as ([w s3] & E3 & X). apply WOk_inj', pair_inj in X. destruct X as [<- <-]. split; [exact Cu|]. exact (proj2 (IH _ _ _ _ _ TR (below_child B Ee Ic) C E3)). }
    destruct e; cbn [swalk] in E1; try (apply WOk_inj', pair_inj in E1; destruct E1 as [<- <-]; split; [|exact C]; try exact Logic.I; try apply action_cyclic; try exact (ASC Ee); fail);
      try (refine (ONE _ _ _ _ _ _ E1); [left; reflexivity|exact Logic.I]; fail).
    - refine (srule_cycles IH TR _ C E1). intros a Ha. destruct path as [|a0 l]; [discriminate|]. injection Ha as ->. destruct B as (rl & F & S0). exists rl, i. auto.
    - apply wbind_ok in E1. destruct E1 as ([us s2] & E3 & E1). apply WOk_inj', pair_inj in E1. destruct E1 as [<- <-]. split; [exact Logic.I|].
      refine (proj2 (sexprs_cycles IH TR _ C E3)). intros c Ic. exact (below_child B Ee Ic).
    - apply wbind_ok in E1. destruct E1 as ([us s2] & E3 & E1). cbn [fst snd] in E1. apply wbind_ok in E1. destruct E1 as (o & Eo & E1).
      destruct (@sexprs_cycles _ IH _ _ _ _ _ TR (fun c Ic => below_child B Ee Ic) C E3) as [C1 C2].
      destruct o as [u|]; apply WOk_inj', pair_inj in E1; destruct E1 as [<- <-]; split; try exact C2; try exact Logic.I. exact (sum_cyclic C1 Eo eq_refl).
    - apply wbind_ok in E1. destruct E1 as ([u s2] & E3 & E1). apply WOk_inj', pair_inj in E1. destruct E1 as [<- <-]. split; [exact Logic.I|].
      refine (proj2 (IH _ _ _ _ _ TR _ C E3)). refine (below_child B Ee _). left; reflexivity. }
  destruct W as [C1 C2]. pose proof (reduce_cyclic C2 C1 E2) as C3. split; [exact C3|exact (set_cyclic _ C2 C3)].
Qed.
Theorem surface_cycles fuel : forall rs st st', cyclics (tys st) -> surface_from G E fuel rs st = WOk st' -> cyclics (tys st').
Proof.
  induction rs as [|rl rs IH]; intros st st' C Q; cbn in Q; [apply WOk_inj' in Q; subst; exact C|]. apply wbind_ok in Q. destruct Q as ([t s1] & E1 & Q). cbn [snd] in Q.
  refine (IH _ _ _ Q). refine (proj2 (srule_cycles (@sexpr_cycles fuel) _ _ C E1)); [split; [constructor|exact Logic.I]|intros a Ha; discriminate].
Qed.

(** The warnings. *)
Lemma rule_recs_cyclic T : cyclics T -> forall rs r r', cyclic (IRec r) -> rule_recs T rs r = WOk r' -> cyclic (IRec r').
Proof.
  intros C. induction rs as [|rl rs IH]; cbn [rule_recs]; intros r r' Cr Q; [apply WOk_inj' in Q; subst; exact Cr|]. apply wbind_ok in Q. destruct Q as (t & Et & Q). pose proof (cyclic_get C Et) as Ct.
  refine (IH _ _ _ Q). destruct t; try exact Cr. exact (union_cyclic Cr Ct).
Qed.
Lemma located_paths_in : forall r l, located_paths G r = WOk l -> forall p, In p l -> exists k, In (k, p) r.
Proof.
  induction r as [|[k [|id q]] r IH]; cbn [located_paths]; intros l Q p I0; [apply WOk_inj' in Q; subst; destruct I0|discriminate|]. destruct (find_rule G id) as [rl|]; [|discriminate].
  apply wbind_ok in Q. destruct Q as (l' & E' & Q). apply WOk_inj' in Q. subst l. destruct I0 as [<-|I0]; [exists k; left; reflexivity|]. destruct (IH _ E' p I0) as (k' & I'). exists k'. right. exact I'.
Qed.
Theorem warnings_cyclic T l : cyclics T -> recursive_warnings G T = WOk l -> Forall (cycle_of type_needs) l.
Proof.
  intros C Q. unfold recursive_warnings in Q. apply wbind_ok in Q. destruct Q as (r & Er & Q). pose proof (@rule_recs_cyclic T C _ [] r ltac:(constructor) Er) as Cr.
  apply Forall_forall. intros p Ip. destruct (located_paths_in Q Ip) as (k & Ik). unfold only_poly in Ik. apply filter_In in Ik. destruct Ik as [Ik _]. cbn in Cr. rewrite Forall_forall in Cr. exact (Cr _ Ik).
Qed.
End Cycles.
